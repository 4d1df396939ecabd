(* Writing the merged vocabulary. *)
From Coq Require Import List NArith Arith Bool Lia Sorted Permutation ZifyN ZifyNat ZifyBool.
From Verif Require Import ListAux Bytes Table_Spec Lex_Proof Ops_Spec Strings_Model Collate_Model Collate_Proof Prefix_Proof
  Vocab_Model Vocab_Proof Merge_Model Merge_Spec Merge_Proof.
Import ListNotations.
Open Scope N_scope.

Lemma word_kind_internal w : w <> [] -> is_external w = false -> word_kind w = Some Internal.
Proof.
  unfold is_external, first_byte, word_kind. destruct w as [|c r]; [contradiction|]. cbn [hd]. intros _ H.
  cbn [lex_cmp]. destruct (N.compare_spec c 127); try lia; reflexivity.
Qed.
Lemma word_kind_external w : legal w -> is_external w = true -> word_kind w = Some (External (shown w)).
Proof.
  unfold legal, is_external, first_byte, word_kind. destruct w as [|c r]; [intros [N _]; contradiction|]. cbn [hd]. intros [_ L] H.
  assert (C : c = 127 \/ c = 128) by lia. cbn [lex_cmp shown]. destruct C as [-> | ->]; [|reflexivity].
  cbn [N.compare]. destruct r; reflexivity.
Qed.
Lemma shown_internal w : is_external w = false -> shown w = w.
Proof.
  unfold is_external, first_byte. destruct w as [|c r]; [reflexivity|]. cbn [hd shown]. intros H.
  destruct (N.eqb_spec c 127); [lia|]. destruct (N.eqb_spec c 128); [lia | reflexivity].
Qed.
Lemma shown_external w : legal w -> is_external (shown w) = false.
Proof.
  unfold legal, is_external, first_byte. destruct w as [|c r]; [intros [N _]; contradiction|]. cbn [hd shown]. intros [_ L].
  destruct (N.eqb_spec c 127); [reflexivity|]. destruct (N.eqb_spec c 128); [reflexivity|]. cbn [hd]. lia.
Qed.

Lemma doActualWrite_app a : forall vecs b, doActualWrite vecs (a ++ b) = doActualWrite (doActualWrite vecs a) b.
Proof. induction a as [|[f v] a IH]; intros; cbn [app doActualWrite]; auto. Qed.
Lemma doActualWrite_length a : forall vecs, length (doActualWrite vecs a) = length vecs.
Proof. induction a as [|[f v] a IH]; intros; cbn [doActualWrite]; auto. rewrite IH. apply set_nth_length. Qed.
Definition written (st : writer) : list (list (N * N)) := doActualWrite (id_vecs st) (write_buf st).
Lemma written_flush st : written (flush st) = written st. Proof. reflexivity. Qed.

Definition of_file (f : nat) (q : queue_word) : bool := Nat.eqb (file_id q) f.
Definition entry_ok (voc : list word) (q : queue_word) (p : N * N) : Prop := fst p = word_id q /\ stands_for voc (snd p) (value q).
Lemma entry_ok_more voc w q p : entry_ok voc q p -> entry_ok (voc ++ [w]) q p.
Proof.
  intros [A B]. split; [exact A|]. unfold stands_for in *. rewrite nth_error_app1; [exact B|]. apply nth_error_Some. congruence.
Qed.
Lemma forall2_imp {A B} (R S : A -> B -> Prop) l m : (forall a b, R a b -> S a b) -> Forall2 R l m -> Forall2 S l m.
Proof. intros H F. induction F; constructor; auto. Qed.

Section Writer.
  Variable lt : word -> word -> bool.
  Variable ws : list word.
  Hypothesis WO : word_order lt ws.
  Variable numFiles : nat.

  Record inv (P : list queue_word) (voc : list word) (st : writer) : Prop :=
    { i_last : last_written st = shown (last voc []);
      i_total : total st = N.of_nat (length voc);
      i_count : (length voc <= length P)%nat;
      i_out : outfile st = vocabulary_file (filter (fun w => negb (is_external w)) voc);
      i_ext : outfile_ext st = vocabulary_file (map shown (filter is_external voc));
      i_files : length (written st) = numFiles;
      i_vec : forall f, Forall2 (entry_ok voc) (filter (of_file f) P) (nth f (written st) []);
      i_sorted : in_order lt voc;
      i_strict : strictly_in_order lt (filter (fun w => negb (is_external w)) voc);
      i_in : forall w, In w voc <-> In w (map value P);
      i_perm : Permutation (filter is_external voc) (filter is_external (map value P));
      i_seen : lang_seen st = existsb (fun w => first_byte w =? 64) voc;
      i_lang : forall i w, nth_error voc i = Some w ->
        (first_byte w = 64 <-> fst (lang_bounds st) <= N.of_nat i < snd (lang_bounds st));
      i_bound : snd (lang_bounds st) <= N.of_nat (length voc) }.

  Lemma inv_flush P voc st : inv P voc st -> inv P voc (flush st).
  Proof. intros []. constructor; auto. Qed.
  Lemma inv_new : inv [] [] (new_writer numFiles).
  Proof.
    constructor; cbn; auto; try constructor; try easy.
    - unfold written. cbn. apply repeat_length.
    - intros f. unfold written. cbn. replace (nth f (repeat [] numFiles) []) with (@nil (N * N)); [constructor|].
      symmetry. destruct (Nat.lt_ge_cases f numFiles); [now rewrite nth_repeat | apply nth_overflow; now rewrite repeat_length].
    - destruct i; discriminate.
    - destruct i; discriminate.
  Qed.
  Lemma first_order x y : lt y x = false -> first_byte x <= first_byte y.
  Proof.
    intros H. destruct (N.le_gt_cases (first_byte x) (first_byte y)); [assumption|].
    pose proof (wo_first _ _ WO y x). rewrite H1 in H by assumption. discriminate.
  Qed.
  Lemma sorted_nth l i j x y : in_order lt l -> (i < j)%nat -> nth_error l i = Some x -> nth_error l j = Some y -> lt y x = false.
  Proof.
    intros S. revert i j. induction S as [|a l S IH F]; intros [|i] [|j] L E1 E2; cbn in *; try lia; try discriminate.
    - injection E1 as ->. rewrite Forall_forall in F. apply F. eapply nth_error_In, E2.
    - apply (IH i j); auto. lia.
  Qed.
  Lemma write_word_ok P voc st B q : inv P voc st -> Forall (fun p => In (value p) ws /\ legal (value p)) P ->
    In (value q) ws -> legal (value q) -> (forall p, In p P -> lt (value q) (value p) = false) ->
    (file_id q < numFiles)%nat -> N.of_nat (length P) + 1 < 2 ^ 64 ->
    exists voc' st', write_word B st q = Ok st' /\ inv (P ++ [q]) voc' st'.
  Proof.
    intros I FP WQ LQ OQ FQ SZ. pose proof I as I0. destruct I0 as [i1 i2 i2' i3 i4 i5 i6 i7 i8 i9 i10 i11 i12 i13].
    rewrite Forall_forall in FP.
    assert (INP : forall v, In v voc -> In v ws /\ legal v /\ lt (value q) v = false).
    { intros v V. apply i9 in V. apply in_map_iff in V as (p & <- & V). destruct (FP p V). split; [|split]; auto. }
    assert (LV : last voc [] = [] /\ voc = [] \/ exists v l, voc = v ++ [l] /\ last voc [] = l).
    { destruct voc as [|x voc0]; [left; auto|]. right. destruct (exists_last (l := x :: voc0)) as (v & l & E); [discriminate|].
      exists v, l. split; [exact E|]. rewrite E. apply last_last. }
    assert (DONE : forall st1, (exists voc', inv (P ++ [q]) voc' st1) ->
      exists voc' st', (if Nat.leb B (length (write_buf st1)) then Ok (flush st1) else Ok st1) = Ok st' /\ inv (P ++ [q]) voc' st').
    { intros st1 [voc' I1]. exists voc'. destruct (Nat.leb B _); eexists; (split; [reflexivity|]); [apply inv_flush|]; exact I1. }
    unfold write_word. destruct (word_eqb (value q) (last_written st)) eqn:EQ; cbv zeta; cbn [bind].
    - (* duplicate *)
      apply word_eqb_eq in EQ. rewrite i1 in EQ. apply DONE. exists voc.
      destruct LV as [[_ ->] | (v & l & EV & LL)].
      { exfalso. apply (proj1 LQ). exact EQ. }
      rewrite LL in EQ. destruct (INP l) as (Lw & Ll & Lq); [rewrite EV; apply in_or_app; right; now left|].
      assert (EI : is_external l = false).
      { destruct (is_external l) eqn:E; [|reflexivity]. apply shown_external in Ll as SH. rewrite <- EQ in SH.
        unfold is_external in *. rewrite (wo_first _ _ WO) in Lq; [discriminate | lia]. }
      rewrite shown_internal in EQ by exact EI. rewrite <- EQ in EV, EI.
      assert (ST : stands_for voc (wrap64 (total st + 2 ^ 64 - 1)) (value q)).
      { unfold stands_for, wrap64. rewrite i2, EV, app_length. cbn [length].
        replace (N.of_nat (length v + 1) + 2 ^ 64 - 1) with (N.of_nat (length v) + 1 * 2 ^ 64) by lia.
        rewrite N.mod_add by lia. rewrite N.mod_small by (rewrite EV, app_length in i2'; cbn [length] in i2'; lia). rewrite Nat2N.id, nth_error_app2, Nat.sub_diag by lia. reflexivity. }
      constructor; cbn [last_written total outfile outfile_ext lang_seen lang_bounds]; auto.
      + rewrite app_length. cbn. lia.
      + unfold written in *. cbn [id_vecs write_buf]. rewrite doActualWrite_app. cbn [doActualWrite]. now rewrite set_nth_length.
      + intros f. unfold written in *. cbn [id_vecs write_buf]. rewrite doActualWrite_app. cbn [doActualWrite].
        rewrite nth_set_nth by lia. rewrite filter_app. cbn [filter]. unfold of_file at 2. rewrite (Nat.eqb_sym (file_id q) f).
        destruct (Nat.eqb_spec f (file_id q)) as [->|].
        * apply Forall2_app; [apply i6|]. constructor; [|constructor]. split; [reflexivity | exact ST].
        * rewrite app_nil_r. apply i6.
      + intros w. rewrite i9, map_app, in_app_iff. cbn [map In]. split; [auto|]. intros [H|[<-|[]]]; [exact H|].
        apply i9. rewrite EV. apply in_or_app. right. now left.
      + rewrite map_app, filter_app. cbn [map filter]. rewrite EI, app_nil_r. exact i10.
    - (* new word *)
      apply word_eqb_neq in EQ. set (w := value q) in *.
      assert (KD : word_kind w = Some (if is_external w then External (shown w) else Internal)).
      { destruct (is_external w) eqn:E; [now apply word_kind_external | apply word_kind_internal; [apply LQ | exact E]]. }
      rewrite KD. cbn [bind]. apply DONE. exists (voc ++ [w]).
      assert (LS : match (if is_external w then External (shown w) else Internal) with Internal => w | External x => x end = shown w).
      { destruct (is_external w) eqn:E; [reflexivity | symmetry; now apply shown_internal]. }
      rewrite LS.
      assert (LG : match w with [] => false | c :: _ => c =? 64 end = (first_byte w =? 64)).
      { unfold first_byte. destruct w; reflexivity. }
      rewrite LG.
      assert (TW : wrap64 (total st + 1) = N.of_nat (length (voc ++ [w]))).
      { unfold wrap64. rewrite i2, app_length. cbn [length]. rewrite N.mod_small; lia. }
      constructor; cbn [last_written total outfile outfile_ext lang_seen lang_bounds]; auto.
      + now rewrite last_last.
      + rewrite !app_length. cbn. lia.
      + rewrite filter_app. cbn [filter]. unfold vocabulary_file in *. rewrite flat_map_app, i3. destruct (is_external w) eqn:E; cbn [negb].
        * cbn. now rewrite app_nil_r.
        * cbn [flat_map]. rewrite app_nil_r. now rewrite shown_internal.
      + rewrite filter_app. cbn [filter]. unfold vocabulary_file in *. rewrite map_app, flat_map_app, i4. destruct (is_external w) eqn:E; cbn [map flat_map].
        * now rewrite app_nil_r.
        * now rewrite app_nil_r.
      + unfold written in *. cbn [id_vecs write_buf]. rewrite doActualWrite_app. cbn [doActualWrite]. now rewrite set_nth_length.
      + intros f. unfold written in *. cbn [id_vecs write_buf]. rewrite doActualWrite_app. cbn [doActualWrite].
        rewrite nth_set_nth by lia. rewrite filter_app. cbn [filter]. unfold of_file at 2. rewrite (Nat.eqb_sym (file_id q) f).
        assert (M : Forall2 (entry_ok (voc ++ [w])) (filter (of_file f) P) (nth f (doActualWrite (id_vecs st) (write_buf st)) [])).
        { eapply forall2_imp; [|apply i6]. intros a b. apply entry_ok_more. }
        destruct (Nat.eqb_spec f (file_id q)) as [->|].
        * apply Forall2_app; [exact M|]. constructor; [|constructor]. split; [reflexivity|].
          unfold stands_for. cbn [snd]. rewrite i2, Nat2N.id, nth_error_app2, Nat.sub_diag by lia. reflexivity.
        * rewrite app_nil_r. exact M.
      + apply sorted_app; [exact i7|constructor; constructor|]. intros x y X [<-|[]]. now apply INP.
      + rewrite filter_app. cbn [filter]. destruct (is_external w) eqn:E; cbn [negb]; [now rewrite app_nil_r|].
        apply sorted_app; [exact i8|constructor; constructor|]. intros x y X [<-|[]].
        apply filter_In in X as [X XE]. destruct (INP x X) as (X1 & X2 & X3).
        destruct (lt x w) eqn:Lx; [reflexivity|]. exfalso.
        assert (x = w) by (apply (wo_total _ _ WO); auto). subst x.
        destruct LV as [[_ ->] | (v & l & EV & LL)]; [destruct X|].
        destruct (INP l) as (L1 & L2 & L3); [rewrite EV; apply in_or_app; right; now left|].
        assert (lt l w = false).
        { rewrite EV in X, i7. apply sorted_app_inv in i7 as (_ & _ & SS). apply in_app_or in X as [X|[->|[]]]; [|exact L3]. apply SS; [exact X | now left]. }
        assert (w = l) by (apply (wo_total _ _ WO); auto). apply EQ. rewrite i1, LL. rewrite <- H0. symmetry. now apply shown_internal.
      + intros x. rewrite map_app, !in_app_iff, i9. reflexivity.
      + rewrite map_app, !filter_app. cbn [map filter]. fold w. now apply Permutation_app_tail.
      + rewrite existsb_app. cbn [existsb]. rewrite orb_false_r, i11. reflexivity.
      + intros i x. assert (OLD : forall i x, nth_error voc i = Some x -> (i < length voc)%nat) by (intros; apply nth_error_Some; congruence).
        destruct (Nat.lt_ge_cases i (length voc)) as [LI|LI].
        * rewrite nth_error_app1 by exact LI. intros X. pose proof (i12 i x X) as O. destruct (N.eqb_spec (first_byte w) 64) as [F|F]; [|exact O].
          cbn [fst snd]. rewrite i11. destruct (existsb _ voc) eqn:EX.
          -- apply existsb_exists in EX as (y & Y & FY). apply N.eqb_eq in FY. apply In_nth_error in Y as [j J].
             pose proof (proj1 (i12 j y J) FY) as BJ. rewrite O. rewrite TW, app_length. cbn [length]. split; [lia|].
             intros [G1 G2]. split; [exact G1|]. apply O. destruct (INP x) as (_ & _ & XW); [eapply nth_error_In, X|].
             apply first_order in XW. destruct (N.lt_ge_cases (N.of_nat i) (snd (lang_bounds st))) as [H|H]; [apply O; lia|].
             assert (lt x y = false) as XY by (eapply (sorted_nth voc j i); eauto; lia). apply first_order in XY. lia.
          -- rewrite i2. split; [|lia]. intros FX. exfalso. assert (existsb (fun w => first_byte w =? 64) voc = true); [|congruence].
             apply existsb_exists. exists x. split; [eapply nth_error_In, X | now apply N.eqb_eq].
        * rewrite nth_error_app2 by exact LI. destruct (i - length voc)%nat as [|k] eqn:K; [|destruct k; discriminate]. cbn. intros [= <-].
          assert (i = length voc) by lia. subst i. destruct (N.eqb_spec (first_byte w) 64) as [F|F].
          -- cbn [fst snd]. rewrite TW, app_length, i2. cbn [length]. destruct (lang_seen st) eqn:SN; [|split; lia].
             split; [|auto]. intros _. split; [|lia]. symmetry in i11. apply existsb_exists in i11 as (y & Y & FY). apply N.eqb_eq in FY.
             apply In_nth_error in Y as [j J]. pose proof (proj1 (i12 j y J) FY). pose proof (OLD j y J). lia.
          -- split; [contradiction|]. intros. lia.
      + rewrite TW. destruct (first_byte w =? 64); cbn [snd]; rewrite app_length; cbn [length]; lia.
  Qed.

  (* all words, in whatever batches *)
  Lemma write_words_ok B buffer : forall P voc st, inv P voc st ->
    Forall (fun p => In (value p) ws /\ legal (value p) /\ (file_id p < numFiles)%nat) (P ++ buffer) ->
    StronglySorted (fun x y => lt (value y) (value x) = false) (P ++ buffer) -> N.of_nat (length (P ++ buffer)) < 2 ^ 64 ->
    exists voc' st', write_words B st buffer = Ok st' /\ inv (P ++ buffer) voc' st'.
  Proof.
    induction buffer as [|q buffer IH]; intros P voc st I F S L.
    - exists voc, (flush st). split; [reflexivity|]. rewrite app_nil_r. now apply inv_flush.
    - pose proof F as F0. apply Forall_app in F0 as [F1 F2]. inversion F2 as [|? ? (Q1 & Q2 & Q3) F3]; subst.
      pose proof S as S0. apply sorted_app_inv in S0 as (S1 & S2 & S3).
      destruct (write_word_ok P voc st B q) as (voc1 & st1 & E & I1); auto.
      + eapply Forall_impl; [|exact F1]. cbn. tauto.
      + intros p PP. apply S3; [exact PP | now left].
      + rewrite app_length in L. cbn [length] in L. lia.
      + cbn [write_words]. rewrite E. cbn [bind].
        destruct (IH (P ++ [q]) voc1 st1) as (voc2 & st2 & E2 & I2); auto; try (rewrite <- app_assoc; assumption).
        exists voc2, st2. split; [exact E2|]. rewrite <- app_assoc in I2. exact I2.
  Qed.
  Lemma write_batches_ok B rest : forall P batch voc st, inv P voc st ->
    Forall (fun p => In (value p) ws /\ legal (value p) /\ (file_id p < numFiles)%nat) (P ++ batch ++ rest) ->
    StronglySorted (fun x y => lt (value y) (value x) = false) (P ++ batch ++ rest) -> N.of_nat (length (P ++ batch ++ rest)) < 2 ^ 64 ->
    exists voc' st', write_batches B st batch rest = Ok st' /\ inv (P ++ batch ++ rest) voc' st'.
  Proof.
    induction rest as [|q rest IH]; intros P batch voc st I F S L; cbn [write_batches].
    - rewrite app_nil_r in *. destruct batch as [|b batch].
      + exists voc, st. split; [reflexivity|]. now rewrite app_nil_r.
      + now apply (write_words_ok (B / 5) (b :: batch) P voc st).
    - replace (P ++ batch ++ q :: rest) with (P ++ (batch ++ [q]) ++ rest) in * by (now rewrite <- app_assoc).
      destruct (Nat.leb B (length (batch ++ [q]))).
      + rewrite app_assoc in F, S, L. pose proof F as F0. apply Forall_app in F0 as [F1 _]. pose proof S as S0. apply sorted_app_inv in S0 as (S1 & _ & _).
        destruct (write_words_ok (B / 5) (batch ++ [q]) P voc st) as (voc1 & st1 & E & I1); auto.
        { rewrite app_length in L. lia. }
        rewrite E. cbn [bind]. rewrite app_assoc. apply (IH (P ++ batch ++ [q]) [] voc1 st1); auto.
      + apply (IH P (batch ++ [q]) voc st); auto.
  Qed.
End Writer.
