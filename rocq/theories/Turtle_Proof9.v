(* Proofs about the Turtle parser: reading a document in blocks. *)
From Coq Require Import Ascii String List NArith Arith Bool Lia ZifyBool ZifyN ZifyNat Permutation.
From Verif Require Import Strings_Model Strings_Spec Turtle_Model Turtle_Spec Turtle_Proof Turtle_Proof2 Turtle_Proof3 Turtle_Proof4 Turtle_Proof5 Turtle_Proof6 Turtle_Proof7 Turtle_Proof8.
From Verif Require Strings_Proof.
Import ListNotations.
Open Scope N_scope.
Open Scope list_scope.

Definition pm_le (a b : prefix_map) : Prop := forall p v, a p = Some v -> b p = Some v.
Lemma pm_le_refl a : pm_le a a.
Proof. intros p v; auto. Qed.
Lemma pm_le_trans a b c : pm_le a b -> pm_le b c -> pm_le a c.
Proof. intros H K p v E. auto. Qed.
Lemma covers_le a b m : pm_le a b -> covers b m -> covers a m.
Proof. intros H C p v E. auto. Qed.
Lemma statement_grows (dotted redeclared : Prop) pm n t pm' n' ts : (redeclared -> False) ->
  statement_text dotted redeclared pm n t pm' n' ts -> pm_le pm pm'.
Proof.
  intros NR [m k g0 g1 p g2 u s g3 _ _ _ _ _ _ _ F|]; [|apply pm_le_refl]. intros q v E. unfold declare.
  destruct (list_eq_dec N.eq_dec q p) as [->|]; auto. destruct F as [F|[F|F]]; [congruence | congruence | contradiction].
Qed.
Lemma concat_nil (bs : list text) : Forall (fun b => b <> []) bs -> concat bs = [] -> bs = [].
Proof. intros [|b l H _] E; auto. cbn [concat] in E. apply app_eq_nil in E as [E _]. contradiction. Qed.
Lemma nothing_yes m ts0 s : after nothing m ts0 (Yes s) -> False.
Proof. cbn [after]. unfold nothing. tauto. Qed.

Lemma statement_inert s : inert (data s) ->
  statement s = No (P (sk (data s)) (last s) (prefixes s) (aPrefix s) (aSubject s) (aPredicate s) (blanks s) (triples s)).
Proof. destruct s. intros. now apply inert_statement. Qed.

Section Blocks.
  Variables dotted redeclared : Prop.
  Hypothesis ND : dotted -> False.
  Hypothesis NR : redeclared -> False.
  Variable g : text.
  Hypothesis G : gap g.
  Variables batch max_buffer : nat.

  (* the parser is at the start of a statement *)
  Definition at_start (pm : prefix_map) (l : list text) (ts : list triple) (s : stream) : Prop :=
    document dotted redeclared pm (blanks (st s)) l ts /\ covers pm (prefixes (st s)) /\
    data (st s) ++ concat (blocks s) = concat l ++ g /\ Forall (fun b => b <> []) (blocks s).
  (* the outcome of filling the batch: everything was read, or the batch is full *)
  Definition filled (total : list triple) (L nb : nat) (o : read_out) : Prop := exists s', o = Reading s' /\
    ((exhausted s' = true /\ triples (st s') = total) \/
     (exists pm l ts, exhausted s' = false /\ at_start pm l ts s' /\ triples (st s') ++ ts = total /\
       (batch <= length (triples (st s')))%nat /\ (length (data (st s') ++ concat (blocks s')) <= L)%nat /\
       (length (blocks s') <= nb)%nat)).
  Lemma fill_ok total L : (L <= max_buffer)%nat -> forall fuel b s pm l ts pmb lb tsb T R,
    at_start pm l ts s -> exhausted s = false ->
    document dotted redeclared pmb (b_blanks b) lb tsb -> pm_le pmb pm -> b_data b ++ concat (blocks s) = concat lb ++ g ->
    triples (st s) = T ++ R -> length T = b_triples b -> T ++ tsb = total -> triples (st s) ++ ts = total ->
    (length (b_data b ++ concat (blocks s)) <= L)%nat -> (length (data (st s) ++ concat (blocks s)) <= L)%nat ->
    (length (blocks s) * S L + length (data (st s)) < fuel)%nat ->
    filled total L (length (blocks s)) (fill batch max_buffer fuel b s).
  Proof.
    intros LM. induction fuel as [|fuel IH]; intros b s pm l ts pmb lb tsb T R A X Db Pb Eb Tr Lt Tb Ts Lb Ld F; [lia|].
    cbn [fill]. destruct (Nat.ltb (length (triples (st s))) batch) eqn:Q.
    2:{ cbn [andb]. exists s. split; auto. right. exists pm, l, ts. repeat (split; [solve [auto; lia]|]). auto. }
    rewrite X. cbn [negb andb]. destruct A as (D & C & E & Bn).
    (* what happens when a statement is not complete *)
    assert (Rs : forall p block rest, blocks s = block :: rest -> prefixes p = prefixes (st s) -> (exists e, triples p = triples (st s) ++ e) ->
      filled total L (length (blocks s)) (let p' := resetStateAndRead b block p in
        let n := length (data p') in
        if Nat.ltb max_buffer n then Exception
        else fill batch max_buffer fuel (backupState p') (S_ p' rest false n))).
    { intros p block rest Eq Pp (e & Tp). cbv zeta. rewrite Eq in *. cbn [concat length] in *. rewrite !app_length in Lb.
      assert (Lp : (length (data (resetStateAndRead b block p)) <= max_buffer)%nat).
      { cbn [data resetStateAndRead]. rewrite app_length. lia. }
      replace (Nat.ltb max_buffer (length (data (resetStateAndRead b block p)))) with false by lia.
      assert (Ft : firstn (b_triples b) (triples p) = T).
      { rewrite Tp, Tr, <- app_assoc, <- Lt. apply Strings_Proof.firstn_len. }
      inversion_clear Bn as [|? ? B1 B2].
      edestruct (IH (backupState (resetStateAndRead b block p)) (S_ (resetStateAndRead b block p) rest false (length (data (resetStateAndRead b block p))))
        pmb lb tsb pmb lb tsb T []) as (s' & K1 & K2).
      - split; [exact Db|]. cbn [st blocks data prefixes resetStateAndRead]. split; [rewrite Pp; eapply covers_le; eauto|].
        split; [now rewrite <- app_assoc | exact B2].
      - reflexivity.
      - exact Db.
      - apply pm_le_refl.
      - cbn [backupState b_data data resetStateAndRead blocks]. now rewrite <- app_assoc.
      - cbn [st triples resetStateAndRead]. now rewrite Ft, app_nil_r.
      - cbn [backupState b_triples triples resetStateAndRead]. now rewrite Ft.
      - exact Tb.
      - cbn [st triples resetStateAndRead]. now rewrite Ft.
      - cbn [backupState b_data data resetStateAndRead blocks]. rewrite !app_length. lia.
      - cbn [st data resetStateAndRead blocks]. rewrite !app_length. lia.
      - cbn [st blocks data resetStateAndRead]. rewrite app_length. rewrite !app_length in Ld. lia.
      - exists s'. split; [exact K1|]. destruct K2 as [K2|(pm' & l' & ts' & K)]; [now left|]. right. exists pm', l', ts'.
        cbn [blocks] in K. destruct K as (K2 & K3 & K4 & K5 & K6 & K7). repeat (split; [assumption|]). lia. }
    (* what happens when a statement is complete *)
    assert (Ys : forall t pm' k' ts1 l' ts2 rest, statement_text dotted redeclared pm (blanks (st s)) t pm' k' ts1 ->
      document dotted redeclared pm' k' l' ts2 -> data (st s) = t ++ rest -> rest ++ concat (blocks s) = concat l' ++ g -> ts = ts1 ++ ts2 ->
      exists p, statement (st s) = Yes p /\ filled total L (length (blocks s)) (fill batch max_buffer fuel b (S_ p (blocks s) false (buffered s)))).
    { intros t pm' k' ts1 l' ts2 rest H D' E1 E2 Et.
      destruct (statement_full dotted redeclared pm (blanks (st s)) t pm' k' ts1 (st s) rest H C E1 eq_refl) as (p & R1 & D1 & B1 & T1 & C1).
      exists p. split; auto. assert (Fn := statement_fine (st s)). rewrite R1 in Fn. cbn [fine] in Fn. unfold size in Fn.
      apply (IH b (S_ p (blocks s) false (buffered s)) pm' l' ts2 pmb lb tsb T (R ++ ts1)); cbn [st blocks exhausted]; auto.
      - split; [cbn [st blocks]; now rewrite B1|]. cbn [st blocks]. split; auto. split; auto. now rewrite D1.
      - eapply pm_le_trans; [exact Pb|]. eapply statement_grows; eauto.
      - now rewrite T1, Tr, app_assoc.
      - rewrite T1, <- app_assoc, <- Et. exact Ts.
      - rewrite app_length in Ld |- *. lia.
      - lia. }
    remember (blanks (st s)) as k eqn:Bk. destruct D as [pm k|pm k t pm' k' ts1 l ts2 H D'].
    - (* only the gap remains *)
      cbn [concat app] in E. assert (In_ : inert (data (st s))) by (apply quiet_inert; eapply cut_gap; eauto).
      replace (statement (st s)) with (No (P (sk (data (st s))) (last (st s)) (prefixes (st s)) (aPrefix (st s)) (aSubject (st s)) (aPredicate (st s)) k (triples (st s)))).
      2:{ rewrite Bk. symmetry. apply statement_inert, In_. }
      destruct (blocks s) as [|block rest] eqn:Eq.
      + eexists. split; [reflexivity|]. left. split; [reflexivity|]. cbn [st skip_ws set_data triples]. now rewrite app_nil_r in Ts.
      + inversion_clear Bn as [|? ? B1 B2]. destruct block as [|c block]; [contradiction|].
        apply (Rs _ (c :: block) rest); auto. cbn [triples]. exists []. now rewrite app_nil_r.
    - cbn [concat] in E. rewrite <- app_assoc in E.
      assert (Ecase : (exists rest, data (st s) = t ++ rest /\ rest ++ concat (blocks s) = concat l ++ g) \/
                      (exists y, data (st s) ++ y = t /\ y <> [] /\ concat (blocks s) <> [])).
      { destruct (concat (blocks s)) as [|c cs] eqn:Ec.
        - left. exists (concat l ++ g). rewrite app_nil_r in *. auto.
        - destruct (cut_app _ _ _ _ E) as [(x' & E1 & E2)|(y' & E1 & E2 & _)]; [discriminate|left; eauto|].
          right. exists y'. split; auto. split; auto. discriminate. }
      destruct Ecase as [(rest & E1 & E2)|(y & E1 & Y & Cn)].
      + destruct (Ys t pm' k' ts1 l ts2 rest H D' E1 E2 eq_refl) as (p & R1 & K). rewrite R1. exact K.
      + assert (Cu := statement_cut dotted redeclared pm k t pm' k' ts1 (st s) (data (st s)) y ND H C E1 Y eq_refl (eq_sym Bk)).
        assert (Fn := statement_fine (st s)).
        destruct (blocks s) as [|block rest] eqn:Eq; [now cbn in Cn|].
        inversion_clear Bn as [|? ? B1 B2]. destruct block as [|c block]; [contradiction|].
        destruct (statement (st s)) as [p|p|p| |]; cbn [after fine] in Cu, Fn; try contradiction.
        * destruct Cu as (_ & _ & []).
        * destruct Cu as (P1 & T1 & _). apply (Rs p (c :: block) rest); auto.
        * destruct Cu as (P1 & T1). apply (Rs p (c :: block) rest); auto.
  Qed.

  (* reading everything *)
  Lemma read_ok L fuel nb : (L <= max_buffer)%nat -> (0 < batch)%nat -> (nb * S L + L < fuel)%nat ->
    forall calls s acc pend,
    ((exhausted s = true /\ triples (st s) = pend) \/
     (exists pm l ts, exhausted s = false /\ at_start pm l ts s /\ triples (st s) ++ ts = pend /\
        (length (data (st s) ++ concat (blocks s)) <= L)%nat /\ (length (blocks s) <= nb)%nat)) ->
    (length pend < calls)%nat ->
    exists out, read_all batch max_buffer calls fuel s acc = Some out /\ Permutation out (acc ++ pend).
  Proof.
    intros LM Bt F. induction calls as [|calls IH]; intros s acc pend A Lc; [lia|]. cbn [read_all]. unfold getLine.
    set (fl := match triples (st s) with [] => fill batch max_buffer fuel (backupState (st s)) s | _ => Reading s end).
    assert (Fl : exists s', fl = Reading s' /\ (triples (st s') = [] -> pend = []) /\
      ((exhausted s' = true /\ triples (st s') = pend) \/
       (exists pm l ts, exhausted s' = false /\ at_start pm l ts s' /\ triples (st s') ++ ts = pend /\
        (length (data (st s') ++ concat (blocks s')) <= L)%nat /\ (length (blocks s') <= nb)%nat))).
    { unfold fl. destruct (triples (st s)) as [|t0 tr] eqn:Tr.
      - destruct A as [(X & <-)|(pm & l & ts & X & A & Ts & Ld & Nb)].
        + exists s. destruct fuel as [|fuel]; [lia|]. cbn [fill]. rewrite X, andb_false_r. auto.
        + assert (A0 := A). destruct A0 as (D & C & E & Bn).
          destruct (fill_ok pend L LM fuel (backupState (st s)) s pm l ts pm l ts [] []) as (s' & R & K); auto.
          * apply pm_le_refl.
          * cbn [backupState b_triples]. now rewrite Tr.
          * now rewrite Tr.
          * rewrite app_length in Ld. assert (length (blocks s) * S L <= nb * S L)%nat by (apply Nat.mul_le_mono_r; auto). lia.
          * exists s'. split; auto. destruct K as [(K1 & K2)|(pm' & l' & ts' & K1 & K2 & K3 & K4 & K5 & K6)].
            -- split; [congruence | now left].
            -- split; [intros Z; rewrite Z in K4; cbn in K4; lia|]. right. exists pm', l', ts'. repeat (split; [solve [auto]|]). lia.
      - exists s. split; auto. split; [congruence|]. rewrite Tr. exact A. }
    destruct Fl as (s' & -> & Nl & A').
    destruct (rev (triples (st s'))) as [|t r] eqn:Rv.
    - apply (f_equal (@rev triple)) in Rv. rewrite rev_involutive in Rv. cbn [rev] in Rv. rewrite (Nl Rv). exists acc. split; auto. now rewrite app_nil_r.
    - assert (Tr : triples (st s') = rev r ++ [t]) by (rewrite <- (rev_involutive (triples (st s'))), Rv; reflexivity).
      set (s2 := S_ _ _ _ _).
      assert (Pd : exists pend', Permutation (t :: pend') pend /\ length pend = S (length pend') /\
        ((exhausted s2 = true /\ triples (st s2) = pend') \/
         (exists pm l ts, exhausted s2 = false /\ at_start pm l ts s2 /\ triples (st s2) ++ ts = pend' /\
          (length (data (st s2) ++ concat (blocks s2)) <= L)%nat /\ (length (blocks s2) <= nb)%nat))).
      { destruct A' as [(X & <-)|(pm & l & ts & X & A' & <- & Ld & Nb)].
        - exists (rev r). split; [rewrite Tr; apply Permutation_cons_append|]. split; [rewrite Tr, app_length; cbn [length]; lia|].
          left. split; auto.
        - exists (rev r ++ ts). split; [rewrite Tr, <- app_assoc; cbn [app]; apply Permutation_middle|].
          split; [rewrite Tr, !app_length; cbn [length]; lia|]. right. exists pm, l, ts. auto 10. }
      destruct Pd as (pend' & P1 & P2 & A2).
      destruct (IH s2 (acc ++ [t]) pend' A2 ltac:(lia)) as (out & R & P3). exists out. split; auto.
      rewrite P3, <- app_assoc. cbn [app]. now apply Permutation_app_head.
  Qed.
End Blocks.

Lemma blocks_ok (dotted redeclared : Prop) bs ts batch max_buffer calls fuel : (dotted -> False) -> (redeclared -> False) ->
  means dotted redeclared (concat bs) ts -> Forall (fun b => b <> []) bs -> (0 < batch)%nat ->
  (length (concat bs) <= max_buffer)%nat -> (length ts < calls)%nat ->
  (S (length bs) * S (length (concat bs)) < fuel)%nat ->
  exists out, read_all batch max_buffer calls fuel (initialize bs) [] = Some out /\ Permutation out ts.
Proof.
  intros ND NR (l & g & D & G & E) Bn Bt LM Lc F.
  assert (Hf : (length bs * S (length (concat bs)) + length (concat bs) < fuel)%nat) by (cbn [Nat.mul] in F; lia).
  assert (Lb : (length (blocks (initialize bs)) <= length bs)%nat) by (destruct bs; cbn [initialize blocks length]; lia).
  destruct (read_ok dotted redeclared ND NR g G batch max_buffer (length (concat bs)) fuel (length bs) LM Bt Hf calls (initialize bs) [] ts) as (out & R & Pm); auto.
  - right. exists no_prefixes, l, ts. destruct bs as [|b bs]; cbn [initialize exhausted st blocks triples initial data concat app] in *.
    + split; auto. split; [|split; [auto|split; auto]]. split; [exact D|]. cbn [st blocks prefixes data concat app]. split; [intros p v Z; discriminate|].
      split; [exact E | constructor].
    + split; auto. inversion_clear Bn. split; [|split; [auto|split; auto]]. split; [exact D|]. cbn [st blocks prefixes data]. split; [intros p v Z; discriminate|].
      split; [exact E | assumption].
  - exists out. auto.
Qed.

(* reading ends for every input *)
Lemma fill_ends batch max_buffer L : forall fuel b s,
  (length (b_data b) + length (concat (blocks s)) <= L)%nat ->
  (length (data (st s)) + length (concat (blocks s)) <= L)%nat ->
  (length (blocks s) * S L + length (data (st s)) < fuel)%nat ->
  fill batch max_buffer fuel b s <> Endless.
Proof.
  induction fuel as [|fuel IH]; intros b s Lb Ld F; [lia|]. cbn [fill].
  destruct (Nat.ltb (length (triples (st s))) batch && negb (exhausted s)); [|discriminate].
  assert (Fn := statement_fine (st s)).
  assert (Fd : forall raised p, match blocks s with
      | [] | [] :: _ => if (raised : bool) then Exception else Reading (S_ (skip_ws p) (tl (blocks s)) true (buffered s))
      | block :: rest =>
        let p' := resetStateAndRead b block p in
        let n := length (data p') in
        if Nat.ltb max_buffer n then Exception
        else fill batch max_buffer fuel (backupState p') (S_ p' rest (exhausted s) n)
      end <> Endless).
  { intros raised p. destruct (blocks s) as [|[|c block] rest]; [destruct raised; discriminate..|].
    cbv zeta. destruct (Nat.ltb _ _); [discriminate|]. cbn [concat length] in *. rewrite app_length in Lb, Ld. cbn [length] in *.
    apply IH; cbn [backupState b_data data resetStateAndRead blocks st]; rewrite ?app_length; cbn [length]; lia. }
  destruct (statement (st s)) as [p|p|p| |]; cbn [fine] in Fn; unfold size in Fn.
  - apply IH; cbn [st blocks]; lia.
  - exact (Fd false p).
  - exact (Fd true p).
  - discriminate.
  - contradiction.
Qed.

(* the parser for mapped files *)
Lemma mmap_rest batch max fuel : forall calls s acc, (length (triples s) < calls)%nat -> (max < fuel)%nat -> (0 < fuel)%nat ->
  mmap_all batch calls fuel s true acc = Some (acc ++ rev (triples s)).
Proof.
  induction calls as [|calls IH]; intros s acc L F F'; [lia|]. cbn [mmap_all].
  replace (match triples s with [] => mmap_fill batch fuel s true | _ :: _ => Some (s, true) end) with (Some (s, true)).
  2:{ destruct (triples s); auto. destruct fuel; [lia|]. cbn [mmap_fill]. now rewrite andb_false_r. }
  destruct (rev (triples s)) as [|t r] eqn:E; [now rewrite app_nil_r|].
  rewrite IH; auto; cbn [triples].
  - now rewrite rev_involutive, <- app_assoc.
  - rewrite rev_length. apply (f_equal (@length triple)) in E. rewrite rev_length in E. cbn [length] in E. lia.
Qed.
Lemma mmap_first (dotted redeclared : Prop) t pm n ts rest batch calls fuel : (0 < batch)%nat -> (length ts < calls)%nat -> (0 < fuel)%nat ->
  statement_text dotted redeclared no_prefixes 0 t pm n ts ->
  mmap_all batch calls fuel (initial (t ++ rest)) false [] = Some (rev ts).
Proof.
  intros Bt Lc F H.
  destruct (statement_full dotted redeclared no_prefixes 0 t pm n ts (initial (t ++ rest)) rest H) as (s' & R & _ & _ & T & _); auto.
  { intros p v Z. discriminate. }
  cbn [initial triples app] in T.
  assert (Q : mmap_fill batch fuel (initial (t ++ rest)) false = Some (skip_ws s', true)).
  { destruct fuel; [lia|]. cbn [mmap_fill initial triples length negb]. destruct batch; [lia|]. cbn [Nat.ltb Nat.leb andb].
    change (P (t ++ rest) [] [] [] [] [] 0 []) with (initial (t ++ rest)). now rewrite R. }
  destruct calls as [|calls]; [lia|]. cbn [mmap_all]. change (triples (initial (t ++ rest))) with (@nil triple). cbn iota. rewrite Q.
  replace (triples (skip_ws s')) with ts by (symmetry; exact T).
  destruct (rev ts) as [|x r] eqn:E; auto.
  rewrite (mmap_rest batch 0 fuel); cbn [triples]; auto.
  - now rewrite rev_involutive.
  - rewrite rev_length. apply (f_equal (@length triple)) in E. rewrite rev_length in E. cbn [length] in E. lia.
Qed.
Lemma mmap_endless batch : forall fuel s, (0 < batch)%nat -> inert (data s) -> triples s = [] ->
  mmap_fill batch fuel s false = None.
Proof.
  induction fuel as [|fuel IH]; intros s Bt In_ T; auto. cbn [mmap_fill]. rewrite T. cbn [length negb].
  destruct batch; [lia|]. cbn [Nat.ltb Nat.leb andb]. rewrite statement_inert by auto. apply IH; auto.
  cbn [data]. now apply inert_sk.
Qed.
Lemma unambiguous (dotted redeclared : Prop) txt ts ts' :
  means dotted redeclared txt ts -> means dotted redeclared txt ts' -> ts = ts'.
Proof.
  assert (H : forall t, means dotted redeclared txt t -> exists s, turtleDoc (S (length txt)) (initial txt) = No s /\ triples s = t).
  { intros t (l & g & D & G & E).
    destruct (document_full dotted redeclared no_prefixes 0 l t D (initial txt) g (S (length txt))) as (s & R & _ & T); auto.
    { intros p v Z. discriminate. }
    exists s. auto. }
  intros A B. destruct (H _ A) as (s & R & <-), (H _ B) as (s' & R' & <-). congruence.
Qed.
