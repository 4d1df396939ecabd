(* From the parts to the global ids. *)
From Coq Require Import List NArith Arith Bool Lia Sorted Permutation ZifyN ZifyNat ZifyBool.
From Verif Require Import ListAux Bytes Table_Spec Std_Model Ops_Spec Strings_Model Collate_Model Collate_Spec Collate_Thm
  Vocab_Model Vocab_Proof Merge_Model Merge_Spec Merge_Proof Merge_Proof2 Merge_Proof3 Merge_Proof4 Merge_Proof5 Merge_Proof6.
Import ListNotations.
Open Scope N_scope.

Lemma lookup_in (m : list (N * N)) k v : NoDup (map fst m) -> In (k, v) m -> lookup N.eqb m k = Some v.
Proof.
  induction m as [|[a b] m IH]; intros ND I; [destruct I|]. cbn [map fst] in ND. inversion ND as [|? ? NI ND']; subst. unfold lookup. cbn [find fst].
  destruct (N.eqb_spec a k) as [->|N].
  - destruct I as [[= ->]|I]; [reflexivity|]. exfalso. apply NI. exact (in_map fst _ _ I).
  - destruct I as [[= -> _]|I]; [congruence|]. exact (IH ND' I).
Qed.
Lemma sorted_nodup (els : list (word * N)) : StronglySorted (fun x y => snd x < snd y) els -> NoDup (map snd els).
Proof.
  induction 1 as [|a l S IH F]; cbn [map]; constructor; auto. intros I. apply in_map_iff in I as (b & E & I).
  rewrite Forall_forall in F. specialize (F b I). lia.
Qed.
Lemma vec_lookup (voc : list word) es vec : NoDup (map snd es) ->
  Forall2 (fun (e : word * N) (p : N * N) => fst p = snd e /\ stands_for voc (snd p) (fst e)) es vec ->
  forall id w, item_rel es id w -> exists id', lookup N.eqb (id_map vec) id = Some id' /\ stands_for voc id' w.
Proof.
  intros ND F id w I. unfold item_rel in I.
  assert (G : map fst vec = map snd es).
  { clear - F. induction F as [|e p es vec (A & _) F IH]; [reflexivity|]. cbn. now rewrite A, IH. }
  assert (H : exists id', In (id, id') vec /\ stands_for voc id' w).
  { clear - F I. induction F as [|e [p q] es vec (A & B) F IH]; [destruct I|]. cbn [fst snd] in *. destruct I as [->|I].
    - cbn [fst snd] in *. exists q. split; [left; congruence|exact B].
    - destruct (IH I) as (i & X & Y). exists i. split; [now right|exact Y]. }
  destruct H as (id' & H1 & H2). exists id'. split; [|exact H2]. apply lookup_in.
  - unfold id_map. rewrite map_rev, G. now apply NoDup_rev.
  - unfold id_map. now apply in_rev in H1.
Qed.

(* every part has its vector *)
Lemma convert_ok (voc : list word) rs (exps : list (list (@triple word))) : forall vecs,
  Forall2 (fun (r : list (word * N) * list (@triple N)) vec => NoDup (map snd (fst r)) /\
    Forall2 (fun (e : word * N) (p : N * N) => fst p = snd e /\ stands_for voc (snd p) (fst e)) (fst r) vec) rs vecs ->
  Forall2 (fun (r : list (word * N) * list (@triple N)) e => Forall2 (triple_rel (item_rel (fst r))) (snd r) e) rs exps ->
  exists ts, convert_parts (concat (map snd rs)) (combine (map (fun r => length (snd r)) rs) vecs) = Ok ts /\
    Forall2 (triple_stands_for voc) ts (concat exps).
Proof.
  revert exps. induction rs as [|r rs IH]; intros exps vecs F G; inversion F as [|? vec ? vecs' (ND & FV) F']; subst; inversion G as [|? e ? exps' Ge G']; subst.
  - exists []. split; [reflexivity|constructor].
  - destruct (IH _ _ F' G') as (ts & E & T). destruct (map_triples_ok (id_map vec) _ (stands_for voc) (vec_lookup voc _ _ ND FV) _ _ Ge) as (d & E1 & T1).
    exists (d ++ ts). cbn [map concat combine convert_parts]. rewrite app_length.
    replace (Nat.ltb (length (snd r) + length (concat (map snd rs))) (length (snd r))) with false by (symmetry; apply Nat.ltb_ge; lia).
    rewrite firstn_exact, skipn_exact by reflexivity. rewrite E1. cbn [bind]. rewrite E. cbn [bind]. split; [reflexivity|].
    apply Forall2_app; [exact T1 | exact T].
Qed.
Lemma nth_forall2 {A B} (R : A -> B -> Prop) l : forall m, length m = length l ->
  (forall i a, nth_error l i = Some a -> exists b, nth_error m i = Some b /\ R a b) -> Forall2 R l m.
Proof.
  induction l as [|a l IH]; intros [|b m] E H; cbn in E; try lia; constructor.
  - destruct (H 0%nat a eq_refl) as (b' & X & Y). cbn in X. congruence.
  - apply IH; [lia|]. intros i x X. exact (H (S i) x X).
Qed.
Lemma word_order_incl lt ws ws' : word_order lt ws -> incl ws' ws -> word_order lt ws'.
Proof. intros [A B C D] I. constructor; auto. Qed.

(* the words that are stored *)
Definition stored_words (parts : list (list (nat * (word * @triple word)))) : list word :=
  langtag_predicate :: flat_map words_of (flat_map with_language (map snd (concat parts))).
Lemma expected_all (l : list (word * @triple word)) : flat_map expected_words l = flat_map words_of (flat_map with_language l).
Proof. induction l as [|a l IH]; [reflexivity|]. cbn [flat_map]. rewrite flat_map_app, <- IH. reflexivity. Qed.

Section Pass.
  Variable loc : icu.
  Hypothesis OK : icu_ok loc.
  Variable numMaps : nat.
  Variable L : N.
  Hypothesis NP : (0 < numMaps)%nat.
  Hypothesis LP : 0 < L.
  Hypothesis RG : N.of_nat numMaps * 100 * L <= 2 ^ 64.
  Variable parts : list (list (nat * (word * @triple word))).
  Hypothesis SM : Forall (fun lts => N.of_nat (length lts) <= L /\ Forall (fun x => (fst x < numMaps)%nat) lts) parts.
  Hypothesis FW : faithful loc (stored_words parts).
  Hypothesis LG : Forall legal (stored_words parts).
  Hypothesis LEN : Forall (fun w => N.of_nat (length w) < 2 ^ 64) (stored_words parts).
  Hypothesis SZ : N.of_nat (length parts * numMaps + 6 * length (concat parts)) < 2 ^ 64.

  Lemma stored_ne : Forall (fun w => w <> []) (stored_words parts).
  Proof. eapply Forall_impl; [|exact LG]. intros w H. apply H. Qed.
  Lemma stored_incl ps lts : incl ps parts -> In lts ps -> incl (langtag_predicate :: flat_map expected_words (map snd lts)) (stored_words parts).
  Proof.
    intros IP I w [<-|W]; [now left|]. right. rewrite <- expected_all. apply in_flat_map in W as (x & X & W). apply in_map_iff in X as (y & <- & Y).
    apply in_flat_map. exists (snd y). split; [|exact W]. apply in_map. apply in_concat. exists lts. auto.
  Qed.
  Lemma parts_done : forall ps rs, incl ps parts -> parts_result loc numMaps L ps rs ->
    Forall2 (fun lts r => part_done loc numMaps lts (fst r) (snd r)) ps rs.
  Proof.
    intros ps rs I R. induction R as [|lts ps els ts rs P R IH]; constructor.
    - cbn [fst snd]. rewrite Forall_forall in SM. destruct (SM lts) as [S1 S2]; [apply I; now left|].
      destruct (part_ok loc OK numMaps L NP LP RG (stored_words parts) FW stored_ne lts (Ok (els, ts)) S1 S2) as (els' & ts' & E & D); [eapply stored_incl; [exact I|now left] | exact P |].
      congruence.
    - apply IH. intros x X. apply I. now right.
  Qed.
  Lemma parts_exist : forall ps, incl ps parts -> exists rs, parts_result loc numMaps L ps rs.
  Proof.
    induction ps as [|lts ps IH]; intros I; [exists []; constructor|].
    destruct IH as [rs R]; [intros x X; apply I; now right|]. rewrite Forall_forall in SM. destruct (SM lts) as [S1 S2]; [apply I; now left|].
    destruct (part_exists loc numMaps L NP LP RG lts S1 S2) as [r P].
    destruct (part_ok loc OK numMaps L NP LP RG (stored_words parts) FW stored_ne lts r S1 S2) as (els & ts & E & _); [eapply stored_incl; [exact I|now left] | exact P |].
    subst r. exists ((els, ts) :: rs). now constructor.
  Qed.

  Section Merged.
    Variable rs : list (list (word * N) * list (@triple N)).
    Hypothesis R : parts_result loc numMaps L parts rs.
    Lemma D : Forall2 (fun lts r => part_done loc numMaps lts (fst r) (snd r)) parts rs.
    Proof. exact (parts_done parts rs (fun x X => X) R). Qed.
    Lemma in_words v : In v (words_in (map fst rs)) -> exists lts r, In lts parts /\ part_done loc numMaps lts (fst r) (snd r) /\ In r rs /\ In v (map fst (fst r)).
    Proof.
      unfold words_in. intros I. apply in_map_iff in I as (e & <- & I). apply in_concat in I as (es & E & I). apply in_map_iff in E as (r & <- & E).
      pose proof D as D'. clear - D' E I. induction D' as [|lts r' ps rs P F IH]; [destruct E|]. destruct E as [->|E].
      - exists lts, r. split; [now left|]. split; [exact P|]. split; [now left | now apply in_map].
      - destruct (IH E) as (lts' & r2 & A & B & C & G). exists lts', r2. split; [now right|]. split; [exact B|]. split; [now right | exact G].
    Qed.
    Lemma words_incl : incl (words_in (map fst rs)) (stored_words parts).
    Proof.
      intros v V. apply in_words in V as (lts & r & I & P & _ & V). apply (p_words _ _ _ _ _ P) in V.
      exact (stored_incl parts lts (fun x X => X) I v V).
    Qed.
    Lemma words_back v : parts <> [] -> In v (stored_words parts) -> In v (words_in (map fst rs)).
    Proof.
      intros NE V.
      assert (G : exists lts, In lts parts /\ In v (langtag_predicate :: flat_map expected_words (map snd lts))).
      { destruct V as [<-|V].
        - destruct parts as [|lts ps] eqn:EP; [contradiction|]. exists lts. split; now left.
        - rewrite <- expected_all in V. apply in_flat_map in V as (x & X & V). apply in_map_iff in X as (y & <- & Y). apply in_concat in Y as (lts & A & B).
          exists lts. split; [exact A|]. right. apply in_flat_map. exists (snd y). split; [now apply in_map | exact V]. }
      destruct G as (lts & I & V'). unfold words_in. rewrite concat_map.
      pose proof D as D'. clear - D' I V'. induction D' as [|lts' r ps rs P F IH]; [destruct I|]. cbn [map concat]. apply in_or_app.
      destruct I as [->|I]; [left | right; auto]. now apply (p_words _ _ _ _ _ P).
    Qed.
    Lemma count_ok : (length (words_in (map fst rs)) <= length parts * numMaps + 6 * length (concat parts))%nat.
    Proof.
      unfold words_in. rewrite map_length. pose proof D as D'. clear - D'. induction D' as [|lts r ps rs P F IH]; [cbn; lia|].
      cbn [map concat length]. rewrite !app_length. pose proof (p_count _ _ _ _ _ P). lia.
    Qed.
    Lemma rs_wo : word_order (fun a b => before loc a b TOTAL) (words_in (map fst rs)).
    Proof. eapply word_order_incl; [apply before_order; eassumption | apply words_incl]. Qed.
    Lemma rs_order : Forall (fun es => in_order (fun a b => before loc a b TOTAL) (map fst es)) (map fst rs).
    Proof. rewrite Forall_map. pose proof D as D'. clear - D'. induction D' as [|lts r ps rs P F IH]; constructor; auto. apply P. Qed.
    Lemma rs_fits : Forall (Forall entry_fits) (map fst rs).
    Proof.
      rewrite Forall_map. apply Forall_forall. intros r I. apply Forall_forall. intros e E.
      assert (V : In (fst e) (words_in (map fst rs))) by (unfold words_in; apply in_map, in_concat; exists (fst r); split; [now apply in_map | exact E]).
      split; [pose proof LEN as LEN2; rewrite Forall_forall in LEN2; apply LEN2; now apply words_incl|].
      assert (G : forall ps rs', Forall2 (fun lts r => part_done loc numMaps lts (fst r) (snd r)) ps rs' -> In r rs' -> (snd e <= N.of_nat (length ps * numMaps + 6 * length (concat ps)))).
      { clear - E. induction 1 as [|lts r' ps rs' P F IH]; intros I; [destruct I|]. cbn [concat length]. rewrite app_length. destruct I as [->|I].
        - pose proof (p_small _ _ _ _ _ P) as S. rewrite Forall_forall in S. specialize (S e E). lia.
        - specialize (IH I). lia. }
      specialize (G _ _ D I). lia.
    Qed.
    Lemma rs_legal : Forall legal (words_in (map fst rs)).
    Proof. apply Forall_forall. intros v V. pose proof LG as LG2. rewrite Forall_forall in LG2. apply LG2. now apply words_incl. Qed.
    Lemma rs_size : N.of_nat (length (words_in (map fst rs))) < 2 ^ 64.
    Proof. pose proof count_ok. lia. Qed.
    Lemma rs_convert internal ext w : merged (fun a b => before loc a b TOTAL) (map fst rs) internal ext w ->
      exists ts, convert_parts (concat (map snd rs)) (combine (map (fun r => length (snd r)) rs) (id_vecs w)) = Ok ts /\
        Forall2 (triple_stands_for (internal ++ ext)) ts (flat_map with_language (map snd (concat parts))).
    Proof.
      intros M. destruct (convert_ok (internal ++ ext) rs (map (fun lts => flat_map with_language (map snd lts)) parts) (id_vecs w)) as (ts & E & T).
      - apply nth_forall2; [rewrite (m_files _ _ _ _ _ M); apply map_length|]. intros i r I.
        destruct (m_ids _ _ _ _ _ M i (fst r)) as (vec & V1 & V2); [rewrite nth_error_map, I; reflexivity|]. exists vec. split; [exact V1|]. split; [|exact V2].
        apply sorted_nodup. apply nth_error_In in I. pose proof D as D'. clear - D' I. induction D' as [|lts r' ps rs P F IH]; [destruct I|].
        destruct I as [->|I]; [apply P | auto].
      - pose proof D as D'. clear - D'. induction D' as [|lts r ps rs P F IH]; [constructor|]. cbn [map]. constructor; [|exact IH]. apply P.
      - exists ts. split; [exact E|]. rewrite concat_map, flat_map_concat_map, <- flat_map_concat_map.
        replace (flat_map with_language (concat (map (map snd) parts))) with (concat (map (fun lts => flat_map with_language (map snd lts)) parts)); [exact T|].
        clear. induction parts as [|a l IH]; [reflexivity|]. cbn [map concat]. rewrite flat_map_app, IH. reflexivity.
    Qed.
  End Merged.
End Pass.
