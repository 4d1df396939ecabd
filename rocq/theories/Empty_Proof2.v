(* Proofs: the choice of the word whose entity lists are read. *)
From Coq Require Import String List NArith Arith Bool Lia Permutation Sorted.
From Verif Require Import Table_Spec Std_Model Ops_Spec Fts_Spec Fts_Model Postings_Model TextIndex_Spec TextIndex_Model TextIndex_Proof3 TextIndex_Proof6
  TextIndex_Thm TextOp_Model Ops_Proof Empty_Model Empty_Proof.
Import ListNotations.
Local Open Scope N_scope.

Lemma suited_swo : strict_weak_order suited_less.
Proof.
  constructor; unfold suited_less.
  - intros [[i f] n]. rewrite Bool.eqb_reflx. lia.
  - intros [[i f] n] [[i' f'] n'] [[i2 f2] n2]; destruct f, f', f2; cbn [Bool.eqb]; lia.
  - intros [[i f] n] [[i' f'] n'] [[i2 f2] n2]; destruct f, f', f2; cbn [Bool.eqb]; lia.
Qed.

Section Index.
Variables (bounds : list N) (cs : list context).
Hypothesis C : corpus bounds cs.
Hypothesis Apart : entities_apart bounds cs.
Variables (nofs name file : list N) (m : text_meta).
Hypothesis Nofs : numbers nofs.
Hypothesis I : indexed bounds cs nofs name file m.
Hypothesis Size : N.of_nat (length file) < 2 ^ 63.

Definition good_term (t : term) : Prop := searchable bounds cs t /\ with_entities bounds cs t.
Definition good_word (x : word) : Prop :=
  match x with Found t => t <> Unknown /\ good_term t | NoWord => True | NoPrefix _ => False end.

Lemma suited_found ws : Forall good_word ws -> forall i, exists r, suited_loop m i ws = Done r /\
  match r with inl es => length es = length ws | inr _ => True end.
Proof.
  destruct (indexed_good bounds cs C Apart nofs name file m Nofs I Size) as [E [G _]].
  induction 1 as [|x ws Hx _ IH]; intros i; [exists (inl []); auto|]. destruct x as [t| |p]; [|eexists; split; [reflexivity|exact Logic.I]|destruct Hx].
  destruct Hx as [H1 [H2 _]]. cbn [suited_loop].
  destruct (term_block_ok bounds cs C file m E G t H1 H2) as [b [_ [_ [-> _]]]]. destruct (IH (S i)) as [r [Q L]]. cbn [rbind].
  rewrite Q. cbn [rbind]. eexists. split; [reflexivity|]. destruct r; auto. cbn [length]. now rewrite L.
Qed.
Lemma best_exists ws : ws <> [] -> Forall good_word ws -> exists i, best_suited m ws i.
Proof.
  intros Hn F. destruct (suited_found ws F 0%nat) as [r [Q L]]. unfold best_suited. rewrite Q. destruct r as [es|j]; [|eauto].
  pose proof (sort_by_result suited_less suited_swo es) as S. destruct (sort_by suited_less es) as [|e rest] eqn:Es.
  - destruct S as [P _]. apply Permutation_length in P. destruct ws; [congruence|]. rewrite L in P. discriminate P.
  - exists (fst (fst e)). eauto 6.
Qed.
Lemma good_terms ws : Forall good_word ws -> Forall good_term (map as_term ws).
Proof.
  induction 1 as [|x ws Hx _ IH]; cbn [map]; constructor; auto. destruct x as [t| |p]; cbn in *; [apply Hx| |destruct Hx].
  split; exact Logic.I.
Qed.

Definition with_all (ts : list term) : list posting := flat_map entities_of (filter (fun c => forallb (fun t => mentions t c) ts) cs).

Lemma nth_good ts use : Forall good_term ts -> (use < length ts)%nat -> with_entities bounds cs (nth use ts Unknown).
Proof. intros F L. rewrite Forall_forall in F. apply F. now apply nth_In. Qed.
Lemma lists_at ts use : ts <> [] -> Forall good_term ts -> (use < length ts)%nat ->
  exists ps, getContextEntityScoreListsForWords file m use ts = Done ps /\ ascending (map p_cid ps) /\
    Permutation (map fst ps) (map fst (with_all ts)).
Proof.
  intros Hn F L. pose proof (nth_good ts use F L) as W. destruct ts as [|t [|t2 [|t3 ts]]]; [congruence| | |].
  - inversion F as [|? ? [H2 H3] _]; subst.
    destruct (C50_entity_postings bounds cs C Apart nofs name file m Nofs I Size t H2 H3) as [res [R1 [R2 R3]]].
    exists res. split; [exact R1|]. split; auto. apply Permutation_map. rewrite R3. unfold cooccurring, with_all.
    apply Permutation_refl'. f_equal. apply filter_ext. intros c. cbn. now rewrite andb_true_r.
  - inversion F as [|? ? [H2 H3] F']; subst. inversion F' as [|? ? [H5 H6] _]; subst.
    destruct (C50_two_terms bounds cs C Apart nofs name file m Nofs I Size t t2 use L H2 H5 W) as [res [R1 [R2 R3]]].
    exists res. split; [exact R1|]. split; auto. apply Permutation_map. rewrite R3. unfold with_all.
    apply Permutation_refl'. f_equal. apply filter_ext. intros c. cbn. now rewrite andb_true_r.
  - assert (F' : Forall (searchable bounds cs) (t :: t2 :: t3 :: ts)) by (eapply Forall_impl; [|exact F]; intros a Ha; apply Ha).
    destruct (C50_many_terms bounds cs C Apart nofs name file m Nofs I Size (t :: t2 :: t3 :: ts) use ltac:(cbn; lia) L F' W) as [res [R1 [R2 [R3 _]]]].
    exists res. split; [exact R1|]. split; auto.
Qed.
Lemma use_single t use : getContextEntityScoreListsForWords file m use [t] = getContextEntityScoreListsForWords file m 0 [t].
Proof. reflexivity. Qed.

Lemma search_right ws : ws <> [] -> Forall good_word ws ->
  (exists ps, entity_lists file m ws ps) /\
  forall ps, entity_lists file m ws ps -> ascending (map p_cid ps) /\ Permutation (map fst ps) (map fst (with_all (map as_term ws))).
Proof.
  intros Hn F. pose proof (good_terms ws F) as F'.
  assert (Hn' : map as_term ws <> []) by (destruct ws; [congruence|discriminate]). unfold entity_lists. split.
  - destruct (best_exists ws Hn F) as [i B]. pose proof (best_in_range _ _ _ B) as R. rewrite <- (map_length as_term) in R.
    destruct (lists_at _ i Hn' F' R) as [ps [Q _]]. exists ps, i. split; auto. destruct ws as [|? [|? ?]]; auto.
  - intros ps [use [B Q]]. destruct ws as [|t [|t2 ws]]; [congruence| |].
    + cbn [map] in *. rewrite use_single in Q. destruct (lists_at [as_term t] 0 Hn' F' ltac:(cbn; lia)) as [ps' [Q' R]]. assert (ps = ps') by congruence. now subst.
    + pose proof (best_in_range _ _ _ B) as R. rewrite <- (map_length as_term) in R.
      destruct (lists_at _ use Hn' F' R) as [ps' [Q' R']]. assert (ps = ps') by congruence. now subst.
Qed.

Lemma unknown_prefix p ws : p < 2 ^ 64 ->
  getBlockInfoByWordRange m p ((p + (2 ^ 64 - 1)) mod 2 ^ 64) = Throw /\ text_estimate m (NoPrefix p :: ws) = Done 0.
Proof.
  intros H. destruct (C42_metadata bounds cs C Apart nofs name file m Nofs I Size) as [Ew _].
  destruct (co_bounds _ _ C) as [Hn [Hs Hl]]. rewrite <- Ew in *.
  split; [|reflexivity]. unfold getBlockInfoByWordRange.
  destruct (N.eq_dec p 0) as [->|Hp].
  - change ((0 + (2 ^ 64 - 1)) mod 2 ^ 64) with 18446744073709551615. change (18446744073709551615 <? 0) with false. cbv iota zeta.
    set (it := if Nat.eqb (find (m_words m) 0) (length (m_words m)) then (find (m_words m) 0 - 1)%nat else find (m_words m) 0).
    assert (L : (it < length (m_words m))%nat).
    { subst it. destruct (find_spec (m_words m) 0 Hs) as [L _].
      destruct (Nat.eqb_spec (find (m_words m) 0) (length (m_words m))); [|lia].
      destruct (m_words m); [congruence|]. cbn [length] in *. lia. }
    destruct (nth_error (m_words m) it) as [b|] eqn:E; [|apply nth_error_None in E; lia].
    assert (F : b <= last (m_words m) 0).
    { apply nth_error_nth with (d := 0) in E. rewrite <- E. now apply nth_le_last. }
    replace (b <? 18446744073709551615) with true by (symmetry; apply N.ltb_lt; change (2 ^ 63) with 9223372036854775808 in Hl; lia). reflexivity.
  - assert (E : (p + (2 ^ 64 - 1)) mod 2 ^ 64 = p - 1).
    { symmetry. apply N.mod_unique with 1; lia. }
    rewrite E. replace (p - 1 <? p) with true by (symmetry; apply N.ltb_lt; lia). reflexivity.
Qed.
End Index.
