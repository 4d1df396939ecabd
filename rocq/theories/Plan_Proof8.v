(* Induction over planning, and patterns whose triples share no cycle of variables. *)
From Coq Require Import String List NArith Arith Bool Lia Permutation Sorted.
From Verif Require Import Table_Spec Ops_Spec Ops_Model Vars_Model Vars_Thm Plan_Model Plan_Spec Plan_Proof1 Plan_Proof2 Plan_Proof3 Plan_Proof4 Plan_Proof5 Plan_Proof6 Plan_Proof7 Lex_Proof.
Import ListNotations.
Local Open Scope nat_scope.

(* ---------- induction ---------- *)
Lemma nth_last {A} (l : list A) d : last l d = nth (length l - 1) l d.
Proof.
  induction l as [|x l IH]; auto. destruct l as [|y l]; auto. change (last (x :: y :: l) d) with (last (y :: l) d). rewrite IH.
  cbn [length]. replace (S (S (length l)) - 1) with (S (S (length l) - 1)) by lia. reflexivity.
Qed.
Section Ind.
Variable o : oracle.
Variable ts : list triple.
Variable fs : list filt.
Hypothesis Hshuffle : forall gs, Permutation (shuffle o gs) gs.
Variable Q : nat -> plan -> Prop.
Hypothesis Qf : forall k p i f, Q k p -> nth_error fs i = Some f -> applicable o p i f = true -> Q k (filtered p i f).
Hypothesis Qc : forall i j a b cs c, Q i a -> Q j b -> candidates o ts a b = Val cs -> In c cs -> Q (i + j) c.
Definition allq (k : nat) (l : list plan) : Prop := forall p, In p l -> Q k p.
Lemma allq_filters k replace row r : allq k row -> apply_filters o fs replace row = Val r -> allq k r.
Proof.
  intros H E. refine (filters_loop_ind o fs replace (Q k) _ _ [] row r _ H E); [|intros p []]. intros p i f. apply Qf.
Qed.
Lemma allq_merge i j a b r : allq i a -> allq j b -> merge o ts a b = Val r -> allq (i + j) r.
Proof.
  intros Ha Hb E p Hp. destruct (merge_in o ts a b r Hshuffle E p Hp) as (x & y & cs & Hx & Hy & Hc & Hi).
  exact (Qc i j x y cs p (Ha x Hx) (Hb y Hy) Hc Hi).
Qed.
Definition rowsq (rows : list (list plan)) : Prop := forall i, allq (S i) (nth i rows []).
Lemma allq_row last rows k : rowsq rows -> forall m i row r, allq k row -> 1 <= i -> i + m <= k ->
  row_loop o ts fs last rows k m i row = Val r -> allq k r.
Proof.
  intros Hr. induction m as [|m IH]; intros i row r Ha H1 H2 E; cbn [row_loop] in E; [injection E as <-; auto|].
  apply bind_val in E. destruct E as (new & En & E).
  assert (Hn : allq k new).
  { replace k with (i + (k - i)) by lia.
    replace i with (S (i - 1)) at 1 by lia. replace (k - i) with (S (k - i - 1)) by lia.
    eapply allq_merge; [| |exact En]; apply Hr. }
  destruct new as [|p new]; [eapply IH; [exact Ha| | |exact E]; lia|].
  apply bind_val in E. destruct E as (row' & E1 & E2). eapply IH; [| | |exact E2]; try lia.
  eapply allq_filters; [|exact E1]. intros q Hq. apply in_app_or in Hq. destruct Hq; auto.
Qed.
Lemma rowsq_snoc rows row : rowsq rows -> allq (S (length rows)) row -> rowsq (rows ++ [row]).
Proof.
  intros H1 H2 i. destruct (Nat.lt_ge_cases i (length rows)).
  - rewrite app_nth1 by auto. apply H1.
  - rewrite app_nth2 by auto. destruct (Nat.eq_dec i (length rows)) as [->|].
    + rewrite Nat.sub_diag. exact H2.
    + replace (i - length rows) with (S (i - length rows - 1)) by lia. cbn. destruct (i - length rows - 1); intros p [].
Qed.
Lemma allq_rows numSeeds : forall m k rows r, rowsq rows -> length rows = k - 1 -> 2 <= k ->
  rows_loop o ts fs numSeeds m k rows = Val r -> rowsq r /\ length r = k - 1 + m.
Proof.
  induction m as [|m IH]; intros k rows r Hr L K E; cbn [rows_loop] in E; [injection E as <-; split; auto; lia|].
  apply bind_val in E. destruct E as (row & E1 & E2). destruct row as [|p row]; [discriminate|].
  destruct (IH (S k) (rows ++ [p :: row]) r) as [H1 H2]; auto.
  - apply rowsq_snoc; auto. rewrite L. replace (S (k - 1)) with k by lia.
    eapply (allq_row _ rows k Hr (k / 2) 1 []); [intros q []| | |exact E1]; auto.
    pose proof (Nat.div_le_upper_bound k 2 (k - 1) ltac:(lia) ltac:(lia)). lia.
  - rewrite app_length. cbn. lia.
  - split; auto. lia.
Qed.
Lemma plan_ind children t : (forall s, seeds o ts children = Val s -> allq 1 s) ->
  planned o ts fs children t -> exists p, p_tree p = t /\ Q (length ts + length children) p.
Proof.
  intros Hs (row & p & E & Ec & Et). subst t. unfold plan_row in E. apply bind_val in E. destruct E as (rows & E1 & E2).
  unfold fill_dp_tab in E1. destruct (64 <? length ts); [discriminate|].
  destruct (64 <? length fs); [discriminate|]. apply bind_val in E1. destruct E1 as (s & Es & E1). apply bind_val in E1.
  destruct E1 as (row1 & Er & E1). set (n := length ts + length children) in *.
  assert (R1 : rowsq [row1]).
  { intros [|i]; cbn; [eapply allq_filters; [|exact Er]; auto|]. destruct i; intros q []. }
  destruct (allq_rows n (n - 1) 2 [row1] rows R1 eq_refl ltac:(lia) E1) as [Hr L].
  destruct (Nat.eq_dec n 0) as [En|En].
  { exfalso. assert (length ts = 0) by (subst n; lia). assert (length children = 0) by (subst n; lia).
    destruct ts; [|discriminate]. destruct children; [|discriminate]. cbn in Es. injection Es as <-.
    cbn in Er. injection Er as <-. cbn in E1. injection E1 as <-. cbn in E2. injection E2 as <-. destruct Ec. }
  assert (Hl : allq n (last rows [])).
  { rewrite nth_last. replace n with (S (length rows - 1)) by lia. apply Hr. }
  exists p. split; auto. eapply allq_filters; [exact Hl|exact E2|exact Ec].
Qed.
End Ind.

(* ---------- numbers of variables ---------- *)
Lemma filter_or_and {A} (f g : A -> bool) l :
  length (filter (fun x => f x || g x) l) + length (filter (fun x => f x && g x) l) = length (filter f l) + length (filter g l).
Proof. induction l as [|x l IH]; cbn [filter]; auto. destruct (f x), (g x); cbn [orb andb length]; lia. Qed.
Lemma join_columns_length mb : forall ma, length (join_columns ma mb) =
  length (filter (fun v => match var_find mb v with Some _ => true | None => false end) (map fst ma)).
Proof. induction ma as [|[v c] ma IH]; cbn [join_columns map filter fst]; auto. destruct (var_find mb v); cbn [length]; lia. Qed.
Lemma find_key (m : var_map) v : var_find m v <> None <-> In v (map fst m).
Proof.
  induction m as [|[y d] m IH]; [cbn; intuition|]. rewrite find_cons. cbn [map fst In].
  destruct (String.eqb_spec y v) as [->|Ne]; [split; [auto|discriminate]|]. rewrite IH. intuition congruence.
Qed.
Definition wsum (nvars : nat -> list string) (n : nat) (M : N) : nat :=
  list_sum (map (fun i => length (nvars i)) (filter (fun i => N.testbit M (N.of_nat i)) (seq 0 n))).
Lemma wsum_lor nv n A B : N.land A B = 0%N -> wsum nv n (N.lor A B) = wsum nv n A + wsum nv n B.
Proof.
  intros H. unfold wsum, list_sum. induction (seq 0 n) as [|i l IH]; cbn [filter]; auto.
  assert (X : N.testbit A (N.of_nat i) && N.testbit B (N.of_nat i) = false) by now rewrite <- N.land_spec, H, N.bits_0.
  rewrite N.lor_spec. destruct (N.testbit A (N.of_nat i)), (N.testbit B (N.of_nat i)); cbn [andb orb map fold_right] in *; try discriminate; lia.
Qed.
Lemma wsum_bit nv n i : i < n -> wsum nv n (bit i) = length (nv i).
Proof.
  intros H. unfold wsum. rewrite (filter_ext _ (Nat.eqb i)) by (intros j; apply bit_spec).
  assert (X : forall k s, s <= i < s + k -> filter (Nat.eqb i) (seq s k) = [i]).
  { induction k as [|k IH]; intros s Hs; [lia|]. cbn [seq filter]. destruct (Nat.eqb_spec i s) as [->|].
    - f_equal. rewrite filter_none_iff; auto. intros x Hx. apply in_seq in Hx. apply Nat.eqb_neq. lia.
    - apply IH. lia. }
  rewrite X by lia. cbn. lia.
Qed.
Lemma wsum_full nv n M : (forall i, i < n -> N.testbit M (N.of_nat i) = true) ->
  wsum nv n M = list_sum (map (fun i => length (nv i)) (seq 0 n)).
Proof. intros H. unfold wsum. rewrite filter_id; auto. intros i Hi. apply in_seq in Hi. apply H. lia. Qed.

Section Acyclic.
Variable o : oracle.
Variable voc : string -> option N.
Variable ix : index.
Variable sat : filt -> list (option N) -> bool.
Variable leaf : nat -> table -> Prop.
Variable U : list string.
Variable n : nat.
Variable nvars npriv : nat -> list string.
Variable nbag : nat -> list mapping.
Variable fs : list filt.
Variable ts : list triple.
Hypothesis HU : NoDup U.
Hypothesis Hiter : forall t, Permutation (iter o t) (vars o t).
Hypothesis Hshuffle : forall gs, Permutation (shuffle o gs) gs.
Hypothesis nlens : forall i, lens (length U) (nbag i).
Hypothesis npriv_disj : forall i j v, In v (npriv i) -> In v (npriv j) -> i = j.
Hypothesis ndom : forall i m, In m (nbag i) -> dom_is U (fun v => In v (nvars i)) m.
Hypothesis nnodup : forall i, NoDup (nbag i).
Hypothesis Hfs : forall f v i, In f fs -> In v (filter_vars f) -> ~ In v (npriv i).
Hypothesis nvnodup : forall i, NoDup (nvars i).
Hypothesis nvU : forall i v, In v (nvars i) -> In v U.

Notation INV := (Inv o voc ix sat leaf U n nvars npriv nbag fs).
Notation GOODK := (goodk o voc ix sat leaf U n nvars npriv nbag fs).
Definition vcount (t : tree) : nat := length (filter (covered o t) U).
Definition acct (p : plan) : Prop := exists e,
  vcount (p_tree p) + e + count n (p_nodes p) = 1 + wsum nvars n (p_nodes p) /\ (e = 0 -> tree_ok o (p_tree p) = true).
Lemma covered_iff t v : covered o t v = true <-> var_find (vars o t) v <> None.
Proof. unfold covered. destruct (var_find _ v); split; congruence. Qed.
Lemma shared_length a b Ma Fa Mb Fb : INV a Ma Fa -> INV b Mb Fb -> disj Ma Mb ->
  length (join_cols o a b) = length (filter (fun v => covered o a v && covered o b v) U).
Proof.
  intros Ia Ib D. unfold join_cols. rewrite join_columns_length. apply Permutation_length, NoDup_Permutation.
  - apply NoDup_filter. apply (Permutation_NoDup (Permutation_sym (Permutation_map fst (Hiter a)))).
    apply (i_full _ _ _ _ _ _ _ _ _ _ _ _ _ _ Ia).
  - now apply NoDup_filter.
  - intros v. rewrite !filter_In, andb_true_iff, !covered_iff, find_key.
    assert (X : In v (map fst (iter o a)) <-> In v (map fst (vars o a)))
      by (split; apply Permutation_in; apply Permutation_map; auto using Permutation_sym).
    rewrite X. rewrite <- (find_key (vars o a)).
    assert (Y : (match var_find (vars o b) v with Some _ => true | None => false end = true) <-> var_find (vars o b) v <> None)
      by (destruct (var_find (vars o b) v); split; congruence). rewrite Y.
    split; [|tauto]. intros [H1 H2]. split; auto. exact (inv_common o voc ix sat leaf U n nvars npriv nbag fs npriv_disj a b Ma Fa Mb Fb v Ia Ib D H1 H2).
Qed.
Lemma vcount_union a b c Ma Fa Mb Fb Fc : INV a Ma Fa -> INV b Mb Fb -> disj Ma Mb -> INV c (N.lor Ma Mb) Fc ->
  vcount c + length (join_cols o a b) = vcount a + vcount b.
Proof.
  intros Ia Ib D Ic. rewrite (shared_length a b Ma Fa Mb Fb Ia Ib D). unfold vcount.
  rewrite <- (filter_or_and (covered o a) (covered o b)). f_equal. f_equal.
  apply filter_ext_in. intros v Hv. apply eq_true_iff_eq. rewrite orb_true_iff, !covered_iff.
  rewrite (i_dom _ _ _ _ _ _ _ _ _ _ _ _ _ _ Ia v Hv).
  rewrite (i_dom _ _ _ _ _ _ _ _ _ _ _ _ _ _ Ib v Hv), (i_dom _ _ _ _ _ _ _ _ _ _ _ _ _ _ Ic v Hv).
  split.
  - intros (i & Hb & H). rewrite N.lor_spec in Hb. apply orb_true_iff in Hb. destruct Hb; eauto.
  - intros [(i & Hb & H)|(i & Hb & H)]; exists i; rewrite N.lor_spec, Hb; auto using orb_true_r.
Qed.
Lemma acct_candidates i j a b cs c : GOODK i a -> GOODK j b -> acct a -> acct b -> candidates o ts a b = Val cs ->
  In c cs -> GOODK (i + j) c /\ acct c.
Proof.
  intros [Ga Ca] [Gb Cb] Aa Ab H Hc.
  destruct (good_candidates o voc ix sat leaf U n nvars npriv nbag fs HU Hiter nlens npriv_disj ndom nnodup Hfs ts a b cs Ga Gb H c Hc) as (Gc & M & Z).
  split; [split; auto; rewrite M, count_lor by auto; lia|].
  pose proof Gc as Gc'. unfold good in Gc'. rewrite M in Gc'.
  pose proof (vcount_union _ _ _ _ _ _ _ _ Ga Gb (land_disj _ _ Z) Gc') as V.
  destruct Aa as (ea & Aa & Ta), Ab as (eb & Ab & Tb).
  unfold acct. rewrite M, count_lor, wsum_lor by auto.
  unfold candidates in H. apply bind_val in H. destruct H as (conn & _ & H).
  destruct conn; [|cbn in H; injection H as <-; destruct Hc].
  destruct (join_cols o (p_tree a) (p_tree b)) as [|j1 [|j2 [|j3 jcs]]].
  - injection H as <-. destruct Hc.
  - destruct (dummy (p_tree a) && dummy (p_tree b)); [injection H as <-; destruct Hc|].
    destruct (sorted_input (p_tree a) (fst j1)) as [l|] eqn:El; [|injection H as <-; destruct Hc].
    destruct (sorted_input (p_tree b) (snd j1)) as [r|] eqn:Er; [|injection H as <-; destruct Hc].
    injection H as <-. destruct Hc as [<-|[]]. cbn [length] in V. exists (ea + eb). split; [lia|]. intros E.
    assert (X : forall t c t', sorted_input t c = Some t' -> tree_ok o t = true -> tree_ok o t' = true).
    { intros t c t'. unfold sorted_input. destruct (first_is _ _); [intros Q; injection Q as <-; auto|].
      destruct (is_scan t); [discriminate|]. intros Q. injection Q as <-. auto. }
    assert (tree_ok o l = true) by (eapply X; [exact El|apply Ta; lia]).
    assert (tree_ok o r = true) by (eapply X; [exact Er|apply Tb; lia]).
    cbn [p_tree]. unfold make_join. destruct (less o r l); cbn [tree_ok]; now rewrite andb_true_iff.
  - cbn [length] in V. exists (ea + eb + 1). split; lia.
  - cbn [length] in V. exists (ea + eb + (2 + length jcs)). split; lia.
Qed.
Lemma acct_filtered k p i f : GOODK k p /\ acct p -> nth_error fs i = Some f -> applicable o p i f = true ->
  GOODK k (filtered p i f) /\ acct (filtered p i f).
Proof.
  intros [[G Ck] A] Ei Ap. split; [split; auto|exact A]. eapply good_filtered; eauto.
Qed.
Lemma acct_seed t i : INV t (bit i) 0 -> i < n -> tree_ok o t = true -> acct (P t (bit i) 0).
Proof.
  intros I Hi Ok. exists 0. cbn [p_tree p_nodes]. split; auto. rewrite wsum_bit, count_bit by auto.
  enough (vcount t = length (nvars i)) by lia. unfold vcount. apply Permutation_length, NoDup_Permutation; auto.
  - now apply NoDup_filter.
  - intros v. rewrite filter_In, covered_iff. split.
    + intros [Hv H]. apply (i_dom _ _ _ _ _ _ _ _ _ _ _ _ _ _ I v Hv) in H. destruct H as (j & Hb & H).
      rewrite bit_spec in Hb. apply Nat.eqb_eq in Hb. now subst.
    + intros H. split; eauto. apply (i_dom _ _ _ _ _ _ _ _ _ _ _ _ _ _ I v); eauto. exists i. rewrite bit_spec, Nat.eqb_refl. auto.
Qed.
Lemma acyclic_ok children t : n = length ts + length children ->
  (forall s, seeds o ts children = Val s -> forall p, In p s -> GOODK 1 p /\ acct p) ->
  length U + n = 1 + list_sum (map (fun i => length (nvars i)) (seq 0 n)) ->
  (forall v, In v U -> exists i, i < n /\ In v (nvars i)) ->
  planned o ts fs children t -> tree_ok o t = true.
Proof.
  intros En Hs Cy Cov E.
  destruct (plan_ind o ts fs Hshuffle (fun k p => GOODK k p /\ acct p) acct_filtered) with (children := children) (t := t)
    as (p & <- & [G Ck] & (e & Ae & Te)); auto.
  { intros i j a b cs c [Ga Aa] [Gb Ab]. now apply acct_candidates. }
  rewrite <- En in Ck. pose proof (count_full _ _ Ck) as Hf. apply Te.
  enough (vcount (p_tree p) = length U) by (rewrite Ck, (wsum_full _ _ _ Hf) in Ae; lia).
  unfold vcount. rewrite filter_id; auto. intros v Hv. apply covered_iff.
  apply (i_dom _ _ _ _ _ _ _ _ _ _ _ _ _ _ G v Hv). destruct (Cov v Hv) as (i & Hi & H). eauto.
Qed.
End Acyclic.
