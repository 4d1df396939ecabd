(* A connected pattern gets a plan. *)
From Coq Require Import String List NArith Arith Bool Lia Permutation Sorted ZifyNat ZifyN ZifyBool.
From Verif Require Import Table_Spec Ops_Spec Ops_Model Vars_Model Vars_Thm Plan_Model Plan_Spec Plan_Proof1 Plan_Proof2 Plan_Proof3 Plan_Proof4 Plan_Proof5 Plan_Proof6 Plan_Proof7 Plan_Proof8 Plan_Proof9 Lex_Proof.
Import ListNotations.
Local Open Scope nat_scope.

(* ---------- pruning keeps a plan ---------- *)
Lemma group_add_nonempty o p gs : (forall g, In g gs -> g <> []) -> group_add o p gs <> [] /\ forall g, In g (group_add o p gs) -> g <> [].
Proof.
  induction gs as [|g gs IH]; cbn [group_add]; intros H.
  - split; [discriminate|]. intros g [<-|[]]. discriminate.
  - destruct IH as [_ IH]; [intros h Hh; apply H; now right|]. destruct g as [|q g]; [elim (H [] (or_introl eq_refl)); auto|].
    destruct (key_eqb _ _); (split; [discriminate|]); intros h [<-|Hh]; try discriminate; auto. apply H. now right.
Qed.
Lemma group_nonempty o p ps : group o (p :: ps) <> [] /\ forall g, In g (group o (p :: ps)) -> g <> [].
Proof.
  unfold group. cbn [fold_left].
  assert (G : forall ps gs, gs <> [] -> (forall g, In g gs -> g <> []) ->
    fold_left (fun gs p => group_add o p gs) ps gs <> [] /\ forall g, In g (fold_left (fun gs p => group_add o p gs) ps gs) -> g <> []).
  { induction ps0 as [|q ps0 IH]; cbn [fold_left]; intros gs H1 H2; auto. apply IH; now apply group_add_nonempty. }
  apply G; now apply group_add_nonempty.
Qed.
Lemma concat_nonempty {A} (l : list (result (list A))) x p q : concat_results l = Val x -> In (Val (p :: q)) l -> x <> [].
Proof.
  revert x. induction l as [|r l IH]; intros x E H; [destruct H|]. cbn [concat_results] in E. apply bind_val in E.
  destruct E as (y & -> & E). apply bind_val in E. destruct E as (z & Ez & E). injection E as <-. destruct H as [H|H].
  - injection H as ->. discriminate.
  - specialize (IH z Ez H). destruct y; [exact IH|discriminate].
Qed.
Lemma merge_nonempty o ts a b x y p l r : (forall gs, Permutation (shuffle o gs) gs) -> In x a -> In y b -> candidates o ts x y = Val (p :: l) ->
  merge o ts a b = Val r -> r <> [].
Proof.
  intros Hs Hx Hy Hc E. unfold merge in E. apply bind_val in E. destruct E as (cs & Ec & E). injection E as <-.
  assert (N : cs <> []).
  { apply (concat_nonempty _ _ p l Ec). apply in_flat_map. exists x. split; auto. rewrite <- Hc. apply in_map_iff. eauto. }
  destruct cs as [|c cs]; [congruence|]. destruct (group_nonempty o c cs) as [G1 G2].
  destruct (group o (c :: cs)) as [|g gs] eqn:Eg; [congruence|].
  assert (Hg : In g (shuffle o (g :: gs))) by (apply (Permutation_in _ (Permutation_sym (Hs _))); now left).
  destruct g as [|q g]; [elim (G2 [] (or_introl eq_refl)); auto|].
  intros F. assert (X : In (cheapest_loop o MAX_SIZE_T q (q :: g)) (flat_map (fun g => match cheapest o g with Some p => [p] | None => [] end) (shuffle o ((q :: g) :: gs)))).
  { apply in_flat_map. exists (q :: g). split; auto. now left. }
  rewrite F in X. destruct X.
Qed.
Lemma filters_loop_length o fs replace : forall fuel fin row r, filters_loop o fuel fs replace fin row = Val r ->
  length fin + length row <= length r.
Proof.
  induction fuel as [|fuel IH]; intros fin row r E; destruct row as [|p row]; cbn [filters_loop] in E; try discriminate;
    try (injection E as <-; cbn; lia).
  destruct (dummy (p_tree p)); [|destruct replace]; apply IH in E; rewrite ?app_length in E; cbn [length] in *; lia.
Qed.
Lemma filters_nonempty o fs replace row r : row <> [] -> apply_filters o fs replace row = Val r -> r <> [].
Proof.
  intros N E. apply filters_loop_length in E. destruct row; [congruence|]. destruct r; [cbn in E; lia|discriminate].
Qed.
Lemma filters_loop_keeps o fs : forall fuel fin row r, filters_loop o fuel fs false fin row = Val r ->
  forall p, In p fin \/ In p row -> In p r.
Proof.
  induction fuel as [|fuel IH]; intros fin row r E p H; destruct row as [|q row]; cbn [filters_loop] in E; try discriminate;
    try (injection E as <-; destruct H as [H|[]]; exact H).
  destruct (dummy (p_tree q)); apply (IH _ _ _ E); rewrite ?in_app_iff; cbn [In] in *; tauto.
Qed.

(* ---------- candidates ---------- *)
Lemma find_some_in (m : var_map) v c : var_find m v = Some c -> In (v, c) m.
Proof.
  induction m as [|[y d] m IH]; [discriminate|]. rewrite find_cons. destruct (String.eqb_spec y v) as [->|].
  - intros H. injection H as ->. now left.
  - intros H. right. auto.
Qed.
(* the plan is sorted by v, or can be sorted *)
Definition sortable (o : oracle) (t : tree) (v : string) : Prop :=
  exists c, var_find (vars o t) v = Some c /\ (is_scan t = true -> first_is (sorted_of t) c = true).
Lemma candidates_some o ts x y v : (forall t, Permutation (iter o t) (vars o t)) -> connected o ts x y = Val true ->
  dummy (p_tree x) = false -> sortable o (p_tree x) v -> sortable o (p_tree y) v ->
  exists p l, candidates o ts x y = Val (p :: l).
Proof.
  intros Hi Cn Dx (c & Hc & Sc) (d & Hd & Sd). unfold candidates. rewrite Cn. cbn [bind].
  assert (J : jcs_of (vars o (p_tree x)) (vars o (p_tree y)) (join_cols o (p_tree x) (p_tree y))).
  { unfold jcs_of, join_cols. apply join_columns_perm, Hi. }
  assert (I : In (c, d) (join_cols o (p_tree x) (p_tree y))).
  { apply (jcs_in _ _ _ _ J). exists v. split; auto. now apply find_some_in. }
  destruct (join_cols o (p_tree x) (p_tree y)) as [|j1 [|j2 [|j3 jcs]]].
  - destruct I.
  - rewrite Dx. cbn [andb]. destruct I as [->|[]]. cbn [fst snd].
    assert (S : forall t e, (is_scan t = true -> first_is (sorted_of t) e = true) -> exists t', sorted_input t e = Some t').
    { intros t e H. unfold sorted_input. destruct (first_is (sorted_of t) e); [eauto|]. destruct (is_scan t); [|eauto]. discriminate (H eq_refl). }
    destruct (S _ _ Sc) as (l & ->). destruct (S _ _ Sd) as (r & ->). eauto.
  - rewrite Dx. cbn. eauto.
  - eauto.
Qed.

(* ---------- the seeds of a triple ---------- *)
(* the triple has a variable; the predicate is a constant, or a variable while the subject or the object is a constant *)
Definition easy (t : triple) : Prop :=
  triple_vars t <> [] /\ predicate_ok t /\ (is_var (t_p t) = true -> is_var (t_s t) = false \/ is_var (t_o t) = false).
Lemma find2_0 v w : var_find (values_vars [] 0 [v; w]) v = Some 0 \/ v = w.
Proof.
  destruct (string_dec v w) as [->|N]; auto. left. apply C46_values; [|reflexivity].
  constructor; [cbn; intuition|]. constructor; [intros []|constructor].
Qed.
Lemma easy_seeds o allp fr t v : easy t -> In v (triple_vars t) ->
  exists l x, seeds_of allp fr t = Val l /\ In x l /\ dummy x = false /\ sortable o x v.
Proof.
  intros (Ne & Ok & Hp) Hv. pose proof (triple_vars_length t Ok) as L. apply triple_vars_in in Hv. destruct Hv as [Vv Hv].
  destruct t as [s p ob]. cbn [t_s t_p t_o] in *. unfold seeds_of. cbn [t_s t_p t_o].
  assert (One : forall ord b, exists c, var_find (vars o (Scan ord b [v])) v = Some c /\ (is_scan (Scan ord b [v]) = true -> first_is (sorted_of (Scan ord b [v])) c = true)).
  { intros ord b. exists 0. split; [|reflexivity]. cbn [vars values_vars]. now rewrite find_set, String.eqb_refl. }
  assert (Two : forall ord b w, v <> w -> sortable o (Scan ord b [v; w]) v).
  { intros ord b w Hw. exists 0. split; [|reflexivity]. cbn [vars]. destruct (find2_0 v w); [auto|congruence]. }
  unfold predicate_ok in Ok. cbn [t_s t_p t_o] in Ok.
  destruct (is_var s) eqn:Vs, (is_var p) eqn:Vp, (is_var ob) eqn:Vo; cbn [andb] in L;
    try (destruct (Hp eq_refl); discriminate).
  - rewrite L. cbn [plus]. cbn [negb andb]. destruct (Ok eq_refl) as [N1 N2].
    assert (v = s \/ v = p) as [-> | ->] by (intuition congruence).
    * eexists _, _. split; [reflexivity|]. split; [now left|]. split; [reflexivity|]. apply Two. congruence.
    * eexists _, _. split; [reflexivity|]. split; [now right; left|]. split; [reflexivity|]. apply Two. congruence.
  - destruct (String.eqb_spec s ob) as [<-|Ns]; rewrite L.
    + cbn [plus andb]. eexists _, _. split; [reflexivity|]. split; [now left|]. split; [reflexivity|].
      assert (v = s) by (intuition congruence). subst v.
      assert (X : var_find (vars o (EqFilter (Scan PSO [p] [s; fr]) s fr)) s <> None).
      { cbn [vars]. destruct (find2_0 s fr) as [E|<-]; [congruence|]. cbn [values_vars]. rewrite find_set, String.eqb_refl. discriminate. }
      destruct (var_find (vars o (EqFilter (Scan PSO [p] [s; fr]) s fr)) s) as [c|] eqn:E; [|congruence]. exists c. split; [exact E|discriminate].
    + cbn [plus negb]. assert (v = s \/ v = ob) as [-> | ->] by (intuition congruence).
      * eexists _, _. split; [reflexivity|]. split; [now left|]. split; [reflexivity|]. now apply Two.
      * eexists _, _. split; [reflexivity|]. split; [now right; left|]. split; [reflexivity|]. apply Two. congruence.
  - rewrite L. cbn [plus]. cbn [andb]. assert (v = s) by (intuition congruence). subst v.
    eexists _, _. split; [reflexivity|]. split; [now left|]. split; [reflexivity|]. apply One.
  - rewrite L. cbn [plus]. cbn [negb andb]. destruct (Ok eq_refl) as [N1 N2].
    assert (v = p \/ v = ob) as [-> | ->] by (intuition congruence).
    * eexists _, _. split; [reflexivity|]. split; [now left|]. split; [reflexivity|]. apply Two. congruence.
    * eexists _, _. split; [reflexivity|]. split; [now right; left|]. split; [reflexivity|]. apply Two. congruence.
  - rewrite L. cbn [plus]. cbn [andb]. assert (v = p) by (intuition congruence). subst v.
    eexists _, _. split; [reflexivity|]. split; [now left|]. split; [reflexivity|]. apply One.
  - rewrite L. cbn [plus]. cbn [andb]. assert (v = ob) by (intuition congruence). subst v.
    eexists _, _. split; [reflexivity|]. split; [now left|]. split; [reflexivity|]. apply One.
  - intuition congruence.
Qed.
Lemma triple_seeds_val o : forall ts i, (forall t, In t ts -> easy t) -> exists l, triple_seeds o i ts = Val l.
Proof.
  induction ts as [|t ts IH]; intros i H; cbn [triple_seeds]; [eauto|].
  destruct (H t (or_introl eq_refl)) as (Ne & _). destruct (triple_vars t) as [|v l] eqn:E; [congruence|].
  destruct (easy_seeds o (all_permutations o) (fresh o i) t v (H t (or_introl eq_refl))) as (l' & x & -> & _); [rewrite E; now left|].
  destruct (IH (S i)) as (m & ->); [intros; apply H; now right|]. cbn. eauto.
Qed.
Lemma triple_seeds_has o : forall ts i l, triple_seeds o i ts = Val l -> forall j t r x, nth_error ts j = Some t ->
  seeds_of (all_permutations o) (fresh o (i + j)) t = Val r -> In x r -> In (P x (bit (i + j)) 0) l.
Proof.
  induction ts as [|t ts IH]; intros i l E j u r x Hj Er Hx; [destruct j; discriminate|]. cbn [triple_seeds] in E.
  apply bind_val in E. destruct E as (a & Ea & E). apply bind_val in E. destruct E as (b & Eb & E). injection E as <-.
  apply in_or_app. destruct j as [|j]; cbn [nth_error] in Hj.
  - injection Hj as ->. rewrite Nat.add_0_r in *. left. apply in_map_iff. exists x. split; auto. congruence.
  - right. rewrite Nat.add_succ_r in *. apply (IH (S i) b Eb j u r x); auto.
Qed.

(* ---------- connected patterns ---------- *)
(* every set of triples that is neither empty nor everything shares a variable with the rest *)
Definition connected_pattern (ts : list triple) : Prop :=
  forall S : nat -> bool, (exists i, i < length ts /\ S i = true) -> (exists j, j < length ts /\ S j = false) ->
  exists i j a b v, nth_error ts i = Some a /\ nth_error ts j = Some b /\ S i = true /\ S j = false /\
    In v (triple_vars a) /\ In v (triple_vars b).

Lemma bits_small M n : (forall i, N.testbit M (N.of_nat i) = true -> i < n) -> (M < bit n)%N.
Proof.
  intros H. unfold bit. rewrite N.shiftl_1_l. destruct (N.eq_dec M 0) as [->|Nz]; [apply N.neq_0_lt_0, N.pow_nonzero; lia|].
  apply N.log2_lt_pow2; [lia|]. specialize (H (N.to_nat (N.log2 M))). rewrite N2Nat.id in H.
  specialize (H (N.bit_log2 _ Nz)). lia.
Qed.
Section Connected.
Variable o : oracle.
Variable ts : list triple.
Variable fs : list filt.
Hypothesis Hiter : forall t, Permutation (iter o t) (vars o t).
Hypothesis Hshuffle : forall gs, Permutation (shuffle o gs) gs.
Hypothesis Heasy : forall t, In t ts -> easy t.
Hypothesis Hconn : connected_pattern ts.
Hypothesis Hlen : length ts < 64.
Variable Q : nat -> plan -> Prop.
Hypothesis Qf : forall k p i f, Q k p -> nth_error fs i = Some f -> applicable o p i f = true -> Q k (filtered p i f).
Hypothesis Qc : forall i j a b cs c, Q i a -> Q j b -> candidates o ts a b = Val cs -> In c cs -> Q (i + j) c.
Hypothesis Qseeds : forall s, seeds o ts [] = Val s -> allq Q 1 s.
Hypothesis Qcount : forall k p, Q k p -> count (length ts) (p_nodes p) = k /\ forall i, N.testbit (p_nodes p) (N.of_nat i) = true -> i < length ts.
Hypothesis Qvars : forall k p i t v, Q k p -> N.testbit (p_nodes p) (N.of_nat i) = true -> nth_error ts i = Some t ->
  In v (triple_vars t) -> var_find (vars o (p_tree p)) v <> None.
Hypothesis Qscan : forall k p, Q k p -> 2 <= k -> is_scan (p_tree p) = false.

Lemma connected_true x y i j a b v : N.land (p_nodes x) (p_nodes y) = 0%N ->
  (forall i, N.testbit (p_nodes x) (N.of_nat i) = true -> i < length ts) ->
  (forall i, N.testbit (p_nodes y) (N.of_nat i) = true -> i < length ts) ->
  N.testbit (p_nodes x) (N.of_nat i) = true -> N.testbit (p_nodes y) (N.of_nat j) = true ->
  nth_error ts i = Some a -> nth_error ts j = Some b -> In v (triple_vars a) -> In v (triple_vars b) ->
  connected o ts x y = Val true.
Proof.
  intros Z Bx By Hi Hj Ha Hb Va Vb. unfold connected. rewrite Z. cbn [negb N.eqb].
  destruct (Nat.leb_spec 64 (length ts)); [lia|].
  pose proof (bits_small _ _ Bx). pose proof (bits_small _ _ By).
  replace (N.leb (bit (length ts)) (p_nodes x)) with false by lia. replace (N.leb (bit (length ts)) (p_nodes y)) with false by lia.
  cbn [orb]. f_equal. apply existsb_exists. exists i. split; [apply in_seq; specialize (Bx i Hi); lia|]. rewrite Hi. cbn [andb].
  assert (Nx : N.testbit (p_nodes x) (N.of_nat j) = false).
  { destruct (N.testbit (p_nodes x) (N.of_nat j)) eqn:E; auto. pose proof (f_equal (fun z => N.testbit z (N.of_nat j)) Z) as Z'.
    cbn beta in Z'. rewrite N.land_spec, E, Hj, N.bits_0 in Z'. discriminate. }
  apply existsb_exists. exists j. split; [apply in_seq; specialize (By j Hj); lia|]. rewrite Hj, Nx. cbn [negb andb]. rewrite !andb_true_r.
  unfold adjacent. rewrite Ha, Hb. apply andb_true_iff. split.
  - apply negb_true_iff, Nat.eqb_neq. intros ->. congruence.
  - apply existsb_exists. exists v. split; auto. unfold mem. apply existsb_exists. exists v. split; auto. apply String.eqb_refl.
Qed.
Lemma land_bit j M : N.testbit M (N.of_nat j) = false -> N.land (bit j) M = 0%N.
Proof.
  intros H. apply N.bits_inj_0. intros m. rewrite N.land_spec. rewrite <- (N2Nat.id m), bit_spec.
  destruct (Nat.eqb_spec j (N.to_nat m)) as [->|]; auto.
Qed.
Lemma count_lt n M k : count n M = k -> 1 <= k < n ->
  (exists i, i < n /\ N.testbit M (N.of_nat i) = true) /\ (exists i, i < n /\ N.testbit M (N.of_nat i) = false).
Proof.
  intros E K. unfold count in E. split.
  - destruct (filter (fun i => N.testbit M (N.of_nat i)) (seq 0 n)) as [|i l] eqn:F; [cbn in E; lia|].
    assert (I : In i (filter (fun i => N.testbit M (N.of_nat i)) (seq 0 n))) by (rewrite F; now left).
    apply filter_In in I. destruct I as [I1 I2]. apply in_seq in I1. exists i. split; auto. lia.
  - destruct (forallb (fun i => N.testbit M (N.of_nat i)) (seq 0 n)) eqn:F.
    + exfalso. rewrite forallb_forall in F. rewrite (filter_id _ _ F), seq_length in E. lia.
    + assert (X : exists i, In i (seq 0 n) /\ N.testbit M (N.of_nat i) = false).
      { clear E. induction (seq 0 n) as [|i l IH]; [discriminate|]. cbn [forallb] in F. destruct (N.testbit M (N.of_nat i)) eqn:T.
        - destruct IH as (k' & H1 & H2); auto. exists k'. split; auto. now right.
        - exists i. split; auto. now left. }
      destruct X as (i & I & T). apply in_seq in I. exists i. split; auto. lia.
Qed.
(* the seeds are in the first row *)
Definition has_seeds (row1 : list plan) : Prop :=
  forall j t r x, nth_error ts j = Some t -> seeds_of (all_permutations o) (fresh o j) t = Val r -> In x r -> In (P x (bit j) 0) row1.
Lemma pair_exists rows k : rowsq Q rows -> has_seeds (nth 0 rows []) -> 2 <= k <= length ts ->
  nth (k - 2) rows [] <> [] ->
  exists x y p l, In x (nth 0 rows []) /\ In y (nth (k - 2) rows []) /\ candidates o ts x y = Val (p :: l).
Proof.
  intros HR HS K N.
  assert (Seed : forall j t v, nth_error ts j = Some t -> In v (triple_vars t) ->
     exists x, In (P x (bit j) 0) (nth 0 rows []) /\ dummy x = false /\ sortable o x v).
  { intros j t v Hj Hv. destruct (easy_seeds o (all_permutations o) (fresh o j) t v) as (l & x & E & Hx & D & S); auto.
    - apply Heasy. eapply nth_error_In; eauto.
    - exists x. split; auto. eapply HS; eauto. }
  assert (Nodes : forall x j i, In (P x (bit j) 0) (nth 0 rows []) -> N.testbit (bit j) (N.of_nat i) = true -> i < length ts).
  { intros x j i H. apply (Qcount 1 (P x (bit j) 0)). apply (HR 0). exact H. }
  destruct (Nat.eq_dec k 2) as [->|K2].
  - cbn [Nat.sub].
    destruct (Hconn (fun i => Nat.eqb 0 i)) as (i & j & a & b & v & Ha & Hb & Si & Sj & Va & Vb).
    { exists 0. split; [lia|reflexivity]. } { exists 1. split; [lia|reflexivity]. }
    apply Nat.eqb_eq in Si. subst i. apply Nat.eqb_neq in Sj.
    destruct (Seed 0 a v Ha Va) as (y & Hy & Dy & Sy). destruct (Seed j b v Hb Vb) as (x & Hx & Dx & Sx).
    assert (C : connected o ts (P x (bit j) 0) (P y (bit 0) 0) = Val true).
    { apply (connected_true (P x (bit j) 0) (P y (bit 0) 0) j 0 b a v); cbn [p_nodes]; auto; eauto; try (rewrite bit_spec; apply Nat.eqb_refl).
      apply land_bit. rewrite bit_spec. now apply Nat.eqb_neq. }
    destruct (candidates_some o ts (P x (bit j) 0) (P y (bit 0) 0) v Hiter C) as (p & l & E); auto.
    exists (P x (bit j) 0), (P y (bit 0) 0), p, l. auto.
  - destruct (nth (k - 2) rows []) as [|y row] eqn:Er; [congruence|].
    assert (Qy : Q (k - 1) y). { replace (k - 1) with (S (k - 2)) by lia. apply (HR (k - 2)). rewrite Er. now left. }
    destruct (Qcount _ _ Qy) as [Cy By]. destruct (count_lt _ _ _ Cy ltac:(lia)) as [S1 S2].
    destruct (Hconn (fun i => N.testbit (p_nodes y) (N.of_nat i)) S1 S2) as (i & j & a & b & v & Ha & Hb & Si & Sj & Va & Vb).
    destruct (Seed j b v Hb Vb) as (x & Hx & Dx & Sx).
    assert (C : connected o ts (P x (bit j) 0) y = Val true).
    { apply (connected_true (P x (bit j) 0) y j i b a v); cbn [p_nodes]; auto; eauto; try (rewrite bit_spec; apply Nat.eqb_refl).
      now apply land_bit. }
    destruct (candidates_some o ts (P x (bit j) 0) y v Hiter C) as (p & l & E); auto.
    { pose proof (Qvars _ _ _ _ _ Qy Si Ha Va) as Nv. destruct (var_find (vars o (p_tree y)) v) as [c|] eqn:F; [|congruence].
      exists c. split; auto. rewrite (Qscan _ _ Qy) by lia. discriminate. }
    exists (P x (bit j) 0), y, p, l. split; auto. split; auto. now left.
Qed.
Lemma row_nonempty last rows k : forall m i row r, row <> [] -> row_loop o ts fs last rows k m i row = Val r -> r <> [].
Proof.
  induction m as [|m IH]; intros i row r N E; cbn [row_loop] in E; [injection E as <-; auto|].
  apply bind_val in E. destruct E as (new & _ & E). destruct new as [|p new]; [eapply IH; eauto|].
  apply bind_val in E. destruct E as (row' & E1 & E2). eapply IH; [|exact E2]. eapply filters_nonempty; [|exact E1]. now destruct row.
Qed.
Lemma row_loop_val last rows k : forall m i row, exists r, row_loop o ts fs last rows k m i row = Val r.
Proof.
  induction m as [|m IH]; intros i row; cbn [row_loop]; [eauto|].
  assert (M : exists new, merge o ts (nth (i - 1) rows []) (nth (k - i - 1) rows []) = Val new).
  { unfold merge. assert (C : forall l, (forall r, In r l -> exists v : list plan, r = Val v) -> exists v, concat_results l = Val v).
    { induction l as [|r l IHl]; intros H; cbn [concat_results]; [eauto|]. destruct (H r (or_introl eq_refl)) as (v & ->).
      destruct IHl as (w & ->); [intros; apply H; now right|]. cbn. eauto. }
    destruct (C (flat_map (fun x => map (fun y => candidates o ts x y) (nth (k - i - 1) rows [])) (nth (i - 1) rows []))) as (v & ->); [|cbn; eauto].
    intros r Hr. apply in_flat_map in Hr. destruct Hr as (x & _ & Hr). apply in_map_iff in Hr. destruct Hr as (y & <- & _).
    assert (Cv : exists c, connected o ts x y = Val c).
    { unfold connected. destruct (negb _); [eauto|]. destruct (Nat.leb_spec 64 (length ts)); [lia|]. destruct (_ || _); eauto. }
    destruct Cv as (c & Cv). unfold candidates. rewrite Cv. cbn [bind].
    destruct (if c then _ else _) as [|j1 [|j2 [|j3 jcs]]]; repeat match goal with
      | |- context [if ?c then _ else _] => destruct c
      | |- context [match sorted_input ?a ?b with _ => _ end] => destruct (sorted_input a b) end; eauto. }
  destruct M as (new & ->). cbn [bind]. destruct new as [|p new]; [apply IH|].
  destruct (apply_filters_val o fs last (row ++ p :: new)) as (r & ->). cbn [bind]. apply IH.
Qed.
Lemma rows_val n : forall m k rows, rowsq Q rows -> has_seeds (nth 0 rows []) -> length rows = k - 1 -> 2 <= k -> k + m = length ts + 1 ->
  (forall i, i < length rows -> nth i rows [] <> []) ->
  exists r, rows_loop o ts fs n m k rows = Val r /\ length r = length ts /\ forall i, i < length r -> nth i r [] <> [].
Proof.
  induction m as [|m IH]; intros k rows HR HS L K E Ne; cbn [rows_loop].
  - exists rows. split; auto. split; auto. lia.
  - destruct (row_loop_val (Nat.eqb n k) rows k (k / 2) 1 []) as (row & Er). rewrite Er. cbn [bind].
    assert (Nr : row <> []).
    { assert (D : exists d, k / 2 = S d) by (exists (k / 2 - 1); pose proof (Nat.div_le_lower_bound k 2 1); lia).
      destruct D as (d & D). rewrite D in Er. cbn [row_loop] in Er. apply bind_val in Er. destruct Er as (new & En & Er).
      replace (1 - 1) with 0 in En by lia. replace (k - 1 - 1) with (k - 2) in En by lia.
      destruct (pair_exists rows k HR HS) as (x & y & p & l & Hx & Hy & Hc); [lia|apply Ne; lia|].
      pose proof (merge_nonempty _ _ _ _ _ _ _ _ _ Hshuffle Hx Hy Hc En) as Nn. destruct new as [|q new]; [congruence|].
      apply bind_val in Er. destruct Er as (row' & E1 & E2). eapply row_nonempty; [|exact E2]. eapply filters_nonempty; [|exact E1].
      discriminate. }
    destruct row as [|p row]; [congruence|]. apply IH; try lia.
    + apply (rowsq_snoc o ts fs Hshuffle Q Qf Qc); auto. rewrite L. replace (S (k - 1)) with k by lia.
      eapply (allq_row o ts fs Hshuffle Q Qf Qc _ rows k HR (k / 2) 1 []); [intros q []| | |exact Er]; auto.
      pose proof (Nat.div_le_upper_bound k 2 (k - 1) ltac:(lia) ltac:(lia)). lia.
    + rewrite app_nth1 by lia. exact HS.
    + rewrite app_length. cbn. lia.
    + intros i Hi. rewrite app_length in Hi. cbn [length] in Hi. destruct (Nat.eq_dec i (length rows)) as [->|].
      * rewrite app_nth2, Nat.sub_diag by lia. discriminate.
      * rewrite app_nth1 by lia. apply Ne. lia.
Qed.
Lemma plan_exists : ts <> [] -> length fs <= 64 -> exists t, plan_pattern o ts fs [] = Val t.
Proof.
  intros Nt Lf. unfold plan_pattern, fill_dp_tab. destruct (Nat.ltb_spec 64 (length ts)); [lia|]. destruct (Nat.ltb_spec 64 (length fs)); [lia|].
  cbn [length]. rewrite Nat.add_0_r. destruct (triple_seeds_val o ts 0 Heasy) as (s & Es).
  assert (Ess : seeds o ts [] = Val s) by (unfold seeds; cbn [child_seeds bind]; now rewrite Es). rewrite Ess. cbn [bind].
  destruct (apply_filters_val o fs (Nat.eqb (length ts) 1) s) as (row1 & E1). rewrite E1. cbn [bind].
  assert (R1 : rowsq Q [row1]).
  { intros [|i]; cbn; [eapply allq_filters; [exact Qf| |exact E1]; auto|]. destruct i; intros q []. }
  assert (Ns : s <> []).
  { destruct ts as [|t l]; [congruence|]. destruct (Heasy t (or_introl eq_refl)) as (Ne & _). destruct (triple_vars t) as [|v vl] eqn:Ev; [congruence|].
    destruct (easy_seeds o (all_permutations o) (fresh o 0) t v (Heasy t (or_introl eq_refl))) as (r & x & Er & Hx & _); [rewrite Ev; now left|].
    pose proof (triple_seeds_has o (t :: l) 0 s Es 0 t r x eq_refl Er Hx) as I. intros ->. destruct I. }
  assert (N1 : row1 <> []) by (eapply filters_nonempty; eauto).
  assert (R : exists rows, rows_loop o ts fs (length ts) (length ts - 1) 2 [row1] = Val rows /\ last rows [] <> []).
  { destruct (Nat.eq_dec (length ts) 1) as [L1|L1].
    - rewrite L1. cbn. exists [row1]. auto.
    - assert (1 < length ts) by (destruct ts as [|? [|? ?]]; [congruence|cbn in L1; lia|cbn; lia]).
      destruct (rows_val (length ts) (length ts - 1) 2 [row1]) as (rows & E & L & Ne); auto; try lia.
      + cbn [nth]. intros j t r x Hj Er Hx. unfold apply_filters in E1. replace (Nat.eqb (length ts) 1) with false in E1 by (symmetry; now apply Nat.eqb_neq).
        apply (filters_loop_keeps _ _ _ _ _ _ E1). right. exact (triple_seeds_has o ts 0 s Es j t r x Hj Er Hx).
      + intros [|[|i]] Hi; cbn in *; auto; lia.
      + exists rows. split; auto. rewrite nth_last. apply Ne. lia. }
  destruct R as (rows & -> & Nl). cbn [bind]. destruct (apply_filters_val o fs true (last rows [])) as (row & Er). rewrite Er. cbn [bind].
  pose proof (filters_nonempty _ _ _ _ _ Nl Er) as N. destruct row as [|p row]; [congruence|]. cbn [cheapest]. eauto.
Qed.
End Connected.
