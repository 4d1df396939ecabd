(* C06 for the rows of text searches with several entities. *)
From Coq Require Import List NArith Arith Bool Lia Permutation Sorted.
From Verif Require Import Table_Spec Rows_Spec Rows_Model Rows_Proof.
Import ListNotations.
Open Scope N_scope.

(* What a sort gives back. *)
Definition sorts (sort : table -> table) (t : table) : Prop :=
  Permutation (sort t) t /\ StronglySorted (fun a b => less_row b a = false) (sort t).

(* Every combination of entities but the greatest gets min(k, n) of its n rows, with the number n as score; the rows that are
   kept are however the lowest scored ones. With at most k rows of this combination all rows are kept and the result is as intended. *)
Theorem C06_rows_partial : forall sort k w t key, sorts sort t -> (0 < k)%nat -> (2 <= w)%nat -> width w t ->
  (exists r, In r t /\ before key (entities r)) ->
  exists kept others, Permutation (rows_of key t) (kept ++ others) /\
    rows_of key (agg_rows sort k t) = map (with_score (N.of_nat (length (rows_of key t)))) kept /\
    length kept = Nat.min k (length (rows_of key t)) /\
    (forall b o, In b kept -> In o others -> score b <= score o) /\
    ((length (rows_of key t) <= k)%nat -> others = []).
Proof.
  intros sort k w t key HS Hk Hw W (r & Hr & Hb). destruct HS as [P S].
  exists (firstn k (rows_of key (sort t))), (skipn k (rows_of key (sort t))).
  assert (Ws : forall r, In r (sort t) -> length r = w).
  { intros x Hx. unfold width in W. rewrite Forall_forall in W. apply W. eapply Permutation_in; eauto. }
  assert (Pk := perm_rows key _ _ P). assert (Lk := Permutation_length Pk).
  rewrite (agg_rows_ok sort k w t Hk Hw W P S). destruct (list_eq_dec N.eq_dec (entities (last (sort t) [])) key) as [E|E].
  - exfalso. apply (before_le _ _ Hb). rewrite <- E. apply last_max; [now apply (sorted_lex w)|]. eapply Permutation_in; [symmetry; exact P|auto].
  - split; [rewrite firstn_skipn; now symmetry|]. split; [reflexivity|]. split; [rewrite firstn_length; congruence|].
    split; [apply split_scores, sorted_scores, S|]. intros L. apply skipn_all2. congruence || lia.
Qed.

(* No row is invented: every row of the result is, up to its score, a row of the input. *)
Theorem C06_rows_sound : forall sort k w t r, sorts sort t -> (0 < k)%nat -> (2 <= w)%nat -> width w t -> In r (agg_rows sort k t) ->
  exists r' n, In r' t /\ (r = r' \/ r = with_score n r').
Proof.
  intros sort k w t r HS Hk Hw W Hr. destruct HS as [P S].
  assert (Hr2 : In r (rows_of (entities r) (agg_rows sort k t))).
  { apply filter_In. split; auto. unfold has_entities. destruct (list_eq_dec N.eq_dec (entities r) (entities r)); congruence. }
  rewrite (agg_rows_ok sort k w t Hk Hw W P S) in Hr2.
  assert (G : forall x, In x (firstn k (rows_of (entities r) (sort t))) -> In x t).
  { intros x Hx. apply in_firstn in Hx. apply filter_In in Hx. eapply Permutation_in; [exact P|tauto]. }
  destruct (list_eq_dec N.eq_dec (entities (last (sort t) [])) (entities r)).
  - exists r, 0. split; [apply G; exact Hr2|now left].
  - apply in_map_iff in Hr2. destruct Hr2 as (x & Ex & Hx). exists x. eexists. split; [apply G; exact Hx|right; symmetry; exact Ex].
Qed.

(* Every combination of entities is found. *)
Theorem C06_rows_complete : forall sort k w t r, sorts sort t -> (0 < k)%nat -> (2 <= w)%nat -> width w t -> In r t ->
  exists r', In r' (agg_rows sort k t) /\ entities r' = entities r.
Proof.
  intros sort k w t r HS Hk Hw W Hr. destruct HS as [P S].
  assert (Hr2 : In r (rows_of (entities r) (sort t))).
  { apply filter_In. split; [eapply Permutation_in; [symmetry; exact P|auto]|]. unfold has_entities. destruct (list_eq_dec N.eq_dec (entities r) (entities r)); congruence. }
  assert (X : rows_of (entities r) (agg_rows sort k t) <> []).
  { rewrite (agg_rows_ok sort k w t Hk Hw W P S).
    destruct (rows_of (entities r) (sort t)); [elim Hr2|]. destruct k; [lia|]. cbn [firstn map].
    match goal with |- (if ?b then _ else _) <> _ => destruct b; intros X; inversion X end. }
  destruct (rows_of (entities r) (agg_rows sort k t)) as [|x l] eqn:E; [congruence|]. assert (Hx : In x (x :: l)) by now left.
  rewrite <- E in Hx. apply filter_In in Hx. destruct Hx as [Hx Ex]. exists x. split; auto. unfold has_entities in Ex.
  destruct (list_eq_dec N.eq_dec (entities x) (entities r)); congruence.
Qed.

(* Insertion sort, to have an instance. *)
Fixpoint insert (a : row) (l : table) : table :=
  match l with [] => [a] | b :: l' => if less_row b a then b :: insert a l' else a :: l end.
Definition isort (t : table) : table := fold_right insert [] t.

(* With k = 1 the context with the lowest score is kept and the best one is dropped, for every correct sort. *)
Theorem C06_rows_lowest_refuted :
  exists t key k, sorts isort t /\ (forall sort, sorts sort t -> rows_of key (agg_rows sort k t) = [[7; 2; 100]]) /\
    rows_of key t = [[7; 5; 200]; [7; 3; 100]] /\ k = 1%nat /\ ~ aggregated k t (agg_rows isort k t).
Proof.
  exists [[7; 5; 200]; [7; 3; 100]; [9; 1; 300]], [7], 1%nat.
  split; [split; [vm_compute; apply perm_swap|vm_compute; repeat constructor]|]. split; [|split; [reflexivity|split; [reflexivity|]]].
  - intros sort HS. destruct HS as [P S].
    rewrite (agg_rows_ok sort 1 3 [[7; 5; 200]; [7; 3; 100]; [9; 1; 300]]); auto; [|repeat constructor].
    assert (E : sort [[7; 5; 200]; [7; 3; 100]; [9; 1; 300]] = [[7; 3; 100]; [7; 5; 200]; [9; 1; 300]]); [|rewrite E; reflexivity].
    remember (sort [[7; 5; 200]; [7; 3; 100]; [9; 1; 300]]) as s eqn:Es. clear Es sort.
    assert (L := Permutation_length P). destruct s as [|a [|b [|c [|d s]]]]; cbn in L; try lia.
    inversion S as [|? ? S1 F1]; subst. inversion S1 as [|? ? S2 F2]; subst. rewrite Forall_forall in F1, F2.
    assert (Hb := F1 b ltac:(now left)). assert (Hc := F1 c ltac:(right; now left)). assert (Hbc := F2 c ltac:(now left)).
    assert (I : forall x, In x [[7; 5; 200]; [7; 3; 100]; [9; 1; 300]] <-> In x [a; b; c]) by (intros x; split; [apply Permutation_in; now symmetry|now apply Permutation_in]).
    assert (Ia := proj2 (I a) ltac:(now left)). assert (Ib := proj2 (I b) ltac:(right; now left)). assert (Ic := proj2 (I c) ltac:(right; right; now left)).
    assert (I1 := proj1 (I [7; 5; 200]) ltac:(now left)). assert (I2 := proj1 (I [7; 3; 100]) ltac:(right; now left)). assert (I3 := proj1 (I [9; 1; 300]) ltac:(right; right; now left)).
    clear - Hb Hc Hbc Ia Ib Ic I1 I2 I3. cbn in Ia, Ib, Ic.
    destruct Ia as [<-|[<-|[<-|[]]]], Ib as [<-|[<-|[<-|[]]]], Ic as [<-|[<-|[<-|[]]]]; try (vm_compute in Hb; discriminate); try (vm_compute in Hc; discriminate); try (vm_compute in Hbc; discriminate); try reflexivity;
      exfalso; cbn in I1, I2, I3; intuition discriminate.
  - intros A. destruct (A [7]) as (best & others & P & R & L & H).
    change (rows_of [7] [[7; 5; 200]; [7; 3; 100]; [9; 1; 300]]) with [[7; 5; 200]; [7; 3; 100]] in *.
    change (rows_of [7] (agg_rows isort 1 [[7; 5; 200]; [7; 3; 100]; [9; 1; 300]])) with [[7; 2; 100]] in R.
    destruct best as [|b [|b2 best]]; cbn in L; try lia. cbn [app] in P.
    assert (Ib : In b [[7; 5; 200]; [7; 3; 100]]) by (eapply Permutation_in; [symmetry; exact P|now left]).
    destruct Ib as [<-|[<-|[]]]; [discriminate R|].
    assert (Io : In [7; 5; 200] ([7; 3; 100] :: others)) by (eapply Permutation_in; [exact P|now left]).
    destruct Io as [Io|Io]; [discriminate|]. specialize (H _ _ (or_introl eq_refl) Io). vm_compute in H. auto.
Qed.

(* The rows of the greatest combination of entities keep their own scores instead of the number of contexts, for every input and every correct sort. *)
Theorem C06_rows_last_refuted : forall sort k w t key, sorts sort t -> (0 < k)%nat -> (2 <= w)%nat -> width w t ->
  (exists r, In r t /\ entities r = key) -> (forall r, In r t -> entities r = key \/ before (entities r) key) ->
  exists kept others, Permutation (rows_of key t) (kept ++ others) /\ rows_of key (agg_rows sort k t) = kept /\ length kept = Nat.min k (length (rows_of key t)).
Proof.
  intros sort k w t key HS Hk Hw W (r & Hr & Er) Hm. destruct HS as [P S].
  exists (firstn k (rows_of key (sort t))), (skipn k (rows_of key (sort t))).
  assert (Ws : forall r, In r (sort t) -> length r = w).
  { intros x Hx. unfold width in W. rewrite Forall_forall in W. apply W. eapply Permutation_in; eauto. }
  assert (Pk := perm_rows key _ _ P). assert (Lk := Permutation_length Pk).
  rewrite (agg_rows_ok sort k w t Hk Hw W P S). destruct (list_eq_dec N.eq_dec (entities (last (sort t) [])) key) as [E|E].
  - split; [rewrite firstn_skipn; now symmetry|]. split; [reflexivity|]. rewrite firstn_length. congruence.
  - exfalso. assert (Hs : In r (sort t)) by (eapply Permutation_in; [symmetry; exact P|auto]).
    assert (Hl : In (last (sort t) []) t) by (eapply Permutation_in; [exact P|apply last_in; intros X; rewrite X in Hs; elim Hs]).
    destruct (Hm _ Hl) as [X|X]; [auto|]. apply (before_le _ _ X). rewrite <- Er. apply last_max; auto. now apply (sorted_lex w).
Qed.

(* Examples. *)
Definition demo : table := [[7; 5; 200; 1]; [7; 3; 100; 1]; [9; 1; 300; 1]; [7; 4; 150; 2]; [9; 8; 310; 1]; [7; 6; 250; 1]].
Example demo_rows : agg_rows isort 2 demo = [[7; 3; 100; 1]; [7; 3; 200; 1]; [7; 1; 150; 2]; [9; 1; 300; 1]; [9; 8; 310; 1]].
Proof. vm_compute. reflexivity. Qed.
Example demo_hyp : width 4 demo /\ sorts isort demo /\
  (exists r, In r demo /\ before [7; 2] (entities r)) /\ (forall r, In r demo -> entities r = [9; 1] \/ before (entities r) [9; 1]).
Proof.
  split; [repeat constructor|]. split; [split; [|vm_compute; repeat constructor]|].
  - vm_compute. apply NoDup_Permutation.
    + repeat constructor; cbn; intuition discriminate.
    + repeat constructor; cbn; intuition discriminate.
    + intros x. cbn. tauto.
  - split; [exists [9; 1; 300; 1]; split; [cbn; tauto|left; reflexivity]|].
    intros r Hr. cbn in Hr. destruct Hr as [<-|[<-|[<-|[<-|[<-|[<-|[]]]]]]]; cbn; try (now left); right; left; reflexivity.
Qed.
Print Assumptions C06_rows_partial.
Print Assumptions C06_rows_sound.
Print Assumptions C06_rows_complete.
Print Assumptions C06_rows_lowest_refuted.
Print Assumptions C06_rows_last_refuted.
