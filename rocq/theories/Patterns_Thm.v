(* C28: entity patterns. *)
From Coq Require Import List NArith Arith Bool Lia Permutation Sorted ZifyBool ZifyN ZifyNat.
From Verif Require Import Table_Spec HasPred_Spec HasPred_Model HasPred_Proof Bytes Csv_Model Csv_Proof
  Ops_Model Ops_Proof ListAux Patterns_Model Patterns_Proof Patterns_Proof2.
Import ListNotations.
Open Scope N_scope.

(* The specification: the predicates of the triples with subject e, without those of [lo, hi). *)
Definition subject_has (lo hi : N) (ts : list (N * N * N)) (e p : N) : Prop :=
  (exists o, In (e, p, o) ts) /\ ~ (lo <= p < hi).
(* triples sorted by subject and predicate *)
Definition sorted_spo (ts : list (N * N * N)) : Prop :=
  StronglySorted (fun a b => fst (fst a) < fst (fst b) \/
                             (fst (fst a) = fst (fst b) /\ snd (fst a) <= snd (fst b))) ts.
(* l: the predicates of entity e *)
Definition predicate_list (lo hi : N) (ts : list (N * N * N)) (e : N) (l : list N) : Prop :=
  StronglySorted N.lt l /\ (exists p o, In (e, p, o) ts) /\ forall p, In p l <-> subject_has lo hi ts e p.

Lemma has_iff lo hi ts e p :
  (exists t, In t ts /\ subj t = e /\ pred t = p /\ keep lo hi p) <-> subject_has lo hi ts e p.
Proof.
  unfold subject_has, keep. split.
  - intros ([[s q] o] & H & <- & <- & Hk). cbn [subj pred fst snd] in *. split; [exists o; auto|lia].
  - intros [[o H] Hk]. exists (e, p, o). split; [auto|]. split; [reflexivity|]. split; [reflexivity|]. lia.
Qed.
Lemma sorted_lt_unique (a : list N) : StronglySorted N.lt a -> forall b, StronglySorted N.lt b ->
  (forall x, In x a <-> In x b) -> a = b.
Proof.
  induction 1 as [|x a Ha IH Hx]; intros b Hb H.
  - destruct b as [|y b]; auto. destruct (proj2 (H y) (or_introl eq_refl)).
  - destruct Hb as [|y b Hb Hy].
    + destruct (proj1 (H x) (or_introl eq_refl)).
    + rewrite Forall_forall in Hx, Hy.
      assert (x = y).
      { destruct (proj1 (H x) (or_introl eq_refl)) as [E|E]; auto.
        destruct (proj2 (H y) (or_introl eq_refl)) as [E2|E2]; auto. specialize (Hx y E2). specialize (Hy x E). lia. }
      subst y. f_equal. apply IH; auto. intros z. specialize (H z). cbn [In] in H. split; intros Hz.
      * destruct (proj1 H (or_intror Hz)) as [->|]; auto. specialize (Hx z Hz). lia.
      * destruct (proj2 H (or_intror Hz)) as [->|]; auto. specialize (Hy z Hz). lia.
Qed.
Lemma groups_iff lo hi ts e l : sorted_spo ts ->
  In (e, l) (all_groups lo hi ts) <-> predicate_list lo hi ts e l.
Proof.
  intros Hs. destruct (all_groups_spec lo hi ts Hs) as (A1 & A2 & A3). unfold predicate_list.
  assert (Hd : forall l', In (e, l') (all_groups lo hi ts) ->
     StronglySorted N.lt l' /\ (exists p o, In (e, p, o) ts) /\ forall p, In p l' <-> subject_has lo hi ts e p).
  { intros l' H. destruct (A3 e l' H) as [B1 B2]. split; [auto|]. split.
    - destruct (proj1 (A2 e)) as ([[s p] o] & H1 & <-); [apply in_map_iff; exists (e, l'); auto|].
      exists p, o. exact H1.
    - intros p. rewrite B2. apply has_iff. }
  split; [apply Hd|]. intros (H1 & (p & o & H2) & H3).
  assert (Hin : In e (map fst (all_groups lo hi ts))) by (apply A2; exists (e, p, o); auto).
  apply in_map_iff in Hin. destruct Hin as ([e' l'] & <- & Hin). cbn [fst] in *.
  destruct (Hd l' Hin) as (C1 & _ & C3). replace l with l'; auto. apply sorted_lt_unique; auto.
  intros x. rewrite C3, H3. tauto.
Qed.

(* std::sort with comparePatternCounts (for pairwise different patterns) *)
Definition std_sort (sort : pattern_counts -> pattern_counts) : Prop :=
  forall l, NoDup (map fst l) -> Permutation (sort l) l /\
    StronglySorted (fun a b => more_frequent b a = false) (sort l).

(* Such a sort exists. *)
Lemma insert_sorted x l : (forall y, In y l -> fst y <> fst x) ->
  StronglySorted (fun a b => more_frequent b a = false) l ->
  StronglySorted (fun a b => more_frequent b a = false) (insert_by more_frequent x l) /\
  Permutation (insert_by more_frequent x l) (x :: l).
Proof.
  intros Hne Hs. induction Hs as [|y l Hl IH Hy]; cbn [insert_by]; [split; [repeat constructor|auto]|].
  destruct (more_frequent y x) eqn:E.
  - destruct IH as [I1 I2]; [intros z Hz; apply Hne; right; auto|]. split.
    + constructor; auto. rewrite Forall_forall in *. intros z Hz. apply (Permutation_in _ I2) in Hz.
      destruct Hz as [<-|Hz]; [|auto]. apply more_frequent_asym; auto. apply Hne. left. auto.
    + rewrite I2. apply perm_swap.
  - split; [|auto]. constructor; [constructor; auto|]. constructor; [auto|].
    rewrite Forall_forall in *. intros z Hz. apply (ordered_trans x y z E (Hy z Hz)).
Qed.
Lemma std_sort_exists : std_sort (sort_by more_frequent).
Proof.
  intros l Hn. induction l as [|x l IH]; cbn [sort_by]; [split; [auto|constructor]|].
  cbn [map] in Hn. inversion Hn; subst. destruct (IH H2) as [I1 I2].
  destruct (insert_sorted x (sort_by more_frequent l)) as [J1 J2]; auto.
  - intros y Hy E. apply (Permutation_in _ I1) in Hy. apply H1. rewrite <- E. now apply in_map.
  - split; auto. rewrite J2. now constructor.
Qed.

(* If there is room for all patterns (the limit is 2^32 - 3, Index.cpp:33), every entity gets exactly
   its predicates, in ascending order, for any iteration order of the hash map. *)
Theorem C28_exact : forall lo hi maxNum order sort ts,
  sorted_spo ts -> N.of_nat maxNum < 2 ^ 32 -> (forall m, Permutation (order m) m) -> std_sort sort ->
  (forall ls, (forall l, In l ls -> exists e, predicate_list lo hi ts e l) -> NoDup ls ->
     (length ls < maxNum)%nat) ->
  exists ix, create_patterns lo hi maxNum order sort ts = Some ix /\
    index_ok ix /\ lists_distinct ix /\ hasPredicate ix = [] /\
    forall e, StronglySorted N.lt (predicates_of ix e) /\
      forall p, In p (predicates_of ix e) <-> subject_has lo hi ts e p.
Proof.
  intros lo hi maxNum order sort ts Hs H32 Hord Hsort Hroom.
  assert (Hmax : (0 < maxNum)%nat) by (apply (Hroom []); [intros l []|constructor]).
  destruct (create_correct lo hi maxNum order sort ts Hs Hmax H32 Hord Hsort)
    as (ix & E & Hok & _ & H2 & L1 & L2 & L3 & L4 & _).
  exists ix. split; [exact E|]. split; [exact Hok|].
  assert (Hl : (length (patterns ix) < maxNum)%nat).
  { apply Hroom; auto. intros l Hl. apply L3, in_map_iff in Hl. destruct Hl as ([e l'] & <- & Hl).
    exists e. now apply groups_iff. }
  destruct (L4 Hl) as [L5 L6]. destruct H2 as [H3 H4].
  { intros e l e' l' H _ Hn _. exfalso. apply Hn, L5, in_map_iff. exists (e, l). auto. }
  split; [exact H3|]. split; [exact L6|]. intros e. destruct (H4 e) as [H5 H6]. split; [exact H6|].
  intros p. rewrite <- has_iff. apply H5.
Qed.
Print Assumptions C28_exact.

(* For any limit: entities whose pattern is stored get exactly their predicates; all do if at most one
   entity has no stored pattern. *)
Theorem C28_limited_partial : forall lo hi maxNum order sort ts,
  sorted_spo ts -> (0 < maxNum)%nat -> N.of_nat maxNum < 2 ^ 32 ->
  (forall m, Permutation (order m) m) -> std_sort sort ->
  exists ix, create_patterns lo hi maxNum order sort ts = Some ix /\ index_ok ix /\
    (forall e l, predicate_list lo hi ts e l -> In l (patterns ix) ->
       forall p, In p (predicates_of ix e) <-> subject_has lo hi ts e p) /\
    ((forall e l e' l', predicate_list lo hi ts e l -> predicate_list lo hi ts e' l' ->
        ~ In l (patterns ix) -> ~ In l' (patterns ix) -> e = e') ->
     lists_distinct ix /\ forall e p, In p (predicates_of ix e) <-> subject_has lo hi ts e p).
Proof.
  intros lo hi maxNum order sort ts Hs Hmax H32 Hord Hsort.
  destruct (create_correct lo hi maxNum order sort ts Hs Hmax H32 Hord Hsort)
    as (ix & E & Hok & H1 & H2 & _).
  exists ix. split; [exact E|]. split; [exact Hok|]. split.
  - intros e l Hl Hin p. rewrite <- has_iff. apply (H1 e l); auto. now apply groups_iff.
  - intros Hone. destruct H2 as [H3 H4].
    { intros e l e' l' Ha Hb. apply Hone; now apply groups_iff. }
    split; auto. intros e p. rewrite <- has_iff. apply H4.
Qed.
Print Assumptions C28_limited_partial.

(* The stored patterns are different predicate lists of entities, at most maxNum, all of them if less
   than maxNum, and the most frequent ones otherwise. *)
Theorem C28_most_frequent : forall lo hi maxNum order sort ts,
  sorted_spo ts -> (0 < maxNum)%nat -> N.of_nat maxNum < 2 ^ 32 ->
  (forall m, Permutation (order m) m) -> std_sort sort ->
  exists ix, create_patterns lo hi maxNum order sort ts = Some ix /\
    NoDup (patterns ix) /\ (length (patterns ix) <= maxNum)%nat /\
    (forall l, In l (patterns ix) -> exists e, predicate_list lo hi ts e l) /\
    (forall e l, (length (patterns ix) < maxNum)%nat -> predicate_list lo hi ts e l -> In l (patterns ix)) /\
    (* entities having list l resp. r, each listed once *)
    (forall l r el er, In l (patterns ix) -> ~ In r (patterns ix) ->
       NoDup el -> (forall e, In e el <-> predicate_list lo hi ts e l) ->
       NoDup er -> (forall e, In e er <-> predicate_list lo hi ts e r) -> (length er <= length el)%nat).
Proof.
  intros lo hi maxNum order sort ts Hs Hmax H32 Hord Hsort.
  destruct (create_correct lo hi maxNum order sort ts Hs Hmax H32 Hord Hsort)
    as (ix & E & Hok & _ & _ & L1 & L2 & L3 & L4 & L5).
  exists ix. split; [exact E|]. split; [exact L2|]. split; [exact L1|]. split; [|split].
  - intros l Hl. apply L3, in_map_iff in Hl. destruct Hl as ([e l'] & <- & Hl). exists e. now apply groups_iff.
  - intros e l Hl Hp. apply (proj1 (L4 Hl)). apply in_map_iff. exists (e, l). split; auto. now apply groups_iff.
  - intros l r el er Hl Hr Nl El Nr Er.
    assert (Hlen : forall q eq, NoDup eq -> (forall e, In e eq <-> predicate_list lo hi ts e q) ->
      length eq = N.to_nat (occurrences q (map snd (all_groups lo hi ts)))).
    { intros q eq Hn He. unfold occurrences. rewrite Nat2N.id.
      transitivity (length (map fst (filter (fun g => pattern_eqb q (snd g)) (all_groups lo hi ts)))).
      - apply Permutation_length, NoDup_Permutation; auto.
        + destruct (all_groups_spec lo hi ts Hs) as (A1 & _). apply sorted_nodup in A1.
          clear - A1. induction (all_groups lo hi ts) as [|g G IH]; cbn [map filter] in *; [constructor|].
          inversion A1; subst. destruct (pattern_eqb q (snd g)); auto. cbn [map]. constructor; auto.
          intros Hin. apply H1. apply in_map_iff in Hin. destruct Hin as (g' & <- & Hin). apply filter_In in Hin.
          now apply in_map.
        + intros e. rewrite He, <- groups_iff by auto. split.
          * intros Hin. apply in_map_iff. exists (e, q). split; auto. apply filter_In. split; auto. apply pattern_eqb_refl.
          * intros Hin. apply in_map_iff in Hin. destruct Hin as ([e' q'] & <- & Hin). apply filter_In in Hin.
            destruct Hin as [Hin Eq]. apply pattern_eqb_spec in Eq. cbn in *. now subst.
      - rewrite map_length. clear. induction (all_groups lo hi ts) as [|g G IH]; cbn [map filter]; auto.
        destruct (pattern_eqb q (snd g)); cbn [length]; auto. }
    rewrite (Hlen l el Nl El), (Hlen r er Nr Er).
    destruct er as [|e er]; [rewrite <- (Hlen r [] Nr Er); cbn; lia|].
    assert (In r (map snd (all_groups lo hi ts))).
    { apply in_map_iff. exists (e, r). split; auto. apply groups_iff; auto. apply Er. left; auto. }
    specialize (L5 l r Hl H Hr). lia.
Qed.
Print Assumptions C28_most_frequent.

(* The recorded size is the number of different (subject, predicate) pairs. *)
Theorem C28_size : forall lo hi maxNum order sort ts,
  sorted_spo ts -> (0 < maxNum)%nat -> (forall m, Permutation (order m) m) -> std_sort sort ->
  exists pats a, find_patterns lo hi maxNum order sort ts = Some (pats, a) /\
    forall L, NoDup L -> (forall e p, In (e, p) L <-> subject_has lo hi ts e p) ->
    full_size a = N.of_nat (length L).
Proof.
  intros lo hi maxNum order sort ts Hs Hmax Hord Hsort.
  destruct (find_patterns_spec lo hi maxNum order sort ts Hmax Hord Hsort) as (pats & E & _).
  eexists pats, _. split; [exact E|]. intros L HL H. cbn [full_size]. unfold total_size. f_equal.
  destruct (all_groups_spec lo hi ts Hs) as (A1 & A2 & A3). apply sorted_nodup in A1.
  transitivity (length (flat_map (fun g => map (pair (fst g)) (snd g)) (all_groups lo hi ts))).
  { clear. induction (all_groups lo hi ts) as [|g G IH]; cbn [flat_map]; auto.
    rewrite !app_length, map_length, IH. reflexivity. }
  apply Permutation_length, NoDup_Permutation; auto.
  - assert (Hn : forall g, In g (all_groups lo hi ts) -> NoDup (snd g)).
    { intros [e l] Hin. apply sorted_nodup. now apply (A3 e l). }
    clear - A1 Hn. induction (all_groups lo hi ts) as [|g G IH]; cbn [flat_map map] in *; [constructor|].
    inversion A1 as [|? ? Hg1 Hg2]; subst. apply NoDup_app_intro.
    + apply Path_Proof2.NoDup_map_inj; [congruence|]. apply Hn. left; auto.
    + apply IH; auto. intros g' Hg'. apply Hn. right; auto.
    + intros x Hx Hx2. apply in_map_iff in Hx. destruct Hx as (p & <- & Hp).
      apply in_flat_map in Hx2. destruct Hx2 as (g' & Hg' & Hx2). apply in_map_iff in Hx2.
      destruct Hx2 as (q & Eq & Hq). injection Eq as Eq _. apply Hg1. apply in_map_iff. exists g'. auto.
  - intros [e p]. rewrite H, in_flat_map. split.
    + intros ([e' l] & Hin & Hx). apply in_map_iff in Hx. destruct Hx as (q & Eq & Hq).
      cbn [fst snd] in *. injection Eq as -> ->. apply groups_iff in Hin; auto. now apply Hin.
    + intros Hp. assert (Hin : In e (map fst (all_groups lo hi ts))).
      { apply A2. destruct Hp as [[o Ho] _]. exists (e, p, o). auto. }
      apply in_map_iff in Hin. destruct Hin as ([e' l] & <- & Hin). exists (e', l). split; auto.
      cbn [fst snd] in *. apply in_map. apply groups_iff in Hin; auto. now apply Hin.
Qed.
Print Assumptions C28_size.

(* Together with C17: a full has-predicate scan on the index just built. *)
Theorem C28_scan : forall lo hi maxNum order sort ts,
  sorted_spo ts -> N.of_nat maxNum < 2 ^ 32 -> (forall m, Permutation (order m) m) -> std_sort sort ->
  (forall ls, (forall l, In l ls -> exists e, predicate_list lo hi ts e l) -> NoDup ls ->
     (length ls < maxNum)%nat) ->
  exists ix res, create_patterns lo hi maxNum order sort ts = Some ix /\ compute_full_scan ix = Some res /\
    NoDup res /\ forall r, In r res <-> exists e p, r = [e; p] /\ subject_has lo hi ts e p.
Proof.
  intros lo hi maxNum order sort ts Hs H32 Hord Hsort Hroom.
  destruct (C28_exact lo hi maxNum order sort ts Hs H32 Hord Hsort Hroom) as (ix & E & Hok & Hd & _ & H).
  destruct (full_scan_correct ix Hok) as (res & E2 & H1 & H2 & _).
  exists ix, res. split; [exact E|]. split; [exact E2|]. split; [auto|]. intros r. rewrite H1. split.
  - intros (e & p & -> & Hp). exists e, p. split; auto. now apply H.
  - intros (e & p & -> & Hp). exists e, p. split; auto. now apply H.
Qed.
Print Assumptions C28_scan.

(* and C43 for a fixed subject (HasPredicateScan.cpp:79) *)
Theorem C43_has_predicate_free_object : forall lo hi maxNum order sort ts e,
  sorted_spo ts -> N.of_nat maxNum < 2 ^ 32 -> (forall m, Permutation (order m) m) -> std_sort sort ->
  (forall ls, (forall l, In l ls -> exists e, predicate_list lo hi ts e l) -> NoDup ls ->
     (length ls < maxNum)%nat) ->
  exists ix res, create_patterns lo hi maxNum order sort ts = Some ix /\ compute_free_o ix e = Some res /\
    sorted_on 0 res.
Proof.
  intros lo hi maxNum order sort ts e Hs H32 Hord Hsort Hroom.
  destruct (C28_exact lo hi maxNum order sort ts Hs H32 Hord Hsort Hroom) as (ix & E & Hok & Hd & _ & H).
  exists ix, (map (fun p => [p]) (predicates_of ix e)). split; [exact E|]. split; [now apply free_o_correct|].
  apply Path_Proof2.strong_sorted_on. destruct (H e) as [Hs' _].
  induction Hs' as [|x l Hl IH Hx]; cbn [map]; constructor; auto. rewrite Forall_forall in *.
  intros r Hr. apply in_map_iff in Hr. destruct Hr as (y & <- & Hy). specialize (Hx y Hy). cbn. lia.
Qed.
Print Assumptions C43_has_predicate_free_object.

Definition ex_ts : list (N * N * N) :=
  [(1, 10, 5); (1, 10, 6); (1, 12, 5); (1, 20, 1); (3, 11, 5); (4, 10, 5); (4, 12, 9); (5, 20, 7)].
Example C28_example : sorted_spo ex_ts /\
  create_patterns 20 25 100 (@rev _) (sort_by more_frequent) ex_ts =
  Some {| hasPattern := [NO_PATTERN; 0; NO_PATTERN; 1; 0; 2]; hasPredicate := [];
          patterns := [[10; 12]; [11]; []] |}.
Proof.
  split; [|vm_compute; reflexivity].
  unfold sorted_spo; repeat (apply SSorted_cons || apply SSorted_nil || apply Forall_cons || apply Forall_nil); cbn; lia.
Qed.
Example C28_example_limited :
  create_patterns 20 25 1 (@rev _) (sort_by more_frequent) ex_ts =
  Some {| hasPattern := [NO_PATTERN; 0; NO_PATTERN; NO_PATTERN; 0]; hasPredicate := [[]; []; []; [11]];
          patterns := [[10; 12]] |}.
Proof. vm_compute. reflexivity. Qed.

(* Finding: with a smaller limit, as soon as two entities have no stored pattern, the explicit lists
   are wrong: everything goes to the last of these entities (Index.cpp:861, 1079). *)
Theorem C28_two_without_pattern_refuted : exists lo hi maxNum order sort ts ix e p,
  sorted_spo ts /\ (0 < maxNum)%nat /\ N.of_nat maxNum < 2 ^ 32 /\
  (forall m, Permutation (order m) m) /\ std_sort sort /\
  create_patterns lo hi maxNum order sort ts = Some ix /\
  subject_has lo hi ts e p /\ ~ In p (predicates_of ix e).
Proof.
  exists 100, 100, 1%nat, (fun m => m), (sort_by more_frequent), [(0, 1, 0); (1, 1, 0); (2, 2, 0); (3, 3, 0)].
  exists {| hasPattern := [0; 0]; hasPredicate := [[]; []; []; [2]]; patterns := [[1]] |}, 2, 2.
  split; [unfold sorted_spo; repeat (apply SSorted_cons || apply SSorted_nil || apply Forall_cons || apply Forall_nil); cbn; lia|]. split; [lia|]. split; [reflexivity|]. split; [auto|].
  split; [exact std_sort_exists|]. split; [vm_compute; reflexivity|].
  split; [split; [exists 0; cbn; auto|lia]|]. vm_compute. auto.
Qed.
Print Assumptions C28_two_without_pattern_refuted.
(* ... and an entity is given predicates it does not have. *)
Theorem C28_wrong_predicate_refuted : exists lo hi maxNum order sort ts ix e p,
  sorted_spo ts /\ (0 < maxNum)%nat /\ N.of_nat maxNum < 2 ^ 32 /\
  (forall m, Permutation (order m) m) /\ std_sort sort /\
  create_patterns lo hi maxNum order sort ts = Some ix /\
  In p (predicates_of ix e) /\ ~ subject_has lo hi ts e p.
Proof.
  exists 100, 100, 1%nat, (fun m => m), (sort_by more_frequent), [(0, 1, 0); (1, 1, 0); (2, 2, 0); (3, 3, 0)].
  exists {| hasPattern := [0; 0]; hasPredicate := [[]; []; []; [2]]; patterns := [[1]] |}, 3, 2.
  split; [unfold sorted_spo; repeat (apply SSorted_cons || apply SSorted_nil || apply Forall_cons || apply Forall_nil); cbn; lia|]. split; [lia|]. split; [reflexivity|]. split; [auto|].
  split; [exact std_sort_exists|]. split; [vm_compute; reflexivity|].
  split; [vm_compute; auto|]. intros [[o Ho] _]. cbn in Ho. intuition congruence.
Qed.
Print Assumptions C28_wrong_predicate_refuted.

(* Finding: a limit of 0 is undefined behaviour (back() of an empty vector, Index.cpp:633). *)
Theorem C28_no_patterns_refuted : exists lo hi order sort ts,
  sorted_spo ts /\ (forall m, Permutation (order m) m) /\ std_sort sort /\
  create_patterns lo hi 0 order sort ts = None.
Proof.
  exists 100, 100, (fun m => m), (sort_by more_frequent), [(0, 1, 0)].
  split; [repeat (apply SSorted_cons || apply SSorted_nil || apply Forall_nil)|].
  split; [auto|]. split; [exact std_sort_exists|]. reflexivity.
Qed.
Print Assumptions C28_no_patterns_refuted.

(* ---- the patterns file ---- *)
Lemma pairs_flatten l : pairs (flatten l) = l.
Proof. induction l as [|[x y] l IH]; cbn; auto. now rewrite <- IH at 2. Qed.
Lemma flatten_length l : length (flatten l) = (length l * 2)%nat.
Proof. induction l as [|[x y] l IH]; cbn [flatten flat_map app length Nat.mul]; auto. fold (flatten l). lia. Qed.
Lemma all_some_nth {A} (data : list A) f : (forall i, (i < length data)%nat -> f i = nth_error data i) ->
  all_some (map f (seq 0 (length data))) = Some data.
Proof.
  revert f. induction data as [|x data IH]; intros f H; auto. cbn [length seq map all_some].
  rewrite (H 0%nat) by (cbn; lia). cbn [nth_error]. rewrite <- seq_shift, map_map. rewrite IH; auto.
  intros i Hi. rewrite H by (cbn; lia). reflexivity.
Qed.

(* The index read from the file written is the one that was built. *)
Theorem C28_file : forall blank mult1 mult2 a pats ix c,
  (forall n, length (blank n) = n) -> csv_build 8 8 blank pats = Some c ->
  lookup_vectors a pats = Some ix ->
  mult1 < 2 ^ 64 -> mult2 < 2 ^ 64 -> full_size a < 2 ^ 64 ->
  N.of_nat (length (e_pattern a)) < 2 ^ 64 -> N.of_nat (length (e_predicate a)) < 2 ^ 64 ->
  Forall (fun e => fst e < 2 ^ 64 /\ snd e < 2 ^ 64) (e_pattern a ++ e_predicate a) ->
  Forall (Forall (fun v => v < 2 ^ 64)) pats ->
  N.of_nat (length pats) < 2 ^ 64 ->
  N.of_nat ((length pats + 1) * 8 + 8 * length (concat pats)) < 2 ^ 64 ->
  read_patterns (write_patterns mult1 mult2 a c) = Some (mult1, mult2, full_size a, ix).
Proof.
  intros blank mult1 mult2 a pats ix c Hb Hc Hix H1 H2 H3 H4 H5 H6 H7 H8 H9.
  assert (Hcat : N.of_nat (length (concat pats)) < 256 ^ N.of_nat 8).
  { change (256 ^ N.of_nat 8) with (2 ^ 64). lia. }
  rewrite csv_build_spec in Hc by auto. injection Hc as <-.
  apply Forall_app in H6. destruct H6 as [H6a H6b].
  assert (Hw : forall l, Forall (fun e : N * N => fst e < 2 ^ 64 /\ snd e < 2 ^ 64) l ->
             Forall (fun v => v < 256 ^ N.of_nat 8) (flatten l)).
  { intros l Hl. change (256 ^ N.of_nat 8) with (2 ^ 64). induction Hl as [|[x y] l [Hx Hy] Hl IH]; [constructor|].
    cbn [flatten flat_map app fst snd]. constructor; auto. }
  set (k1 := length (e_pattern a)) in *. set (k2 := length (e_predicate a)) in *.
  set (w1 := words 8 (flatten (e_pattern a))). set (w2 := words 8 (flatten (e_predicate a))).
  set (tl := csv_write (csv_of 8 8 pats)).
  assert (Hw1 : length w1 = (k1 * 16)%nat) by (unfold w1; rewrite words_length, flatten_length; unfold k1; lia).
  assert (Hw2 : length w2 = (k2 * 16)%nat) by (unfold w2; rewrite words_length, flatten_length; unfold k2; lia).
  set (hd := le 1 255 ++ le 4 PATTERNS_FILE_VERSION ++ le 8 mult1 ++ le 8 mult2 ++ le 8 (full_size a)).
  assert (Hhd : length hd = 29%nat) by (unfold hd; rewrite !app_length, !le_length; reflexivity).
  assert (Hfile : write_patterns mult1 mult2 a (csv_of 8 8 pats) =
    hd ++ le 8 (N.of_nat k1) ++ w1 ++ le 8 (N.of_nat k2) ++ w2 ++ tl).
  { unfold write_patterns, hd. rewrite <- !app_assoc. reflexivity. }
  set (file := write_patterns mult1 mult2 a (csv_of 8 8 pats)) in *.
  unfold read_patterns.
  rewrite (load_word_at file 0 1 255 [] (skipn 1 file)); [|rewrite Hfile; reflexivity|reflexivity|reflexivity].
  rewrite (load_word_at file 1 4 PATTERNS_FILE_VERSION (le 1 255)
     (le 8 mult1 ++ le 8 mult2 ++ le 8 (full_size a) ++ le 8 (N.of_nat k1) ++ w1 ++ le 8 (N.of_nat k2) ++ w2 ++ tl));
    [|rewrite Hfile; unfold hd; rewrite <- !app_assoc; reflexivity|reflexivity|reflexivity].
  rewrite (load_word_at file 5 8 mult1 (le 1 255 ++ le 4 PATTERNS_FILE_VERSION)
     (le 8 mult2 ++ le 8 (full_size a) ++ le 8 (N.of_nat k1) ++ w1 ++ le 8 (N.of_nat k2) ++ w2 ++ tl));
    [|rewrite Hfile; unfold hd; rewrite <- !app_assoc; reflexivity|reflexivity|exact H1].
  rewrite (load_word_at file 13 8 mult2 (le 1 255 ++ le 4 PATTERNS_FILE_VERSION ++ le 8 mult1)
     (le 8 (full_size a) ++ le 8 (N.of_nat k1) ++ w1 ++ le 8 (N.of_nat k2) ++ w2 ++ tl));
    [|rewrite Hfile; unfold hd; rewrite <- !app_assoc; reflexivity
     |rewrite !app_length, !le_length; reflexivity|exact H2].
  rewrite (load_word_at file 21 8 (full_size a) (le 1 255 ++ le 4 PATTERNS_FILE_VERSION ++ le 8 mult1 ++ le 8 mult2)
     (le 8 (N.of_nat k1) ++ w1 ++ le 8 (N.of_nat k2) ++ w2 ++ tl));
    [|rewrite Hfile; unfold hd; rewrite <- !app_assoc; reflexivity
     |rewrite !app_length, !le_length; reflexivity|exact H3].
  rewrite (load_word_at file 29 8 (N.of_nat k1) hd (w1 ++ le 8 (N.of_nat k2) ++ w2 ++ tl));
    [|exact Hfile|auto|exact H4].
  cbv iota beta zeta.
  change (negb (PATTERNS_FILE_VERSION =? PATTERNS_FILE_VERSION) || negb (255 =? 255)) with false. cbv iota.
  rewrite !Nat2N.id.
  replace (k1 * 2)%nat with (length (flatten (e_pattern a))) by apply flatten_length.
  rewrite (load_words_at 8 (flatten (e_pattern a)) file 37 (hd ++ le 8 (N.of_nat k1)) (le 8 (N.of_nat k2) ++ w2 ++ tl));
    [|rewrite Hfile, <- !app_assoc; reflexivity|rewrite app_length, Hhd, le_length; reflexivity|now apply Hw].
  rewrite (load_word_at file (37 + k1 * 16) 8 (N.of_nat k2) (hd ++ le 8 (N.of_nat k1) ++ w1) (w2 ++ tl));
    [|rewrite Hfile, <- !app_assoc; reflexivity|rewrite !app_length, Hhd, le_length, Hw1; reflexivity|exact H5].
  rewrite !Nat2N.id. replace (k2 * 2)%nat with (length (flatten (e_predicate a))) by apply flatten_length.
  rewrite (load_words_at 8 (flatten (e_predicate a)) file (37 + k1 * 16 + 8)
     (hd ++ le 8 (N.of_nat k1) ++ w1 ++ le 8 (N.of_nat k2)) tl);
    [|rewrite Hfile, <- !app_assoc; reflexivity|rewrite !app_length, Hhd, !le_length, Hw1; lia|now apply Hw].
  assert (Hcsv : csv_load 8 file (37 + k1 * 16 + 8 + k2 * 16) = Some (csv_of 8 8 pats)).
  { pose proof (csv_write_load 8 8 pats (hd ++ le 8 (N.of_nat k1) ++ w1 ++ le 8 (N.of_nat k2) ++ w2) [] H8 H9) as Hl.
    rewrite app_nil_r in Hl. fold tl in Hl. rewrite !app_length, Hhd, !le_length, Hw1, Hw2 in Hl.
    rewrite <- Hl. f_equal; [rewrite Hfile, <- !app_assoc; reflexivity|lia]. }
  rewrite Hcsv. change (c_size (csv_of 8 8 pats)) with (length pats).
  rewrite (all_some_nth pats) by (intros i Hi; apply csv_get_spec; auto).
  rewrite !pairs_flatten. destruct a as [ep eq fs]. cbn [e_pattern e_predicate full_size] in *. now rewrite Hix.
Qed.
Print Assumptions C28_file.

Example C28_file_example : exists pats a c,
  find_patterns 20 25 1 (@rev _) (sort_by more_frequent) ex_ts = Some (pats, a) /\
  csv_build 8 8 (fun n => repeat 0 n) pats = Some c /\
  length (write_patterns 5 6 a c) = 141%nat /\
  read_patterns (write_patterns 5 6 a c) = Some (5, 6, 5,
    {| hasPattern := [NO_PATTERN; 0; NO_PATTERN; NO_PATTERN; 0]; hasPredicate := [[]; []; []; [11]];
       patterns := [[10; 12]] |}).
Proof.
  eexists _, _, _. split; [vm_compute; reflexivity|]. split; [vm_compute; reflexivity|].
  split; vm_compute; reflexivity.
Qed.
(* Files of another version are rejected. *)
Theorem C28_file_version : forall file v, load_word file 1 4 = Some v -> v <> PATTERNS_FILE_VERSION ->
  read_patterns file = None.
Proof.
  intros file v Hv Hne. unfold read_patterns. rewrite Hv.
  replace (v =? PATTERNS_FILE_VERSION) with false by (symmetry; now apply N.eqb_neq).
  destruct (load_word file 0 1), (load_word file 5 8), (load_word file 13 8), (load_word file 21 8), (load_word file 29 8);
    reflexivity.
Qed.
Print Assumptions C28_file_version.
