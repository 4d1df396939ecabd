(* C17, C18, and C43 for ql:has-predicate. *)
From Coq Require Import List NArith Arith Permutation Lia ZifyN ZifyNat.
From Verif Require Import Table_Spec HasPred_Spec HasPred_Model HasPred_Proof.
Import ListNotations.
Open Scope N_scope.

(* entity 0: pattern 1; entity 1: no pattern, explicit list; entity 2: pattern 0; entity 3: nothing *)
Definition ex_ix := {| hasPattern := [1; NO_PATTERN; 0]; hasPredicate := [[]; [8; 9]];
                       patterns := [[7]; [6; 7]] |}.
Example ex_ix_ok : index_ok ex_ix /\ lists_distinct ex_ix /\ index_small ex_ix.
Proof.
  split; [|split].
  - repeat (apply Forall_cons || apply Forall_nil); vm_compute; auto.
  - split; repeat constructor; simpl; intuition discriminate.
  - split; vm_compute; discriminate.
Qed.

(* ---- C17 ---- *)
Theorem C17_full_scan : forall ix, index_ok ix -> exists res, compute_full_scan ix = Some res /\
  (forall r, In r res <-> exists e p, r = [e; p] /\ In p (predicates_of ix e)) /\
  (lists_distinct ix -> NoDup res).
Proof. intros ix H. destruct (full_scan_correct ix H) as (res & A & B & C & _). exists res. auto. Qed.
Print Assumptions C17_full_scan.
Example C17_full_scan_ex : compute_full_scan ex_ix = Some [[0;6]; [0;7]; [1;8]; [1;9]; [2;7]].
Proof. reflexivity. Qed.

Theorem C17_free_subject : forall ix p, index_ok ix -> exists res, compute_free_s ix p = Some res /\
  (forall r, In r res <-> exists e, r = [e] /\ In p (predicates_of ix e)) /\
  (lists_distinct ix -> NoDup res).
Proof. exact free_s_correct. Qed.
Print Assumptions C17_free_subject.
Example C17_free_subject_ex : compute_free_s ex_ix 7 = Some [[0]; [2]].
Proof. reflexivity. Qed.

Theorem C17_free_object : forall ix e, index_ok ix ->
  compute_free_o ix e = Some (map (fun p => [p]) (predicates_of ix e)).
Proof. exact free_o_correct. Qed.
Print Assumptions C17_free_object.
Example C17_free_object_ex : compute_free_o ex_ix 1 = Some [[8]; [9]].
Proof. reflexivity. Qed.

(* Every input row is continued by every predicate of its entity, once each. Needed: the input is
   sorted on the entity column, and every entity of the input without a pattern lies within the
   explicit lists or beyond the pattern table. *)
Theorem C17_subquery_partial : forall ix c input, index_ok ix -> sorted_on c input ->
  (forall r, In r input ->
     N.of_nat (length (hasPredicate ix)) <= col c r < N.of_nat (length (hasPattern ix)) ->
     nth (N.to_nat (col c r)) (hasPattern ix) 0 <> NO_PATTERN) ->
  compute_subquery_s ix c input =
  Some (flat_map (fun r => map (fun p => r ++ [p]) (predicates_of ix (col c r))) input).
Proof. exact subquery_correct. Qed.
Print Assumptions C17_subquery_partial.
Example C17_subquery_ex :
  sorted_on 1 [[5; 0]; [6; 1]; [7; 2]; [8; 2]; [9; 3]] /\
  compute_subquery_s ex_ix 1 [[5; 0]; [6; 1]; [7; 2]; [8; 2]; [9; 3]] =
  Some [[5;0;6]; [5;0;7]; [6;1;8]; [6;1;9]; [7;2;7]; [8;2;7]].
Proof.
  split; [|reflexivity]. apply Path_Proof2.strong_sorted_on.
  repeat constructor; vm_compute; discriminate.
Qed.

(* Finding: QueryPlanner.cpp:2932-2990 replaces the join by this scan without sorting its input. For
   an input that is not sorted the scan stops at the first unknown entity and loses rows. *)
Theorem C17_subquery_unsorted_refuted : exists ix c input, index_ok ix /\
  exists r p, In r input /\ In p (predicates_of ix (col c r)) /\
  exists res, compute_subquery_s ix c input = Some res /\ ~ In (r ++ [p]) res.
Proof.
  exists ex_ix, 0%nat, [[3]; [0]]. split; [apply ex_ix_ok|].
  exists [0], 6. split; [vm_compute; auto|split; [vm_compute; auto|]].
  exists []. split; [reflexivity|auto].
Qed.
Print Assumptions C17_subquery_unsorted_refuted.

(* Finding: also for sorted inputs rows are lost, if an entity has no pattern and no explicit list
   exists at its position, e.g. because it never occurs as a subject. *)
Theorem C17_subquery_gap_refuted : exists ix c input, index_ok ix /\ sorted_on c input /\
  exists r p, In r input /\ In p (predicates_of ix (col c r)) /\
  exists res, compute_subquery_s ix c input = Some res /\ ~ In (r ++ [p]) res.
Proof.
  exists {| hasPattern := [0; NO_PATTERN; 0]; hasPredicate := []; patterns := [[6]] |}, 0%nat, [[1]; [2]].
  split; [repeat (apply Forall_cons || apply Forall_nil); vm_compute; auto|].
  split; [apply Path_Proof2.strong_sorted_on; repeat constructor; vm_compute; discriminate|].
  exists [2], 6. split; [vm_compute; auto|split; [vm_compute; auto|]].
  exists []. split; [reflexivity|auto].
Qed.
Print Assumptions C17_subquery_gap_refuted.

(* ---- C43: the claimed orders, HasPredicateScan.cpp:73-87 ---- *)
Theorem C43_has_predicate_full_scan : forall ix, index_ok ix -> exists res,
  compute_full_scan ix = Some res /\ sorted_on 0 res.
Proof. intros ix H. destruct (full_scan_correct ix H) as (res & A & _ & _ & B). exists res. auto. Qed.
Print Assumptions C43_has_predicate_full_scan.

(* ---- C18 ---- *)
(* Entities are counted once, for every iteration order of the hash maps. *)
Theorem C18_counts : forall ix order c input,
  index_ok ix -> lists_distinct ix -> index_small ix -> (forall m, Permutation (order m) m) ->
  sorted_on c input ->
  exists res, pattern_trick ix order c input = Some res /\ NoDup (map (col 0) res) /\ width 2 res /\
    forall p n, In [p; n] res <-> n = N.of_nat (entities_with ix p (map (col c) input)) /\ n <> 0.
Proof. exact pattern_trick_correct. Qed.
Print Assumptions C18_counts.
Example C18_counts_ex :
  pattern_trick ex_ix (fun m => m) 0 [[0]; [0]; [1]; [2]; [3]] = Some [[8;1]; [9;1]; [6;1]; [7;2]].
Proof. reflexivity. Qed.

Theorem C18_all_entities : forall ix order,
  index_ok ix -> lists_distinct ix -> (forall m, Permutation (order m) m) ->
  exists res, pattern_trick_all ix order = Some res /\ NoDup (map (col 0) res) /\ width 2 res /\
    (forall es, (forall e, predicates_of ix e <> [] -> In e es) ->
     forall p n, In [p; n] res <-> n = N.of_nat (entities_with ix p es) /\ n <> 0).
Proof. exact pattern_trick_all_correct. Qed.
Print Assumptions C18_all_entities.
Example C18_all_entities_ex :
  pattern_trick_all ex_ix (@rev _) = Some [[6;1]; [7;2]; [9;1]; [8;1]] /\
  (forall e, predicates_of ex_ix e <> [] -> In e [0; 1; 2]).
Proof.
  split; [reflexivity|]. intros e. destruct (N.lt_ge_cases e 3) as [H|H].
  - assert (e = 0 \/ e = 1 \/ e = 2) as [->|[->| ->]] by lia; simpl; auto.
  - intros Hn. exfalso. apply Hn. apply not_in_ids. rewrite all_ids_spec. simpl. lia.
Qed.

Theorem C18_single_entity : forall ix order e,
  index_ok ix -> lists_distinct ix -> index_small ix -> (forall m, Permutation (order m) m) ->
  exists res, pattern_trick_one ix order e = Some res /\ NoDup (map (col 0) res) /\ width 2 res /\
    forall p n, In [p; n] res <-> n = 1 /\ In p (predicates_of ix e).
Proof.
  intros ix order e H1 H2 H3 H4.
  destruct (pattern_trick_correct ix order 0 [[e]] H1 H2 H3 H4) as (res & A & B & C & D).
  { apply Path_Proof2.strong_sorted_on. repeat constructor. }
  exists res. split; [exact A|split; [exact B|split; [exact C|]]]. intros p n. rewrite D.
  change (entities_with ix p (map (col 0) [[e]]))
    with (length (if existsb (N.eqb p) (predicates_of ix e) then [e] else [])).
  destruct (existsb (N.eqb p) (predicates_of ix e)) eqn:E; simpl.
  - apply Path_Proof.mem_spec in E. split; [intros [-> _]; auto|]. intros [-> _]. split; [auto|discriminate].
  - apply Path_Proof.mem_false in E. split; [intros [-> H]; now destruct H|tauto].
Qed.
Print Assumptions C18_single_entity.
Example C18_single_entity_ex : pattern_trick_one ex_ix (fun m => m) 0 = Some [[6;1]; [7;1]].
Proof. reflexivity. Qed.

(* Sortedness is needed: an entity whose rows are not adjacent is counted more than once. *)
Theorem C18_unsorted_refuted : exists ix order c input p n res,
  index_ok ix /\ lists_distinct ix /\ index_small ix /\
  pattern_trick ix order c input = Some res /\ In [p; n] res /\
  n <> N.of_nat (entities_with ix p (map (col c) input)).
Proof.
  exists ex_ix, (fun m => m), 0%nat, [[0]; [1]; [0]], 6, 2, [[8;1]; [9;1]; [6;2]; [7;2]].
  split; [apply ex_ix_ok|split; [apply ex_ix_ok|split; [apply ex_ix_ok|]]].
  split; [reflexivity|split; [simpl; auto|vm_compute; discriminate]].
Qed.
Print Assumptions C18_unsorted_refuted.
