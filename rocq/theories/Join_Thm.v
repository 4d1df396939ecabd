(* C07, C08: the inner join. *)
From Coq Require Import List NArith Arith Lia Sorted Permutation.
From Verif Require Import Table_Spec Join_Model Join_Proof.
Import ListNotations.
Open Scope N_scope.

(* Number of rows of t whose value in column c is below x. *)
Definition rows_below (c : nat) (t : table) (x : N) : nat :=
  length (filter (fun r => col c r <? x) t).

(* C07. The join of sorted tables is the relational join, without undefined behaviour.
   Missing for the full claim: the case that the left table is more than 1000 times larger
   and violates the second alternative. There the code is wrong, see C07_join_refuted. *)
Theorem C07_join_correct_partial : forall (a b : table) (jc1 jc2 : nat),
  sorted_on jc1 a -> sorted_on jc2 b ->
  (N.of_nat (length a) / N.of_nat (length b) <= 1000 \/
   forall rb, In rb b -> (rows_below jc2 b (col jc2 rb) <= rows_below jc1 a (col jc2 rb))%nat) ->
  join a jc1 b jc2 = Some (relational_join a jc1 b jc2).
Proof. intros a b jc1 jc2. exact (join_spec_partial a jc1 b jc2). Qed.

(* The result is sorted on the join column. *)
Theorem C07_join_sorted : forall (a b : table) (jc1 jc2 w : nat),
  sorted_on jc1 a -> width w a -> (jc1 < w)%nat ->
  sorted_on jc1 (relational_join a jc1 b jc2).
Proof.
  intros a b jc1 jc2 w Ha Hw Hc.
  exact (ssorted_sorted _ _ (relational_join_sorted a jc1 b jc2 w Hw Hc (sorted_ssorted _ _ Ha))).
Qed.

(* The rows of the relational join are what the English statement says. *)
Theorem C07_relational_join_rows : forall (a b : table) (jc1 jc2 : nat) (r : row),
  In r (relational_join a jc1 b jc2) <->
  exists ra rb, In ra a /\ In rb b /\ col jc1 ra = col jc2 rb /\ r = ra ++ drop_col jc2 rb.
Proof. intros a b jc1 jc2 r. exact (relational_join_In a jc1 b jc2 r). Qed.

(* The full claim fails: line 650 of Join.cpp initialises `last` with j instead of i, and
   std::lower_bound is called on an invalid range. *)
Definition bad_left : table := [1] :: repeat [5] (5 * 1001).
Definition bad_right : table := [[1]; [1]; [1]; [2]; [5]].

Lemma bad_sorted : sorted_on 0 bad_left /\ sorted_on 0 bad_right.
Proof.
  split.
  - unfold bad_left. constructor.
    + induction (5 * 1001)%nat; simpl; constructor; auto. destruct n; constructor. discriminate.
    + destruct (5 * 1001)%nat; simpl; constructor. discriminate.
  - repeat constructor; discriminate.
Qed.

Theorem C07_join_refuted : exists a b : table,
  sorted_on 0 a /\ sorted_on 0 b /\ join a 0 b 0 = None.
Proof.
  exists bad_left, bad_right. destruct bad_sorted as [Ha Hb].
  split; [exact Ha|]. split; [exact Hb|]. vm_compute. reflexivity.
Qed.

(* C08. If the right table is more than 1000 times larger, galloping gives what the merge
   join gives; both are defined. *)
Theorem C08_gallop_right : forall (a b : table) (jc1 jc2 : nat),
  sorted_on jc1 a -> sorted_on jc2 b -> forall fuel, (length a + length b < fuel)%nat ->
  gallop_right fuel jc1 jc2 b a 0 = zipper fuel jc1 jc2 a b /\
  zipper fuel jc1 jc2 a b = Some (relational_join a jc1 b jc2).
Proof.
  intros a b jc1 jc2 Ha Hb fuel Hf. apply sorted_ssorted in Ha, Hb.
  rewrite zipper_spec by auto. split; auto.
  apply gallop_right_spec; auto; try solve [constructor]; lia.
Qed.

(* If the left table is larger: only under the extra condition. *)
Theorem C08_gallop_left_partial : forall (a b : table) (jc1 jc2 : nat),
  sorted_on jc1 a -> sorted_on jc2 b ->
  (forall rb, In rb b -> (rows_below jc2 b (col jc2 rb) <= rows_below jc1 a (col jc2 rb))%nat) ->
  forall fuel, (length a + length b < fuel)%nat ->
  gallop_left fuel jc1 jc2 a b 0 0 = zipper fuel jc1 jc2 a b.
Proof.
  intros a b jc1 jc2 Ha Hb Hc fuel Hf. apply sorted_ssorted in Ha, Hb.
  rewrite zipper_spec by auto. rewrite (gallop_left_spec jc1 jc2 a b Ha Hb Hc); auto; try solve [constructor]; lia.
Qed.

(* Without it the galloping join has undefined behaviour where the merge join is defined
   (the fuel is the one `join` uses). *)
Theorem C08_gallop_left_refuted : exists a b : table,
  sorted_on 0 a /\ sorted_on 0 b /\ 1000 < N.of_nat (length a) / N.of_nat (length b) /\
  let fuel := S (length a + length b) in
  gallop_left fuel 0 0 a b 0 0 = None /\
  zipper fuel 0 0 a b = Some (relational_join a 0 b 0) /\
  relational_join a 0 b 0 <> [].
Proof.
  exists bad_left, bad_right. destruct bad_sorted as [Ha Hb].
  split; [exact Ha|]. split; [exact Hb|]. split; [vm_compute; reflexivity|].
  split; [vm_compute; reflexivity|]. split; [|discriminate].
  apply sorted_ssorted in Ha, Hb. apply zipper_spec; auto.
Qed.

(* C07 for joins where one side is a full index scan F whose first column is the join column
   (F is not materialised, the code scans it once per key): the join with F. *)
Theorem C07_full_scan_right : forall (full ndr : table) (lc : nat) (scan : N -> table),
  (forall id, scan id = map (drop_col 0) (filter (fun s => col 0 s =? id) full)) ->
  full_scan_right scan ndr lc = relational_join ndr lc full 0.
Proof.
  intros full ndr lc scan Hs. rewrite full_scan_right_spec, <- relational_join_full_scan.
  apply flat_map_ext. intros r. now rewrite Hs.
Qed.

Theorem C07_full_scan_left : forall (full ndr : table) (rc : nat) (scan : N -> table),
  (forall id, scan id = map (drop_col 0) (filter (fun s => col 0 s =? id) full)) ->
  Permutation (full_scan_left scan ndr rc)
    (flat_map (fun r => map (fun f => drop_col 0 f ++ r)
                            (filter (fun f => col 0 f =? col rc r) full)) ndr) /\
  (width 3 full -> sorted_on rc ndr -> sorted_on (2 + rc) (full_scan_left scan ndr rc)).
Proof.
  intros full ndr rc scan Hs. split.
  - rewrite full_scan_left_spec. apply Permutation_refl'. apply flat_map_ext.
    intros r. rewrite Hs, map_map. reflexivity.
  - intros Hw Ha. apply ssorted_sorted, full_scan_left_sorted; [|now apply sorted_ssorted].
    intros id. rewrite Hs. apply Forall_map. unfold width in Hw.
    apply Forall_forall. intros r Hr. apply filter_In in Hr.
    rewrite Forall_forall in Hw. destruct Hr as [Hr _]. specialize (Hw _ Hr).
    destruct r as [|? r]; [discriminate|]. unfold drop_col. simpl in *. lia.
Qed.

(* Non-vacuity: both alternatives of C07_join_correct_partial are met by real inputs. *)
Example join_example :
  join [[1; 10]; [3; 11]; [3; 12]; [4; 13]] 0 [[20; 0]; [21; 3]; [22; 3]; [23; 4]] 1
  = Some [[3; 11; 21]; [3; 11; 22]; [3; 12; 21]; [3; 12; 22]; [4; 13; 23]].
Proof. vm_compute. reflexivity. Qed.

Example join_example_sorted :
  sorted_on 0 [[1; 10]; [3; 11]; [3; 12]; [4; 13]] /\
  sorted_on 1 [[20; 0]; [21; 3]; [22; 3]; [23; 4]].
Proof. split; repeat constructor; cbn; lia. Qed.

Example join_example_gallop_left :
  join (repeat [2] 2100 ++ [[7]]) 0 [[5; 1]; [7; 2]] 0 = Some [[7; 2]].
Proof. vm_compute. reflexivity. Qed.

Example gallop_left_condition : forall rb, In rb [[5; 1]; [7; 2]] ->
  Nat.le (rows_below 0 [[5; 1]; [7; 2]] (col 0 rb))
         (rows_below 0 (repeat [2] 2100 ++ [[7]]) (col 0 rb)).
Proof.
  intros rb [<-|[<-|[]]]; apply Nat.leb_le; vm_compute; reflexivity.
Qed.

Example full_scan_example :
  full_scan_left (fun id => map (drop_col 0) (filter (fun s => col 0 s =? id)
                    [[3; 1; 2]; [3; 4; 5]; [7; 8; 9]])) [[3; 0]; [3; 1]; [7; 2]] 0
  = [[1; 2; 3; 0]; [1; 2; 3; 1]; [4; 5; 3; 0]; [4; 5; 3; 1]; [8; 9; 7; 2]].
Proof. vm_compute. reflexivity. Qed.

Print Assumptions C07_join_correct_partial.
Print Assumptions C07_join_sorted.
Print Assumptions C07_relational_join_rows.
Print Assumptions C07_join_refuted.
Print Assumptions C08_gallop_right.
Print Assumptions C08_gallop_left_partial.
Print Assumptions C08_gallop_left_refuted.
Print Assumptions C07_full_scan_right.
Print Assumptions C07_full_scan_left.
