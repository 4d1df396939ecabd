(* C16: property paths; C43 for property paths. *)
From Coq Require Import List NArith Arith Bool Lia Sorted Permutation.
From Verif Require Import Table_Spec Ops_Model Path_Spec Path_Model Path_Proof Path_Proof2.
Import ListNotations.
Open Scope N_scope.

(* ================= C16 ================= *)

(* Every path operation with at least one variable end ends and returns exactly the pairs
   connected by a walk of a length within the bounds, each once, if the upper bound is no real
   restriction: at least the lower bound plus the number of edges (as with the planner's
   bound 2^64 - 1 for the plus and star operators). The missing part is a small upper bound, refuted below. *)
Theorem C16_path_partial : forall (order : iteration_order) (sub : table) (lv rv : bool)
    (lc rc : nat) (lval rval lo hi : N),
  order_ok order -> 1 <= lo -> lo + N.of_nat (length sub) <= hi + 1 -> lv || rv = true ->
  exists fuel0, forall fuel, (fuel0 <= fuel)%nat ->
    exists res, compute_path fuel order sub lv rv lc rc lval rval lo hi = Some res /\
      NoDup res /\ forall r, In r res <-> path_rows lv rv lval rval sub lc rc lo hi r.
Proof. exact compute_path_correct. Qed.

(* For all bounds: only pairs connected by a walk within the bounds, none twice. *)
Theorem C16_path_sound : forall (order : iteration_order) (sub : table) (lv rv : bool)
    (lc rc : nat) (lval rval lo hi : N) (fuel : nat) (res : table),
  order_ok order -> compute_path fuel order sub lv rv lc rc lval rval lo hi = Some res ->
  NoDup res /\ forall r, In r res -> path_rows lv rv lval rval sub lc rc lo hi r.
Proof. exact compute_path_sound. Qed.

(* For all bounds: the search ends. *)
Theorem C16_search_ends : forall (order : iteration_order) (sub : table) (fc tc : nat)
    (lo hi x : N),
  order_ok order ->
  exists fuel res, search fuel order (build_edges sub fc tc) lo hi x = Some res.
Proof. intros order sub fc tc lo hi x H. exact (search_total order H sub fc tc lo hi x). Qed.

(* With a table for the left (right) end: for every row of it the rows given by bound_block.
   The missing parts are as above, and rows of the table that agree with the row before them on
   the end of the path but not on the other columns, refuted below. *)
Theorem C16_left_bound_partial : forall (order : iteration_order) (sub left : table)
    (sc w : nat) (rv : bool) (lc rc : nat) (rval lo hi : N) (blank : row),
  order_ok order -> 1 <= lo -> lo + N.of_nat (length sub) <= hi + 1 ->
  width w left -> (sc < w)%nat -> length blank = S w -> adjacent_same sc left ->
  (forall r, In r left -> col sc r < 2 ^ 64 - 1) ->
  exists fuel0, forall fuel, (fuel0 <= fuel)%nat -> exists f,
    (forall r, In r left -> reach_ok f (edge sub lc rc) lo hi (col sc r)) /\
    compute_path_left_bound fuel order sub left sc rv lc rc rval lo hi blank (S w)
    = Some (flat_map (bound_block f rv rval (fun x y => (x, y)) sc) left).
Proof. intros. apply bound_correct; assumption. Qed.
Theorem C16_right_bound_partial : forall (order : iteration_order) (sub right : table)
    (sc w : nat) (lv : bool) (lc rc : nat) (lval lo hi : N) (blank : row),
  order_ok order -> 1 <= lo -> lo + N.of_nat (length sub) <= hi + 1 ->
  width w right -> (sc < w)%nat -> length blank = S w -> adjacent_same sc right ->
  (forall r, In r right -> col sc r < 2 ^ 64 - 1) ->
  exists fuel0, forall fuel, (fuel0 <= fuel)%nat -> exists f,
    (forall r, In r right -> NoDup (f (col sc r)) /\
       forall x, In x (f (col sc r)) <-> path_between (edge sub lc rc) lo hi x (col sc r)) /\
    compute_path_right_bound fuel order sub right sc lv lc rc lval lo hi blank (S w)
    = Some (flat_map (bound_block f lv lval (fun y x => (x, y)) sc) right).
Proof.
  intros order sub right sc w lv lc rc lval lo hi blank H1 H2 H3 H4 H5 H6 H7 H8.
  destruct (bound_correct order sub rc lc lv lval (fun y x => (x, y)) blank sc w right lo hi
              H1 H2 H3 H4 H5 H6 H7 H8) as (f0 & Hf).
  exists f0. intros fuel Hfuel. destruct (Hf fuel Hfuel) as (f & Hr & E). exists f. split; [|exact E].
  intros r Hin. destruct (Hr r Hin) as [Hd He]. split; [exact Hd|].
  intros x. rewrite He. apply path_flip.
Qed.

(* ---- refutations ---- *)

Definition id_order : iteration_order := fun l => l.
Lemma id_order_ok : order_ok id_order.
Proof. intros l. apply Permutation_refl. Qed.

Definition diamond : table := [[0; 1]; [1; 2]; [0; 2]; [2; 3]].

(* With an upper bound the search misses nodes: 3 has distance 2 from 0 (via 2), but 2 is
   marked when it is first seen at distance 2 (via 1) and not expanded again. *)
Theorem C16_bounded_path_refuted : exists fuel res,
  compute_path fuel id_order diamond false true 0 1 0 0 1 2 = Some res /\
  ~ In [0; 3] res /\ path_between (edge diamond 0 1) 1 2 0 3.
Proof.
  exists 100%nat. eexists. split; [vm_compute; reflexivity|]. split.
  - simpl. intuition congruence.
  - exists 2%nat. split; [lia|]. apply walk_cons with 2; [exists [0; 2]; simpl; auto|].
    apply walk_cons with 3; [exists [2; 3]; simpl; auto 6|]. constructor.
Qed.

(* With two fixed ends nothing is returned, although the path exists. *)
Theorem C16_fixed_ends_refuted : forall fuel order sub lc rc x y lo hi,
  compute_path fuel order sub false false lc rc x y lo hi = Some [].
Proof. reflexivity. Qed.
Example C16_fixed_ends_path : path_between (edge diamond 0 1) 1 (2 ^ 64 - 1) 0 2.
Proof. exists 1%nat. split; [lia|]. apply walk_cons with 2; [exists [0; 2]; simpl; auto|constructor]. Qed.

(* A lower bound of 0 is rejected as soon as there is a node to start from. *)
Theorem C16_min_zero_rejected : forall fuel order sub lc rc lval rval hi,
  compute_path fuel order sub false true lc rc lval rval 0 hi = None.
Proof. reflexivity. Qed.

(* Adjacent rows of the left table with the same path end: the second one gets the other
   columns of the first one. *)
Theorem C16_left_bound_refuted : exists fuel (left res : table),
  left = [[0; 10]; [0; 20]] /\
  compute_path_left_bound fuel id_order [[0; 1]] left 0 true 0 1 0 1 (2 ^ 64 - 1) [7; 7; 7] 3 = Some res /\
  res = [[0; 1; 10]; [0; 1; 10]].
Proof. exists 100%nat, [[0; 10]; [0; 20]]. eexists. split; [reflexivity|]. split; vm_compute; reflexivity. Qed.

(* ---- examples ---- *)

(* a cycle with a tail *)
Example C16_path_example :
  compute_path 100 id_order [[1; 2]; [2; 3]; [3; 1]; [3; 4]] true true 0 1 0 0 1 (2 ^ 64 - 1) =
  Some [[1; 2]; [1; 3]; [1; 1]; [1; 4]; [2; 3]; [2; 1]; [2; 2]; [2; 4]; [3; 1]; [3; 2]; [3; 3]; [3; 4]].
Proof. vm_compute. reflexivity. Qed.
Example C16_path_example_hyp : 1 <= 1 /\ 1 + N.of_nat (length [[1; 2]; [2; 3]; [3; 1]; [3; 4]]) <= (2 ^ 64 - 1) + 1 /\ order_ok id_order.
Proof. split; [lia|]. split; [vm_compute; discriminate|]. apply id_order_ok. Qed.
Example C16_left_bound_example :
  compute_path_left_bound 100 id_order [[1; 2]; [2; 3]] [[5; 1; 6]; [7; 2; 8]] 1 true 0 1 0 1 (2 ^ 64 - 1)
    [0; 0; 0; 0] 4 = Some [[1; 2; 5; 6]; [1; 3; 5; 6]; [2; 3; 7; 8]] /\
  adjacent_same 1 [[5; 1; 6]; [7; 2; 8]].
Proof.
  split; [vm_compute; reflexivity|]. intros [|[|i]] r s; simpl; intros H1 H2; inversion H1; inversion H2; subst.
  all: try (destruct i; discriminate). vm_compute. discriminate.
Qed.
Example C16_right_bound_example :
  compute_path_right_bound 100 id_order [[1; 2]; [2; 3]] [[5; 3; 6]] 1 true 0 1 0 1 (2 ^ 64 - 1)
    [0; 0; 0; 0] 4 = Some [[2; 3; 5; 6]; [1; 3; 5; 6]].
Proof. vm_compute. reflexivity. Qed.

(* ================= C43 ================= *)

(* TransitivePath.cpp:109-132 *)
Theorem C43_path_sorted : forall fuel order sub lc rc lval rval lo hi res,
  sorted_on lc sub -> compute_path fuel order sub true true lc rc lval rval lo hi = Some res ->
  sorted_on 0 res.
Proof. exact compute_path_sorted. Qed.
Theorem C43_left_bound_sorted : forall fuel order sub left sc w rv lc rc rval lo hi blank res,
  width w left -> (sc < w)%nat -> length blank = S w -> sorted_on sc left ->
  compute_path_left_bound fuel order sub left sc rv lc rc rval lo hi blank (S w) = Some res ->
  sorted_on 0 res.
Proof.
  intros fuel order sub left sc w rv lc rc rval lo hi blank res Hw Hsc Hb Hs E. apply strong_sorted_on.
  eapply (bound_loop_sorted fuel order (build_edges sub lc rc) lo hi rv rval (fun x y => (x, y)) blank sc w 0); eauto.
  - intros r [].
  - congruence.
Qed.
Theorem C43_right_bound_sorted : forall fuel order sub right sc w lv lc rc lval lo hi blank res,
  width w right -> (sc < w)%nat -> length blank = S w -> sorted_on sc right ->
  compute_path_right_bound fuel order sub right sc lv lc rc lval lo hi blank (S w) = Some res ->
  sorted_on 1 res.
Proof.
  intros fuel order sub right sc w rv lc rc rval lo hi blank res Hw Hsc Hb Hs E. apply strong_sorted_on.
  eapply (bound_loop_sorted fuel order (build_edges sub rc lc) lo hi rv rval (fun x y => (y, x)) blank sc w 1); eauto.
  - intros r [].
  - congruence.
Qed.
Example C43_path_example : sorted_on 0 [[1; 2]; [1; 3]; [4; 1]].
Proof. repeat constructor; vm_compute; discriminate. Qed.

Print Assumptions C16_path_partial.
Print Assumptions C16_path_sound.
Print Assumptions C16_search_ends.
Print Assumptions C16_left_bound_partial.
Print Assumptions C16_right_bound_partial.
Print Assumptions C16_bounded_path_refuted.
Print Assumptions C16_fixed_ends_refuted.
Print Assumptions C16_left_bound_refuted.
Print Assumptions C16_min_zero_rejected.
Print Assumptions C43_path_sorted.
Print Assumptions C43_left_bound_sorted.
Print Assumptions C43_right_bound_sorted.
