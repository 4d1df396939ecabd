(* What the cache, the index and the stored sizes have to satisfy. *)
From Coq Require Import String List NArith Permutation.
From Verif Require Import Table_Spec Plan_Model Empty_Model.
Import ListNotations.

(* the columns of a triple in the order of a permutation *)
Definition permuted (o : order) (t : N * N * N) : row :=
  let '(s, p, x) := t in
  match o with
  | SPO => [s; p; x] | SOP => [s; x; p] | PSO => [p; s; x] | POS => [p; x; s] | OSP => [x; s; p] | OPS => [x; p; s]
  end.
(* every permutation of the index holds the triples kb *)
Definition index_holds (kb : list (N * N * N)) (w : world) : Prop :=
  num_triples w = N.of_nat (length kb) /\ forall o, Permutation (ix w o) (map (permuted o) kb).
(* a stored size is the size of the result *)
Definition sizes_right (w : world) : Prop :=
  forall o bound n, pinned w o bound = Some n -> n = N.of_nat (length (scan_table (voc w) (ix w) o bound)).
(* a result in the cache is the result of the tree *)
Definition cache_right (w : world) (cached : tree -> option table) : Prop :=
  forall t r, cached t = Some r -> computes w t r.
