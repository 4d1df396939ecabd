(* Specification of property paths. *)
From Coq Require Import List NArith Bool.
From Verif Require Import Table_Spec.
Import ListNotations.
Open Scope N_scope.

(* the edges given by two columns of a table *)
Definition edge (sub : table) (lc rc : nat) (x y : N) : Prop :=
  exists r, In r sub /\ col lc r = x /\ col rc r = y.

(* a walk of k steps *)
Inductive walk (E : N -> N -> Prop) : nat -> N -> N -> Prop :=
| walk_nil x : walk E 0 x x
| walk_cons k x y z : E x y -> walk E k y z -> walk E (S k) x z.

(* y can be reached from x by a walk of a length between lo and hi *)
Definition path_between (E : N -> N -> Prop) (lo hi : N) (x y : N) : Prop :=
  exists k, lo <= N.of_nat k <= hi /\ walk E k x y.

(* f lists, without repetition, what can be reached from x *)
Definition reach_ok (f : N -> list N) (E : N -> N -> Prop) lo hi (x : N) : Prop :=
  NoDup (f x) /\ forall y, In y (f x) <-> path_between E lo hi x y.

(* A row (x, y) of the result of a path with ends that are variables (lv, rv) or the values
   lval, rval. *)
Definition path_rows (lv rv : bool) (lval rval : N) sub lc rc lo hi (r : row) : Prop :=
  exists x y, r = [x; y] /\ path_between (edge sub lc rc) lo hi x y /\
    (lv = true \/ x = lval) /\ (rv = true \/ y = rval).

(* Adjacent rows with the same value in column c agree in the other columns. *)
Definition adjacent_same (c : nat) (t : table) : Prop :=
  forall i r s, nth_error t i = Some r -> nth_error t (S i) = Some s -> col c r = col c s ->
    drop_col c r = drop_col c s.

(* The rows for one row r of a bound side whose column sc holds one end of the path: the two
   ends followed by the other columns of r, for every reachable other end. *)
Definition bound_block f (isVar : bool) (value : N) (pair : N -> N -> N * N) (sc : nat) (r : row) : table :=
  map (fun y => fst (pair (col sc r) y) :: snd (pair (col sc r) y) :: drop_col sc r)
      (filter (fun y => isVar || (y =? value)) (f (col sc r))).

