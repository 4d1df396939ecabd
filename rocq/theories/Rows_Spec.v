(* Rows of a text search with several entities: entity, score, context, further entities. *)
From Coq Require Import List NArith Arith Bool Permutation.
From Verif Require Import Table_Spec.
Import ListNotations.
Open Scope N_scope.

(* the entities of a row *)
Definition entities (r : row) : list N := col 0 r :: skipn 3 r.
Definition has_entities (key : list N) (r : row) : bool := if list_eq_dec N.eq_dec (entities r) key then true else false.
Definition rows_of (key : list N) (t : table) : table := filter (has_entities key) t.
Definition score (r : row) : N := col 1 r.
(* the row with another score *)
Definition with_score (n : N) (r : row) : row := match r with e :: _ :: rest => e :: n :: rest | _ => r end.

(* The intended result: for every combination of entities min(k, n) of its n rows, none of the others better than these,
   with the number n as score. *)
Definition aggregated (k : nat) (t res : table) : Prop :=
  forall key, exists best others, Permutation (rows_of key t) (best ++ others) /\
    rows_of key res = map (with_score (N.of_nat (length (rows_of key t)))) best /\
    length best = Nat.min k (length (rows_of key t)) /\
    (forall b o, In b best -> In o others -> score o <= score b).

(* the lexicographic order of the combinations *)
Fixpoint before (l r : list N) : Prop :=
  match l, r with
  | x :: l', y :: r' => x < y \/ (x = y /\ before l' r')
  | _, _ => False
  end.
