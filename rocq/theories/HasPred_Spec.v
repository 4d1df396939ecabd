(* Specification of ql:has-predicate: which entity has which predicates. *)
From Coq Require Import List NArith Arith.
From Verif Require Import Table_Spec.
Import ListNotations.
Open Scope N_scope.

(* global/Pattern.h:17 *)
Definition NO_PATTERN : N := 4294967295.

(* hasPattern: pattern of each entity; hasPredicate: explicit list of each entity; patterns: the
   predicates of each pattern *)
Record pattern_index := { hasPattern : list N; hasPredicate : list (list N); patterns : list (list N) }.

(* The predicates of an entity: those of its pattern if it has one, else its explicit list. *)
Definition predicates_of (ix : pattern_index) (e : N) : list N :=
  match nth_error (hasPattern ix) (N.to_nat e) with
  | Some k => if k =? NO_PATTERN then nth (N.to_nat e) (hasPredicate ix) []
              else nth (N.to_nat k) (patterns ix) []
  | None => nth (N.to_nat e) (hasPredicate ix) []
  end.

(* All pattern numbers exist. *)
Definition index_ok (ix : pattern_index) : Prop :=
  Forall (fun k => k = NO_PATTERN \/ k < N.of_nat (length (patterns ix))) (hasPattern ix).
(* No predicate is listed twice. *)
Definition lists_distinct (ix : pattern_index) : Prop :=
  Forall (@NoDup N) (patterns ix) /\ Forall (@NoDup N) (hasPredicate ix).
(* There are fewer entities than the unbound value. *)
Definition index_small (ix : pattern_index) : Prop :=
  N.of_nat (length (hasPattern ix)) <= UNBOUND /\ N.of_nat (length (hasPredicate ix)) <= UNBOUND.

(* the number of different entities in the list having predicate p *)
Definition entities_with (ix : pattern_index) (p : N) (es : list N) : nat :=
  length (filter (fun e => existsb (N.eqb p) (predicates_of ix e)) (nodup N.eq_dec es)).
