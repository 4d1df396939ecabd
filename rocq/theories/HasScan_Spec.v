(* What ql:has-predicate is about. *)
From Coq Require Import String List NArith Bool.
From Verif Require Import Whole_Spec.
Import ListNotations.

(* x has the predicate y: there is a fact; the predicates that stand for a predicate with a language begin with @ *)
Definition has (facts : list fact) (x y : word) : Prop := (exists z, In (x, y, z) facts) /\ hd 0%N y <> 64%N.

Section Rows.
Variable isvar : string -> bool.
Variable spelled : string -> word.
Variable facts : list fact.
(* the rows for the pattern `s ql:has-predicate o` *)
Definition has_row (column : string -> option nat) (s o : string) (r : list word) : Prop :=
  exists x y, has facts x y /\ length r = length (filter isvar [s; o]) /\
    forall u w, In (u, w) [(s, x); (o, y)] ->
      if isvar u then exists c, column u = Some c /\ nth_error r c = Some w else spelled u = w.
End Rows.
