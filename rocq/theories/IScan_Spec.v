(* What a scan for a triple of terms is about: the facts that have the constants of the triple in their places, and the
   words at the places of the variables. *)
From Coq Require Import String List NArith Bool.
From Verif Require Import Whole_Spec.
Import ListNotations.

Section Scans.
Variable isvar : string -> bool.          (* which terms are variables *)
Variable spelled : string -> word.        (* the word that a constant is *)
Definition pattern := (string * string * string)%type.
Definition places (t : pattern) (f : fact) : list (string * word) :=
  let '(s, p, o) := t in let '(x, y, z) := f in [(s, x); (p, y); (o, z)].
Definition met (t : pattern) (f : fact) : Prop := forall u w, In (u, w) (places t f) -> isvar u = false -> spelled u = w.
Definition variables (t : pattern) : list string := let '(s, p, o) := t in filter isvar [s; p; o].
(* the row for a fact: the column of each variable has the word at the variable's place, and there are no other columns *)
Definition row_for (column : string -> option nat) (t : pattern) (f : fact) (r : list word) : Prop :=
  length r = length (variables t) /\
  forall u w, In (u, w) (places t f) -> isvar u = true -> exists c, column u = Some c /\ nth_error r c = Some w.
End Scans.
