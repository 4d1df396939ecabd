(* What a query is about, without ids, files and tables: words, and triples of words. *)
From Coq Require Import String List NArith Bool.
Import ListNotations.

Definition word := list N.
Definition fact := (word * word * word)%type.

Section Answers.
Variable isvar : string -> bool.          (* which terms are variables *)
Variable spelled : string -> word.        (* the word that a constant is *)
Variable facts : list fact.               (* the knowledge base *)
(* the value of the variable v; mu has one word for each of the variables U *)
Fixpoint value_in (U : list string) (mu : list word) (v : string) : option word :=
  match U, mu with
  | u :: U', x :: mu' => if String.eqb u v then Some x else value_in U' mu' v
  | _, _ => None
  end.
Definition meaning (U : list string) (mu : list word) (t : string) : option word :=
  if isvar t then value_in U mu t else Some (spelled t).
(* a pattern with the values of mu put in is a fact *)
Definition true_pattern (U : list string) (mu : list word) (t : string * string * string) : Prop :=
  match t with
  | (s, p, o) => exists x y z, meaning U mu s = Some x /\ meaning U mu p = Some y /\ meaning U mu o = Some z /\ In (x, y, z) facts
  end.
(* a filter: its variables and what it says about their values *)
Definition answer (U : list string) (patterns : list (string * string * string))
  (filters : list (list string * (list (option word) -> bool))) (mu : list word) : Prop :=
  length mu = length U /\
  (forall t, In t patterns -> true_pattern U mu t) /\
  (forall f, In f filters -> snd f (map (value_in U mu) (fst f)) = true).
End Answers.

(* the same answers, as a table with one row for each of them *)
Definition lists {A : Type} (rows : list A) (P : A -> Prop) : Prop := NoDup rows /\ forall x, In x rows <-> P x.
(* the words of a fact in the order of a permutation: 0 is the subject, 1 the predicate, 2 the object *)
Definition arranged (positions : list nat) (f : fact) : list word :=
  let '(s, p, o) := f in map (fun i => nth i [s; p; o] []) positions.
