(* How many facts there are, in terms of words only. *)
From Coq Require Import List NArith Bool.
From Verif Require Import Whole_Spec.
Import ListNotations.

Definition word_dec : forall a b : word, {a = b} + {a <> b} := list_eq_dec N.eq_dec.
Definition fact_dec (a b : fact) : {a = b} + {a <> b}.
Proof. decide equality; [apply word_dec|]. decide equality; apply word_dec. Defined.

(* the subject (0), predicate (1) or object (2) of a fact *)
Definition part (i : nat) (f : fact) : word := let '(s, p, o) := f in match i with 0 => s | 1 => p | _ => o end.
(* how many different facts there are, how many with the given part, and how many different parts they have *)
Definition number_of_facts (facts : list fact) : nat := length (nodup fact_dec facts).
Definition number_with (i : nat) (w : word) (facts : list fact) : nat :=
  length (nodup fact_dec (filter (fun f => if word_dec (part i f) w then true else false) facts)).
Definition number_with_both (i : nat) (w : word) (j : nat) (u : word) (facts : list fact) : nat :=
  length (nodup fact_dec (filter (fun f => (if word_dec (part i f) w then true else false) && (if word_dec (part j f) u then true else false)) facts)).
Definition number_of_parts (i : nat) (facts : list fact) : nat := length (nodup word_dec (map (part i) facts)).
