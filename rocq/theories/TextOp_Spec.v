(* What a text operation with a filter must return: the solutions of the text operation joined with the
   solutions of the filter. *)
From Coq Require Import String List NArith Arith Bool.
From Verif Require Import Table_Spec.
Import ListNotations.

(* a table with the columns of its variables *)
Definition columns := list (string * nat).
Definition value_in (m : columns) (r : row) (v : string) : option N :=
  option_map (fun p => col (snd p) r) (find (fun p => String.eqb (fst p) v) m).

(* two rows agree on the variables they have in common *)
Definition agree (ma mb : columns) (ra rb : row) : bool :=
  forallb (fun p => match value_in mb rb (fst p) with Some x => N.eqb x (col (snd p) ra) | None => true end) ma.
(* the value of a variable in two rows that agree *)
Definition either (ma mb : columns) (ra rb : row) (v : string) : option N :=
  match value_in ma ra v with Some x => Some x | None => value_in mb rb v end.
(* the values of the variables vs in all solutions of the join of two tables, as a bag *)
Definition joined (ma mb : columns) (A B : table) (vs : list string) : list (list (option N)) :=
  flat_map (fun ra => map (fun rb => map (either ma mb ra rb) vs) (filter (agree ma mb ra) B)) A.
(* the values of the variables vs in all solutions of a table *)
Definition solutions (m : columns) (A : table) (vs : list string) : list (list (option N)) :=
  map (fun r => map (value_in m r) vs) A.
