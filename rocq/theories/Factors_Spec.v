(* A file of factors and what it says. *)
From Coq Require Import List NArith.
Import ListNotations.
Local Open Scope N_scope.

(* a line: a name and a value, separated by a tab *)
Definition entry : Type := list N * list N.
Definition plain (s : list N) : Prop := ~ In 9 s /\ ~ In 10 s.
Definition line_of (e : entry) : list N := fst e ++ [9] ++ snd e.
Definition file_of (es : list entry) : list N := flat_map (fun e => line_of e ++ [10]) es.
(* the value that the file gives to a key: that of the last line for it *)
Inductive says : list entry -> list N -> list N -> Prop :=
| SaysHere es key v : (forall v', ~ In (key, v') es) -> says ((key, v) :: es) key v
| SaysLater e es key v : says es key v -> says (e :: es) key v.
Definition silent (es : list entry) (key : list N) : Prop := forall v, ~ In (key, v) es.
