(* Vocabularies, without reference to the code. *)
From Coq Require Import List NArith Arith.
Import ListNotations.
Open Scope N_scope.

Definition no_newline (w : list N) : Prop := ~ In 10 w.
(* The sizes for which halving as in size -> size / 2 - 1 ends with 1: the search for something in
   front of all words then goes below 0. *)
Inductive unlucky : N -> Prop :=
| unlucky_one : unlucky 1
| unlucky_more n : 1 < n -> unlucky (n / 2 - 1) -> unlucky n.
