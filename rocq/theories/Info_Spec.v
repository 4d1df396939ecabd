(* What the runtime information of an operation should say (C81). *)
From Coq Require Import ZArith String List.
Import ListNotations.
Local Open Scope Z_scope.

(* The names of the columns of a table: the variable in column c, for every column. *)
Definition names_columns (column : string -> option nat) (width : nat) (names : list string) : Prop :=
  length names = width /\ forall c v, nth_error names c = Some v <-> column v = Some c.

(* Times of nested computations: each took some time of its own and contained others, or was a look into the cache (with
   the former times of the contained ones below it). *)
Inductive times := Times (total own : Z) (from_cache : bool) (parts : list times).
Definition t_total (t : times) : Z := match t with Times n _ _ _ => n end.
Fixpoint sum (l : list Z) : Z := match l with [] => 0 | x :: l' => x + sum l' end.
(* the own times of all computations that were done *)
Fixpoint all_own (t : times) : Z :=
  match t with
  | Times _ own cached parts => own + if cached then 0 else sum (map all_own parts)
  end.
