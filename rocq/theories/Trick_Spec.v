(* Queries that count predicates: SELECT ?o (COUNT(?v) AS ?c) WHERE { ... } GROUP BY ?o. *)
From Coq Require Import String List NArith Arith Bool.
From Verif Require Import Table_Spec Plan_Spec Group_Spec.
Import ListNotations.
Local Open Scope nat_scope.

Section Counts.
Variable U : list string.
(* the solutions with value p for variable o, and how many of them have a value for v *)
Definition group_rows (sols : list mapping) (o : string) (p : N) : list mapping :=
  filter (fun m => match get U m o with Some x => N.eqb x p | None => false end) sols.
Definition count_of (sols : list mapping) (o v : string) (p : N) : nat :=
  length (filter (fun m => match get U m v with Some _ => true | None => false end) (group_rows sols o p)).
(* one row for every value of o, with the count *)
Definition counts_of (sols : list mapping) (o v : string) (res : list (list N)) : Prop :=
  NoDup (map (col 0) res) /\ (forall r, In r res -> length r = 2) /\
  forall p n, In [p; n] res <-> group_rows sols o p <> [] /\ n = N.of_nat (count_of sols o v p).
End Counts.

(* ---------- conditions ---------- *)
Section Conditions.
Variable U : list string.
Variable is_variable : string -> bool.
(* MINUS and VALUES of the group itself do not have the variable o *)
Fixpoint outside (o : string) (es : elements) : bool :=
  match es with
  | Nil => true
  | Cons e es' =>
      match e with
      | Minus g => match scope_group U is_variable g with Some s => negb (memb o (snd s)) | None => false end
      | Inline vs _ => negb (memb o vs)
      | _ => true
      end && outside o es'
  end.
(* OPTIONAL, MINUS and BIND use the variable x only where it has a value in all solutions before; BIND does not define it *)
Fixpoint subject_first (x : string) (es : elements) (s : scope) : bool :=
  match es with
  | Nil => true
  | Cons e es' =>
      match e with
      | Optional g | Minus g => match scope_group U is_variable g with Some s' => negb (memb x (snd s')) || memb x (fst s) | None => false end
      | Bind t args _ => negb (String.eqb t x) && (negb (memb x args) || memb x (fst s))
      | _ => true
      end &&
      match scope_element U is_variable e s with Some s' => subject_first x es' s' | None => false end
  end.
End Conditions.

(* The text of an aggregate that counts, in any case: it begins with count, and distinct does not occur in it. *)
Definition lower (c : N) : N := if N.leb 65 c && N.leb c 90 then (c + 32)%N else c.
Definition plain_count (f : list N) : Prop :=
  (exists r, map lower f = [99; 111; 117; 110; 116]%N ++ r) /\
  ~ exists a b, map lower f = a ++ [100; 105; 115; 116; 105; 110; 99; 116]%N ++ b.
