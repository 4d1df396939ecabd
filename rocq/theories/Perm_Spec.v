(* What scanning the six permutations of an index should give, in terms of the set of indexed triples only. *)
From Coq Require Import List NArith Arith Bool Sorted.
Import ListNotations.
Open Scope N_scope.

(* the order in which permutation XYZ looks at a triple (s, p, o) *)
Definition PSO (t : N * N * N) : N * N * N := let '(s, p, o) := t in (p, s, o).
Definition POS (t : N * N * N) : N * N * N := let '(s, p, o) := t in (p, o, s).
Definition SPO (t : N * N * N) : N * N * N := let '(s, p, o) := t in (s, p, o).
Definition SOP (t : N * N * N) : N * N * N := let '(s, p, o) := t in (s, o, p).
Definition OSP (t : N * N * N) : N * N * N := let '(s, p, o) := t in (o, s, p).
Definition OPS (t : N * N * N) : N * N * N := let '(s, p, o) := t in (o, p, s).

Definition pair_lt (a b : N * N) : Prop := fst a < fst b \/ fst a = fst b /\ snd a < snd b.

(* the answer to a scan with the first component fixed: strictly sorted, so without duplicates *)
Definition scan_answer (key : N * N * N -> N * N * N) (triples : list (N * N * N)) (x : N) (l : list (N * N)) : Prop :=
  StronglySorted pair_lt l /\ forall y z, In (y, z) l <-> exists t, In t triples /\ key t = (x, y, z).
(* the answer to a scan with the first two components fixed *)
Definition scan2_answer (key : N * N * N -> N * N * N) (triples : list (N * N * N)) (x y : N) (l : list N) : Prop :=
  StronglySorted N.lt l /\ forall z, In z l <-> exists t, In t triples /\ key t = (x, y, z).

(* the relation of x: its distinct pairs, and the distinct first components of those *)
Definition pair_dec (a b : N * N) : {a = b} + {a <> b}.
Proof. decide equality; apply N.eq_dec. Defined.
Definition relation (key : N * N * N -> N * N * N) (triples : list (N * N * N)) (x : N) : list (N * N) :=
  nodup pair_dec (map (fun t => (snd (fst (key t)), snd (key t)))
                      (filter (fun t => fst (fst (key t)) =? x) triples)).
Definition lhs_of (r : list (N * N)) : list N := nodup N.eq_dec (map fst r).
(* at most one pair per first component *)
Definition functional (r : list (N * N)) : Prop := NoDup (map fst r).

(* Relations with more than thr pairs that are not functional are stored in blocks of per left hand sides. Looking up
   a left hand side y that does not occur, all left hand sides of the block where it is searched may be smaller. *)
Definition past_block (per thr : nat) (r : list (N * N)) (y : N) : Prop :=
  (thr < length r)%nat /\ ~ functional r /\ ~ In y (lhs_of r) /\
  let n := length (filter (fun a => a <? y) (lhs_of r)) in
  (0 < n)%nat /\ (n = length (lhs_of r) \/ Nat.modulo n per = 0%nat).
