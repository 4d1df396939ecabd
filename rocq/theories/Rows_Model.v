(* Model of FTSAlgorithms::aggScoresAndTakeTopKContexts for rows (index/FTSAlgorithms.cpp:369-428), used by the text
   searches with subresults (Index.Text.cpp:1249, 1319, 1368). std::sort is a function that sorts for the comparison. *)
From Coq Require Import List NArith Arith Bool.
From Verif Require Import Table_Spec Rows_Spec.
Import ListNotations.
Open Scope N_scope.

(* 380-390: the comparison; the loop over i = 3 .. width-1 is lexicographic *)
Fixpoint less_from (l r : list N) (eq : bool) : bool :=
  match l, r with
  | x :: l', y :: r' => if x =? y then less_from l' r' eq else x <? y
  | _, _ => eq
  end.
Definition less_row (l r : row) : bool :=
  if col 0 l =? col 0 r then less_from (skipn 3 l) (skipn 3 r) (col 1 l <? col 1 r) else col 0 l <? col 0 r.
(* 395-405 *)
Fixpoint same_from (l r : list N) : bool :=
  match l, r with
  | x :: l', y :: r' => if x =? y then same_from l' r' else false
  | _, _ => true
  end.
Definition same_row (l r : row) : bool := (col 0 l =? col 0 r) && same_from (skipn 3 l) (skipn 3 r).
(* 415-421: the last m rows get the score c *)
Definition update_last (m : nat) (c : N) (res : table) : table :=
  firstn (length res - m) res ++ map (with_score c) (skipn (length res - m) res).
(* 394-425 *)
Definition step (k : nat) (st : table * nat) (r : row) : table * nat :=
  let (res, cnt) := st in
  if same_row r (last res []) then (if (S cnt <=? k)%nat then res ++ [r] else res, S cnt)
  else (update_last (Nat.min cnt k) (N.of_nat cnt) res ++ [r], 1%nat).
(* 370-428 *)
Definition agg_rows (sort : table -> table) (k : nat) (t : table) : table :=
  match sort t with
  | [] => []
  | r :: l => fst (fold_left (step k) l ([r], 1%nat))
  end.
