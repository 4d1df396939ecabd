(* Library algorithms of the C++ standard library as used by QLever (trusted behaviour). *)
From Coq Require Import List NArith Arith.
Import ListNotations.

(* std::lower_bound on positions: the algorithm of libstdc++ (bits/stl_algobase.h,
   __lower_bound). `below p` says that the element at position p compares less than the
   searched value. Searches [first, first + len). `fuel` >= len suffices. *)
Fixpoint lower_bound_loop (fuel : nat) (below : nat -> bool) (first len : nat) : nat :=
  match fuel with
  | O => first
  | S fuel' =>
      match len with
      | O => first
      | _ =>
          let half := Nat.div2 len in
          let middle := first + half in
          if below middle then lower_bound_loop fuel' below (middle + 1) (len - half - 1)
          else lower_bound_loop fuel' below first half
      end
  end.

(* std::lower_bound(begin + first, begin + last, ...); undefined behaviour (None) if the
   range is not valid, i.e. first > last. *)
Definition lower_bound (below : nat -> bool) (first last : nat) : option nat :=
  if Nat.leb first last then Some (lower_bound_loop (last - first) below first (last - first))
  else None.

(* std::upper_bound is lower_bound for the predicate "not greater than the value". *)
Definition upper_bound (not_greater : nat -> bool) (first last : nat) : option nat :=
  lower_bound not_greater first last.

(* std::unique followed by erase: keeps the first of each run of equivalent elements. *)
Fixpoint unique_by {A} (eqb : A -> A -> bool) (last : A) (l : list A) : list A :=
  match l with
  | [] => []
  | x :: l' => if eqb last x then unique_by eqb last l' else x :: unique_by eqb x l'
  end.
Definition std_unique {A} (eqb : A -> A -> bool) (l : list A) : list A :=
  match l with [] => [] | x :: l' => x :: unique_by eqb x l' end.

(* Longest prefix satisfying p, and what follows it. *)
Fixpoint take_while {A} (p : A -> bool) (l : list A) : list A :=
  match l with [] => [] | x :: l' => if p x then x :: take_while p l' else [] end.
Fixpoint drop_while {A} (p : A -> bool) (l : list A) : list A :=
  match l with [] => [] | x :: l' => if p x then drop_while p l' else l end.
