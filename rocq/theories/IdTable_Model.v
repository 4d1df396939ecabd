(* Model of engine/IdTable.h: a table of ids in one flat vector with its own size and capacity (in rows).
   Static and dynamic tables behave alike here, the number of columns is t_cols in both. Memory accesses outside
   the vector, and through references invalidated by growing, are UB. Element type Id is N (uint64). *)
From Coq Require Import List NArith Arith Bool.
From Verif Require Import Bytes.
Import ListNotations.
Open Scope N_scope.

Definition W : N := 18446744073709551616.   (* 2^64 *)

Inductive outcome (A : Type) := Ok (a : A) | Throw | UB.
Arguments Ok {A}. Arguments Throw {A}. Arguments UB {A}.

(* IdTable.h:23-26, 252-253, 651-655 *)
Record tab := { t_size : N; t_cap : N; t_cols : N; t_data : list N }.

(* 740-744 a new table with the given number of columns *)
Definition new_table (cols : N) : tab := {| t_size := 0; t_cap := 0; t_cols := cols; t_data := [] |}.

(* ---------- binary32: a natural number rounded to 24 significant bits, ties to even ---------- *)
Definition r24 (x : N) : N :=
  let e := N.log2 x in
  if e <? 24 then x
  else
    let u := 2 ^ (e - 23) in
    let q := x / u in
    let r := x mod u in
    if (r <? u / 2) || ((r =? u / 2) && N.even q) then q * u else (q + 1) * u.
(* 1082 _capacity * GROWTH_FACTOR + 1 with a float factor 1.5: conversion, product and sum are rounded; the
   numbers are counted in halves here *)
Definition grown (cap : N) : N := r24 (r24 (3 * r24 cap) + 2) / 2.

(* std::vector::resize; new elements are value-initialised *)
Definition vec_resize (l : list N) (n : N) : list N :=
  firstn (N.to_nat n) l ++ repeat 0 (N.to_nat n - length l).

Section Table.
  (* the longest vector the allocator provides; beyond that resize throws *)
  Variable maxlen : N.

  (* 1079-1089 *)
  Definition grow (newRows : N) (t : tab) : outcome tab :=
    let newcap := if newRows =? 0 then grown (t_cap t) else (t_cap t + newRows) mod W in
    let n := (newcap * t_cols t) mod W in
    if maxlen <? n then Throw
    else Ok {| t_size := t_size t; t_cap := newcap; t_cols := t_cols t; t_data := vec_resize (t_data t) n |}.

  Definition grow_if (c : bool) (newRows : N) (t : tab) : outcome tab := if c then grow newRows t else Ok t.

  (* the offset of a row: row * _cols *)
  Definition off (t : tab) (row : N) : nat := N.to_nat (row * t_cols t).

  Definition with_data (t : tab) (size : N) (d : option (list N)) : outcome tab :=
    match d with
    | Some data => Ok {| t_size := size; t_cap := t_cap t; t_cols := t_cols t; t_data := data |}
    | None => UB
    end.

  Definition bind {A B} (o : outcome A) (f : A -> outcome B) : outcome B :=
    match o with Ok a => f a | Throw => Throw | UB => UB end.

  (* 855-860 *)
  Definition push_blank (t : tab) : outcome tab :=
    bind (grow_if (t_cap t <=? t_size t + 1) 0 t) (fun t =>
    Ok {| t_size := t_size t + 1; t_cap := t_cap t; t_cols := t_cols t; t_data := t_data t |}).

  (* 864-871, 893-905: init points to cols() ids outside of this table *)
  Definition push (row : list N) (t : tab) : outcome tab :=
    bind (grow_if (t_cap t <=? t_size t + 1) 0 t) (fun t =>
    match load row 0 (N.to_nat (t_cols t)) with
    | Some r => with_data t (t_size t + 1) (store (t_data t) (off t (t_size t)) r)
    | None => UB
    end).
  (* 893-905 with a reference to a row of this table, 907-918 with this table as source (then the pointer is
     taken after growing) *)
  Definition push_own_ref (i : N) (t : tab) : outcome tab :=
    if t_cap t <=? t_size t + 1 then bind (grow 0 t) (fun _ => UB)
    else match load (t_data t) (off t i) (N.to_nat (t_cols t)) with
         | Some r => with_data t (t_size t + 1) (store (t_data t) (off t (t_size t)) r)
         | None => UB
         end.
  Definition push_from (src : tab) (i : N) (t : tab) : outcome tab :=
    bind (grow_if (t_cap t <=? t_size t + 1) 0 t) (fun t =>
    match load (t_data src) (off t i) (N.to_nat (t_cols t)) with
    | Some r => with_data t (t_size t + 1) (store (t_data t) (off t (t_size t)) r)
    | None => UB
    end).
  Definition push_own (i : N) (t : tab) : outcome tab :=
    bind (grow_if (t_cap t <=? t_size t + 1) 0 t) (fun t =>
    match load (t_data t) (off t i) (N.to_nat (t_cols t)) with
    | Some r => with_data t (t_size t + 1) (store (t_data t) (off t (t_size t)) r)
    | None => UB
    end).

  (* 922-926 *)
  Definition pop (t : tab) : tab :=
    {| t_size := if 0 <? t_size t then t_size t - 1 else t_size t; t_cap := t_cap t; t_cols := t_cols t;
       t_data := t_data t |}.

  (* 931-954 rows [b, e) of another table src, before row pos *)
  Definition insert (pos : N) (src : tab) (b e : N) (t : tab) : outcome tab :=
    if e <=? b then Ok t
    else
      let target := N.min pos (t_size t) in
      let k := e - b in
      bind (grow_if (t_cap t <? t_size t + k) (t_size t + k - t_cap t) t) (fun t =>
      let after := t_size t - target in
      (* 948 memmove *)
      match load (t_data t) (off t target) (N.to_nat (t_cols t * after)) with
      | None => UB
      | Some moved =>
        match store (t_data t) (off t (target + k)) moved with
        | None => UB
        | Some d1 =>
          (* 952-953 *)
          match load (t_data src) (off src b) (N.to_nat (t_cols t * k)) with
          | None => UB
          | Some new => with_data t (t_size t + k) (store d1 (off t target) new)
          end
        end
      end).

  (* 961-981; without end: one row *)
  Definition erase (b : N) (e : option N) (t : tab) : outcome tab :=
    let e0 := match e with Some e => e | None => b + 1 end in
    let e1 := if t_size t <? e0 then t_size t else e0 in
    if e1 <=? b then Ok t
    else
      match load (t_data t) (off t e1) (N.to_nat ((t_size t - e1) * t_cols t)) with
      | None => UB
      | Some moved => with_data t (t_size t - (e1 - b)) (store (t_data t) (off t b) moved)
      end.

  (* 985-987 *)
  Definition clear (t : tab) : tab :=
    {| t_size := 0; t_cap := t_cap t; t_cols := t_cols t; t_data := t_data t |}.

  (* 995-1000 *)
  Definition reserve (rows : N) (t : tab) : outcome tab := grow_if (t_cap t <? rows) (rows - t_cap t) t.

  (* 1007-1014 *)
  Definition resize (rows : N) (t : tab) : outcome tab :=
    if t_size t <? rows then
      bind (reserve rows t) (fun t =>
      Ok {| t_size := rows; t_cap := t_cap t; t_cols := t_cols t; t_data := t_data t |})
    else Ok {| t_size := rows; t_cap := t_cap t; t_cols := t_cols t; t_data := t_data t |}.

  (* 797-806 element access *)
  Definition at_ (t : tab) (r c : N) : outcome N :=
    match load (t_data t) (off t r + N.to_nat c) 1 with Some [v] => Ok v | _ => UB end.
  Definition set (r c v : N) (t : tab) : outcome tab :=
    with_data t (t_size t) (store (t_data t) (off t r + N.to_nat c) [v]).

  (* 645-648 setCols of the dynamic table; the assert holds if the vector is empty *)
  Definition set_cols (cols : N) (t : tab) : outcome tab :=
    match t_data t with
    | [] => Ok {| t_size := t_size t; t_cap := t_cap t; t_cols := cols; t_data := [] |}
    | _ => UB
    end.

  (* 668-674, 758-763: what remains of a table that was moved from *)
  Definition moved_from (t : tab) : tab :=
    {| t_size := t_size t; t_cap := t_cap t; t_cols := t_cols t; t_data := [] |}.

  (* 782-796 operator== ; None: access outside of the memory *)
  Fixpoint eq_cells (t1 t2 : tab) (cells : list (N * N)) : outcome bool :=
    match cells with
    | [] => Ok true
    | (r, c) :: cells' =>
      bind (at_ t1 r c) (fun x => bind (at_ t2 r c) (fun y =>
      if x =? y then eq_cells t1 t2 cells' else Ok false))
    end.
  Definition cells (t : tab) : list (N * N) :=
    flat_map (fun r => map (fun c => (N.of_nat r, N.of_nat c)) (seq 0 (N.to_nat (t_cols t))))
             (seq 0 (N.to_nat (t_size t))).
  Definition eq_table (t1 t2 : tab) : outcome bool :=
    if negb (t_size t2 =? t_size t1) then Ok false else eq_cells t1 t2 (cells t1).

  Inductive op :=
  | O_push (row : list N) | O_blank | O_own_ref (i : N) | O_from (src : tab) (i : N) | O_own (i : N) | O_pop
  | O_insert (pos : N) (src : tab) (b e : N) | O_erase (b : N) (e : option N) | O_clear
  | O_reserve (n : N) | O_resize (n : N) | O_set (r c v : N).
  Definition exec (o : op) (t : tab) : outcome tab :=
    match o with
    | O_push row => push row t
    | O_blank => push_blank t
    | O_own_ref i => push_own_ref i t
    | O_from src i => push_from src i t
    | O_own i => push_own i t
    | O_pop => Ok (pop t)
    | O_insert pos src b e => insert pos src b e t
    | O_erase b e => erase b e t
    | O_clear => Ok (clear t)
    | O_reserve n => reserve n t
    | O_resize n => resize n t
    | O_set r c v => set r c v t
    end.
  (* an exception leaves the table as it was *)
  Fixpoint run (os : list op) (t : tab) : outcome tab :=
    match os with
    | [] => Ok t
    | o :: os' => match exec o t with Ok t' => run os' t' | Throw => run os' t | UB => UB end
    end.
End Table.
