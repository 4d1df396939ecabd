(* Model of engine/Filter.cpp (fixed value, range and prefix filters). *)
From Coq Require Import List NArith ZArith Arith Bool.
From Verif Require Import Table_Spec Std_Model Ops_Spec.
Import ListNotations.
Open Scope N_scope.

(* Filter.h:172-185 ValueReader<T>::get: the identity, except for FLOAT, where the first four
   bytes are read as a float (None: NaN). Comparisons of values: Filter.h / IEEE 754. *)
Definition value_get (t : result_type) (id : N) : option Z := entry_value t id.
Definition value_lt (x y : option Z) : bool :=
  match x, y with Some a, Some b => (a <? b)%Z | _, _ => false end.
Definition value_le (x y : option Z) : bool :=
  match x, y with Some a, Some b => (a <=? b)%Z | _, _ => false end.
Definition value_eq (x y : option Z) : bool :=
  match x, y with Some a, Some b => (a =? b)%Z | _, _ => false end.

(* Row i of the input. *)
Definition at_row (input : table) (i : nat) : row := nth i input [].

(* The comparators of the binary searches (Filter.cpp:325-327 etc.): element at position p
   is less than rhs / rhs is not less than the element at position p. *)
Definition below (t : result_type) (lhs : nat) (rhs : N) (input : table) (p : nat) : bool :=
  value_lt (value_get t (col lhs (at_row input p))) (value_get t rhs).
Definition not_above (t : result_type) (lhs : nat) (rhs : N) (input : table) (p : nat) : bool :=
  negb (value_lt (value_get t rhs) (value_get t (col lhs (at_row input p)))).

(* IdTable.h:930-954 IdTable::insert at the end: rows [b, e) of the source; nothing if b >= e. *)
Definition insert_rows (res src : table) (b e : nat) : table :=
  if Nat.leb e b then res else res ++ firstn (e - b) (skipn b src).

(* Filter.cpp:308-451 computeFilterFixedValue, comparison types; `lhs_is_sorted` is the value
   computed in lines 313-314. The result starts empty. *)
Definition compute_filter_fixed (t : result_type) (op : comparison_op) (lhs : nat) (rhs : N)
    (lhs_is_sorted : bool) (input : table) : option table :=
  let n := length input in
  if lhs_is_sorted then
    match op with
    | EQ =>
        match lower_bound (below t lhs rhs input) 0 n with
        | None => None
        | Some lower =>
            if negb (Nat.eqb lower n) && (col lhs (at_row input lower) =? rhs) then
              match upper_bound (not_above t lhs rhs input) lower n with
              | None => None
              | Some upper => Some (insert_rows [] input lower upper)
              end
            else Some []
        end
    | NE =>
        match lower_bound (below t lhs rhs input) 0 n with
        | None => None
        | Some lower =>
            if negb (Nat.eqb lower n) && (col lhs (at_row input lower) =? rhs) then
              match upper_bound (not_above t lhs rhs input) lower n with
              | None => None
              | Some upper =>
                  Some (insert_rows (insert_rows [] input 0 lower) input upper n)
              end
            else Some (insert_rows [] input 0 n)
        end
    | LT => option_map (fun lower => insert_rows [] input 0 lower)
                       (lower_bound (below t lhs rhs input) 0 n)
    | LE => option_map (fun upper => insert_rows [] input 0 upper)
                       (upper_bound (not_above t lhs rhs input) 0 n)
    | GT => option_map (fun upper => insert_rows [] input upper n)
                       (upper_bound (not_above t lhs rhs input) 0 n)
    | GE => option_map (fun lower => insert_rows [] input lower n)
                       (lower_bound (below t lhs rhs input) 0 n)
    end
  else
    Some match op with
    | EQ => filter (fun e => col lhs e =? rhs) input
    | NE => filter (fun e => negb (col lhs e =? rhs)) input
    | LT => filter (fun e => value_lt (value_get t (col lhs e)) (value_get t rhs)) input
    | LE => filter (fun e => value_le (value_get t (col lhs e)) (value_get t rhs)) input
    | GT => filter (fun e => value_lt (value_get t rhs) (value_get t (col lhs e))) input
    | GE => filter (fun e => value_le (value_get t rhs) (value_get t (col lhs e))) input
    end.

(* Filter.cpp:135-185 computeFilter: the right hand side is a column; both columns are read
   with the type of the left one. *)
Definition compute_filter_dynamic (t : result_type) (op : comparison_op) (lhs rhs : nat)
    (input : table) : table :=
  filter (fun e =>
    let x := value_get t (col lhs e) in
    let y := value_get t (col rhs e) in
    match op with
    | EQ => value_eq x y
    | NE => negb (value_eq x y)
    | LT => value_lt x y
    | LE => value_le x y
    | GT => value_lt y x
    | GE => value_le y x
    end) input.

(* Filter.cpp:268-305 computeFilterRange<KB>. In the inverse sorted case line 292 passes
   res->end() instead of input.end(): insert sees the rows [upper, number of rows in res). *)
Definition compute_filter_range (inverse : bool) (lhs : nat) (rhs_lower rhs_upper : N)
    (lhs_is_sorted : bool) (input : table) : option table :=
  let n := length input in
  if lhs_is_sorted then
    match lower_bound (below KB lhs rhs_lower input) 0 n with
    | None => None
    | Some lower =>
        match lower_bound (below KB lhs rhs_upper input) lower n with
        | None => None
        | Some upper =>
            if inverse then
              let res := insert_rows [] input 0 lower in
              Some (insert_rows res input upper (length res))
            else Some (insert_rows [] input lower upper)
        end
    end
  else
    let inv b := if inverse then negb b else b in
    Some (filter (fun e => inv ((rhs_lower <=? col lhs e) && (col lhs e <? rhs_upper))) input).

(* Filter.cpp:489-498: remove overlap in ranges sorted by their start. *)
Fixpoint remove_overlap (prev : N * N) (ranges : list (N * N)) : list (N * N) :=
  match ranges with
  | [] => []
  | (a, b) :: rest =>
      let a' := N.max (snd prev) a in
      let b' := N.max b a' in
      (a', b') :: remove_overlap (a', b') rest
  end.
Definition disjoint_ranges (ranges : list (N * N)) : list (N * N) :=
  match ranges with [] => [] | r :: rest => r :: remove_overlap r rest end.

(* Filter.cpp:475-487: the ranges grouped by column, in order of first appearance. *)
Fixpoint add_range (m : list (nat * list (N * N))) (c : nat) (r : N * N)
  : list (nat * list (N * N)) :=
  match m with
  | [] => [(c, [r])]
  | (c', rs) :: m' => if Nat.eqb c' c then (c', rs ++ [r]) :: m' else (c', rs) :: add_range m' c r
  end.
Definition group_ranges (ds : list (nat * (N * N))) : list (nat * list (N * N)) :=
  fold_left (fun m d => add_range m (fst d) (snd d)) ds [].

(* Filter.cpp:514-545: binary search for each range; stop at the first range starting behind
   the last row. *)
Fixpoint prefix_sorted_loop (lhs : nat) (input : table) (ranges : list (N * N)) (res : table)
  : option table :=
  match ranges with
  | [] => Some res
  | (lo, hi) :: rest =>
      match lower_bound (below KB lhs lo input) 0 (length input) with
      | None => None
      | Some lower =>
          if Nat.eqb lower (length input) then Some res
          else
            match lower_bound (below KB lhs hi input) lower (length input) with
            | None => None
            | Some upper => prefix_sorted_loop lhs input rest (insert_rows res input lower upper)
            end
      end
  end.

(* Filter.cpp:470-573, PREFIX filter on a KB column. The condition is a disjunction of
   (column, id range of the prefix), the first one being on column lhs. `sort` stands for the
   std::sort of lines 491-493, sorted_by for subRes->_sortedBy. None: check failed or
   undefined behaviour. Iteration over the hash map is in order of first appearance; the map
   is only iterated by any_of. *)
Definition compute_filter_prefix (sort : list (N * N) -> list (N * N))
    (lhs : nat) (range : N * N) (additional : list (nat * (N * N))) (sorted_by : list nat)
    (input : table) : option table :=
  let ranges :=
    map (fun e => (fst e, disjoint_ranges (sort (snd e)))) (group_ranges ((lhs, range) :: additional)) in
  let sortedLhs :=
    match ranges, sorted_by with
    | [(c, rs)], s :: _ => if Nat.eqb c s then Some (s, rs) else None
    | _, _ => None
    end in
  match sortedLhs with
  | Some (s, rs) =>
      if Nat.eqb s lhs then prefix_sorted_loop lhs input rs []
      else match rs with [] => Some [] | _ => None end
  | None =>
      Some (filter (fun e => existsb (fun x => existsb (fun p =>
              (fst p <=? col (fst x) e) && (col (fst x) e <? snd p)) (snd x)) ranges) input)
  end.

(* Vocabulary.cpp:331-345 lower_bound / upper_bound of a word among the in-memory words; `lt`
   is the comparison of the vocabulary at the level used by filters. *)
Definition vocab_lower_bound {W} (lt : W -> W -> bool) (words : list W) (w : W) : option nat :=
  lower_bound (fun p => match nth_error words p with Some x => lt x w | None => false end)
              0 (length words).
Definition vocab_upper_bound {W} (lt : W -> W -> bool) (words : list W) (w : W) : option nat :=
  upper_bound (fun p => match nth_error words p with Some x => negb (lt w x) | None => false end)
              0 (length words).

(* Filter.cpp:662-678 and 750-771, KB column compared with a word; Vocabulary.h:150-170. *)
Definition compute_filter_kb {W} (lt : W -> W -> bool) (words : list W) (op : comparison_op)
    (lhs : nat) (w : W) (lhs_is_sorted : bool) (input : table) : option table :=
  match vocab_lower_bound lt words w, vocab_upper_bound lt words w with
  | Some lb, Some ub =>
      let le := if Nat.ltb 0 ub then (ub - 1)%nat else ub in
      match op with
      | EQ => compute_filter_range false lhs (N.of_nat lb) (N.of_nat ub) lhs_is_sorted input
      | NE => compute_filter_range true lhs (N.of_nat lb) (N.of_nat ub) lhs_is_sorted input
      | LT | GE => compute_filter_fixed KB op lhs (N.of_nat lb) lhs_is_sorted input
      | LE | GT => compute_filter_fixed KB op lhs (N.of_nat le) lhs_is_sorted input
      end
  | _, _ => None
  end.
