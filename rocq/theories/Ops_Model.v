(* Model of engine/Union.cpp, Distinct.cpp, Sort.cpp, OrderBy.cpp and the planner's use of
   DISTINCT. *)
From Coq Require Import String List NArith Arith Bool.
From Verif Require Import Table_Spec Std_Model Ops_Spec.
Import ListNotations.
Open Scope N_scope.

(* ---- UNION ---- *)

(* A variable-to-column map (ad_utility::HashMap<string, size_t>); the order of the list is
   the iteration order of the hash map, which is arbitrary. *)
Definition var_map := list (string * nat).
Definition var_find (m : var_map) (v : string) : option nat :=
  option_map snd (find (fun p => String.eqb (fst p) v) m).

(* Union.cpp:63-75 getVariableColumns. *)
Fixpoint union_add_vars (m : var_map) (column : nat) (right : var_map) : var_map :=
  match right with
  | [] => m
  | (v, _) :: right' =>
      match var_find m v with
      | None => union_add_vars (m ++ [(v, column)]) (column + 1) right'
      | Some _ => union_add_vars m column right'
      end
  end.
Definition union_vars (left right : var_map) : var_map :=
  union_add_vars left (length left) right.

(* l[i] = x; None: out of bounds. *)
Fixpoint list_set {A} (l : list A) (i : nat) (x : A) : option (list A) :=
  match l, i with
  | [], _ => None
  | _ :: l', O => Some (x :: l')
  | y :: l', S i' => option_map (cons y) (list_set l' i' x)
  end.

(* Union.cpp:17-38: the column origins. None: write behind the end of _columnOrigins. *)
Fixpoint fill_origins (left right vars : var_map) (os : list origin) : option (list origin) :=
  match vars with
  | [] => Some os
  | (v, c) :: vars' =>
      match list_set os c (var_find left v, var_find right v) with
      | None => None
      | Some os' => fill_origins left right vars' os'
      end
  end.
Definition union_origins (left right : var_map) : option (list origin) :=
  let vars := union_vars left right in
  fill_origins left right vars (repeat (None, None) (length vars)).

(* Union.cpp:178-189 appendToResultChunked, loop over the chunks i, i+1, ... *)
Fixpoint append_chunks (n i chunkSize : nat) (input : table) (res : table) : table :=
  match n with
  | O => res
  | S n' => append_chunks n' (i + 1) chunkSize input
              (res ++ firstn ((i + 1) * chunkSize - i * chunkSize) (skipn (i * chunkSize) input))
  end.
Definition append_chunked (chunkSize : nat) (input res : table) : option table :=
  if Nat.eqb chunkSize 0 then None (* division by zero, line 181 *)
  else
    let numChunks := (length input / chunkSize)%nat in
    let res1 := append_chunks numChunks 0 chunkSize input res in
    Some (res1 ++ skipn (numChunks * chunkSize) input).

(* Union.cpp:191-199, 229-237: whether the columns of one side are those of the result. *)
Fixpoint columns_match (side : origin -> option nat) (i : nat) (os : list origin) : bool :=
  match os with
  | [] => true
  | o :: os' =>
      match side o with
      | Some c => Nat.eqb c i && columns_match side (i + 1) os'
      | None => false
      end
  end.

(* Union.cpp:213-225, 246-258: one row with mapped columns; None: read out of bounds. *)
Fixpoint map_row (side : origin -> option nat) (os : list origin) (r : row) : option row :=
  match os with
  | [] => Some []
  | o :: os' =>
      match (match side o with Some c => nth_error r c | None => Some UNBOUND end) with
      | None => None
      | Some x => option_map (cons x) (map_row side os' r)
      end
  end.
Fixpoint map_rows (side : origin -> option nat) (os : list origin) (t res : table)
  : option table :=
  match t with
  | [] => Some res
  | r :: t' =>
      match map_row side os r with
      | None => None
      | Some r' => map_rows side os t' (res ++ [r'])
      end
  end.

(* Union.cpp:191-227 (left), 229-260 (right): append one side having w columns. *)
Definition append_side (side : origin -> option nat) (os : list origin) (chunkSize w : nat)
    (t res : table) : option table :=
  match t with
  | [] => Some res
  | _ =>
      if Nat.eqb w (length os) && columns_match side 0 os
      then append_chunked chunkSize t res
      else map_rows side os t res
  end.

(* Union.cpp:159-262 computeUnion; wl, wr: numbers of columns of the inputs. *)
Definition compute_union (os : list origin) (wl wr : nat) (left right : table) : option table :=
  if Nat.eqb (length os) 0 then None (* division by zero, line 171 *)
  else
    let chunkSize := N.to_nat (100000 / N.of_nat (length os)) in
    match append_side fst os chunkSize wl left [] with
    | None => None
    | Some res => append_side snd os chunkSize wr right res
    end.

(* Union.cpp:139-147: the types of the result columns; getResultType gives KB for columns
   without type (ResultTable.h:96-101). Line 143 asks the left input. *)
Definition type_of (types : list result_type) (c : nat) : result_type := nth c types KB.
Definition union_types (os : list origin) (types1 types2 : list result_type)
  : list result_type :=
  map (fun o => match o with
                | (Some c, _) => type_of types1 c
                | (None, Some c) => type_of types1 c
                | (None, None) => KB
                end) os.

(* ---- DISTINCT ---- *)

(* Engine.h:147-170 distinct; w: number of columns. None: the check in line 154 throws. *)
Definition distinct_rows (w : nat) (keep : list nat) (input : table) : option table :=
  match input with
  | [] => Some []
  | _ =>
      if Nat.leb (length keep) w
      then Some (std_unique (fun a b => forallb (fun i => col i a =? col i b) keep) input)
      else None
  end.

(* ---- Sort, ORDER BY ---- *)

(* Engine.h:100-118: comparator of the one-column sort. *)
Definition sort_less (c : nat) (a b : row) : bool := col c a <? col c b.

(* OrderBy.cpp:110-120: comparator; true means descending. *)
Fixpoint order_by_less (key : list (nat * bool)) (a b : row) : bool :=
  match key with
  | [] => col 0 a <? col 0 b
  | (c, desc) :: key' =>
      if col c a <? col c b then negb desc
      else if col c b <? col c a then desc
      else order_by_less key' a b
  end.

(* OrderBy.cpp:62-72 resultSortedOn; Sort.h:22. *)
Definition order_by_sorted_on (key : list (nat * bool)) : list nat :=
  map fst (filter (fun p => negb (snd p)) key).
Definition sort_sorted_on (c : nat) : list nat := [c].

(* QueryPlanner.cpp:839-879 getDistinctRow: what is put below the Distinct operation. *)
Inductive presort := NoSort | SortBy (c : nat) | OrderedBy (key : list (nat * bool)).
Definition distinct_plan (result_sorted_on keep : list nat) : presort :=
  let is_sorted :=
    Nat.leb (length keep) (length result_sorted_on) &&
    forallb (fun p => Nat.eqb (fst p) (snd p)) (combine result_sorted_on keep) in
  if is_sorted then NoSort
  else match keep with
       | [c] => SortBy c
       | _ => OrderedBy (map (fun i => (i, false)) keep)
       end.

(* The possible inputs of the Distinct operation for a subresult. *)
Definition presorted (p : presort) (sub out : table) : Prop :=
  match p with
  | NoSort => out = sub
  | SortBy c => sort_result (sort_less c) sub out
  | OrderedBy key => sort_result (order_by_less key) sub out
  end.
