(* Model of engine/GroupBy.cpp and of QueryPlanner::getGroupByRow / getHavingRow. *)
From Coq Require Import String List NArith ZArith Arith Bool.
From Verif Require Import Table_Spec Std_Model Ops_Spec Filter_Model Ops_Model Float32 GroupBy_Spec.
Import ListNotations.
Open Scope N_scope.

(* GroupBy.h struct Aggregate; _userData is the delimiter. *)
Record aggregate := {
  a_type : aggregate_type; a_in : nat; a_out : nat; a_distinct : bool; a_delim : string }.

(* input(i, col) for i = blockStart .. blockEnd; None: some row is behind the end. (The loops
   of processGroup read the rows one by one; reading them in advance differs only if a loop
   ends early by `break`.) *)
Definition block (input : table) (blockStart blockEnd : nat) : option table :=
  if Nat.ltb blockEnd (length input)
  then Some (firstn (blockEnd + 1 - blockStart) (skipn blockStart input)) else None.

Definition mem (v : N) (s : list N) : bool := existsb (N.eqb v) s.

(* GroupBy.cpp:189-264 and 516-591, the summing loops; `seen` is distinctHashSet. *)
Fixpoint sum_loop (num : N -> option float32) (distinct : bool) (seen vs : list N)
    (res : float32) : float32 :=
  match vs with
  | [] => res
  | v :: vs' =>
      if distinct && mem v seen then sum_loop num distinct seen vs' res
      else match num v with
           | None => float_nan
           | Some x => sum_loop num distinct (v :: seen) vs' (float_add res x)
           end
  end.
(* The dispatch on the column type in the same places. *)
Definition sum_values (env : environment) (t : result_type) (distinct : bool) (vs : list N)
  : float32 :=
  match t with
  | VERBATIM => sum_loop (fun v => Some (float_of_N v)) distinct [] vs float_zero
  | FLOAT => sum_loop (fun v => Some (float_of_bits v)) distinct [] vs float_zero
  | TEXT | LOCAL_VOCAB => float_nan
  | KB => sum_loop (kb_number env) distinct [] vs float_zero
  end.

(* GroupBy.cpp:272-282 *)
Fixpoint count_distinct (seen vs : list N) : nat :=
  match vs with
  | [] => 0%nat
  | v :: vs' => if mem v seen then count_distinct seen vs' else S (count_distinct (v :: seen) vs')
  end.

(* GroupBy.cpp:288-448 GROUP_CONCAT: the loop over all rows but the last one, then the last
   one. The branches for the column types differ in how an entry is printed, and in the
   VERBATIM branch the delimiter is printed after the last entry too if DISTINCT (line 309). *)
Fixpoint concat_all_but_last (sh : N -> string) (delim : string) (vs : list N) : string :=
  match vs with
  | [] => EmptyString
  | [v] => sh v
  | v :: vs' => (sh v ++ delim ++ concat_all_but_last sh delim vs')%string
  end.
Fixpoint concat_distinct (sh : N -> string) (delim after_last : string) (seen vs : list N) : string :=
  match vs with
  | [] => EmptyString
  | [v] => if mem v seen then EmptyString else (sh v ++ after_last)%string
  | v :: vs' =>
      if mem v seen then concat_distinct sh delim after_last seen vs'
      else (sh v ++ delim ++ concat_distinct sh delim after_last (v :: seen) vs')%string
  end.
Definition group_concat (env : environment) (t : result_type) (distinct : bool) (delim : string)
    (vs : list N) : string :=
  if distinct
  then concat_distinct (show env t) delim
         (match t with VERBATIM => delim | _ => EmptyString end) [] vs
  else concat_all_but_last (show env t) delim vs.

(* std::max / std::min on float: (a < b) ? b : a and (b < a) ? b : a. *)
Definition float_max (a b : N) : N :=
  if value_lt (float_value a) (float_value b) then b mod 2 ^ 32 else a.
Definition float_min (a b : N) : N :=
  if value_lt (float_value b) (float_value a) then b mod 2 ^ 32 else a.
Definition float_lowest : N := 4286578687.  (* bits of numeric_limits<float>::lowest() *)
Definition float_highest : N := 2139095039.  (* bits of numeric_limits<float>::max() *)

(* GroupBy.cpp:177-607 processGroup: the value written to result(resultRow, a._outCol) and the
   local vocabulary afterwards. *)
Definition process_group (env : environment) (types : list result_type) (a : aggregate)
    (blockStart blockEnd : nat) (input : table) (vocab : list string)
  : option (N * list string) :=
  let t := type_of types (a_in a) in
  let count := N.of_nat (blockEnd - blockStart + 1) in
  match a_type a, a_distinct a with
  | COUNT, false => Some (count, vocab)
  | _, _ =>
      match block input blockStart blockEnd with
      | None => None
      | Some g =>
          let vs := map (col (a_in a)) g in
          match a_type a with
          | AVG => Some (float_bits (float_div (sum_values env t (a_distinct a) vs)
                                               (float_of_N count)), vocab)
          | COUNT => Some (N.of_nat (count_distinct [] vs), vocab)
          | GROUP_CONCAT =>
              Some (N.of_nat (length vocab),
                    vocab ++ [group_concat env t (a_distinct a) (a_delim a) vs])
          | MAX => match t with
                   | TEXT | LOCAL_VOCAB => Some (UNBOUND, vocab)
                   | FLOAT => Some (fold_left float_max vs float_lowest, vocab)
                   | _ => Some (fold_left N.max vs 0, vocab)
                   end
          | MIN => match t with
                   | TEXT | LOCAL_VOCAB => Some (UNBOUND, vocab)
                   | FLOAT => Some (fold_left float_min vs float_highest, vocab)
                   | _ => Some (fold_left N.min vs (2 ^ 64 - 1), vocab)
                   end
          | SUM => Some (float_bits (sum_values env t (a_distinct a) vs), vocab)
          | FIRST => Some (hd 0 vs, vocab)
          | SAMPLE | LAST => Some (last vs 0, vocab)
          end
      end
  end.

(* GroupBy.cpp:629-634, 661-666, 676-681: all aggregates of one group, written into a new
   (uninitialised) row. None: undefined behaviour. *)
Fixpoint process_aggregates (env : environment) (types : list result_type) (aggs : list aggregate)
    (s e : nat) (input : table) (r : row) (vocab : list string) : option (row * list string) :=
  match aggs with
  | [] => Some (r, vocab)
  | a :: aggs' =>
      match process_group env types a s e input vocab with
      | None => None
      | Some (v, vocab') =>
          match list_set r (a_out a) v with
          | None => None
          | Some r' => process_aggregates env types aggs' s e input r' vocab'
          end
      end
  end.

Definition add_group (env : environment) (types : list result_type) (aggs : list aggregate)
    (blank : nat -> row) (s e : nat) (input : table) (st : table * list string)
  : option (table * list string) :=
  let (res, vocab) := st in
  match process_aggregates env types aggs s e input (blank (length res)) vocab with
  | None => None
  | Some (r, vocab') => Some (res ++ [r], vocab')
  end.

(* GroupBy.cpp:648-682, loop over the rows from position pos on; cur: currentGroupBlock. *)
Fixpoint group_loop (env : environment) (types : list result_type) (aggs : list aggregate)
    (blank : nat -> row) (input : table) (rest : table) (pos blockStart : nat)
    (cur : list (nat * N)) (st : table * list string) : option (table * list string) :=
  match rest with
  | [] => add_group env types aggs blank blockStart (length input - 1) input st
  | r :: rest' =>
      if forallb (fun p => col (fst p) r =? snd p) cur
      then group_loop env types aggs blank input rest' (pos + 1) blockStart cur st
      else
        match add_group env types aggs blank blockStart (pos - 1) input st with
        | None => None
        | Some st' =>
            group_loop env types aggs blank input rest' (pos + 1) pos
              (map (fun p => (fst p, col (fst p) r)) cur) st'
        end
  end.

(* GroupBy.cpp:609-684 doGroupBy; `blank i` is what is in the memory of result row i. *)
Definition do_group_by (env : environment) (types : list result_type) (cs : list nat)
    (aggs : list aggregate) (blank : nat -> row) (input : table) : option (table * list string) :=
  match input with
  | [] => Some ([], [])
  | r0 :: rest =>
      match cs with
      | [] => add_group env types aggs blank 0 (length input) input ([], [])
      | _ => group_loop env types aggs blank input rest 1 0 (map (fun c => (c, col c r0)) cs) ([], [])
      end
  end.

(* ---- variables ---- *)

(* Aliases: ParsedQuery.h:299-308 struct Alias, see GroupBy_Spec.v (aggregate aliases only). *)

(* hash map assignment m[v] = c *)
Fixpoint var_set (m : var_map) (v : string) (c : nat) : var_map :=
  match m with
  | [] => [(v, c)]
  | (w, d) :: m' => if String.eqb w v then (v, c) :: m' else (w, d) :: var_set m' v c
  end.
(* GroupBy.cpp:33-41: _varColMap. *)
Fixpoint group_by_columns (m : var_map) (colIndex : nat) (vars : list string) : var_map :=
  match vars with
  | [] => m
  | v :: vars' => group_by_columns (var_set m v colIndex) (colIndex + 1) vars'
  end.
Definition group_by_vars (groupVars : list string) (aliases : list alias) : var_map :=
  group_by_columns [] 0 (groupVars ++ map al_out aliases).

(* GroupBy.cpp:696-738: the aggregates. None: the exception of line 704, an unknown input
   variable (line 733), or a missing column. *)
Fixpoint group_aggregates (sub out : var_map) (groupVars : list string) : option (list aggregate) :=
  match groupVars with
  | [] => Some []
  | v :: vs =>
      match var_find sub v, var_find out v, group_aggregates sub out vs with
      | Some i, Some o, Some rest =>
          Some ({| a_type := SAMPLE; a_in := i; a_out := o; a_distinct := false; a_delim := "" |} :: rest)
      | _, _, _ => None
      end
  end.
Fixpoint alias_aggregates (sub out : var_map) (aliases : list alias) : option (list aggregate) :=
  match aliases with
  | [] => Some []
  | a :: rest =>
      match var_find sub (al_in a), var_find out (al_out a), alias_aggregates sub out rest with
      | Some i, Some o, Some aggs =>
          Some ({| a_type := al_type a; a_in := i; a_out := o; a_distinct := al_distinct a;
                   a_delim := al_delim a |} :: aggs)
      | _, _, _ => None
      end
  end.
Fixpoint find_columns (sub : var_map) (vs : list string) : option (list nat) :=
  match vs with
  | [] => Some []
  | v :: vs' => match var_find sub v, find_columns sub vs' with
                | Some c, Some cs => Some (c :: cs)
                | _, _ => None
                end
  end.

(* GroupBy.cpp:686-812 computeResult: rows and strings of the result. The memory of a result
   row has getResultWidth() = number of variables entries. *)
Definition group_by_result (env : environment) (types : list result_type) (sub : var_map)
    (groupVars : list string) (aliases : list alias) (blank : nat -> row) (input : table)
  : option (table * list string) :=
  let out := group_by_vars groupVars aliases in
  match group_aggregates sub out groupVars, alias_aggregates sub out aliases, find_columns sub groupVars with
  | Some ga, Some aa, Some cs => do_group_by env types cs (ga ++ aa) blank input
  | _, _, _ => None
  end.

(* GroupBy.cpp:746-777: the column types of the result. *)
Definition group_by_type (types : list result_type) (a : aggregate) : result_type :=
  match a_type a with
  | AVG => FLOAT | COUNT => VERBATIM | GROUP_CONCAT => LOCAL_VOCAB
  | MAX | MIN | SAMPLE => type_of types (a_in a)
  | SUM => FLOAT
  | FIRST | LAST => KB
  end.

(* GroupBy.cpp:89-119 computeSortColumns *)
Fixpoint add_sort_columns (seen : list nat) (cs : list nat) : list nat :=
  match cs with
  | [] => []
  | c :: cs' => if existsb (Nat.eqb c) seen then add_sort_columns seen cs'
                else c :: add_sort_columns (c :: seen) cs'
  end.
Definition group_sort_columns (groupCols aliasCols : list nat) : list nat :=
  match groupCols with [] => [] | _ => add_sort_columns [] (groupCols ++ aliasCols) end.

(* QueryPlanner.cpp:1009-1029: what the planner puts below GROUP BY. *)
Definition group_by_plan (sorted_on groupCols aliasCols : list nat) : presort :=
  let sc := group_sort_columns groupCols aliasCols in
  let input_sorted :=
    Nat.leb (length sc) (length sorted_on) &&
    forallb (fun p => Nat.eqb (fst p) (snd p)) (combine sc sorted_on) in
  match sc with
  | [] => NoSort
  | _ => if input_sorted then NoSort else OrderedBy (map (fun c => (c, false)) sc)
  end.

(* QueryPlanner.cpp:970-990 getHavingRow: the plan for one parent plan. *)
Inductive plan := Parent | FilterOp (f : row -> bool) (p : plan).
Definition having_plan (clauses : list (row -> bool)) : plan :=
  fold_left (fun filtered f => FilterOp f Parent) clauses Parent.
Fixpoint run_plan (p : plan) (t : table) : table :=
  match p with Parent => t | FilterOp f p' => filter f (run_plan p' t) end.
