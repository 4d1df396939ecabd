(* Model of the query level part of QueryPlanner::createExecutionTree (engine/QueryPlanner.cpp:37-103) with getGroupByRow
   (993-1036), getHavingRow (970-990), getDistinctRow (807-882) and getOrderByRow (1039-1090), for one plan of each row of the table of
   plans. A plan stands for its result. The operations are those of Ops_Model.v and GroupBy_Model.v. Not here: the pattern trick
   (Trick_Model.v), LIMIT and OFFSET, which are applied when the result is written (Output_Model.v), and the context variables. *)
From Coq Require Import String Ascii List NArith Arith Bool.
From Verif Require Import Table_Spec Ops_Spec Ops_Model Float32 GroupBy_Spec GroupBy_Model Query_Spec.
Import ListNotations.
Open Scope N_scope.

(* QueryExecutionTree: variable columns, width, resultSortedOn() and the rows of the result *)
Record node := Node { n_vars : var_map; n_width : nat; n_sorted : list nat; n_rows : table }.
Definition value (m : var_map) (r : row) : sol := fun v => binding String.eqb m r v.

(* resultSortedOn() of what is put below an operation: OrderBy.cpp:62-72, Sort.h:22 *)
Definition sorted_after (p : presort) (srt : list nat) : list nat :=
  match p with NoSort => srt | SortBy c => sort_sorted_on c | OrderedBy key => order_by_sorted_on key end.

(* 47-56, 993-1036; GroupBy.cpp:79-87 for what the result claims *)
Definition group_step (env : environment) (types : list result_type) (blank : nat -> row) (q : query) (n n' : node) : Prop :=
  match q_group q, q_aliases q with
  | [], [] => n' = n
  | gv, als => exists cs acs mid out vocab,
      find_columns (n_vars n) gv = Some cs /\ find_columns (n_vars n) (map al_in als) = Some acs /\
      presorted (group_by_plan (n_sorted n) cs acs) (n_rows n) mid /\
      group_by_result env types (n_vars n) gv als blank mid = Some (out, vocab) /\
      n' = Node (group_by_vars gv als) (length gv + length als)
             (map (fun v => match var_find (group_by_vars gv als) v with Some c => c | None => 0%nat end) gv) out
  end.
(* 970-990 *)
Definition having_step (q : query) (n n' : node) : Prop :=
  n' = Node (n_vars n) (n_width n) (n_sorted n)
         (run_plan (having_plan (map (fun f r => f (value (n_vars n) r)) (q_having q))) (n_rows n)).

(* std::string::find('?') and rfind(')') *)
Fixpoint last_index (c : ascii) (s : string) : option nat :=
  match s with
  | EmptyString => None
  | String d s' => match last_index c s' with
                   | Some i => Some (S i)
                   | None => if Ascii.eqb c d then Some 0%nat else None
                   end
  end.
(* 821-822; None: substr throws. Without ')' the rest of the string is taken. *)
Definition context_variable (v : string) : option string :=
  match index 0 "?" v with
  | None => None
  | Some i => Some (match last_index ")"%char v with Some j => substring i (j - i) v | None => substring i (String.length v) v end)
  end.
(* 817-836: the column of a selected variable *)
Definition select_column (m : var_map) (v : string) : option nat :=
  match var_find m v with
  | Some c => Some c
  | None => if prefix "SCORE(" v || prefix "TEXT(" v
            then match context_variable v with Some x => var_find m x | None => None end else None
  end.
Fixpoint keep_indices (m : var_map) (done : list nat) (sel : list string) : list nat :=
  match sel with
  | [] => []
  | v :: sel' => match select_column m v with
                 | Some c => if existsb (Nat.eqb c) done then keep_indices m done sel' else c :: keep_indices m (c :: done) sel'
                 | None => keep_indices m done sel'
                 end
  end.
(* 76-78, 807-882; Distinct.h:32 *)
Definition distinct_step (q : query) (n n' : node) : Prop :=
  if q_distinct q
  then exists mid out, let keep := keep_indices (n_vars n) [] (q_select q) in
         let p := distinct_plan (n_sorted n) keep in
         presorted p (n_rows n) mid /\ distinct_rows (n_width n) keep mid = Some out /\
         n' = Node (n_vars n) (n_width n) (sorted_after p (n_sorted n)) out
  else n' = n.

(* 1048-1075: the columns of ORDER BY; None: getVariableColumn throws (QueryExecutionTree.cpp:73-79) *)
Fixpoint order_columns (m : var_map) (key : list (string * bool)) : option (list (nat * bool)) :=
  match key with
  | [] => Some []
  | (v, desc) :: key' => match var_find m v, order_columns m key' with
                         | Some c, Some cs => Some ((c, desc) :: cs)
                         | _, _ => None
                         end
  end.
(* 1047-1085 *)
Definition order_plan (srt : list nat) (key : list (nat * bool)) : presort :=
  match key with
  | [(c, false)] => match srt with d :: _ => if Nat.eqb c d then NoSort else SortBy c | [] => SortBy c end
  | _ => if Nat.leb (length key) (length srt) && forallb (fun p => negb (snd (fst p)) && Nat.eqb (fst (fst p)) (snd p)) (combine key srt)
         then NoSort else OrderedBy key
  end.
(* 81-86 *)
Definition order_step (q : query) (n n' : node) : Prop :=
  match q_order q with
  | [] => n' = n
  | _ => exists key out, order_columns (n_vars n) (q_order q) = Some key /\
           let p := order_plan (n_sorted n) key in
           presorted p (n_rows n) out /\ n' = Node (n_vars n) (n_width n) (sorted_after p (n_sorted n)) out
  end.
(* 62-86 *)
Definition run_query (env : environment) (types : list result_type) (blank : nat -> row) (q : query) (n res : node) : Prop :=
  exists n1 n2 n3, group_step env types blank q n n1 /\ having_step q n1 n2 /\ distinct_step q n2 n3 /\ order_step q n3 res.
