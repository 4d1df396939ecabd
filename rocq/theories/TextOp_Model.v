(* Model of src/engine/TextOperationWithoutFilter.cpp and TextOperationWithFilter.cpp: the columns of the
   variables and the choice of the algorithm. The postings of the words are an input (see TextIndex_Model,
   getContextEntityScoreListsForWords and getContextListForWords). *)
From Coq Require Import String List NArith Arith Bool Permutation.
From Verif Require Import Std_Model Table_Spec Ops_Model Vars_Model Fts_Model.
Import ListNotations.
Local Open Scope nat_scope.

(* TextOperationWithoutFilter.h:66-72, TextOperationWithFilter.h:69-77: _variables is a std::set, an ordered
   list; it contains the context variable (QueryPlanner.h:45-65). *)
Record text_op := TextOp { t_vars : list string; t_cvar : string; t_limit : nat }.
(* TextOperationWithoutFilter.h:47-50, TextOperationWithFilter.h:48-51 *)
Definition nof_vars (o : text_op) : nat := length (t_vars o) - 1.
Definition score_name (cvar : string) : string := ("SCORE(" ++ cvar ++ ")")%string.

(* the loop over _variables: the variables that are not left out get the next columns *)
Fixpoint add_columns (left_out : string -> bool) (m : var_map) (c : nat) (vs : list string) : var_map * nat :=
  match vs with
  | [] => (m, c)
  | v :: vs' => if left_out v then add_columns left_out m c vs' else add_columns left_out (var_set m v c) (S c) vs'
  end.
Definition first_columns (o : text_op) : var_map := var_set (var_set [] (t_cvar o) 0) (score_name (t_cvar o)) 1.
(* TextOperationWithoutFilter.cpp:29-41 getVariableColumns, 12-15 getResultWidth *)
Definition text_columns (o : text_op) : var_map :=
  fst (add_columns (fun v => String.eqb v (t_cvar o)) (first_columns o) 2 (t_vars o)).
Definition text_width (o : text_op) : nat := 2 + nof_vars o.
(* TextOperationWithFilter.cpp:33-54 getVariableColumns, 13-15 getResultWidth *)
Definition known (m : var_map) (v : string) : bool := match var_find m v with Some _ => true | None => false end.
Definition text_filter_columns (o : text_op) (fm : var_map) : var_map :=
  let '(m, c) := add_columns (fun v => String.eqb v (t_cvar o) || known fm v) (first_columns o) 2 (t_vars o) in
  fold_left (fun m p => var_set m (fst p) (c + snd p)) fm m.
Definition text_filter_width (o : text_op) (fw : nat) : nat := 1 + nof_vars o + fw.

(* TextOperationWithoutFilter.cpp:62-107 computeResult, Index.Text.cpp:532-571, 697-723. `cs` are the contexts
   of the words with their scores, `ps` the postings of the entities in these contexts. *)
Definition text_result (o : text_op) (cs : list (N * N)) (ps : list posting) (res : table) : Prop :=
  match nof_vars o with
  | 0 => res = map (fun c => [fst c; snd c]) cs
  | 1 => aggScoresAndTakeTopKContexts ps (t_limit o) res
  | n => multVarsAggScoresAndTakeTopKContexts ps n (t_limit o) res
  end.

(* FTSAlgorithms.cpp:1186-1317, multVarsFilterAggScoresAndTakeTopKContexts with the hash set; `junk` is what a
   new row contains (see set_row) *)
Definition multVarsFilterSet (junk : N) (ps : list posting) (fset : list N) (vars k width : nat) (res : list (list N)) : Prop :=
  let occ := context_occurrences
    (fun ents => filtered_keys (filter (fun e => existsb (N.eqb e) fset) ents) ents vars) ps in
  exists it, Permutation (agg_all list_eqb k occ) it /\
    res = agg_rows (fun cid cnt key => match set_row junk width cid cnt key with Some r => [r] | None => [] end) it.

(* TextOperationWithFilter.cpp:79-104 computeResult, Index.Text.cpp:726-764 and 767-793. fw is the width of the
   filter. None: the AD_CHECK in line 81 fails. *)
Definition text_filter_result (junk : N) (o : text_op) (ps : list posting) (fw : nat) (filt : table) (fcol : nat)
    (res : option table) : Prop :=
  match nof_vars o with
  | 0 => res = None
  | n => exists r, res = Some r /\
      if Nat.eqb fw 1 then
        let fset := map (fun f => nth 0 f 0%N) filt in
        match n with
        | 1 => oneVarFilterSet ps fset (t_limit o) r
        | _ => multVarsFilterSet junk ps fset n (t_limit o) (text_filter_width o fw) r
        end
      else
        match filt with
        | [] => r = []
        | _ => match n with
               | 1 => oneVarFilterMap ps filt fcol (t_limit o) r
               | _ => multVarsFilterMap ps filt fcol n (t_limit o) r
               end
        end
  end.
