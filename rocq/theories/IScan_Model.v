(* Model of engine/IndexScan.cpp and of the part of QueryPlanner::seedWithScansAndText that makes index scans. The rest
   of the planner (Plan_Model) has scans as a permutation with keys; here they are as in the code: a type, and the three
   terms of a triple. Not modelled: the text of a scan (Keys_Model), size estimates (Empty_Model), multiplicities. *)
From Coq Require Import String List NArith Arith Bool.
From Verif Require Conv_Model Serve_Model Perm_Model.
From Verif Require Import Table_Spec Ops_Spec Ops_Model Vars_Model Meta_Model Plan_Model Whole_Model.
Import ListNotations.
Local Open Scope string_scope.
Local Open Scope nat_scope.

(* IndexScan.h:14-30 *)
Inductive scan_type :=
| PSO_BOUND_S | POS_BOUND_O | PSO_FREE_S | POS_FREE_O | SPO_FREE_P | SOP_BOUND_O | SOP_FREE_O | OPS_FREE_P | OSP_FREE_S
| FULL_INDEX_SCAN_SPO | FULL_INDEX_SCAN_SOP | FULL_INDEX_SCAN_PSO | FULL_INDEX_SCAN_POS | FULL_INDEX_SCAN_OSP | FULL_INDEX_SCAN_OPS.
(* IndexScan.h:36-39, 93-96 *)
Record index_scan_op := IScan { i_type : scan_type; i_subject : string; i_predicate : string; i_object : string }.

(* IndexScan.cpp:76-99 *)
Definition getResultWidth (x : index_scan_op) : nat :=
  match i_type x with
  | PSO_BOUND_S | POS_BOUND_O | SOP_BOUND_O => 1
  | PSO_FREE_S | POS_FREE_O | SPO_FREE_P | SOP_FREE_O | OSP_FREE_S | OPS_FREE_P => 2
  | FULL_INDEX_SCAN_SPO | FULL_INDEX_SCAN_SOP | FULL_INDEX_SCAN_PSO | FULL_INDEX_SCAN_POS | FULL_INDEX_SCAN_OSP
  | FULL_INDEX_SCAN_OPS => 3
  end.
(* IndexScan.cpp:102-125 *)
Definition resultSortedOn (x : index_scan_op) : list nat :=
  match i_type x with
  | PSO_BOUND_S | POS_BOUND_O | SOP_BOUND_O => [0]
  | PSO_FREE_S | POS_FREE_O | SPO_FREE_P | SOP_FREE_O | OSP_FREE_S | OPS_FREE_P => [0; 1]
  | FULL_INDEX_SCAN_SPO | FULL_INDEX_SCAN_SOP | FULL_INDEX_SCAN_PSO | FULL_INDEX_SCAN_POS | FULL_INDEX_SCAN_OSP
  | FULL_INDEX_SCAN_OPS => [0; 1; 2]
  end.
(* `if (t[0] == '?') res[t] = col++`; the character 0 of an empty string is '\0' *)
Definition put (t : string) (st : var_map * nat) : var_map * nat :=
  if is_var t then (var_set (fst st) t (snd st), S (snd st)) else st.
Definition put3 (a b c : string) : var_map := fst (put c (put b (put a ([], 0)))).
(* IndexScan.cpp:128-221 *)
Definition getVariableColumns (x : index_scan_op) : var_map :=
  let s := i_subject x in let p := i_predicate x in let o := i_object x in
  match i_type x with
  | SPO_FREE_P | FULL_INDEX_SCAN_SPO => put3 s p o
  | SOP_FREE_O | SOP_BOUND_O | FULL_INDEX_SCAN_SOP => put3 s o p
  | PSO_BOUND_S | PSO_FREE_S | FULL_INDEX_SCAN_PSO => put3 p s o
  | POS_BOUND_O | POS_FREE_O | FULL_INDEX_SCAN_POS => put3 p o s
  | OPS_FREE_P | FULL_INDEX_SCAN_OPS => put3 o p s
  | OSP_FREE_S | FULL_INDEX_SCAN_OSP => put3 o s p
  end.

(* ResultTable: number of columns, types of the columns, columns by which it is sorted, rows *)
Record result_table := ResultTable { r_cols : nat; r_types : list result_type; r_sortedBy : list nat; r_data : table }.
(* setCols(1), Index.h:411-465: a scan with two keys *)
Definition scan_two (v : vocabulary) (ix : Perm_Model.index) (a b : string) (ord : order) : outcome result_table :=
  Meta_Model.bind (index_scan v ix ord [a; b]) (fun t => Ok (ResultTable 1 [KB] [0] t)).
(* setCols(2), Index.h:376-408: a scan with one key *)
Definition scan_one (v : vocabulary) (ix : Perm_Model.index) (a : string) (ord : order) : outcome result_table :=
  Meta_Model.bind (index_scan v ix ord [a]) (fun t => Ok (ResultTable 2 [KB; KB] [0; 1] t)).
(* IndexScan.cpp:223-303, 334-381 *)
Definition computeResult (v : vocabulary) (ix : Perm_Model.index) (x : index_scan_op) : outcome result_table :=
  match i_type x with
  | PSO_BOUND_S => scan_two v ix (i_predicate x) (i_subject x) PSO
  | POS_BOUND_O => scan_two v ix (i_predicate x) (i_object x) POS
  | PSO_FREE_S => scan_one v ix (i_predicate x) PSO
  | POS_FREE_O => scan_one v ix (i_predicate x) POS
  | SOP_BOUND_O => scan_two v ix (i_subject x) (i_object x) SOP
  | SPO_FREE_P => scan_one v ix (i_subject x) SPO
  | SOP_FREE_O => scan_one v ix (i_subject x) SOP
  | OSP_FREE_S => scan_one v ix (i_object x) OSP
  | OPS_FREE_P => scan_one v ix (i_object x) OPS
  | FULL_INDEX_SCAN_SPO | FULL_INDEX_SCAN_SOP | FULL_INDEX_SCAN_PSO | FULL_INDEX_SCAN_POS | FULL_INDEX_SCAN_OSP
  | FULL_INDEX_SCAN_OPS => Meta_Model.Throw
  end.

(* IndexScan.h:48-54 *)
Definition setObject (o : string) : result string :=
  match Serve_Model.set_object (Conv_Model.bytes o) with
  | Conv_Model.Ok w => Val (Serve_Model.str w)
  | _ => Throw
  end.
Definition make_scan (ty : scan_type) (s p o : string) : result index_scan_op :=
  bind (setObject o) (fun w => Val (IScan ty s p w)).
(* a seed: the operation and the variable columns of its tree; with a filter EQ on two variables (QueryPlanner.cpp:1227-1232) *)
Record seed := Seed { sd_scan : index_scan_op; sd_vars : var_map; sd_filter : option (string * string) }.
Definition one_seed (ty : scan_type) (s p o : string) (m : var_map) : result (list seed) :=
  bind (make_scan ty s p o) (fun x => Val [Seed x m None]).
Definition two_seeds (a b : result (list seed)) : result (list seed) := bind a (fun x => bind b (fun y => Val (app x y))).
Definition columns (vs : list string) : var_map := values_vars [] 0 vs.   (* setVariableColumn(v0, 0), setVariableColumn(v1, 1), … *)
(* QueryPlanner.cpp:1182-1463 for a triple whose predicate is an IRI or a variable and not has-predicate. Scans for the
   full index get no subject, predicate and object. *)
Definition scan_seeds (allp : bool) (fr : string) (t : triple) : result (list seed) :=
  let s := t_s t in let p := t_p t in let o := t_o t in
  match length (triple_vars t) with
  | 0 => Throw
  | 1 =>
      if is_var s && is_var o && String.eqb s o then
        if is_var p then Throw
        else bind (make_scan PSO_FREE_S s p fr) (fun x => Val [Seed x (columns [s; fr]) (Some (s, fr))])
      else if is_var s then one_seed POS_BOUND_O s p o (columns [s])
      else if is_var o then one_seed PSO_BOUND_S s p o (columns [o])
      else one_seed SOP_BOUND_O s p o (columns [p])
  | 2 =>
      if negb (is_var p) then two_seeds (one_seed PSO_FREE_S s p o (columns [s; o])) (one_seed POS_FREE_O s p o (columns [o; s]))
      else if negb (is_var s) then two_seeds (one_seed SPO_FREE_P s p o (columns [p; o])) (one_seed SOP_FREE_O s p o (columns [o; p]))
      else if negb (is_var o) then two_seeds (one_seed OSP_FREE_S s p o (columns [s; p])) (one_seed OPS_FREE_P s p o (columns [p; s]))
      else Val []
  | _ =>
      if allp then
        Val [Seed (IScan FULL_INDEX_SCAN_SPO "" "" "") (columns [s; p; o]) None; Seed (IScan FULL_INDEX_SCAN_SOP "" "" "") (columns [s; o; p]) None;
             Seed (IScan FULL_INDEX_SCAN_PSO "" "" "") (columns [p; s; o]) None; Seed (IScan FULL_INDEX_SCAN_POS "" "" "") (columns [p; o; s]) None;
             Seed (IScan FULL_INDEX_SCAN_OSP "" "" "") (columns [o; s; p]) None; Seed (IScan FULL_INDEX_SCAN_OPS "" "" "") (columns [o; p; s]) None]
      else Throw
  end.
