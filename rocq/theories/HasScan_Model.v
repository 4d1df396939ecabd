(* Model of the operation of engine/HasPredicateScan.cpp: its kinds, columns and result, how the planner makes it for a
   triple with ql:has-predicate, and how it replaces a join. The four loops over the patterns are those of HasPred_Model,
   the patterns those of Patterns_Model. Not modelled: size estimates, multiplicities. *)
From Coq Require Import String List NArith Arith Bool Sorted.
From Verif Require Perm_Model HasPred_Spec HasPred_Model Patterns_Model Merge_Model.
From Verif Require Import Table_Spec Ops_Spec Ops_Model Vars_Model Meta_Model Plan_Model Whole_Model IScan_Model.
Import ListNotations.
Local Open Scope nat_scope.

(* HasPredicateScan.h:17-19 ScanType; the subtree of a SUBQUERY_S scan is given by its variable columns, width, sorting
   and types, and by the column of the subject *)
Inductive has_scan :=
| FREE_S (subject object : string)
| FREE_O (subject object : string)
| FULL_SCAN (subject object : string)
| SUBQUERY_S (columns : var_map) (width : nat) (sorted : list nat) (types : list result_type) (col : nat) (object : string).

(* HasPredicateScan.cpp:60-72 *)
Definition has_width (x : has_scan) : nat :=
  match x with FREE_S _ _ | FREE_O _ _ => 1 | FULL_SCAN _ _ => 2 | SUBQUERY_S _ w _ _ _ _ => w + 1 end.
(* HasPredicateScan.cpp:74-87 *)
Definition has_sorted (x : has_scan) : list nat :=
  match x with FREE_S _ _ => [] | FREE_O _ _ => [0] | FULL_SCAN _ _ => [0] | SUBQUERY_S _ _ s _ _ _ => s end.
(* HashMap::insert does not change the value of a key *)
Definition var_insert (m : var_map) (u : string) (c : nat) : var_map :=
  match var_find m u with Some _ => m | None => m ++ [(u, c)] end.
(* HasPredicateScan.cpp:89-109 *)
Definition has_columns (x : has_scan) : var_map :=
  match x with
  | FREE_S s _ => var_insert [] s 0
  | FREE_O _ o => var_insert [] o 0
  | FULL_SCAN s o => var_insert (var_insert [] s 0) o 1
  | SUBQUERY_S m w _ _ _ o => var_insert m o (has_width x - 1)
  end.
(* None: a pattern that does not exist is read *)
Definition of_loop (cols : nat) (types : list result_type) (sortedBy : list nat) (t : option table) : outcome result_table :=
  match t with Some t => Ok (ResultTable cols types sortedBy t) | None => UB end.
(* HasPredicateScan.cpp:203-261; input: the result of the subtree *)
Definition has_result (v : vocabulary) (pix : HasPred_Spec.pattern_index) (x : has_scan) (input : table) : outcome result_table :=
  match x with
  | FREE_S _ o => Meta_Model.bind (id_of v o) (fun i => match i with
      | Some id => of_loop (has_width x) [KB] (has_sorted x) (HasPred_Model.compute_free_s pix id)
      | None => Meta_Model.Throw
      end)
  | FREE_O s _ => Meta_Model.bind (id_of v s) (fun i => match i with
      | Some id => of_loop (has_width x) [KB] (has_sorted x) (HasPred_Model.compute_free_o pix id)
      | None => Meta_Model.Throw
      end)
  | FULL_SCAN _ _ => of_loop (has_width x) [KB; KB] (has_sorted x) (HasPred_Model.compute_full_scan pix)
  | SUBQUERY_S _ _ _ types c _ => of_loop (has_width x) (types ++ [KB]) (has_sorted x) (HasPred_Model.compute_subquery_s pix c input)
  end.

(* QueryPlanner.cpp:1183-1203, 1259-1275: the scan for a triple with the predicate ql:has-predicate. Undef: the type of
   the scan is not set. The planner takes the columns from the operation. *)
Definition has_seed (t : triple) : result has_scan :=
  match length (triple_vars t) with
  | 0 => Throw
  | 1 => if is_var (t_s t) then Val (FREE_S (t_s t) (t_o t)) else if is_var (t_o t) then Val (FREE_O (t_s t) (t_o t)) else Undef
  | 2 => Val (FULL_SCAN (t_s t) (t_o t))
  | _ => Undef
  end.
(* an operand of a join: the scan if it is one, and the tree *)
Record operand := Operand { o_scan : option has_scan; o_vars : var_map; o_width : nat; o_sorted : list nat; o_types : list result_type }.
(* QueryPlanner.cpp:2931-2988: the scan that replaces the join of a and b on the columns j *)
Definition replace_join (a b : operand) (j : nat * nat) : option has_scan :=
  match o_scan a, fst j with
  | Some x, 0 =>
      match x with FULL_SCAN _ o => Some (SUBQUERY_S (o_vars b) (o_width b) (o_sorted b) (o_types b) (snd j) o) | _ => None end
  | _, _ =>
      match o_scan b, snd j with
      | Some (FULL_SCAN _ o), 0 => Some (SUBQUERY_S (o_vars a) (o_width a) (o_sorted a) (o_types a) (fst j) o)
      | _, _ => None
      end
  end.

(* Index.cpp:90-91, 482-489, 537-552: the patterns are made from the triples of ids, which are sorted by subject, predicate
   and object and different, and from the bounds of the predicates for languages *)
Definition spo_order (a b : N * N * N) : Prop :=
  let '(s, p, o) := a in let '(s', p', o') := b in (s < s' \/ (s = s' /\ (p < p' \/ (p = p' /\ o <= o'))))%N.
Definition patterns_built (w : Merge_Model.writer) (ids : list (N * N * N)) (maxNum : nat)
  (order sort : Patterns_Model.pattern_counts -> Patterns_Model.pattern_counts) (pix : HasPred_Spec.pattern_index) : Prop :=
  exists ts, NoDup ts /\ (forall t, In t ts <-> In t ids) /\ StronglySorted spo_order ts /\
    Patterns_Model.create_patterns (fst (Merge_Model.lang_bounds w)) (snd (Merge_Model.lang_bounds w)) maxNum order sort ts = Some pix.
