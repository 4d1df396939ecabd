(* Model of the mappings from variables to columns reported by the operations (getVariableColumns), and of
   QueryPlanner::getJoinColumns. Hash maps are association lists in their (arbitrary) iteration order. *)
From Coq Require Import String List NArith Arith Bool.
From Verif Require Import Table_Spec Ops_Model.
Import ListNotations.

(* m[v] = c *)
Fixpoint var_set (m : var_map) (v : string) (c : nat) : var_map :=
  match m with
  | [] => [(v, c)]
  | (w, d) :: m' => if String.eqb w v then (w, c) :: m' else (w, d) :: var_set m' v c
  end.

(* QueryPlanner.cpp:2120-2133 getJoinColumns *)
Fixpoint join_columns (ma mb : var_map) : list (nat * nat) :=
  match ma with
  | [] => []
  | (v, c) :: ma' =>
      match var_find mb v with
      | Some d => (c, d) :: join_columns ma' mb
      | None => join_columns ma' mb
      end
  end.

(* Join.cpp:140-151: no full scan involved; lw = width of the left input *)
Fixpoint join_vars (m mb : var_map) (lw jc2 : nat) : var_map :=
  match mb with
  | [] => m
  | (v, c) :: mb' =>
      let m1 := if Nat.ltb c jc2 then var_set m v (lw + c) else m in
      let m2 := if Nat.ltb jc2 c then var_set m1 v (lw + c - 1) else m1 in
      join_vars m2 mb' lw jc2
  end.
(* Join.cpp:153-162: the right input is a full scan *)
Fixpoint join_vars_scan_right (m mb : var_map) (lw : nat) : var_map :=
  match mb with
  | [] => m
  | (v, c) :: mb' => join_vars_scan_right (if Nat.eqb c 0 then m else var_set m v (lw + c - 1)) mb' lw
  end.
(* Join.cpp:163-174: the left input is a full scan *)
Fixpoint scan_left_vars (m ma : var_map) : var_map :=
  match ma with
  | [] => m
  | (v, c) :: ma' => scan_left_vars (if Nat.eqb c 0 then m else var_set m v (c - 1)) ma'
  end.
Fixpoint scan_left_vars2 (m mb : var_map) : var_map :=
  match mb with
  | [] => m
  | (v, c) :: mb' => scan_left_vars2 (var_set m v (2 + c)) mb'
  end.
Definition join_vars_scan_left (ma mb : var_map) : var_map := scan_left_vars2 (scan_left_vars [] ma) mb.

(* OptionalJoin.cpp:136-143: the loop over the join columns; None: it is a join column. columnIndex is a size_t,
   it is not decremented below 0 for columns of the right input (proved by using the result) *)
Fixpoint shifted (jcs : list (nat * nat)) (c columnIndex : nat) : option nat :=
  match jcs with
  | [] => Some columnIndex
  | (_, d) :: jcs' =>
      if Nat.ltb d c then shifted jcs' c (columnIndex - 1)
      else if Nat.eqb d c then None
      else shifted jcs' c columnIndex
  end.
(* OptionalJoin.cpp:127-149 *)
Fixpoint optional_vars (m mb : var_map) (lw : nat) (jcs : list (nat * nat)) : var_map :=
  match mb with
  | [] => m
  | (v, c) :: mb' =>
      optional_vars (match shifted jcs c (lw + c) with Some i => var_set m v i | None => m end) mb' lw jcs
  end.

(* MultiColumnJoin.cpp:122-140 *)
Fixpoint multi_vars (m mb : var_map) (columnIndex : nat) (jcs : list (nat * nat)) : var_map :=
  match mb with
  | [] => m
  | (v, c) :: mb' =>
      if existsb (fun p => Nat.eqb (snd p) c) jcs then multi_vars m mb' columnIndex jcs
      else multi_vars (var_set m v columnIndex) mb' (columnIndex + 1) jcs
  end.
Definition multi_column_vars (ma mb : var_map) (jcs : list (nat * nat)) : var_map :=
  multi_vars ma mb (length ma) jcs.

(* TwoColumnJoin.cpp:134-141: the variables of the input that is filtered. The other case is not implemented in
   computeResult. *)
Definition two_column_vars (wr jc1r jc2r : nat) (ma mb : var_map) : var_map :=
  if Nat.eqb wr 2 && Nat.eqb jc1r 0 && Nat.eqb jc2r 1 then ma else mb.

(* Bind.cpp:102-107, w = width of the input *)
Definition bind_vars (m : var_map) (target : string) (w : nat) : var_map := var_set m target w.

(* TransitivePath.cpp:36-37 *)
Definition path_vars (leftName rightName : string) : var_map := var_set (var_set [] leftName 0) rightName 1.
(* TransitivePath.cpp:734-744, 755-766 *)
Fixpoint path_bind_vars (m side : var_map) (inputCol : nat) : var_map :=
  match side with
  | [] => m
  | (v, c) :: side' =>
      path_bind_vars (if Nat.eqb c inputCol then m
                      else if Nat.ltb inputCol c then var_set m v (c + 1) else var_set m v (c + 2)) side' inputCol
  end.

(* Values.cpp:79-85 *)
Fixpoint values_vars (m : var_map) (i : nat) (vs : list string) : var_map :=
  match vs with [] => m | v :: vs' => values_vars (var_set m v i) (i + 1) vs' end.
