(* Model of engine/TransitivePath.cpp. *)
From Coq Require Import List NArith Arith Bool Permutation.
From Verif Require Import Table_Spec Ops_Model.
Import ListNotations.
Open Scope N_scope.

(* HashMap<Id, shared_ptr<HashSet<Id>>> *)
Definition edge_map := list (N * list N).
Definition find_edges (m : edge_map) (x : N) : option (list N) :=
  option_map snd (find (fun p => fst p =? x) m).
Definition set_insert (s : list N) (x : N) : list N := if existsb (N.eqb x) s then s else s ++ [x].
Fixpoint add_edge (m : edge_map) (l r : N) : edge_map :=
  match m with
  | [] => [(l, [r])]
  | (k, s) :: m' => if k =? l then (k, set_insert s r) :: m' else (k, s) :: add_edge m' l r
  end.

(* TransitivePath.cpp:283-300, 304-319, 413-427, 551-564: the map from the subresult; the
   inverted one is build_edges sub rightSubCol leftSubCol. *)
Definition build_edges (sub : table) (fromCol toCol : nat) : edge_map :=
  fold_left (fun m r => add_edge m (col fromCol r) (col toCol r)) sub [].

(* TransitivePath.cpp:289-291: nodes are added when first seen. *)
Fixpoint build_nodes (seen : list N) (sub : table) (fromCol : nat) : list N :=
  match sub with
  | [] => []
  | r :: sub' =>
      let l := col fromCol r in
      if existsb (N.eqb l) seen then build_nodes seen sub' fromCol
      else l :: build_nodes (l :: seen) sub' fromCol
  end.

(* A HashSet is iterated in an unspecified order. *)
Definition iteration_order := list N -> list N.
Definition order_ok (order : iteration_order) : Prop := forall l, Permutation (order l) l.

(* TransitivePath.cpp:349-382, 474-515, 612-653: the depth first search. `stack` holds for
   each level, the top one first, what is left of the set iterated over (positions and
   edgeCache). The result is the list of marked nodes in the order they were marked. None:
   out of fuel. *)
Fixpoint dfs (fuel : nat) (succ : N -> option (list N)) (minDist maxDist : N)
    (stack : list (list N)) (marks : list N) : option (list N) :=
  match fuel with
  | O => None
  | S fuel' =>
      match stack with
      | [] => Some marks
      | [] :: stack' => dfs fuel' succ minDist maxDist stack' marks
      | (child :: rest) :: below =>
          let childDepth := N.of_nat (length stack) in
          let stack' := rest :: below in
          if (childDepth <=? maxDist) && negb (existsb (N.eqb child) marks) then
            let marks' := if minDist <=? childDepth then marks ++ [child] else marks in
            match succ child with
            | Some s => dfs fuel' succ minDist maxDist (s :: stack') marks'
            | None => dfs fuel' succ minDist maxDist stack' marks'
            end
          else dfs fuel' succ minDist maxDist stack' marks
      end
  end.

(* The search from one node (lines 336-382). *)
Definition search (fuel : nat) (order : iteration_order) (edges : edge_map) (minDist maxDist : N)
    (root : N) : option (list N) :=
  let succ x := option_map order (find_edges edges x) in
  dfs fuel succ minDist maxDist
    (match succ root with Some s => [s] | None => [] end) [].

(* TransitivePath.cpp:335-388; the pairs of all nodes. None: out of fuel or the exception for
   minDist = 0 (lines 341-345). *)
Fixpoint search_all (fuel : nat) (order : iteration_order) (edges : edge_map) (minDist maxDist : N)
    (pair : N -> N -> row) (nodes : list N) : option table :=
  match nodes with
  | [] => Some []
  | x :: nodes' =>
      if minDist =? 0 then None
      else
        match search fuel order edges minDist maxDist x,
              search_all fuel order edges minDist maxDist pair nodes' with
        | Some ys, Some rest => Some (map (pair x) ys ++ rest)
        | _, _ => None
        end
  end.

(* TransitivePath.cpp:250-391 computeTransitivePath. *)
Definition compute_path (fuel : nat) (order : iteration_order) (sub : table)
    (leftIsVar rightIsVar : bool) (leftSubCol rightSubCol : nat) (leftValue rightValue : N)
    (minDist maxDist : N) : option table :=
  if negb leftIsVar && negb rightIsVar then Some []
  else if rightIsVar then
    search_all fuel order (build_edges sub leftSubCol rightSubCol) minDist maxDist
      (fun x y => [x; y]) (if leftIsVar then build_nodes [] sub leftSubCol else [leftValue])
  else
    search_all fuel order (build_edges sub rightSubCol leftSubCol) minDist maxDist
      (fun x y => [y; x]) [rightValue].

(* TransitivePath.cpp:499-505, 637-643: the remaining columns of a row of the bound side;
   `blank` is the uninitialised row. None: access out of bounds. *)
Fixpoint fill_row (ks : list nat) (sideCol : nat) (r : row) (acc : row) : option row :=
  match ks with
  | [] => Some acc
  | k :: ks' =>
      match Nat.compare (k - 2) sideCol with
      | Lt => match nth_error r (k - 2) with
              | Some v => match list_set acc k v with
                          | Some acc' => fill_row ks' sideCol r acc'
                          | None => None end
              | None => None end
      | Gt => match nth_error r (k - 2) with
              | Some v => match list_set acc (k - 1) v with
                          | Some acc' => fill_row ks' sideCol r acc'
                          | None => None end
              | None => None end
      | Eq => fill_row ks' sideCol r acc
      end
  end.
Definition bound_row (blank : row) (resWidth sideCol : nat) (c0 c1 : N) (r : row) : option row :=
  match list_set blank 0 c0 with
  | None => None
  | Some acc => match list_set acc 1 c1 with
                | None => None
                | Some acc' => fill_row (seq 2 (resWidth - 1)) sideCol r acc'
                end
  end.
Fixpoint bound_rows (blank : row) (resWidth sideCol : nat) (pair : N -> N * N) (ys : list N) (r : row)
  : option table :=
  match ys with
  | [] => Some []
  | y :: ys' =>
      match bound_row blank resWidth sideCol (fst (pair y)) (snd (pair y)) r,
            bound_rows blank resWidth sideCol pair ys' r with
      | Some x, Some rest => Some (x :: rest)
      | _, _ => None
      end
  end.

(* TransitivePath.cpp:444-523 (left bound) and 582-661 (right bound): loop over the rows of the
   bound side. `isVar`/`value` describe the other end; `pair x y` gives the columns 0 and 1.
   last_elem, last_block: the previously searched value and its output. *)
Fixpoint bound_loop (fuel : nat) (order : iteration_order) (edges : edge_map) (minDist maxDist : N)
    (isVar : bool) (value : N) (pair : N -> N -> N * N) (blank : row) (resWidth sideCol : nat)
    (last_elem : N) (last_block : table) (side : table) : option table :=
  match side with
  | [] => Some []
  | r :: side' =>
      if col sideCol r =? last_elem then
        option_map (app last_block)
          (bound_loop fuel order edges minDist maxDist isVar value pair blank resWidth sideCol
             last_elem last_block side')
      else if minDist =? 0 then None
      else
        let x := col sideCol r in
        match search fuel order edges minDist maxDist x with
        | None => None
        | Some ys =>
            match bound_rows blank resWidth sideCol (pair x)
                    (filter (fun y => isVar || (y =? value)) ys) r with
            | None => None
            | Some block =>
                option_map (app block)
                  (bound_loop fuel order edges minDist maxDist isVar value pair blank resWidth
                     sideCol x block side')
            end
        end
  end.

(* TransitivePath.cpp:393-526 and 529-664. last_elem starts with the largest size_t. *)
Definition compute_path_left_bound (fuel : nat) (order : iteration_order) (sub left : table)
    (leftSideCol : nat) (rightIsVar : bool) (leftSubCol rightSubCol : nat) (rightValue : N)
    (minDist maxDist : N) (blank : row) (resWidth : nat) : option table :=
  bound_loop fuel order (build_edges sub leftSubCol rightSubCol) minDist maxDist rightIsVar
    rightValue (fun x y => (x, y)) blank resWidth leftSideCol (2 ^ 64 - 1) [] left.
Definition compute_path_right_bound (fuel : nat) (order : iteration_order) (sub right : table)
    (rightSideCol : nat) (leftIsVar : bool) (leftSubCol rightSubCol : nat) (leftValue : N)
    (minDist maxDist : N) (blank : row) (resWidth : nat) : option table :=
  bound_loop fuel order (build_edges sub rightSubCol leftSubCol) minDist maxDist leftIsVar
    leftValue (fun x y => (y, x)) blank resWidth rightSideCol (2 ^ 64 - 1) [] right.
