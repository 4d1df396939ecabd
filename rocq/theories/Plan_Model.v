(* Model of the part of engine/QueryPlanner.cpp that plans a basic graph pattern: the triple graph, the seeds, the
   joins of partial plans, pruning, filters and the table of the dynamic programming; and of the constructors of
   Join, TwoColumnJoin and MultiColumnJoin that the planner calls.

   Not modelled: text triples, ql:has-predicate, property paths other than plain predicates (see PPath_Model), plans of
   type OPTIONAL and MINUS, TextOperation and HasPredicateScan special cases of createJoinCandidates (2775-2783,
   2886-2922, 2935-2987), binding of transitive paths (2989-3100).
   Arbitrary (record oracle): the string representations that order the inputs of a join, the cost estimates, and the
   iteration orders of the hash maps. *)
From Coq Require Import String List NArith Arith Bool Permutation Ascii.
From Verif Require Import Table_Spec Ops_Spec Ops_Model Vars_Model Join_Model MultiJoin_Model.
Import ListNotations.
Local Open Scope nat_scope.

(* ---------- results ---------- *)
Inductive result (A : Type) : Type :=
| Val (a : A)          (* returns a *)
| Throw                (* throws an exception *)
| Undef                (* undefined behaviour *)
| Fuel.                (* the model's recursion bound is too small *)
Arguments Val {A} a.
Arguments Throw {A}.
Arguments Undef {A}.
Arguments Fuel {A}.
Definition bind {A B} (r : result A) (f : A -> result B) : result B :=
  match r with Val a => f a | Throw => Throw | Undef => Undef | Fuel => Fuel end.

(* QueryPlanner.cpp isVariable: the term starts with a question mark *)
Definition is_var (t : string) : bool :=
  match t with String c _ => Ascii.eqb c "?"%char | EmptyString => false end.

(* ParsedQuery.h SparqlTriple with a plain predicate (PropertyPath::Operation::IRI) *)
Record triple := T { t_s : string; t_p : string; t_o : string }.

(* ParsedQuery.h SparqlFilter: the variables it mentions; what it computes is a parameter of `computes` below *)
Record filt := F { f_id : nat; f_lhs : string; f_additional : list string; f_rhs : string }.

(* ---------- execution trees ---------- *)
(* index permutations *)
Inductive order := SPO | SOP | PSO | POS | OSP | OPS.

(* QueryExecutionTree with its operation. Scan: the keys the permutation is restricted to and the variables the planner
   assigns to the remaining columns. EqFilter: the Filter of type EQ made for `?x p ?x`. Leaf: a plan for a nested graph
   pattern that is not made of the other operations (subquery, UNION, VALUES, ...), with its width, its mapping from
   variables to columns and its sort order. *)
Inductive tree :=
| Scan (o : order) (bound vars : list string)
| Leaf (id w : nat) (m : var_map) (sorted : list nat)
| EqFilter (t : tree) (lhs rhs : string)
| FilterT (t : tree) (f : filt)
| SortT (t : tree) (c : nat)
| OrderByT (t : tree) (key : list nat)
| JoinT (l r : tree) (lc rc : nat)
| TwoT (l r : tree) (jc1l jc2l jc1r jc2r : nat)
| MultiT (l r : tree) (jcs : list (nat * nat)).

(* what is arbitrary: comparison of QueryExecutionTree::asString(), getCostEstimate(), iteration order of the hash map
   with the columns of the variables of a tree, iteration order of the hash map in merge, generateUniqueVarName() for
   the i-th triple, Index::hasAllPermutations() *)
Record plan := P { p_tree : tree; p_nodes : N; p_filters : N }.
Record oracle := O {
  less : tree -> tree -> bool;
  cost : tree -> N;
  iter : tree -> var_map;
  shuffle : list (list plan) -> list (list plan);
  fresh : nat -> string;
  all_permutations : bool }.

(* getType() == SCAN *)
Definition is_scan (t : tree) : bool := match t with Scan _ _ _ => true | _ => false end.

(* getResultWidth(): IndexScan.cpp:76-99, Filter.cpp:16, Sort.cpp:13, OrderBy.cpp:15, Join.cpp:180-185 with
   _keepJoinColumn, TwoColumnJoin.cpp:173-177, MultiColumnJoin.cpp:143-148 *)
Fixpoint width_of (t : tree) : nat :=
  match t with
  | Scan _ _ vs => length vs
  | Leaf _ w _ _ => w
  | EqFilter t _ _ | FilterT t _ | SortT t _ | OrderByT t _ => width_of t
  | JoinT l r _ _ => width_of l + width_of r - 1
  | TwoT l r _ _ _ _ => width_of l + width_of r - 2
  | MultiT l r jcs => width_of l + width_of r - length jcs
  end.
(* Join::isFullScanDummy, Join.h:99-102 *)
Definition dummy (t : tree) : bool := is_scan t && Nat.eqb (width_of t) 3.

(* TwoColumnJoin.cpp:143-169: the columns if the operation is not implemented *)
Definition two_column_shift (lw jc1 jc2 c : nat) : option nat :=
  if c <? jc1 then (if c <? jc2 then Some (lw + c) else if jc2 <? c then Some (lw + c - 1) else None)
  else if jc1 <? c then (if c <? jc2 then Some (lw + c - 1) else if jc2 <? c then Some (lw + c - 2) else None)
  else None.
Definition two_column_else (m mb : var_map) (lw jc1 jc2 : nat) : var_map :=
  fold_left (fun m p => match two_column_shift lw jc1 jc2 (snd p) with
                        | Some i => var_set m (fst p) i
                        | None => m
                        end) mb m.
(* TwoColumnJoin.cpp:98-101 *)
Definition right_filter (r : tree) (jc1r jc2r : nat) : bool :=
  Nat.eqb (width_of r) 2 && Nat.eqb jc1r 0 && Nat.eqb jc2r 1.

(* getVariableColumns() of the tree. QueryPlanner.cpp:1154-1476 sets those of scans; filters and sorts keep those of
   their input; Join.cpp:136-175, TwoColumnJoin.cpp:134-170, MultiColumnJoin.cpp:122-140 *)
Fixpoint vars (o : oracle) (t : tree) : var_map :=
  match t with
  | Scan _ _ vs => values_vars [] 0 vs
  | Leaf _ _ m _ => m
  | EqFilter t _ _ | FilterT t _ | SortT t _ | OrderByT t _ => vars o t
  | JoinT l r lc rc =>
      if negb (dummy l) && negb (dummy r) then join_vars (vars o l) (vars o r) (width_of l) rc
      else if dummy r then join_vars_scan_right (vars o l) (vars o r) (width_of l)
      else join_vars_scan_left (vars o l) (vars o r)
  | TwoT l r jc1l jc2l jc1r jc2r =>
      if right_filter l jc1l jc2l || right_filter r jc1r jc2r
      then two_column_vars (width_of r) jc1r jc2r (vars o l) (vars o r)
      else two_column_else (vars o l) (vars o r) (width_of l) jc1r jc2r
  | MultiT l r jcs => multi_column_vars (vars o l) (iter o r) jcs
  end.

(* resultSortedOn(): IndexScan.cpp:102-125, Filter.h:31-33, Sort.h:22, OrderBy.cpp:62-72, Join.cpp:188-194,
   TwoColumnJoin.cpp:180-191, MultiColumnJoin.cpp:151-158 *)
Fixpoint sorted_of (t : tree) : list nat :=
  match t with
  | Scan _ _ vs => seq 0 (length vs)
  | Leaf _ _ _ s => s
  | EqFilter t _ _ | FilterT t _ => sorted_of t
  | SortT _ c => [c]
  | OrderByT _ key => key
  | JoinT l r lc rc => if dummy l then [2 + rc] else [lc]
  | TwoT l r jc1l jc2l jc1r jc2r => if right_filter r jc1r jc2r then [jc1l; jc2l] else [jc1r; jc2r]
  | MultiT l r jcs => map fst jcs
  end.

(* ---------- constructors of the joins ---------- *)
(* Join.cpp:16-34 *)
Definition make_join (o : oracle) (t1 t2 : tree) (c1 c2 : nat) : tree :=
  if less o t2 t1 then JoinT t2 t1 c2 c1 else JoinT t1 t2 c1 c2.
(* TwoColumnJoin.cpp:33-47 *)
Definition two_swap (l r : tree) (jc1l jc2l jc1r jc2r : nat) : tree :=
  let swapped := TwoT l r jc2l jc1l jc2r jc1r in
  let same := TwoT l r jc1l jc2l jc1r jc2r in
  if is_scan l && Nat.eqb (width_of l) 2 then if jc2l <? jc1l then swapped else same
  else if is_scan r && Nat.eqb (width_of r) 2 then if jc2r <? jc1r then swapped else same
  else same.
(* TwoColumnJoin.cpp:11-48 *)
Definition make_two (o : oracle) (t1 t2 : tree) (j1 j2 : nat * nat) : tree :=
  if less o t1 t2 then two_swap t1 t2 (fst j1) (fst j2) (snd j1) (snd j2)
  else two_swap t2 t1 (snd j1) (snd j2) (fst j1) (fst j2).
(* MultiColumnJoin.cpp:11-31 *)
Definition make_multi (o : oracle) (t1 t2 : tree) (jcs : list (nat * nat)) : tree :=
  if less o t1 t2 then MultiT t1 t2 jcs else MultiT t2 t1 (map (fun p => (snd p, fst p)) jcs).

(* ---------- the triple graph ---------- *)
(* QueryPlanner.h:30-41 TripleGraph::Node: the set of variables of a triple *)
Definition triple_vars (t : triple) : list string := nodup string_dec (filter is_var [t_s t; t_p t; t_o t]).
Definition mem (v : string) (l : list string) : bool := existsb (String.eqb v) l.
(* QueryPlanner.cpp:1139-1148: edges between different triples that share a variable *)
Definition adjacent (ts : list triple) (i j : nat) : bool :=
  negb (Nat.eqb i j) &&
  match nth_error ts i, nth_error ts j with
  | Some a, Some b => existsb (fun v => mem v (triple_vars b)) (triple_vars a)
  | _, _ => false
  end.

(* ---------- seeds ---------- *)
(* QueryPlanner.cpp:1182-1475: the plans for one triple, fr = generateUniqueVarName() *)
Definition seeds_of (allp : bool) (fr : string) (t : triple) : result (list tree) :=
  let s := t_s t in let p := t_p t in let o := t_o t in
  match length (triple_vars t) with
  | 0 => Throw
  | 1 =>
      if is_var s && is_var o && String.eqb s o then
        if is_var p then Throw else Val [EqFilter (Scan PSO [p] [s; fr]) s fr]
      else if is_var s then Val [Scan POS [p; o] [s]]
      else if is_var o then Val [Scan PSO [p; s] [o]]
      else Val [Scan SOP [s; o] [p]]
  | 2 =>
      if negb (is_var p) then Val [Scan PSO [p] [s; o]; Scan POS [p] [o; s]]
      else if negb (is_var s) then Val [Scan SPO [s] [p; o]; Scan SOP [s] [o; p]]
      else if negb (is_var o) then Val [Scan OSP [o] [s; p]; Scan OPS [o] [p; s]]
      else Val []
  | _ =>
      if allp then Val [Scan SPO [] [s; p; o]; Scan SOP [] [s; o; p]; Scan PSO [] [p; s; o];
                        Scan POS [] [p; o; s]; Scan OSP [] [o; s; p]; Scan OPS [] [o; p; s]]
      else Throw
  end.
Definition bit (i : nat) : N := N.shiftl 1 (N.of_nat i).
(* QueryPlanner.cpp:1172-1476 *)
Fixpoint triple_seeds (o : oracle) (i : nat) (ts : list triple) : result (list plan) :=
  match ts with
  | [] => Val []
  | t :: ts' =>
      bind (seeds_of (all_permutations o) (fresh o i) t) (fun l =>
      bind (triple_seeds o (S i) ts') (fun rest =>
      Val (map (fun x => P x (bit i) 0) l ++ rest)))
  end.
(* QueryPlanner.cpp:1159-1171; a shift by 64 or more is undefined (unless the list of plans is empty) *)
Fixpoint child_seeds (idShift : nat) (cs : list (list tree)) : result (list plan) :=
  match cs with
  | [] => Val []
  | c :: cs' =>
      if (64 <=? idShift) && negb (match c with [] => true | _ => false end) then Undef
      else bind (child_seeds (S idShift) cs') (fun rest =>
           Val (map (fun x => P x (bit idShift) 0) c ++ rest))
  end.
Definition seeds (o : oracle) (ts : list triple) (children : list (list tree)) : result (list plan) :=
  bind (child_seeds (length ts) children) (fun a =>
  bind (triple_seeds o 0 ts) (fun b => Val (a ++ b))).

(* ---------- joining two partial plans ---------- *)
(* QueryPlanner.cpp:2120-2133 *)
Definition join_cols (o : oracle) (a b : tree) : list (nat * nat) := join_columns (iter o a) (vars o b).
(* QueryPlanner.cpp:2090-2117 *)
Definition connected (o : oracle) (ts : list triple) (a b : plan) : result bool :=
  let n := length ts in
  if negb (N.eqb (N.land (p_nodes a) (p_nodes b)) 0) then Val false
  else if 64 <=? n then Undef
  else if N.leb (bit n) (p_nodes a) || N.leb (bit n) (p_nodes b)
  then Val (match join_cols o (p_tree a) (p_tree b) with [] => false | _ => true end)
  else Val (existsb (fun i => N.testbit (p_nodes a) (N.of_nat i) &&
              existsb (fun j => adjacent ts i j && negb (N.testbit (p_nodes a) (N.of_nat j)) &&
                                N.testbit (p_nodes b) (N.of_nat j)) (seq 0 n)) (seq 0 n)).

(* the first sort column, if there is one, is c *)
Definition first_is (s : list nat) (c : nat) : bool := match s with [] => false | x :: _ => Nat.eqb x c end.
Definition pick (swap : bool) (p : nat * nat) : nat := if swap then snd p else fst p.

(* QueryPlanner.cpp:2823-2873: iteration n with c = n / 2 and swap = n % 2; jc, jc' = jcs[c], jcs[(c+1)%2] *)
Definition two_candidate (o : oracle) (a b : plan) (j1 j2 : nat * nat) (c swap : bool) : plan :=
  let jc := if c then j2 else j1 in
  let jc' := if c then j1 else j2 in
  let ta := p_tree a in let tb := p_tree b in
  let left := if first_is (sorted_of ta) (pick swap jc) && (Nat.eqb (width_of ta) 2 || is_scan ta)
              then ta else OrderByT ta [pick swap jc; pick swap jc'] in
  let right := if first_is (sorted_of tb) (pick (negb swap) jc) && Nat.eqb (width_of tb) 2
               then tb else OrderByT tb [pick (negb swap) jc; pick (negb swap) jc'] in
  P (make_two o left right j1 j2) (N.lor (p_nodes a) (p_nodes b)) (p_filters a).

Fixpoint prefix_eqb (p l : list nat) : bool :=
  match p, l with
  | [], _ => true
  | x :: p', y :: l' => Nat.eqb x y && prefix_eqb p' l'
  | _ :: _, [] => false
  end.
(* QueryPlanner.cpp:1996-2046, 2877-2882 *)
Definition multi_candidate (o : oracle) (a b : plan) (jcs : list (nat * nat)) : plan :=
  let ta := p_tree a in let tb := p_tree b in
  let left := if prefix_eqb (map fst jcs) (sorted_of ta) then ta else OrderByT ta (map fst jcs) in
  let right := if prefix_eqb (map snd jcs) (sorted_of tb) then tb else OrderByT tb (map snd jcs) in
  P (make_multi o left right jcs) (N.lor (p_nodes a) (p_nodes b)) (N.lor (p_filters a) (p_filters b)).

(* QueryPlanner.cpp:3108-3137: a is kept if it is sorted, scans are not sorted *)
Definition sorted_input (t : tree) (c : nat) : option tree :=
  if first_is (sorted_of t) c then Some t else if is_scan t then None else Some (SortT t c).

(* QueryPlanner.cpp:2757-3155 createJoinCandidates for two plans of type BASIC *)
Definition candidates (o : oracle) (ts : list triple) (a b : plan) : result (list plan) :=
  bind (connected o ts a b) (fun conn =>
  match (if conn then join_cols o (p_tree a) (p_tree b) else []) with
  | [] => Val []
  | [j1; j2] =>
      if dummy (p_tree a) && dummy (p_tree b) then Val []
      else Val (map (fun n => two_candidate o a b j1 j2 (fst n) (snd n))
                    [(false, false); (false, true); (true, false); (true, true)])
  | [j] =>
      if dummy (p_tree a) && dummy (p_tree b) then Val []
      else match sorted_input (p_tree a) (fst j), sorted_input (p_tree b) (snd j) with
           | Some l, Some r =>
               Val [P (make_join o l r (fst j) (snd j)) (N.lor (p_nodes a) (p_nodes b))
                      (N.lor (p_filters a) (p_filters b))]
           | _, _ => Val []
           end
  | jcs => Val [multi_candidate o a b jcs]
  end).

(* ---------- pruning ---------- *)
(* QueryPlanner.cpp:2136-2156: the string is built from the names, the two masks and separators *)
Definition key := (list string * N * N)%type.
Definition pruning_key (o : oracle) (p : plan) : key :=
  (flat_map (fun c => match find (fun q => Nat.eqb (snd q) c) (iter o (p_tree p)) with
                      | Some q => [fst q]
                      | None => []
                      end) (sorted_of (p_tree p)), p_nodes p, p_filters p).
Fixpoint names_eqb (a b : list string) : bool :=
  match a, b with
  | [], [] => true
  | x :: a', y :: b' => String.eqb x y && names_eqb a' b'
  | _, _ => false
  end.
Definition key_eqb (a b : key) : bool :=
  names_eqb (fst (fst a)) (fst (fst b)) && N.eqb (snd (fst a)) (snd (fst b)) && N.eqb (snd a) (snd b).
(* candidates[key].emplace_back(plan) *)
Fixpoint group_add (o : oracle) (p : plan) (gs : list (list plan)) : list (list plan) :=
  match gs with
  | [] => [[p]]
  | g :: gs' =>
      match g with
      | q :: _ => if key_eqb (pruning_key o q) (pruning_key o p) then (g ++ [p]) :: gs'
                  else g :: group_add o p gs'
      | [] => g :: group_add o p gs'
      end
  end.
Definition group (o : oracle) (ps : list plan) : list (list plan) :=
  fold_left (fun gs p => group_add o p gs) ps [].

Definition MAX_SIZE_T : N := 18446744073709551615.
(* QueryPlanner.cpp:2725-2754 without the tie-breaking of the test mode: minCost, the plan at minInd, and the rest *)
Fixpoint cheapest_loop (o : oracle) (minCost : N) (best : plan) (l : list plan) : plan :=
  match l with
  | [] => best
  | p :: l' => if N.ltb (cost o (p_tree p)) minCost then cheapest_loop o (cost o (p_tree p)) p l'
               else cheapest_loop o minCost best l'
  end.
Definition cheapest (o : oracle) (l : list plan) : option plan :=
  match l with [] => None | p :: _ => Some (cheapest_loop o MAX_SIZE_T p l) end.

Fixpoint concat_results {A} (l : list (result (list A))) : result (list A) :=
  match l with
  | [] => Val []
  | r :: l' => bind r (fun x => bind (concat_results l') (fun y => Val (x ++ y)))
  end.
(* QueryPlanner.cpp:1842-1880 *)
Definition merge (o : oracle) (ts : list triple) (a b : list plan) : result (list plan) :=
  bind (concat_results (flat_map (fun x => map (fun y => candidates o ts x y) b) a)) (fun cs =>
  Val (flat_map (fun g => match cheapest o g with Some p => [p] | None => [] end) (shuffle o (group o cs)))).

(* ---------- filters ---------- *)
(* QueryExecutionTree::varCovered *)
Definition covered (o : oracle) (t : tree) (v : string) : bool :=
  match var_find (vars o t) v with Some _ => true | None => false end.
(* QueryPlanner.cpp:2187-2197 *)
Definition applicable (o : oracle) (p : plan) (i : nat) (f : filt) : bool :=
  negb (N.testbit (p_filters p) (N.of_nat i)) &&
  covered o (p_tree p) (f_lhs f) && forallb (covered o (p_tree p)) (f_additional f) &&
  (negb (is_var (f_rhs f)) || covered o (p_tree p) (f_rhs f)).
(* QueryPlanner.cpp:2199-2208 *)
Definition filtered (p : plan) (i : nat) (f : filt) : plan :=
  P (FilterT (p_tree p) f) (p_nodes p) (N.lor (p_filters p) (bit i)).
(* QueryPlanner.cpp:2187-2216 with replace: the loop over the filters i, i + 1, ... *)
Fixpoint replace_loop (o : oracle) (p : plan) (i : nat) (fs : list filt) : plan :=
  match fs with
  | [] => p
  | f :: fs' => replace_loop o (if applicable o p i f then filtered p i f else p) (S i) fs'
  end.
(* without replace: the new plans *)
Fixpoint new_plans (o : oracle) (p : plan) (i : nat) (fs : list filt) : list plan :=
  match fs with
  | [] => []
  | f :: fs' => (if applicable o p i f then [filtered p i f] else []) ++ new_plans o p (S i) fs'
  end.
(* QueryPlanner.cpp:2181-2219: the row is finished ++ row, finished has been visited *)
Fixpoint filters_loop (o : oracle) (fuel : nat) (fs : list filt) (replace : bool) (finished row : list plan)
  : result (list plan) :=
  match row with
  | [] => Val finished
  | p :: row' =>
      match fuel with
      | 0 => Fuel
      | S fuel' =>
          if dummy (p_tree p) then filters_loop o fuel' fs replace (finished ++ [p]) row'
          else if replace then filters_loop o fuel' fs replace (finished ++ [replace_loop o p 0 fs]) row'
          else filters_loop o fuel' fs replace (finished ++ [p]) (row' ++ new_plans o p 0 fs)
      end
  end.
(* an upper bound for the number of plans made from one plan with k filters (proved sufficient) *)
Fixpoint weight (k : nat) : nat := match k with 0 => 1 | S k' => 1 + k * weight k' end.
Definition apply_filters (o : oracle) (fs : list filt) (replace : bool) (row : list plan) : result (list plan) :=
  filters_loop o (length row * weight (length fs)) fs replace [] row.

(* ---------- the table ---------- *)
(* QueryPlanner.cpp:2251-2259: the loop over i, i + 1, ..., i + n - 1 for row k; rows = the rows 1 .. k - 1 *)
Fixpoint row_loop (o : oracle) (ts : list triple) (fs : list filt) (last : bool) (rows : list (list plan)) (k : nat)
  (n i : nat) (row : list plan) : result (list plan) :=
  match n with
  | 0 => Val row
  | S n' =>
      bind (merge o ts (nth (i - 1) rows []) (nth (k - i - 1) rows [])) (fun new =>
      match new with
      | [] => row_loop o ts fs last rows k n' (S i) row
      | _ => bind (apply_filters o fs last (row ++ new)) (row_loop o ts fs last rows k n' (S i))
      end)
  end.
(* QueryPlanner.cpp:2247-2268: rows k, k + 1, ..., k + n - 1 of numSeeds rows *)
Fixpoint rows_loop (o : oracle) (ts : list triple) (fs : list filt) (numSeeds : nat) (n k : nat)
  (rows : list (list plan)) : result (list (list plan)) :=
  match n with
  | 0 => Val rows
  | S n' =>
      bind (row_loop o ts fs (Nat.eqb numSeeds k) rows k (k / 2) 1 []) (fun row =>
      match row with
      | [] => Throw
      | _ => rows_loop o ts fs numSeeds n' (S k) (rows ++ [row])
      end)
  end.
(* QueryPlanner.cpp:2235-2272; line 1126 is in createTripleGraph *)
Definition fill_dp_tab (o : oracle) (ts : list triple) (fs : list filt) (children : list (list tree))
  : result (list (list plan)) :=
  if 64 <? length ts then Throw
  else if 64 <? length fs then Throw
  else
    let numSeeds := length ts + length children in
    bind (seeds o ts children) (fun s =>
    bind (apply_filters o fs (Nat.eqb numSeeds 1) s) (fun row1 =>
    rows_loop o ts fs numSeeds (numSeeds - 1) 2 [row1])).

(* QueryPlanner.cpp:400-424 with the choice in createExecutionTree (93-99), for a query without other operations *)
Definition plan_pattern (o : oracle) (ts : list triple) (fs : list filt) (children : list (list tree))
  : result tree :=
  bind (fill_dp_tab o ts fs children) (fun rows =>
  bind (apply_filters o fs true (last rows [])) (fun row =>
  match cheapest o row with Some p => Val (p_tree p) | None => Throw end)).

(* QueryPlanner.cpp:400-424: the plans for a query without other operations; with GROUP BY, HAVING, DISTINCT or ORDER BY
   each of them is continued, and the cheapest one of the results is taken (createExecutionTree, 58-99) *)
Definition plan_row (o : oracle) (ts : list triple) (fs : list filt) (children : list (list tree)) : result (list plan) :=
  bind (fill_dp_tab o ts fs children) (fun rows => apply_filters o fs true (last rows [])).
Definition planned (o : oracle) (ts : list triple) (fs : list filt) (children : list (list tree)) (t : tree) : Prop :=
  exists row p, plan_row o ts fs children = Val row /\ In p row /\ p_tree p = t.

(* ---------- execution ---------- *)
(* An index: for every permutation the triples with permuted columns, sorted (Index.h scan functions, see C20-C22).
   voc: ids of the terms. *)
Definition index := order -> table.
Fixpoint lookup_all (voc : string -> option N) (l : list string) : option (list N) :=
  match l with
  | [] => Some []
  | t :: l' => match voc t, lookup_all voc l' with Some i, Some r => Some (i :: r) | _, _ => None end
  end.
Fixpoint row_eqb (a b : list N) : bool :=
  match a, b with
  | [], [] => true
  | x :: a', y :: b' => N.eqb x y && row_eqb a' b'
  | _, _ => false
  end.
(* IndexScan.cpp:228-360: the result of a scan is empty if a key is not in the vocabulary *)
Definition scan_table (voc : string -> option N) (ix : index) (o : order) (bound : list string) : table :=
  match lookup_all voc bound with
  | Some ids => map (skipn (length ids)) (filter (fun r => row_eqb (firstn (length ids) r) ids) (ix o))
  | None => []
  end.
(* Join.cpp:411-470 getScanMethodForFullScan: the scan of a full scan for one id *)
Definition full_scan_method (ix : index) (o : order) (id : N) : table :=
  map (drop_col 0) (filter (fun s => N.eqb (col 0 s) id) (ix o)).

(* `computes o voc ix sat leaf t result`: the execution of t can give result. Executions that throw have no result: a
   full index scan that is not the input of a join (IndexScan.cpp:254-262), and TwoColumnJoin outside the implemented case.
   Filters: a row stays if `sat` holds for the values of the filter's variables (the algorithms of Filter.cpp are the
   subject of C14). The shortcut of Join.cpp:74-82 for inputs known to be empty is left out. Joins with a left input more than 1000 times larger than the right one are left out, see C07 and
   C08. *)
Definition filter_vars (f : filt) : list string :=
  f_lhs f :: f_additional f ++ (if is_var (f_rhs f) then [f_rhs f] else []).
Definition value_of (m : var_map) (r : row) (v : string) : option N := option_map (fun c => col c r) (var_find m v).
Definition same_value (x y : option N) : bool :=
  match x, y with Some a, Some b => N.eqb a b | _, _ => false end.

Inductive computes (o : oracle) (voc : string -> option N) (ix : index) (sat : filt -> list (option N) -> bool)
  (leaf : nat -> table -> Prop) : tree -> table -> Prop :=
| CScan : forall ord bound vs, dummy (Scan ord bound vs) = false ->
    computes o voc ix sat leaf (Scan ord bound vs) (scan_table voc ix ord bound)
| CLeaf : forall id w m s t, leaf id t -> computes o voc ix sat leaf (Leaf id w m s) t
| CEq : forall t x y a, computes o voc ix sat leaf t a ->
    computes o voc ix sat leaf (EqFilter t x y)
      (filter (fun r => same_value (value_of (vars o t) r x) (value_of (vars o t) r y)) a)
| CFilter : forall t f a, computes o voc ix sat leaf t a ->
    computes o voc ix sat leaf (FilterT t f)
      (filter (fun r => sat f (map (value_of (vars o t) r) (filter_vars f))) a)
| CSort : forall t c a b, computes o voc ix sat leaf t a -> sort_result (sort_less c) a b ->
    computes o voc ix sat leaf (SortT t c) b
| COrderBy : forall t key a b, computes o voc ix sat leaf t a ->
    sort_result (order_by_less (map (fun c => (c, false)) key)) a b ->
    computes o voc ix sat leaf (OrderByT t key) b
| CJoin : forall l r lc rc a b t, dummy l = false -> dummy r = false ->
    computes o voc ix sat leaf l a -> computes o voc ix sat leaf r b ->
    (N.of_nat (length a) / N.of_nat (length b) <= 1000)%N -> join a lc b rc = Some t ->
    computes o voc ix sat leaf (JoinT l r lc rc) t
| CJoinEmpty : forall l r lc rc, dummy l = false -> dummy r = false -> computes o voc ix sat leaf l [] ->
    computes o voc ix sat leaf (JoinT l r lc rc) []
| CFullLeft : forall ord vs r lc rc b, dummy (Scan ord [] vs) = true -> computes o voc ix sat leaf r b ->
    computes o voc ix sat leaf (JoinT (Scan ord [] vs) r lc rc) (full_scan_left (full_scan_method ix ord) b rc)
| CFullRight : forall l ord vs lc rc a, dummy l = false -> dummy (Scan ord [] vs) = true ->
    computes o voc ix sat leaf l a ->
    computes o voc ix sat leaf (JoinT l (Scan ord [] vs) lc rc) (full_scan_right (full_scan_method ix ord) a lc)
| CTwo : forall l r jc1l jc2l jc1r jc2r a b t, computes o voc ix sat leaf l a -> computes o voc ix sat leaf r b ->
    two_column_join (width_of l) (width_of r) a b jc1l jc2l jc1r jc2r = TcjTable (Some t) ->
    computes o voc ix sat leaf (TwoT l r jc1l jc2l jc1r jc2r) t
| CMulti : forall l r jcs a b t, computes o voc ix sat leaf l a -> computes o voc ix sat leaf r b ->
    multi_column_join (width_of r) a b jcs = Some t ->
    computes o voc ix sat leaf (MultiT l r jcs) t.
