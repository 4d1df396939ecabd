(* Model of QueryPlanner::optimize (engine/QueryPlanner.cpp:106-435) and of the parts of createExecutionTree (37-104) that
   plan a subquery.

   A plan is represented by its variables, by the bag of mappings that its execution gives, and by the mask of the filters
   that the planner has noted as applied. All plans in one row of the dynamic programming table give the same bag (C62), so
   one plan stands for the row; an empty row is None.

   Simplified: fillDpTab (2235-2272) is replaced by what C62 proves about it: the join of all inputs with all filters
   applied whose variables are covered. Which inputs make it throw (inputs that are not connected, ...) is the arbitrary
   function `refuses`, see C63. The inputs are kept in one list in the order of the pattern, while the code keeps triples
   and plans in two lists. An unbound value is `None` here and the id ID_NO_VALUE in the code; joins compare it like any
   other id. The expression of BIND is an arbitrary function with a result for all rows (see C72 for its values).
   The plan of a triple with three variables, which cannot be executed (C63), gets its filters here like any other plan;
   64 triples, undefined in the code (C63), are an error here.
   Not modelled: TransPath (see C54), text, GROUP BY, HAVING, ORDER BY and the pattern trick in subqueries. *)
From Coq Require Import String List NArith Arith Bool.
From Verif Require Import Table_Spec Plan_Spec Plan_Model Group_Spec.
Import ListNotations.
Local Open Scope nat_scope.

(* QueryPlanner.h:95-150 SubtreePlan *)
Record cand := Cd { c_vars : list string; c_rows : list mapping; c_filters : N }.
Inductive ptype := BASIC | OPTIONAL | MINUS.

Section Optimize.
Variable U : list string.
Variable triple_solutions : pattern -> list mapping.
Variable sat : gfilter -> list (option N) -> bool.
Variable refuses : list cand -> bool.

(* ---------- operations ---------- *)
Definition opt_eqb (x y : option N) : bool :=
  match x, y with Some a, Some b => N.eqb a b | None, None => true | _, _ => false end.
(* QueryPlanner.cpp:2120-2133 getJoinColumns *)
Definition shared (a b : list string) : list string := inter a b.
(* the rows agree in the join columns *)
Definition agree (vs : list string) (m1 m2 : mapping) : bool :=
  forallb (fun v => opt_eqb (get U m1 v) (get U m2 v)) vs.
Definition union_vars (a b : list string) : list string := a ++ filter (fun v => negb (memb v a)) b.
(* Join, TwoColumnJoin, MultiColumnJoin (see C08 to C10) *)
Definition mjoin (a b : cand) : cand :=
  Cd (union_vars (c_vars a) (c_vars b))
     (flat_map (fun x => flat_map (fun y => if agree (shared (c_vars a) (c_vars b)) x y then [merge_map x y] else [])
                                  (c_rows b)) (c_rows a)) 0.
(* OptionalJoin (see C11); QueryPlanner.cpp:1883-1934: the new plan has no filters noted *)
Definition optional_join (a b : cand) : cand :=
  Cd (union_vars (c_vars a) (c_vars b))
     (flat_map (fun x => match flat_map (fun y => if agree (shared (c_vars a) (c_vars b)) x y then [merge_map x y] else [])
                                        (c_rows b) with
                         | [] => [x]
                         | l => l
                         end) (c_rows a)) 0.
(* Minus (see C12); QueryPlanner.cpp:1937-1989 *)
Definition minus_plan (a b : cand) : cand :=
  Cd (c_vars a) (filter (fun x => negb (existsb (agree (shared (c_vars a) (c_vars b)) x) (c_rows b))) (c_rows a)) 0.
(* QueryPlanner.cpp:193-206 *)
Definition bind_plan (t : string) (args : list string) (fn : list (option N) -> N) (a : cand) : cand :=
  Cd (c_vars a ++ [t]) (map (fun m => put U m t (fn (map (get U m) args))) (c_rows a)) (c_filters a).
(* Engine.h:147-180 distinct: one row for every combination of the selected columns *)
Fixpoint distinct_on (vs : list string) (l : list mapping) : list mapping :=
  match l with
  | [] => []
  | m :: r => m :: filter (fun x => negb (agree vs m x)) (distinct_on vs r)
  end.

(* QueryPlanner.cpp:2159-2219 applyFiltersIfPossible with replace, for one plan: filters i, i + 1, ... *)
Fixpoint apply_filters (i : nat) (fs : list gfilter) (c : cand) : cand :=
  match fs with
  | [] => c
  | f :: fs' =>
      apply_filters (S i) fs'
        (if negb (N.testbit (c_filters c) (N.of_nat i)) && subset (gf_vars f) (c_vars c)
         then Cd (c_vars c) (filter (fun m => passes U sat m f) (c_rows c)) (N.lor (c_filters c) (bit i))
         else c)
  end.

Fixpoint all_some {A} (l : list (option A)) : option (list A) :=
  match l with
  | [] => Some []
  | Some x :: l' => match all_some l' with Some r => Some (x :: r) | None => None end
  | None :: _ => None
  end.
Definition no_vars : cand := Cd [] [empty_mapping U] 0.
Definition join_plans (cs : list cand) : cand := fold_left mjoin cs no_vars.
(* QueryPlanner.cpp:132-147 optimizeCommutativ; 2235-2272 fillDpTab: the last row; 1126-1130: at most 64 triples *)
Definition commut (triples : nat) (plans : list (option cand)) (fs : list gfilter) : result (option cand) :=
  if 64 <? triples then Throw
  else if 64 <? length fs then Throw
  else match all_some plans with
       | None => match plans with [_] => Val None | _ => Throw end
       | Some [] => Val None
       | Some cs => if refuses cs then Throw else Val (Some (apply_filters 0 fs (join_plans cs)))
       end.

(* ---------- the state of optimize ---------- *)
(* candidatePlans and candidateTriples, how many of them are triples, boundVariables *)
Record state := St { s_plans : list (option cand); s_triples : nat; s_bound : list string }.

Definition triple_plan (t : pattern) : option cand :=
  Some (Cd (nodup string_dec (pattern_vars is_var t)) (triple_solutions t) 0).
(* QueryPlanner.cpp:171-185 *)
Definition add_triples (ts : list pattern) (s : state) : state :=
  St (s_plans s ++ map triple_plan ts) (s_triples s + length ts) (s_bound s ++ flat_map (pattern_vars is_var) ts).
(* QueryPlanner.cpp:186-209 *)
Definition add_bind (fs : list gfilter) (t : string) (args : list string) (fn : list (option N) -> N) (s : state)
  : result state :=
  if memb t (s_bound s) then Throw
  else bind (commut (s_triples s) (s_plans s) fs) (fun row =>
       Val (St [option_map (bind_plan t args fn) row] 0 (s_bound s ++ [t]))).
(* QueryPlanner.cpp:210-281; ty is the type of the plans in v *)
Definition add_child (fs : list gfilter) (ty : ptype) (v : option cand) (s : state) : result state :=
  match v with
  | None => Throw
  | Some b =>
      let unbound := forallb (fun x => negb (memb x (s_bound s))) (c_vars b) in
      let ty' := match ty with OPTIONAL => if unbound then BASIC else OPTIONAL | _ => ty end in
      let bound := s_bound s ++ c_vars b in
      match ty' with
      | BASIC => Val (St (s_plans s ++ [Some b]) (s_triples s) bound)
      | _ =>
          bind (commut (s_triples s) (s_plans s) fs) (fun row =>
          match row with
          | None => Throw
          | Some a =>
              match shared (c_vars a) (c_vars b) with
              | [] => Throw
              | _ => Val (St [Some (match ty' with MINUS => minus_plan a b | _ => optional_join a b end)] 0 bound)
              end
          end)
      end
  end.
(* QueryPlanner.cpp:396-435; a shift by 64 or more is undefined *)
Definition finish (fs : list gfilter) (s : state) : result (option cand) :=
  bind (if (1 <? length (s_plans s)) || negb (Nat.eqb (s_triples s) 0)
        then bind (commut (s_triples s) (s_plans s) fs) (fun r => Val [r])
        else Val (s_plans s)) (fun plans =>
  match plans with
  | [] => Val None
  | None :: _ => Val None
  | Some c :: _ => if 64 <? length fs then Undef else Val (Some (apply_filters 0 fs c))
  end).

Definition need {A} (r : option A) : result A := match r with Some a => Val a | None => Throw end.

(* QueryPlanner.cpp:288-395 *)
Fixpoint opt_element (fs : list gfilter) (e : element) (s : state) : result state :=
  match e with
  | Triples ts => Val (add_triples ts s)
  | Group g => bind (optimize g) (fun v => add_child fs BASIC v s)
  | Optional g => bind (optimize g) (fun v => add_child fs OPTIONAL v s)
  | Minus g => bind (optimize g) (fun v => add_child fs MINUS v s)
  | Union g1 g2 =>
      bind (bind (optimize g1) need) (fun a =>
      bind (bind (optimize g2) need) (fun b =>
      add_child fs BASIC (Some (Cd (union_vars (c_vars a) (c_vars b)) (c_rows a ++ c_rows b) 0)) s))
  | Subquery q => bind (create_tree q) (fun c => add_child fs BASIC (Some c) s)
  | Inline vs rows => add_child fs BASIC (Some (Cd vs rows 0)) s
  | Bind t args fn => add_bind fs t args fn s
  end
with opt_elements (fs : list gfilter) (es : elements) (s : state) : result state :=
  match es with
  | Nil => Val s
  | Cons e es' => bind (opt_element fs e s) (opt_elements fs es')
  end
(* QueryPlanner.cpp:106-435 *)
with optimize (g : group) : result (option cand) :=
  match g with G es fs => bind (opt_elements fs es (St [] 0 [])) (finish fs) end
(* QueryPlanner.cpp:37-104: the plan of a (sub)query; DISTINCT 806-884. LIMIT and OFFSET are not used. *)
with create_tree (q : query) : result cand :=
  match q with
  | Q select distinct offset limit g =>
      bind (bind (optimize g) need) (fun c =>
      Val (Cd (c_vars c) (if distinct then distinct_on (inter select (c_vars c)) (c_rows c) else c_rows c) 0))
  end.
End Optimize.
