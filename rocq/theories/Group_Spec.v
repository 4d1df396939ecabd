(* Group graph patterns and their solutions, after the SPARQL 1.1 recommendation, sections 18.2 to 18.5: a group is
   evaluated from left to right, and its filters are applied to the whole group at the end. *)
From Coq Require Import String List NArith Arith Bool.
From Verif Require Import Table_Spec Plan_Spec.
Import ListNotations.
Local Open Scope nat_scope.

(* ---------- syntax ---------- *)
(* a filter: the variables it mentions; which values pass is a parameter of the semantics *)
Record gfilter := GF { gf_id : nat; gf_vars : list string }.
Inductive element :=
| Triples (ts : list pattern)
| Group (g : group)
| Optional (g : group)
| Minus (g : group)
| Union (g1 g2 : group)
| Subquery (q : query)
| Inline (vs : list string) (rows : list mapping)                                   (* VALUES *)
| Bind (target : string) (args : list string) (fn : list (option N) -> N)          (* BIND (fn(args) AS target) *)
with elements := Nil | Cons (e : element) (es : elements)
with group := G (es : elements) (fs : list gfilter)
with query := Q (select : list string) (distinct : bool) (offset : nat) (limit : option nat) (where_ : group).
Notation "e ;; es" := (Cons e es) (at level 60, right associativity).

(* ---------- solutions ---------- *)
Section Algebra.
Variable U : list string.                              (* all variables of the query *)
Variable triple_solutions : pattern -> list mapping.   (* the solutions of one triple pattern *)
Variable sat : gfilter -> list (option N) -> bool.

Definition passes (mu : mapping) (f : gfilter) : bool := sat f (map (get U mu) (gf_vars f)).
Definition empty_mapping : mapping := repeat None (length U).
Definition left_join (A B : list mapping) (p : mapping -> bool) : list mapping :=
  flat_map (fun a => match flat_map (fun b => if compat a b && p (merge_map a b) then [merge_map a b] else []) B with
                     | [] => [a]
                     | l => l
                     end) A.
(* some variable has a value in both mappings *)
Definition shares (a b : mapping) : bool :=
  existsb (fun p => match p with (Some _, Some _) => true | _ => false end) (combine a b).
Definition minus (A B : list mapping) : list mapping :=
  filter (fun a => negb (existsb (fun b => compat a b && shares a b) B)) A.
Definition put (a : mapping) (t : string) (x : N) : mapping :=
  map (fun p => if String.eqb (fst p) t then Some x else snd p) (combine U a).
Definition extend (t : string) (args : list string) (fn : list (option N) -> N) (A : list mapping) : list mapping :=
  map (fun a => put a t (fn (map (get U a) args))) A.
Definition project (vs : list string) (A : list mapping) : list mapping :=
  map (fun a => map (fun v => if existsb (String.eqb v) vs then get U a v else None) U) A.
Definition option_N_dec (x y : option N) : {x = y} + {x <> y}.
Proof. decide equality. apply N.eq_dec. Defined.
Definition mapping_dec : forall a b : mapping, {a = b} + {a <> b} := list_eq_dec option_N_dec.
Definition slice {A} (offset : nat) (limit : option nat) (l : list A) : list A :=
  match limit with Some k => firstn k (skipn offset l) | None => skipn offset l end.

Fixpoint eval_element (e : element) (acc : list mapping) : list mapping :=
  match e with
  | Triples ts => bjoin acc (fold_left bjoin (map triple_solutions ts) [empty_mapping])
  | Group g => bjoin acc (eval_group g)
  | Optional (G es fs) => left_join acc (eval_elements es [empty_mapping]) (fun m => forallb (passes m) fs)
  | Minus g => minus acc (eval_group g)
  | Union g1 g2 => bjoin acc (eval_group g1 ++ eval_group g2)
  | Subquery q => bjoin acc (eval_query q)
  | Inline vs rows => bjoin acc rows
  | Bind t args fn => extend t args fn acc
  end
with eval_elements (es : elements) (acc : list mapping) : list mapping :=
  match es with
  | Nil => acc
  | Cons e es' => eval_elements es' (eval_element e acc)
  end
with eval_group (g : group) : list mapping :=
  match g with G es fs => filter (fun m => forallb (passes m) fs) (eval_elements es [empty_mapping]) end
with eval_query (q : query) : list mapping :=
  match q with
  | Q select distinct offset limit g =>
      let l := project select (eval_group g) in
      slice offset limit (if distinct then nodup mapping_dec l else l)
  end.
End Algebra.

(* ---------- the patterns the theorems are about ---------- *)
Section Scope.
Variable U : list string.
Variable is_variable : string -> bool.
Definition memb (v : string) (l : list string) : bool := existsb (String.eqb v) l.
Definition inter (a b : list string) : list string := filter (fun v => memb v b) a.
Definition subset (a b : list string) : bool := forallb (fun v => memb v b) a.
Definition pattern_vars (t : pattern) : list string :=
  match t with (s, p, o) => filter is_variable [s; p; o] end.
(* variables of a pattern: those that have a value in every solution, and those that have one in some *)
Definition scope := (list string * list string)%type.
(* a variable that occurs before in the group and in the next element has a value in all solutions of both *)
Definition joinable (a b : scope) : bool :=
  subset (inter (snd a) (snd b)) (fst a) && subset (inter (snd a) (snd b)) (fst b).
Definition join_scope (a b : scope) : option scope :=
  if joinable a b then Some (fst a ++ fst b, snd a ++ snd b) else None.
Definition has_domain (vs : list string) (m : mapping) : bool :=
  Nat.eqb (length m) (length U) &&
  forallb (fun v => Bool.eqb (memb v vs) (match get U m v with Some _ => true | None => false end)) U.
Definition empty_element (e : element) : bool := match e with Triples [] => true | _ => false end.
Fixpoint all_empty (es : elements) : bool := match es with Nil => true | Cons e es' => empty_element e && all_empty es' end.
(* a group that has filters, or that is nothing but such a group in braces *)
Fixpoint filtered_group (g : group) : bool :=
  match g with G es fs => match fs with _ :: _ => true | [] => filtered_inside es end end
with filtered_inside (es : elements) : bool :=
  match es with
  | Nil => false
  | Cons e es' =>
      if empty_element e then filtered_inside es'
      else match e with Group g | Optional g => filtered_group g && all_empty es' | _ => false end
  end.
(* no filters, or not just a nested group with filters *)
Definition filters_visible (es : elements) (fs : list gfilter) : bool :=
  match fs with [] => true | _ => negb (filtered_inside es) end.

(* The scope of a pattern, if
   - variables shared between parts of a group have a value in all solutions of both parts;
   - OPTIONAL shares a variable with what precedes it;
   - the target of BIND is new;
   - the filters of a group mention only variables of that group;
   - a group with filters is not just a nested group with filters;
   - subqueries select all their variables and have no LIMIT and OFFSET. *)
Fixpoint scope_element (e : element) (s : scope) : option scope :=
  match e with
  | Triples ts => let vs := flat_map pattern_vars ts in
                  if subset vs U then join_scope s (vs, vs) else None
  | Group g => match scope_group g with Some s' => join_scope s s' | None => None end
  | Optional g =>
      match scope_group g with
      | Some s' => if joinable s s' && negb (match inter (snd s) (snd s') with [] => true | _ => false end)
                   then Some (fst s, snd s ++ snd s') else None
      | None => None
      end
  | Minus g => match scope_group g with Some s' => if joinable s s' then Some s else None | None => None end
  | Union g1 g2 =>
      match scope_group g1, scope_group g2 with
      | Some s1, Some s2 => join_scope s (inter (fst s1) (fst s2), snd s1 ++ snd s2)
      | _, _ => None
      end
  | Subquery (Q select distinct offset limit g) =>
      match scope_group g, offset, limit with
      | Some s', O, None => if subset (snd s') select then join_scope s s' else None
      | _, _, _ => None
      end
  | Inline vs rows => if subset vs U && forallb (has_domain vs) rows then join_scope s (vs, vs) else None
  | Bind t args fn => if memb t U && negb (memb t (snd s)) then Some (fst s ++ [t], snd s ++ [t]) else None
  end
with scope_elements (es : elements) (s : scope) : option scope :=
  match es with
  | Nil => Some s
  | Cons e es' => match scope_element e s with Some s' => scope_elements es' s' | None => None end
  end
with scope_group (g : group) : option scope :=
  match g with
  | G es fs =>
      match scope_elements es ([], []) with
      | Some s => if forallb (fun f => subset (gf_vars f) (snd s)) fs && filters_visible es fs then Some s else None
      | None => None
      end
  end.
End Scope.

(* ---------- the solutions of one triple pattern in a graph ---------- *)
Section Graph.
Variable U : list string.
Variable is_variable : string -> bool.
Variable voc : string -> option N.
Definition term_bag (t : string) (i : N) : list mapping :=
  if is_variable t then [put U (empty_mapping U) t i]
  else match voc t with Some j => if N.eqb i j then [empty_mapping U] else [] | None => [] end.
Definition triple_bag (kb : graph) (t : pattern) : list mapping :=
  match t with
  | (s, p, o) => flat_map (fun x => match x with (i, j, k) => bjoin (bjoin (term_bag s i) (term_bag p j)) (term_bag o k) end) kb
  end.
End Graph.
