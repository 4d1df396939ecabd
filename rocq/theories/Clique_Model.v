(* Model of the triple graph of the query planner: src/engine/QueryPlanner.cpp 1123-1151 createTripleGraph, 2284-2307
   isTextNode and identifyTextCliques, 2495-2600 collapseTextCliques, 1826-1841 getTextLeafPlan, QueryPlanner.h 29-92.
   - The predicate of a triple is a plain string (property paths: Path_Model).
   - _nodeMap is left out: the node with id i is the i-th node of _nodeStorage, in both graphs.
   - The iteration order of a hash map is a parameter. *)
From Coq Require Import String Ascii List NArith Arith Bool.
From Verif Require Import Plan_Spec Vars_Model TextOp_Model.
From Verif Require Plan_Model Conv_Model Strings_Model.
Import ListNotations.
Local Open Scope nat_scope.

(* Constants.h:38-44 *)
Definition CONTAINS_ENTITY : string := "<QLever-internal-function/contains-entity>".
Definition CONTAINS_WORD : string := "<QLever-internal-function/contains-word>".
Definition TEXT_MATCH : string := "<QLever-internal-function/text>".
Notation is_var := Plan_Model.is_var.

(* std::set<string>::insert *)
Fixpoint set_insert (v : string) (l : list string) : list string :=
  match l with
  | [] => [v]
  | x :: l' => match String.compare v x with Eq => l | Lt => v :: l | Gt => x :: set_insert v l' end
  end.
(* std::set<size_t>::insert *)
Fixpoint ids_insert (i : nat) (l : list nat) : list nat :=
  match l with
  | [] => [i]
  | x :: l' => match Nat.compare i x with Eq => l | Lt => i :: l | Gt => x :: ids_insert i l' end
  end.
Definition ids_set (l : list nat) : list nat := fold_left (fun s i => ids_insert i s) l [].

Record node := Nd { n_id : nat; n_triple : pattern; n_vars : list string; n_cvar : string; n_words : string }.
Record graph := Gr { adj : list (list nat); nodes : list node }.

(* QueryPlanner.h:32-41 and 56-66 *)
Definition insert_vars (vs : list string) (t : pattern) : list string :=
  let '(s, p, o) := t in
  let vs := if is_var s then set_insert s vs else vs in
  let vs := if is_var p then set_insert p vs else vs in
  if is_var o then set_insert o vs else vs.
Definition triple_node (id : nat) (t : pattern) : node := Nd id t (insert_vars [] t) "" "".
(* 44-67 *)
Definition text_node (id : nat) (cvar words : string) (trips : list pattern) : node :=
  Nd id (cvar, TEXT_MATCH, words) (fold_left insert_vars trips (set_insert cvar [])) cvar words.

Definition has_var (n : node) (v : string) : bool := existsb (String.eqb v) (n_vars n).
Definition push (l : list (list nat)) (i x : nat) : list (list nat) :=
  map (fun p => if Nat.eqb (fst p) i then snd p ++ [x] else snd p) (combine (seq 0 (length l)) l).

(* QueryPlanner.cpp:1131-1149 *)
Definition add_triple (g : graph) (t : pattern) : graph :=
  let id := length (nodes g) in
  let n := triple_node id t in
  let adj' := fold_left (fun a v =>
      fold_left (fun a i => match nth_error (nodes g) i with
                            | Some other => if has_var other v then push (push a id i) i id else a
                            | None => a
                            end) (seq 0 id) a) (n_vars n) (adj g ++ [[]]) in
  Gr adj' (nodes g ++ [n]).
(* 1123-1151; None: more than 64 triples *)
Definition createTripleGraph (ts : list pattern) : option graph :=
  if 64 <? length ts then None else Some (fold_left add_triple ts (Gr [] [])).

(* 2284-2292 *)
Definition text_predicate (p : string) : bool :=
  String.eqb p CONTAINS_ENTITY || String.eqb p CONTAINS_WORD || String.eqb p TEXT_MATCH.
Definition predicate (t : pattern) : string := snd (fst t).
Definition subject (t : pattern) : string := fst (fst t).
Definition object (t : pattern) : string := snd t.

(* 2294-2307: the entries of the hash map *)
Definition clique := (string * list nat)%type.
Fixpoint add_to_clique (m : list clique) (c : string) (i : nat) : list clique :=
  match m with
  | [] => [(c, [i])]
  | (c', l) :: m' => if String.eqb c' c then (c', l ++ [i]) :: m' else (c', l) :: add_to_clique m' c i
  end.
Definition identifyTextCliques (g : graph) : list clique :=
  fold_left (fun m i => match nth_error (nodes g) i with
                        | Some n => if text_predicate (predicate (n_triple n)) then add_to_clique m (subject (n_triple n)) i else m
                        | None => m
                        end) (seq 0 (length (adj g))) [].

(* 2516-2536: the words of the text node *)
Definition add_word (words w : string) : string :=
  ((if Nat.ltb 0 (String.length words) then words ++ " " else words) ++ w)%string.
Definition clique_word (cvar words : string) (t : pattern) : string :=
  let words := if String.eqb (subject t) cvar && negb (is_var (object t)) then add_word words (object t) else words in
  if String.eqb (object t) cvar && negb (is_var (subject t)) then add_word words (subject t) else words.
Definition clique_triples (g : graph) (ids : list nat) : list pattern :=
  flat_map (fun i => match nth_error (nodes g) i with Some n => [n_triple n] | None => [] end) ids.
Definition clique_node (g : graph) (id : nat) (c : clique) : node :=
  let trips := clique_triples g (snd c) in
  text_node id (fst c) (fold_left (clique_word (fst c)) trips ""%string) trips.

(* removedNodeIds *)
Definition removed (cl : list clique) (i : nat) : option nat :=
  option_map fst (find (fun p => existsb (Nat.eqb i) (snd (snd p))) (combine (seq 0 (length cl)) cl)).
(* idMapOldToNew: the remaining nodes keep their order *)
Definition remaining (cl : list clique) (n : nat) : list nat :=
  filter (fun i => match removed cl i with Some _ => false | None => true end) (seq 0 n).
Fixpoint index_of (x : nat) (l : list nat) : nat :=
  match l with [] => 0 | y :: l' => if Nat.eqb x y then 0 else S (index_of x l') end.
Definition new_id (cl : list clique) (n i : nat) : nat := length cl + index_of i (remaining cl n).
Definition set_id (id : nat) (n : node) : node := Nd id (n_triple n) (n_vars n) (n_cvar n) (n_words n).

(* 2495-2600; `order` is the iteration order of the hash map *)
Definition collapseTextCliques (order : list clique -> list clique) (g : graph) : graph :=
  let cl := order (identifyTextCliques g) in
  match cl with
  | [] => g
  | _ =>
    let n := length (nodes g) in
    let text := map (fun p => clique_node g (fst p) (snd p)) (combine (seq 0 (length cl)) cl) in
    let rest := flat_map (fun i => match nth_error (nodes g) i with Some x => [set_id (new_id cl n i) x] | None => [] end) (remaining cl n) in
    let old i := nth i (adj g) [] in
    (* 2568-2581 *)
    let text_adj := map (fun p => ids_set (flat_map (fun j =>
        match removed cl j with
        | None => [new_id cl n j]
        | Some k => if Nat.eqb k (fst p) then [] else [k]
        end) (ids_set (flat_map old (snd (snd p)))))) (combine (seq 0 (length cl)) cl) in
    (* 2585-2599 *)
    let rest_adj := map (fun i => ids_set (map (fun j =>
        match removed cl j with None => new_id cl n j | Some k => k end) (old i))) (remaining cl n) in
    Gr (text_adj ++ rest_adj) (text ++ rest)
  end.

(* 1826-1841 getTextLeafPlan, TextOperationWithoutFilter; None: the AD_CHECK in line 1831 fails *)
Definition getTextLeafPlan (limit : nat) (n : node) : option text_op :=
  if Nat.eqb (String.length (n_words n)) 0 then None else Some (TextOp (n_vars n) (n_cvar n) limit).
(* Index.Text.cpp:642: the words that are looked up *)
Definition search_terms (n : node) : option (list (list N)) := Strings_Model.split (Conv_Model.bytes (n_words n)) 32.
