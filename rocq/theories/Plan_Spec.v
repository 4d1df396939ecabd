(* Specification of basic graph patterns: the solutions of a list of triple patterns with filters. *)
From Coq Require Import String List NArith Bool.
From Verif Require Import Table_Spec.
Import ListNotations.

(* ---------- mappings from variables to values ---------- *)
(* A mapping over the variables U: one value, or none, for each of them. *)
Definition mapping := list (option N).
Fixpoint get (U : list string) (mu : mapping) (v : string) : option N :=
  match U, mu with
  | u :: U', x :: mu' => if String.eqb u v then x else get U' mu' v
  | _, _ => None
  end.

(* two mappings agree where both have a value *)
Definition compat1 (x y : option N) : bool := match x, y with Some a, Some b => N.eqb a b | _, _ => true end.
Definition compat (a b : mapping) : bool := forallb (fun p => compat1 (fst p) (snd p)) (combine a b).
(* the union of two mappings *)
Definition merge1 (x y : option N) : option N := match x with Some _ => x | None => y end.
Definition merge_map (a b : mapping) : mapping := map (fun p => merge1 (fst p) (snd p)) (combine a b).
(* SPARQL's join of two bags of mappings *)
Definition bjoin (A B : list mapping) : list mapping :=
  flat_map (fun a => flat_map (fun b => if compat a b then [merge_map a b] else []) B) A.

(* ---------- solutions of a pattern ---------- *)
(* a triple pattern: three terms; a graph: three ids per triple *)
Definition pattern := (string * string * string)%type.
Definition graph := list (N * N * N).

Section Solutions.
Variable isvar : string -> bool.          (* which terms are variables *)
Variable voc : string -> option N.        (* ids of the constants *)
Variable kb : graph.
Definition term_value (U : list string) (mu : list N) (t : string) : option N :=
  if isvar t then get U (map Some mu) t else voc t.
(* the triple pattern, with the values of mu put in, is a triple of the graph *)
Definition holds (U : list string) (mu : list N) (t : pattern) : Prop :=
  match t with
  | (s, p, o) =>
      exists i j k, term_value U mu s = Some i /\ term_value U mu p = Some j /\ term_value U mu o = Some k /\
                    In (i, j, k) kb
  end.
(* mu gives a value to each of the variables U, makes all triple patterns true and passes the filters *)
Definition solution (U : list string) (ts : list pattern) (filters : list (list string * (list (option N) -> bool)))
  (mu : list N) : Prop :=
  length mu = length U /\
  (forall t, In t ts -> holds U mu t) /\
  (forall f, In f filters -> snd f (map (get U (map Some mu)) (fst f)) = true).
End Solutions.
