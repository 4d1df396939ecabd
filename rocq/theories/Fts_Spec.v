(* What text search over posting lists has to return. *)
From Coq Require Import List NArith Sorted.
From Verif Require Import Fts_Model.
Import ListNotations.
Open Scope N_scope.

(* the contexts of a posting list are stored in ascending order *)
Definition ascending (l : list N) : Prop := StronglySorted N.le l.
Definition strictly_ascending (l : list N) : Prop := StronglySorted N.lt l.

Definition member (x : N) (l : list N) : bool := existsb (N.eqb x) l.

(* scores are 16 bit numbers *)
Definition score_sum (l : list N) : N := fold_right N.add 0 l mod 2 ^ 16.

(* the scores stored for context x, in order *)
Definition scores_of (x : N) (cids scores : list N) : list N :=
  map snd (filter (fun p => fst p =? x) (combine cids scores)).
(* the score of the first posting with context x *)
Definition first_score (x : N) (l : list N * list N) : N := hd 0 (scores_of x (fst l) (snd l)).

(* i-th score of the one with i-th score of the other *)
Fixpoint zip_add (a b : list N) : list N :=
  match a, b with
  | x :: a', y :: b' => score_sum [x; y] :: zip_add a' b'
  | _, _ => []
  end.

(* Top k: `best` is a selection of `all` with min(k, size) elements such that nothing left out
   has a higher score than something selected. An element is (score, context). *)
Definition top_k (k : nat) (all best : list (N * N)) : Prop :=
  NoDup best /\ (forall c, In c best -> In c all) /\
  length best = Nat.min k (length all) /\
  forall c c', In c best -> In c' all -> ~ In c' best -> fst c' <= fst c.

(* the distinct elements of a list, in the order of their first occurrence *)
Fixpoint distinct (l : list N) : list N :=
  match l with [] => [] | x :: l' => x :: filter (fun y => negb (y =? x)) (distinct l') end.

(* An element is (score, context): best score first, the later context first among equals. *)
Definition descending (l : list (N * N)) : Prop :=
  StronglySorted (fun a b => fst b < fst a \/ (fst b = fst a /\ snd b < snd a)) l.

(* a number kept in 16 bits *)
Definition count16 {A} (l : list A) : N := N.of_nat (length l) mod 2 ^ 16.

(* the contexts of some postings; the entities of a context, and its score: the score of its
   first posting *)
Definition contexts (ps : list posting) : list N := distinct (map p_cid ps).
Definition ctx_entities (c : N) (ps : list posting) : list N := map p_eid (filter (fun p => p_cid p =? c) ps).
Definition ctx_score (c : N) (ps : list posting) : N := hd 0 (map p_score (filter (fun p => p_cid p =? c) ps)).

(* (score, context) of the postings of an entity *)
Definition entity_contexts (e : N) (ps : list posting) : list (N * N) :=
  map (fun p => (p_score p, p_cid p)) (filter (fun p => p_eid p =? e) ps).
(* (score, context) of the contexts with all entities of a tuple *)
Definition tuple_contexts (key : list N) (ps : list posting) : list (N * N) :=
  map (fun c => (ctx_score c ps, c))
      (filter (fun c => forallb (fun e => member e (ctx_entities c ps)) key) (contexts ps)).

(* an entity has at most one posting per context *)
Definition one_per_context (ps : list posting) : Prop := NoDup (map (fun p => (p_cid p, p_eid p)) ps).
