(* The graph of the triples of a query, and what the triples of a text search ask for. *)
From Coq Require Import String Ascii List NArith Bool.
From Verif Require Import Plan_Spec TextIndex_Model TextIndex_Spec.
Import ListNotations.

Definition variable (s : string) : Prop := exists s', s = String "?"%char s'.
Definition variableb (s : string) : bool := match s with String c _ => Ascii.eqb c "?"%char | EmptyString => false end.
Definition occurs (v : string) (t : pattern) : Prop :=
  let '(s, p, o) := t in variable v /\ (v = s \/ v = p \/ v = o).
(* two sets of triples have a variable in common *)
Definition share (a b : list pattern) : Prop := exists v t u, In t a /\ In u b /\ occurs v t /\ occurs v u.

(* the predicates of text triples *)
Definition contains_entity : string := "<QLever-internal-function/contains-entity>".
Definition contains_word : string := "<QLever-internal-function/contains-word>".
Definition text_predicates : list string := [contains_entity; contains_word; "<QLever-internal-function/text>"%string].
Definition text_triple (t : pattern) : bool := let '(_, p, _) := t in existsb (String.eqb p) text_predicates.
(* every text triple is about a variable; its object is not empty and another one *)
Definition proper (t : pattern) : Prop :=
  text_triple t = true -> variable (fst (fst t)) /\ snd t <> fst (fst t) /\ snd t <> ""%string.

(* the text triples about a text record *)
Definition about (c : string) (ts : list pattern) : list pattern :=
  filter (fun t => text_triple t && String.eqb (fst (fst t)) c) ts.
(* their constants *)
Definition constants (ts : list pattern) : list string := filter (fun o => negb (variableb o)) (map snd ts).

(* the words of a constant: the pieces between its spaces *)
Fixpoint chars (s : string) : list N := match s with EmptyString => [] | String a s' => N_of_ascii a :: chars s' end.
Fixpoint cut (l : list N) : list (list N) :=
  match l with
  | [] => [[]]
  | x :: l' => if N.eqb x 32 then [] :: cut l' else match cut l' with w :: ws => (x :: w) :: ws | [] => [[x]] end
  end.
Definition words_of (s : string) : list (list N) := cut (chars s).

(* Does a text record satisfy a triple? `meaning` are the words (or the entity) a word of the query stands for, f is an
   assignment of entities to the variables. *)
Definition holds (meaning : list N -> term) (f : string -> option N) (c : context) (t : pattern) : bool :=
  let '(_, _, o) := t in
  if variableb o then match f o with Some e => existsb (N.eqb e) (map fst (c_ents c)) | None => false end
  else forallb (fun w => mentions (meaning w) c) (words_of o).
