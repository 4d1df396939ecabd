(* What a text search has to return, in terms of the contexts of the corpus. *)
From Coq Require Import List NArith Bool.
From Verif Require Import Fts_Spec Fts_Model TextIndex_Model.
Import ListNotations.
Open Scope N_scope.

(* the words of a context (or the entity) a term stands for, with their scores *)
Definition matches (t : term) (c : context) : list (N * N) :=
  match t with
  | Words lo hi => filter (fun w => (lo <=? fst w) && (fst w <=? hi)) (c_words c)
  | Entity e => filter (fun x => fst x =? e) (c_ents c)
  | Unknown => []
  end.
Definition mentions (t : term) (c : context) : bool :=
  match matches t c with [] => false | _ => true end.
(* all occurrences of a term: context and score *)
Definition hits (t : term) (cs : list context) : list (N * N) :=
  flat_map (fun c => map (fun w => (c_id c, snd w)) (matches t c)) cs.
(* the entities of a context *)
Definition entities_of (c : context) : list posting :=
  map (fun e => (c_id c, fst e, snd e)) (c_ents c).
(* the entities that occur together with a term *)
Definition cooccurring (t : term) (cs : list context) : list posting :=
  flat_map entities_of (filter (mentions t) cs).

Definition is_word (cs : list context) (w : N) : Prop :=
  exists c, In c cs /\ In w (map fst (c_words c)).
Definition is_entity (cs : list context) (e : N) : Prop :=
  exists c, In c cs /\ In e (map fst (c_ents c)).

(* A corpus and the block boundaries of its vocabulary: word ids are 0 .. last bound, each of them
   occurs; a block ends with a boundary. *)
Record corpus (bounds : list N) (cs : list context) : Prop := {
  co_contexts : strictly_ascending (map c_id cs);
  co_cids : forall c, In c cs -> c_id c < 2 ^ 60;
  co_words : forall c, In c cs -> NoDup (map fst (c_words c));
  co_ents : forall c, In c cs -> NoDup (map fst (c_ents c));
  co_scores : forall c x, In c cs -> In x (c_words c ++ c_ents c) -> snd x < 2 ^ 16;
  co_bounds : bounds <> [] /\ strictly_ascending bounds /\ last bounds 0 < 2 ^ 63;
  co_vocabulary : forall w, is_word cs w <-> w <= last bounds 0;
  co_entities : forall e, is_entity cs e -> e + N.of_nat (length bounds) < 2 ^ 64;
  co_size : N.of_nat (length (text_vec bounds cs)) < 2 ^ 60
}.

(* the smallest entity is not the number of words *)
Definition entities_apart (bounds : list N) (cs : list context) : Prop :=
  is_entity cs (last bounds 0 + 1) -> exists e, is_entity cs e /\ e <= last bounds 0.

(* A term that can be searched for: a word or prefix of the vocabulary whose words are in one
   block, or an entity of the text. *)
Definition searchable (bounds : list N) (cs : list context) (t : term) : Prop :=
  match t with
  | Words lo hi => lo <= hi /\ hi <= last bounds 0 /\ forall b, In b bounds -> ~ (lo <= b < hi)
  | Entity e => is_entity cs e
  | Unknown => True
  end.

(* Some context with a word of the block of the term has an entity. *)
Definition with_entities (bounds : list N) (cs : list context) (t : term) : Prop :=
  match t with
  | Words lo _ => exists c w, In c cs /\ c_ents c <> [] /\ In w (map fst (c_words c)) /\
                    forall b, In b bounds -> (b < lo <-> b < w)
  | _ => True
  end.

(* scores of the terms in a context, one each *)
Definition term_scores (ts : list term) (c : context) (ss : list N) : Prop :=
  Forall2 (fun t s => In s (map snd (matches t c))) ts ss.

(* the lines of an id in a context *)
Definition for_id (ent : bool) (x i : N) (l : line) : bool :=
  (ln_cid l =? x) && Bool.eqb (ln_entity l) ent && match ln_id l with Some j => j =? i | None => false end.
