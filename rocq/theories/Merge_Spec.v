(* Vocabularies built from parts, without reference to the code. *)
From Coq Require Import List NArith Arith Sorted.
From Verif Require Import Collate_Model Collate_Spec.
Import ListNotations.
Open Scope N_scope.

(* words kept in a file of their own start with one of the bytes 127 and 128 *)
Definition first_byte (w : list N) : N := hd 0 w.
Definition external (w : list N) : Prop := 127 <= first_byte w.
Definition is_external (w : list N) : bool := 127 <=? first_byte w.
Definition legal (w : list N) : Prop := w <> [] /\ first_byte w <= 128.
(* what such a word stands for: 127 for a quotation mark, 128 for an opening angle bracket *)
Definition shown (w : list N) : list N :=
  match w with
  | c :: r => if c =? 127 then 34 :: r else if c =? 128 then 60 :: r else w
  | [] => []
  end.

(* an order of words: total on the given words, by first byte first *)
Record word_order (lt : list N -> list N -> bool) (ws : list (list N)) : Prop :=
  { wo_irrefl : forall a, lt a a = false;
    wo_trans : forall a b c, lt a b = true -> lt b c = true -> lt a c = true;
    wo_total : forall a b, In a ws -> In b ws -> lt a b = false -> lt b a = false -> a = b;
    wo_first : forall a b, first_byte a < first_byte b -> lt a b = true }.
Definition in_order (lt : list N -> list N -> bool) (l : list (list N)) : Prop :=
  StronglySorted (fun x y => lt y x = false) l.
Definition strictly_in_order (lt : list N -> list N -> bool) (l : list (list N)) : Prop :=
  StronglySorted (fun x y => lt x y = true) l.

(* different words differ for the locale, too *)
Definition faithful (loc : icu) (ws : list (list N)) : Prop :=
  forall a b c v v' t, In a ws -> In b ws -> parts a c v t -> parts b c v' t ->
    icu_compare loc Identical v v' = Eq -> a = b.

(* an id stands for a word *)
Definition stands_for (voc : list (list N)) (id : N) (w : list N) : Prop :=
  nth_error voc (N.to_nat id) = Some w.
Definition triple_stands_for (voc : list (list N)) (ids : N * N * N) (t : list N * list N * list N) : Prop :=
  stands_for voc (fst (fst ids)) (fst (fst t)) /\ stands_for voc (snd (fst ids)) (snd (fst t)) /\
  stands_for voc (snd ids) (snd t).

(* The triples stored for a triple with the language tag of its object: the triple itself, one with
   the predicate of the language, and the language of the object. *)
Definition special (s : list N) : list N :=   (* <QLever-internal-function/s> *)
  [60; 81; 76; 101; 118; 101; 114; 45; 105; 110; 116; 101; 114; 110; 97; 108; 45; 102; 117; 110;
   99; 116; 105; 111; 110; 47] ++ s ++ [62].
Definition langtag_predicate : list N := special [108; 97; 110; 103; 116; 97; 103].
Definition language_entity (tag : list N) : list N := special (64 :: tag).
Definition language_predicate (p tag : list N) : list N := 64 :: tag ++ 64 :: p.
Definition with_language (x : list N * (list N * list N * list N)) : list (list N * list N * list N) :=
  let (tag, t) := x in
  let '(s, p, o) := t in
  match tag with
  | [] => [t]
  | _ => [t; (s, language_predicate p tag, o); (o, langtag_predicate, language_entity tag)]
  end.
Definition words_of (t : list N * list N * list N) : list (list N) := [fst (fst t); snd (fst t); snd t].
