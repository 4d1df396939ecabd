(* Orders of words, without reference to the code. *)
From Coq Require Import List NArith Arith Sorted.
From Verif Require Import Table_Spec Strings_Spec Collate_Model.
Import ListNotations.
Open Scope N_scope.

Definition rank (s : strength) : nat :=
  match s with Primary => 0 | Secondary => 1 | Tertiary => 2 | Quaternary => 3 | Identical => 4 end.

(* what the documentation of ICU promises: sort keys compare as their texts do and have no zero
   byte before their end; a stronger collator only refines a weaker one *)
Record icu_ok (loc : icu) : Prop :=
  { ok_keys : forall s a b, icu_compare loc s a b = lex_cmp (icu_key loc s a) (icu_key loc s b);
    ok_nonzero : forall s a, ~ In 0 (icu_key loc s a);
    ok_finer : forall s t a b, (rank s <= rank t)%nat -> icu_compare loc s a b = Lt -> icu_compare loc t a b = Lt }.

(* the parts of a word: first character, value, language tag *)
Definition literal_like (w : list N) : Prop := exists r, w = 34 :: r \/ w = 127 :: r.
Inductive parts : list N -> N -> list N -> list N -> Prop :=
| parts_empty : parts [] 0 [] []
| parts_other c r : ~ literal_like (c :: r) -> parts (c :: r) c (c :: r) []
| parts_literal c v t : literal_like [c] -> unescaped_at [34] (v ++ [34] ++ t) (length v) ->
    (forall q, (q < length v)%nat -> ~ unescaped_at [34] (v ++ [34] ++ t) q) ->
    parts (c :: v ++ [34] ++ t) c v t
| parts_open c r : literal_like [c] -> (forall q, ~ unescaped_at [34] r q) -> parts (c :: r) c r [].
(* literals have an end *)
Definition closed (w : list N) : Prop :=
  forall c r, w = c :: r -> literal_like [c] -> exists q, unescaped_at [34] r q.

(* a comparison function whose "not greater" is a total preorder *)
Record preorder_compare (cmp : list N -> list N -> comparison) : Prop :=
  { pc_refl : forall a, cmp a a = Eq;
    pc_antisym : forall a b, cmp b a = CompOpp (cmp a b);
    pc_trans : forall a b c, cmp a b <> Gt -> cmp b c <> Gt -> cmp a c <> Gt }.
(* the order of words: by first character, value according to the locale, language tag, bytes *)
Definition word_key (loc : icu) (s : strength) (w : list N) (key : list N) : Prop :=
  exists c v t, parts w c v t /\ key = c :: icu_key loc s v.
Definition precedes (loc : icu) (a b : list N) : Prop :=
  exists c v t c' v' t', parts a c v t /\ parts b c' v' t' /\
  (c < c' \/ c = c' /\
  (icu_compare loc Identical v v' = Lt \/ icu_compare loc Identical v v' = Eq /\
  (lex_cmp t t' = Lt \/ t = t' /\ lex_cmp v v' = Lt))).

(* the words are in the order, each at most once *)
Definition vocabulary_sorted (loc : icu) (words : list (list N)) : Prop :=
  StronglySorted (precedes loc) words.
(* sorted by a locale *)
Definition locale_sorted (loc : icu) (s : strength) (words : list (list N)) : Prop :=
  StronglySorted (fun a b => icu_compare loc s b a <> Lt) words.
