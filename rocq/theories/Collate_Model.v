(* Model of the string comparators: index/StringSortComparator.h. Strings are lists of bytes; the
   result of a comparison is its sign. ICU is a parameter. *)
From Coq Require Import List NArith Arith Bool.
From Verif Require Import Table_Spec Std_Model Strings_Model.
Import ListNotations.
Open Scope N_scope.

(* LocaleManager::Level, 29-39 *)
Inductive level := PRIMARY | SECONDARY | TERTIARY | QUARTERNARY | IDENTICAL | TOTAL.
(* the strengths of a collator of ICU *)
Inductive strength := Primary | Secondary | Tertiary | Quaternary | Identical.
(* setupCollators, 265-285: the collator of each level *)
Definition collator (l : level) : strength :=
  match l with
  | PRIMARY => Primary | SECONDARY => Secondary | TERTIARY => Tertiary
  | QUARTERNARY => Quaternary | IDENTICAL => Identical | TOTAL => Identical
  end.
Definition is_total (l : level) : bool := match l with TOTAL => true | _ => false end.

(* Collator::compareUTF8 and Collator::getSortKey without the zero at the end *)
Record icu := Icu { icu_compare : strength -> list N -> list N -> comparison;
                    icu_key : strength -> list N -> list N }.

(* Table_Spec.lex_cmp is std::string::compare (and std::string_view::compare); strcmp stops at a
   zero byte. *)
Definition c_str (s : list N) : list N := take_while (fun c => negb (c =? 0)) s.
Definition strcmp (a b : list N) : comparison := lex_cmp (c_str a) (c_str b).
(* the second comparison decides if the first says equal *)
Definition or_else (c d : comparison) : comparison := match c with Eq => d | _ => c end.
Definition less (c : comparison) : bool := match c with Lt => true | _ => false end.

Section Locale.
  Variable loc : icu.

  (* 115-123 *)
  Definition locale_compare (a b : list N) (l : level) : comparison := icu_compare loc (collator l) a b.
  (* 150-173 *)
  Definition getSortKey (s : list N) (l : level) : list N :=
    icu_key loc (collator l) s ++ (if is_total l then s else []).

  (* SimpleStringComparator::compare, 367-374: at the end `a.compare(b) < 0` is 1 or 0 *)
  Definition simple_compare (a b : list N) (l : level) : comparison :=
    match locale_compare a b l with
    | Eq => if is_total l then (if less (lex_cmp a b) then Gt else Eq) else Eq
    | c => c
    end.
  (* 392-397: a word and a sort key *)
  Definition simple_below_key (a key : list N) : bool := less (strcmp (getSortKey a PRIMARY) key).
  (* 413-424 and 602-613: the last byte is increased; back() of an empty key is undefined *)
  Definition bigger_key (key : list N) : option (list N) :=
    match rev key with
    | [] => None
    | last :: front => if last <? 255 then Some (rev (last + 1 :: front)) else Some (key ++ [0])
    end.
  Definition simple_bigger (s : list N) : option (list N) := bigger_key (getSortKey s PRIMARY).

  (* SplitValBase, 471-485: first character, inner value, language tag. *)
  Record split_val := Split { first_char : N; inner : list N; langtag : list N }.
  (* extractComparable, 640-672, without the transformation. 34 is the quotation mark, 127
     EXTERNALIZED_LITERALS_PREFIX (global/Constants.h:21-23). That findLiteralEnd gives a result
     is part of C51_literal_end. *)
  Definition extractComparable (a : list N) : split_val :=
    let first := match a with [] => 0 | c :: _ => c end in
    if startsWith a [34] || startsWith a [127] then
      let res := skipn 1 a in
      match findLiteralEnd res [34] with
      | Some (Some e) => Split first (firstn e res) (skipn (e + 1) res)
      | _ => Split first res []
      end
    else Split first a [].
  (* 665-666: the same with the inner value transformed *)
  Definition transform (s : split_val) (l : level) : split_val :=
    Split (first_char s) (getSortKey (inner s) l) (langtag s).
  Definition extractAndTransformComparable (a : list N) (l : level) : split_val :=
    transform (extractComparable a) l.

  (* 558-583 for string views: `inner_compare` is the comparison of the locale; for sort keys
     (135-137) it is strcmp. strncmp compares one character as unsigned char. *)
  Definition compare_split (inner_compare : list N -> list N -> comparison) (a b : split_val) (l : level)
    : comparison :=
    or_else (first_char a ?= first_char b)
      (or_else (inner_compare (inner a) (inner b))
         (if is_total l then or_else (lex_cmp (langtag a) (langtag b)) (lex_cmp (inner a) (inner b)) else Eq)).
  (* 532-540 *)
  Definition compare (a b : list N) (l : level) : comparison :=
    compare_split (fun x y => locale_compare x y l) (extractComparable a) (extractComparable b) l.
  (* 505-508 *)
  Definition before (a b : list N) (l : level) : bool := less (compare a b l).
  (* 525-528 *)
  Definition before_transformed (a b : split_val) (l : level) : bool := less (compare_split strcmp a b l).
  (* 519-523 *)
  Definition below_split (a : list N) (b : split_val) (l : level) : bool :=
    before_transformed (extractAndTransformComparable a l) b l.
  (* 602-613 *)
  Definition bigger_split (s : list N) : option split_val :=
    let t := extractAndTransformComparable s PRIMARY in
    option_map (fun k => Split (first_char t) k (langtag t)) (bigger_key (inner t)).
End Locale.

(* The searches of Vocabulary.cpp, on the words of the vocabulary (expanded, for the compressed
   one). *)
Section Search.
  Variable words : list (list N).
  Definition word_at (i : nat) : list N := nth i words [].
  (* Vocabulary.cpp:340-345, with the comparator as a parameter: std::lower_bound *)
  Definition vocab_lower_bound (below : list N -> bool) : option nat :=
    Std_Model.lower_bound (fun i => below (word_at i)) 0 (length words).
  (* 331-336: std::upper_bound with value_before, "the value comes before the word" *)
  Definition vocab_upper_bound (value_before : list N -> bool) : option nat :=
    Std_Model.upper_bound (fun i => negb (value_before (word_at i))) 0 (length words).
  (* Vocabulary.h:150-170 *)
  Definition getValueIdForLT (below : list N -> bool) : option nat := vocab_lower_bound below.
  Definition getValueIdForLE (value_before : list N -> bool) : option nat :=
    option_map (fun ub => if Nat.ltb 0 ub then (ub - 1)%nat else ub) (vocab_upper_bound value_before).
  (* 385-399 for TripleComponentComparator (vocabulary of the knowledge base); None: undefined *)
  Definition prefix_range (loc : icu) (prefix : list N) : option (nat * nat) :=
    match prefix with
    | [] => Some (0%nat, length words)
    | _ =>
        match vocab_lower_bound (fun w => before loc w prefix PRIMARY), bigger_split loc prefix with
        | Some lb, Some t =>
            option_map (pair lb) (vocab_lower_bound (fun w => below_split loc w t PRIMARY))
        | _, _ => None
        end
    end.
  (* the same for SimpleStringComparator (text vocabulary) *)
  Definition simple_prefix_range (loc : icu) (prefix : list N) : option (nat * nat) :=
    match prefix with
    | [] => Some (0%nat, length words)
    | _ =>
        match vocab_lower_bound (fun w => less (simple_compare loc w prefix PRIMARY)), simple_bigger loc prefix with
        | Some lb, Some t => option_map (pair lb) (vocab_lower_bound (fun w => simple_below_key loc w t))
        | _, _ => None
        end
    end.
  (* getIdRangeForFullTextPrefix, 314-327: None is undefined behaviour or a failed check; the
     inclusive range, if there is one. 42 is PREFIX_CHAR. *)
  Definition getIdRangeForFullTextPrefix (loc : icu) (word : list N) : option (option (nat * nat)) :=
    if endsWith word [42] then
      match simple_prefix_range loc (removelast word) with
      | Some (lb, ub) =>
          if Nat.ltb lb ub then
            if Nat.ltb lb (length words) && Nat.ltb (ub - 1) (length words)
            then Some (Some (lb, (ub - 1)%nat)) else None
          else Some None
      | None => None
      end
    else None.
  (* createFromSet and getId of the text vocabulary, 113-121 and 370-381: the words are sorted at
     the default level, getId searches at the level TOTAL. Text words are not externalized: they
     have no language tag and are short. *)
  Definition simple_get_id (loc : icu) (word : list N) : option (option nat) :=
    match vocab_lower_bound (fun w => less (simple_compare loc w word TOTAL)) with
    | Some i => Some (if Nat.ltb i (length words) && (if list_eq_dec N.eq_dec (word_at i) word then true else false)
                      then Some i else None)
    | None => None
    end.
End Search.
