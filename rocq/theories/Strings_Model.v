(* Model of src/util/StringUtils.h (startsWith, endsWith, commonPrefix, normalizeSpaces,
   split, splitWs, splitWsWithEscape, splitAny, join, lstrip, rstrip, strip, decodeUrl,
   findClosingBracket, findLiteralEnd) and of src/parser/RdfEscaping.cpp.
   A string is the list of its bytes (unsigned char); isspace and tolower are those of the C
   locale. Loops over positions are recursions on fuel; `None` (or NoFuel) means out of fuel and
   is excluded by the theorems. std::string::npos is None. *)
From Coq Require Import List NArith ZArith Arith Bool.
Import ListNotations.
Open Scope N_scope.

(* ---- the string library ---- *)
(* substr(from, n), from <= size *)
Definition substr (s : list N) (from n : nat) : list N := firstn n (skipn from s).
(* find a character from a position on *)
Fixpoint find_char (p : N -> bool) (s : list N) : option nat :=
  match s with [] => None | c :: s' => if p c then Some 0%nat else option_map S (find_char p s') end.
Definition find_from (p : N -> bool) (s : list N) (from : nat) : option nat :=
  option_map (Nat.add from) (find_char p (skipn from s)).
Definition at_ (s : list N) (i : nat) : N := nth i s 0.
Definition isspace (c : N) : bool := (c =? 32) || ((9 <=? c) && (c <=? 13)).
Definition tolower (c : N) : N := if (65 <=? c) && (c <=? 90) then c + 32 else c.

(* StringUtils.h:164-174 *)
Fixpoint startsWith (text prefix : list N) : bool :=
  match prefix, text with
  | [], _ => true
  | p :: prefix', c :: text' => (c =? p) && startsWith text' prefix'
  | _ :: _, [] => false
  end.
(* 189-199: comparing from the end *)
Definition endsWith (text suffix : list N) : bool := startsWith (rev text) (rev suffix).
(* 212-222 *)
Fixpoint commonPrefix (a b : list N) : list N :=
  match a, b with
  | x :: a', y :: b' => if x =? y then x :: commonPrefix a' b' else []
  | _, _ => []
  end.

(* 368-384 *)
Fixpoint normalize_loop (lastSpace : bool) (s : list N) : list N :=
  match s with
  | [] => []
  | c :: s' =>
      if (c =? 32) || (c =? 9) then
        if lastSpace then normalize_loop true s' else 32 :: normalize_loop true s'
      else c :: normalize_loop false s'
  end.
Definition normalizeSpaces (s : list N) : list N := normalize_loop false s.

(* 448-461 *)
Fixpoint split_loop (fuel : nat) (s : list N) (sep : N) (from : nat) : option (list (list N)) :=
  match fuel with
  | O => None
  | S fuel' =>
      match find_from (N.eqb sep) s from with
      | Some i => option_map (cons (substr s from (i - from))) (split_loop fuel' s sep (i + 1))
      | None => Some [skipn from s]
      end
  end.
Definition split (s : list N) (sep : N) : option (list (list N)) :=
  match s with [] => Some [] | _ => split_loop (S (length s)) s sep 0 end.

(* 475-478 *)
Fixpoint skip_ws (fuel : nat) (s : list N) (pos : nat) : nat :=
  match fuel with
  | O => pos
  | S fuel' => if Nat.ltb pos (length s) && isspace (at_ s pos) then skip_ws fuel' s (pos + 1) else pos
  end.
(* 464-489 *)
Fixpoint splitWs_loop (fuel : nat) (s : list N) (start pos : nat) (out : list (list N))
  : option (list (list N)) :=
  match fuel with
  | O => None
  | S fuel' =>
      if Nat.ltb pos (length s) then
        if isspace (at_ s pos) then
          let out := if Nat.eqb start pos then out else out ++ [substr s start (pos - start)] in
          let pos := skip_ws (length s) s pos in
          splitWs_loop fuel' s pos (pos + 1) out
        else splitWs_loop fuel' s start (pos + 1) out
      else Some (if Nat.eqb start (length s) then out else out ++ [skipn start s])
  end.
Definition splitWs (s : list N) : option (list (list N)) :=
  match s with [] => Some [] | _ => splitWs_loop (S (length s)) s 0 0 [] end.

(* 492-527. orig[pos] with pos = size is 0. *)
Definition bracket (left right : N) (depth : Z) (c : N) : Z :=
  if c =? left then
    if left =? right then Z.rem (depth + 1) 2 else (depth + 1)%Z
  else if c =? right then (depth - 1)%Z else depth.
Fixpoint splitEsc_loop (fuel : nat) (left right : N) (s : list N) (start pos : nat) (depth : Z)
    (out : list (list N)) : option (list (list N)) :=
  match fuel with
  | O => None
  | S fuel' =>
      if Nat.ltb pos (length s) then
        if (depth <=? 0)%Z && isspace (at_ s pos) then
          let out := if Nat.eqb start pos then out else out ++ [substr s start (pos - start)] in
          let pos := skip_ws (length s) s pos in
          splitEsc_loop fuel' left right s pos (pos + 1) (bracket left right depth (at_ s pos)) out
        else splitEsc_loop fuel' left right s start (pos + 1) (bracket left right depth (at_ s pos)) out
      else Some (if Nat.eqb start (length s) then out else out ++ [skipn start s])
  end.
Definition splitWsWithEscape (s : list N) (left right : N) : option (list (list N)) :=
  match s with [] => Some [] | _ => splitEsc_loop (S (length s)) left right s 0 0 0 [] end.

(* 531-560. `chars[seps[i]]` is indexed by a (signed) char: a separator above 127 is outside of
   the array; None. *)
Fixpoint splitAny_loop (rest : list N) (chars : N -> bool) (s : list N) (from i : nat)
    (out : list (list N)) : list (list N) :=
  match rest with
  | [] => if Nat.ltb from (length s) then out ++ [skipn from s] else out
  | c :: rest' =>
      if chars c then
        splitAny_loop rest' chars s (i + 1) (i + 1)
          (if Nat.ltb from i then out ++ [substr s from (i - from)] else out)
      else splitAny_loop rest' chars s from (i + 1) out
  end.
Definition splitAny (s seps : list N) : option (list (list N)) :=
  if forallb (fun c => c <? 128) seps
  then Some (splitAny_loop s (fun c => existsb (N.eqb c) seps) s 0 0 [])
  else None.

(* 564-576 *)
Definition join (parts : list (list N)) (joiner : list N) : list N :=
  match parts with
  | [] => []
  | p :: parts' => fold_left (fun res q => res ++ joiner ++ q) parts' p
  end.

(* 580-608; find_last_not_of *)
Definition find_last_not (set : N -> bool) (s : list N) : option nat :=
  option_map (fun i => (length s - 1 - i)%nat) (find_char (fun c => negb (set c)) (rev s)).
Definition lstrip (s : list N) (set : N -> bool) : list N :=
  match find_char (fun c => negb (set c)) s with None => [] | Some pos => skipn pos s end.
Definition rstrip (s : list N) (set : N -> bool) : list N :=
  match find_last_not set s with None => [] | Some pos => substr s 0 (pos + 1) end.
Definition strip (s : list N) (set : N -> bool) : list N :=
  match find_char (fun c => negb (set c)) s with
  | None => []
  | Some pos =>
      match find_last_not set s with
      | None => []
      | Some last => substr s pos (last - pos + 1)
      end
  end.

(* 617-625 *)
Definition hex_digit (c : N) : option N :=
  let h := tolower c in
  if (48 <=? h) && (h <=? 57) then Some (h - 48)
  else if (97 <=? h) && (h <=? 102) then Some (h - 97 + 10) else None.
(* 611-642. i + 2 < size: two characters follow *)
Fixpoint decodeUrl (u : list N) : list N :=
  match u with
  | [] => []
  | c :: u' =>
      if c =? 43 then 32 :: decodeUrl u'
      else if c =? 37 then
        match u' with
        | a :: b :: u'' =>
            match hex_digit a, hex_digit b with
            | Some h1, Some h2 => (h1 * 16 + h2) mod 256 :: decodeUrl u''
            | _, _ => 37 :: decodeUrl u'
            end
        | _ => c :: decodeUrl u'
        end
      else c :: decodeUrl u'
  end.

(* 644-671: None is an exception *)
Fixpoint closing_loop (rest : list N) (i : nat) (open close : N) (depth : nat) : option nat :=
  match rest with
  | [] => None
  | c :: rest' =>
      let depth := if c =? open then S depth else depth in
      if c =? close then
        match depth with
        | O => Some i
        | S d => closing_loop rest' (i + 1) open close d
        end
      else closing_loop rest' (i + 1) open close depth
  end.
Definition findClosingBracket (s : list N) (start : nat) (open close : N) : option nat :=
  if at_ s start =? open then closing_loop (skipn (start + 1) s) (start + 1) open close 0 else None.

(* find a string from a position on *)
Fixpoint find_str (pat s : list N) : option nat :=
  if startsWith s pat then Some 0%nat
  else match s with [] => None | _ :: s' => option_map S (find_str pat s') end.
Definition find_str_from (pat s : list N) (from : nat) : option nat :=
  if Nat.ltb (length s) from then None else option_map (Nat.add from) (find_str pat (skipn from s)).
(* 677-684: the number of backslashes before a position. `slashPos` wraps to the greatest number
   below 0, which ends the loop. *)
Fixpoint count_backslashes (s : list N) (pos : nat) : nat :=
  match pos with
  | O => 0
  | S p => if at_ s p =? 92 then S (count_backslashes s p) else 0
  end.
(* 673-697 *)
Fixpoint literal_loop (fuel : nat) (s pat : list N) (endPos : option nat) : option (option nat) :=
  match fuel with
  | O => None
  | S fuel' =>
      match endPos with
      | None => Some None
      | Some p =>
          if Nat.ltb 0 p && (at_ s (p - 1) =? 92) then
            if Nat.even (count_backslashes s p) then Some (Some p)
            else literal_loop fuel' s pat (find_str_from pat s (p + 1))
          else Some (Some p)
      end
  end.
Definition findLiteralEnd (s pat : list N) : option (option nat) :=
  literal_loop (S (S (length s))) s pat (find_str_from pat s 0).

(* ---- RdfEscaping.cpp ---- *)

(* Check: AD_CHECK fails; Runtime: std::runtime_error; Undefined: remove_suffix on a view that is
   too short; NotHex: a numeric escape with other characters than hexadecimal digits (the result
   of the stream extraction is not modelled; the grammar excludes it). *)
Inductive result A := Val (a : A) | Check | Runtime | Undefined | NotHex.
Arguments Val {A}. Arguments Check {A}. Arguments Runtime {A}. Arguments Undefined {A}. Arguments NotHex {A}.
Definition prepend (out : list N) (r : result (list N)) : result (list N) :=
  match r with Val s => Val (out ++ s) | x => x end.

(* ICU: icu::UnicodeString(x).toUTF8String. A surrogate becomes U+FFFD, a number that is not a
   code point the empty string. *)
Definition utf8 (x : N) : list N :=
  if x <? 2 ^ 7 then [x]
  else if x <? 2 ^ 11 then [192 + x / 64; 128 + x mod 64]
  else if (55296 <=? x) && (x <=? 57343) then [239; 191; 189]
  else if x <? 2 ^ 16 then [224 + x / 4096; 128 + x / 64 mod 64; 128 + x mod 64]
  else if x <? 1114112 then [240 + x / 262144; 128 + x / 4096 mod 64; 128 + x / 64 mod 64; 128 + x mod 64]
  else [].
Fixpoint hex_value (acc : N) (hex : list N) : option N :=
  match hex with
  | [] => Some acc
  | c :: hex' => match hex_digit c with Some d => hex_value (acc * 16 + d) hex' | None => None end
  end.
(* 20-28. More than 2^31 - 1 is read as 2^31 - 1, which is no code point either. *)
Definition hexadecimalCharactersToUtf8 (hex : list N) : result (list N) :=
  match hex_value 0 hex with Some x => Val (utf8 x) | None => NotHex end.

(* 37-143. `numeric` is acceptOnlyNumericEscapes, `newline` acceptOnlyBackslashAndNewline. *)
Section Unescape.
  Variables numeric newline : bool.
  Definition pushNewlineOrBackslash (c : N) : result (list N) :=
    if negb numeric || newline then Val [c] else Runtime.
  Definition pushOtherStringEscape (c : N) : result (list N) :=
    if negb numeric && negb newline then Val [c] else Runtime.
  (* rest is the input after the letter *)
  Definition pushNumericEscape (rest : list N) (len : nat) : result (list N) :=
    if newline then Runtime
    else if Nat.ltb len (length rest) then hexadecimalCharactersToUtf8 (firstn len rest)
    else Check.
  Fixpoint unescape_loop (fuel : nat) (s : list N) : result (list N) :=
    match fuel with
    | O => Undefined
    | S fuel' =>
        match find_char (N.eqb 92) s with
        | None => Val s
        | Some i =>
            prepend (firstn i s)
              match skipn (i + 1) s with
              | [] => Check
              | c :: rest =>
                  let continue (out : result (list N)) (n : nat) :=
                    match out with
                    | Val o => prepend o (unescape_loop fuel' (skipn n rest))
                    | r => r
                    end in
                  if c =? 116 then continue (pushOtherStringEscape 9) 0%nat
                  else if c =? 110 then continue (pushNewlineOrBackslash 10) 0%nat
                  else if c =? 114 then continue (pushOtherStringEscape 13) 0%nat
                  else if c =? 98 then continue (pushOtherStringEscape 8) 0%nat
                  else if c =? 102 then continue (pushOtherStringEscape 12) 0%nat
                  else if c =? 34 then continue (pushOtherStringEscape 34) 0%nat
                  else if c =? 39 then continue (pushOtherStringEscape 39) 0%nat
                  else if c =? 92 then continue (pushNewlineOrBackslash 92) 0%nat
                  else if c =? 117 then continue (pushNumericEscape rest 4) 4%nat
                  else if c =? 85 then continue (pushNumericEscape rest 8) 8%nat
                  else Check
              end
        end
    end.
  Definition unescapeStringAndNumericEscapes (s : list N) : result (list N) :=
    unescape_loop (S (length s)) s.
End Unescape.

(* 147-152 *)
Definition unescapeNewlinesAndBackslashes (s : list N) : result (list N) :=
  unescapeStringAndNumericEscapes false true s.
(* 155-176 *)
Fixpoint escape_loop (fuel : nat) (s : list N) : option (list N) :=
  match fuel with
  | O => None
  | S fuel' =>
      match find_char (fun c => (c =? 10) || (c =? 92)) s with
      | None => Some s
      | Some pos =>
          option_map (fun r => firstn pos s ++ (if at_ s pos =? 10 then [92; 110] else [92; 92]) ++ r)
            (escape_loop fuel' (skipn (pos + 1) s))
      end
  end.
Definition escapeNewlinesAndBackslashes (s : list N) : option (list N) := escape_loop (S (length s)) s.

(* 179-205. Removing n characters at both ends of a view with less than 2n is undefined. *)
Definition remove_ends (n : nat) (s : list N) : result (list N) :=
  if Nat.ltb (length s) (2 * n) then Undefined else Val (firstn (length s - 2 * n) (skipn n s)).
Definition normalizeRDFLiteral (s : list N) : result (list N) :=
  let stripped :=
    if startsWith s [34; 34; 34] || startsWith s [39; 39; 39] then
      if endsWith s (firstn 3 s) then remove_ends 3 s else Check
    else if startsWith s [34] || startsWith s [39] then
      if endsWith s (firstn 1 s) then remove_ends 1 s else Check
    else Check in
  match stripped with
  | Val l =>
      match unescapeStringAndNumericEscapes false false l with
      | Val r => Val ([34] ++ r ++ [34])
      | r => r
      end
  | r => r
  end.
(* 215-226 *)
Definition unescapeIriref (s : list N) : result (list N) :=
  if startsWith s [60] && endsWith s [62] then
    match remove_ends 1 s with
    | Val l =>
        match unescapeStringAndNumericEscapes true false l with
        | Val r => Val ([60] ++ r ++ [62])
        | r => r
        end
    | r => r
    end
  else Check.
(* 229-247 *)
Definition local_escapes : list N :=
  [95; 126; 46; 45; 33; 36; 38; 39; 40; 41; 42; 43; 44; 59; 61; 47; 63; 35; 64; 37].
Fixpoint prefixed_loop (fuel : nat) (s : list N) : result (list N) :=
  match fuel with
  | O => Undefined
  | S fuel' =>
      match find_char (N.eqb 92) s with
      | None => Val s
      | Some i =>
          match skipn (i + 1) s with
          | [] => Check
          | c :: rest =>
              if existsb (N.eqb c) local_escapes
              then prepend (firstn i s ++ [c]) (prefixed_loop fuel' rest) else Check
          end
      end
  end.
Definition unescapePrefixedIri (s : list N) : result (list N) := prefixed_loop (S (length s)) s.
