(* Model of the lexer for SPARQL queries: parser/SparqlLexer.h, SparqlLexer.cpp.
   - Texts are lists of bytes in UTF-8. A regular expression is a function that gives the length of the
     match at the start of the input (RE2::Consume). RE2 takes the first alternative and the longest
     repetition that lead to a match; none of the expressions used has another match after backtracking.
   - Simplified: (?i) folds the letters A to Z only, and getLowercaseUtf8 (util/StringUtils.h 244-268)
     changes these only. Positions, which only occur in error messages, are left out. *)
From Coq Require Import Ascii String List NArith Arith Bool.
From Verif Require Import Strings_Model.
From Verif Require Conv_Model Turtle_Model.
Import ListNotations.
Open Scope N_scope.
Open Scope list_scope.

Notation text := (list N).
Notation bytes := Conv_Model.bytes.
Notation one := Turtle_Model.one.
Notation many := Turtle_Model.many.
Notation alt := Turtle_Model.alt.
Notation seq2 := Turtle_Model.seq2.
Notation word := Turtle_Model.word.
Notation dots := Turtle_Model.dots.
Notation plus := Turtle_Model.plus.
Notation span := Turtle_Model.span.
Notation between := Turtle_Model.between.
Notation digit := Turtle_Model.digit.
(* SparqlLexer.cpp 17-22, 28, 29-31: the same classes as in the Turtle parser *)
Notation pn_base := Turtle_Model.pn_base.
Notation pn_u := Turtle_Model.pn_u.
Notation pn_chars := Turtle_Model.pn_chars.

(* a value, a ParseException, another exception, undefined behaviour, out of fuel *)
Inductive out (A : Type) := Ok (a : A) | ParseError | Error | Undefined | NoFuel.
Arguments Ok {A}. Arguments ParseError {A}. Arguments Error {A}. Arguments Undefined {A}. Arguments NoFuel {A}.
Definition bind {A B} (r : out A) (f : A -> out B) : out B :=
  match r with
  | Ok a => f a | ParseError => ParseError | Error => Error | Undefined => Undefined | NoFuel => NoFuel
  end.
(* the exceptions of RdfEscaping *)
Definition escaping {A} (r : Strings_Model.result A) : out A :=
  match r with Strings_Model.Val a => Ok a | Strings_Model.Undefined => Undefined | _ => Error end.

(* SparqlLexer.h 10-23 *)
Inductive ttype := IRI | WS | KEYWORD | GROUP_BY | ORDER_BY | VARIABLE | SYMBOL | AGGREGATE | RDFLITERAL
  | INTEGER | FLOAT | LOGICAL_OR.
Definition ttype_eqb (a b : ttype) : bool :=
  match a, b with
  | IRI, IRI | WS, WS | KEYWORD, KEYWORD | GROUP_BY, GROUP_BY | ORDER_BY, ORDER_BY | VARIABLE, VARIABLE
  | SYMBOL, SYMBOL | AGGREGATE, AGGREGATE | RDFLITERAL, RDFLITERAL | INTEGER, INTEGER | FLOAT, FLOAT
  | LOGICAL_OR, LOGICAL_OR => true
  | _, _ => false
  end.
(* SparqlLexer.h 26-27 *)
Record token := T { raw : text; type : ttype }.
(* SparqlLexer.h: _current, _next, _re_string *)
Record lexer := L { current : token; next : token; rest : text }.

Definition text_eqb (a b : text) : bool := if list_eq_dec N.eq_dec a b then true else false.
Definition lowercase (s : text) : text := map tolower s.

(* ---- the expressions ---- *)

(* a word without regard to case; w is in lower case *)
Fixpoint word_i (w d : text) : option nat :=
  match w, d with
  | [], _ => Some O
  | a :: w', b :: d' => if tolower b =? a then option_map S (word_i w' d') else None
  | _ :: _, [] => None
  end.
Fixpoint first_of (ws : list text) (d : text) : option nat :=
  match ws with
  | [] => None
  | w :: ws' => match word_i w d with Some n => Some n | None => first_of ws' d end
  end.
(* 52-56 *)
Definition keywords : list text :=
  map bytes ["textlimit"; "prefix"; "select"; "distinct"; "reduced"; "having"; "where"; "asc"; "as"; "limit";
    "offset"; "desc"; "filter"; "values"; "optional"; "union"; "langmatches"; "lang"; "text"; "score"; "regex";
    "prefix"; "separator"; "str"; "bind"; "minus"]%string.
(* 57-58 *)
Definition aggregates : list text :=
  map bytes ["sample"; "count"; "min"; "max"; "avg"; "sum"; "group_concat"]%string.
(* \s in RE2 *)
Definition re_space (c : N) : bool := (c =? 9) || (c =? 10) || (c =? 12) || (c =? 13) || (c =? 32).
(* 50-51 *)
Definition words_by (w d : text) : option nat :=
  match word_i w d with
  | Some n =>
    let m := span re_space (skipn n d) in
    option_map (Nat.add (n + m)) (word_i (bytes "by") (skipn (n + m) d))
  | None => None
  end.
(* 15-16 *)
Definition iri_char (x : N) : bool :=
  negb ((x <=? 32) || existsb (N.eqb x) [60; 62; 34; 123; 125; 124; 94; 96; 92; 91; 93]).
Definition iriref_re (d : text) : option nat :=
  match d with
  | 60 :: r => let n := many (one iri_char) r in
               match skipn n r with 62 :: _ => Some (S (S n)) | _ => None end
  | _ => None
  end.
(* 32-33, 41 *)
Definition pname_ns_re (d : text) : option nat :=
  match d with
  | 58 :: _ => Some 1%nat
  | _ =>
    match one pn_base d with
    | Some n =>
      let m := many (dots (one pn_chars)) (skipn n d) in
      match skipn (n + m) d with 58 :: _ => Some (n + m + 1)%nat | _ => None end
    | None => None
    end
  end.
(* 34-36. The dollar sign is not escaped in the expression: it stands for the end of the text. *)
Definition plx (d : text) : option nat :=
  match d with
  | 37 :: a :: b :: _ => if Turtle_Model.hexdigit a && Turtle_Model.hexdigit b then Some 3%nat else None
  | [92] => Some 1%nat
  | 92 :: c :: _ => if existsb (N.eqb c) [95; 126; 46; 45; 33; 38; 39; 40; 41; 42; 43; 44; 59; 61; 47; 63; 35; 64; 37]
                    then Some 2%nat else None
  | _ => None
  end.
(* 37-39 *)
Definition local_first (d : text) : option nat :=
  alt (one (fun x => pn_u x || (x =? 58) || digit x)) plx d.
Definition local_more (d : text) : option nat :=
  alt (one (fun x => pn_chars x || (x =? 58))) plx d.
Definition local_re (d : text) : option nat :=
  match local_first d with
  | Some n => Some (n + many (dots local_more) (skipn n d))%nat
  | None => None
  end.
(* 14 *)
Notation langtag_re := Turtle_Model.langtag_re.
(* 42-43, 45-46 *)
Definition iri_body_re (d : text) : option nat :=
  alt iriref_re (alt (seq2 pname_ns_re local_re) pname_ns_re) d.
Definition iri_re (d : text) : option nat :=
  alt (seq2 langtag_re (seq2 (word [64]) iri_body_re)) iri_body_re d.
(* 47-49, 59 *)
Definition var_char (x : N) : bool :=
  pn_u x || digit x || (x =? 0xB7) || between 0x300 0x36F x || between 0x203F 0x2040 x.
Definition variable_re (d : text) : option nat :=
  match d with
  | 63 :: r =>
    match one (fun x => pn_u x || digit x) r with
    | Some n => Some (S (n + many (one var_char) (skipn n r)))
    | None => None
    end
  | _ => None
  end.
(* 24 *)
Definition echar (d : text) : option nat :=
  match d with
  | 92 :: c :: _ => if existsb (N.eqb c) [116; 98; 110; 114; 102; 92; 34; 39] then Some 2%nat else None
  | _ => None
  end.
(* 63-67 *)
Definition string_char (q x : N) : bool := negb (existsb (N.eqb x) [q; 92; 10; 13]).
Definition string_re (d : text) : option nat :=
  match d with
  | q :: r =>
    if (q =? 34) || (q =? 39) then
      let n := many (alt (one (string_char q)) echar) r in
      match skipn n r with c :: _ => if c =? q then Some (S (S n)) else None | [] => None end
    else None
  | [] => None
  end.
(* 68-69 *)
Definition literal_re (d : text) : option nat :=
  match string_re d with
  | Some n =>
    match alt langtag_re (seq2 (word [94; 94]) iri_re) (skipn n d) with
    | Some m => Some (n + m)%nat
    | None => Some n
    end
  | None => None
  end.
(* 25-26 *)
Definition integer_re (d : text) : option nat :=
  let k := Turtle_Model.opt (N.eqb 45) d in option_map (Nat.add k) (plus digit (skipn k d)).
Definition float_re (d : text) : option nat :=
  match integer_re d with
  | Some n =>
    match skipn n d with
    | 46 :: r => option_map (fun m => (n + 1 + m)%nat) (plus digit r)
    | _ => None
    end
  | None => None
  end.
(* 60-61 *)
Definition symbol_re (d : text) : option nat :=
  match d with
  | c :: _ => if existsb (N.eqb c) [46; 123; 125; 40; 41; 61; 42; 44; 59; 58; 60; 62; 33; 124; 47; 94; 63; 43; 45]
              then Some 1%nat else None
  | [] => None
  end.
(* 23, 74 *)
Definition ws_re (d : text) : option nat := plus Turtle_Model.blank d.

(* ---- the lexer ---- *)

(* 100-138: the first expression that matches, and the length of the match. The second test for a
   keyword (112) is never reached. *)
Definition match_token (d : text) : option (ttype * nat) :=
  let try t r f := match r d with Some n => Some (t, n) | None => f end in
  try KEYWORD (first_of keywords)
    (try GROUP_BY (words_by (bytes "group"))
      (try ORDER_BY (words_by (bytes "order"))
        (try AGGREGATE (first_of aggregates)
          (try LOGICAL_OR (word [124; 124])
            (try VARIABLE variable_re
              (try IRI iri_re
                (try RDFLITERAL literal_re
                  (try FLOAT float_re
                    (try INTEGER integer_re
                      (try SYMBOL symbol_re
                        (try WS ws_re None))))))))))).
(* 123-127: rfind gives npos without a double quote, and npos + 1 is 0 *)
Definition literal_raw (r : text) : out text :=
  let n := match Conv_Model.rfind 34 r with Some i => S i | None => O end in
  bind (escaping (normalizeRDFLiteral (firstn n r))) (fun q => Ok (q ++ skipn n r)).
(* 102, 105, 108, 111, 123-127 *)
Definition raw_of (t : ttype) (r : text) : out text :=
  match t with
  | KEYWORD | GROUP_BY | ORDER_BY | AGGREGATE => Ok (lowercase r)
  | RDFLITERAL => literal_raw r
  | _ => Ok r
  end.
(* 141-143 *)
Fixpoint skip_line (d : text) : text :=
  match d with c :: d' => if c =? 10 then d else skip_line d' | [] => [] end.
(* 98-147 *)
Fixpoint read_loop (fuel : nat) (r : text) (d : text) : out (token * text) :=
  match d with
  | [] => Ok (T r WS, [])
  | c :: _ =>
    match fuel with
    | O => NoFuel
    | S fuel' =>
      match match_token d with
      | Some (WS, n) => read_loop fuel' (firstn n d) (skipn n d)
      | Some (t, n) => bind (raw_of t (firstn n d)) (fun r' => Ok (T r' t, skipn n d))
      | None => if c =? 35 then read_loop fuel' r (skip_line d) else ParseError
      end
    end
  end.
(* 93-149 *)
Definition readNext (l : lexer) : out lexer :=
  bind (read_loop (S (length (rest l))) [] (rest l)) (fun '(t, d) => Ok (L (next l) t d)).
(* 86-89; SparqlLexer.h 27 *)
Definition start (d : text) : out lexer := readNext (L (T [] IRI) (T [] IRI) d).
(* 91 *)
Definition empty (l : lexer) : bool := match rest l with [] => true | _ => false end.
(* 151-158 *)
Fixpoint until_space (d : text) : text * text :=
  match d with
  | c :: d' => if isspace c then ([], d) else let '(a, b) := until_space d' in (c :: a, b)
  | [] => ([], [])
  end.
Definition expandNextUntilWhitespace (l : lexer) : lexer :=
  let '(s, d) := until_space (rest l) in L (current l) (T (raw (next l) ++ s) (type (next l))) d.
(* 160-166 *)
Definition accept_type (t : ttype) (l : lexer) : out (bool * lexer) :=
  if ttype_eqb (type (next l)) t then bind (readNext l) (fun l' => Ok (true, l')) else Ok (false, l).
(* 168-178; match_case is true in all calls *)
Definition accept_raw (w : text) (l : lexer) : out (bool * lexer) :=
  if text_eqb (raw (next l)) w then bind (readNext l) (fun l' => Ok (true, l')) else Ok (false, l).
(* 180 *)
Definition accept_any (l : lexer) : out lexer := readNext l.
(* 10-12: TYPE_NAMES has ten entries, there are twelve types *)
Definition has_name (t : ttype) : bool := match t with FLOAT | LOGICAL_OR => false | _ => true end.
(* 182-192: the message reads TYPE_NAMES *)
Definition expect_type (t : ttype) (l : lexer) : out lexer :=
  if ttype_eqb (type (next l)) t then readNext l
  else if has_name t && has_name (type (next l)) then ParseError else Undefined.
(* 193-209 *)
Definition expect_raw (w : text) (l : lexer) : out lexer :=
  if text_eqb (raw (next l)) w then readNext l else ParseError.
(* 210-217 *)
Definition expectEmpty (l : lexer) : out unit := if empty l then Ok tt else ParseError.
