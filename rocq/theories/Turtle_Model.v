(* Model of the Turtle parser: parser/TurtleParser.h, TurtleParser.cpp with the tokenizer that uses
   RE2 (Tokenizer.h 245-421, 669-793, Tokenizer.cpp), and the reading of the input in blocks
   (ParallelBuffer.h 57-95).
   - Bytes are numbers. A regular expression is a function that gives the length of the match at the
     start of the input; RE2 prefers the longest repetition, and none of the expressions used has
     another match after backtracking.
   - TokenizerCtre (relaxed parsing) is not modelled, nor are positions in error messages, logging
     and _baseIRI, which is written but never read. *)
From Coq Require Import Ascii String List NArith Arith Bool.
From Verif Require Import Strings_Model.
From Verif Require Conv_Model.
Import ListNotations.
Open Scope N_scope.

Notation text := (list N).
Notation triple := (text * text * text)%type.
Definition bytes := Conv_Model.bytes.
Definition decimal := Conv_Model.decimal.

(* ---- regular expressions ---- *)

(* the first character of a UTF-8 text and its number of bytes *)
Definition cont (c : N) : bool := (128 <=? c) && (c <? 192).
Definition char (d : text) : option (N * nat) :=
  match d with
  | [] => None
  | a :: r =>
    if a <? 128 then Some (a, 1%nat)
    else if a <? 192 then None
    else match r with
    | [] => None
    | b :: r =>
      if negb (cont b) then None
      else if a <? 224 then
        let x := (a - 192) * 64 + (b - 128) in if 128 <=? x then Some (x, 2%nat) else None
      else match r with
      | [] => None
      | c :: r =>
        if negb (cont c) then None
        else if a <? 240 then
          let x := ((a - 224) * 64 + (b - 128)) * 64 + (c - 128) in if 2048 <=? x then Some (x, 3%nat) else None
        else match r with
        | [] => None
        | e :: _ =>
          if negb (cont e) then None
          else if a <? 248 then
            let x := (((a - 240) * 64 + (b - 128)) * 64 + (c - 128)) * 64 + (e - 128) in
            if (65536 <=? x) && (x <? 1114112) then Some (x, 4%nat) else None
          else None
        end
      end
    end
  end.

Definition between (a b x : N) : bool := (a <=? x) && (x <=? b).
Definition digit (x : N) : bool := between 48 57 x.
Definition letter (x : N) : bool := between 65 90 x || between 97 122 x.
Definition hexdigit (x : N) : bool := digit x || between 65 70 x || between 97 102 x.
(* Tokenizer.h 354-364 PnCharsBaseString, 366 PnCharsUString, 368-369 PnCharsString *)
Definition pn_base (x : N) : bool :=
  letter x || between 0xC0 0xD6 x || between 0xD8 0xF6 x || between 0xF8 0x2FF x || between 0x370 0x37D x ||
  between 0x37F 0x1FFF x || between 0x200C 0x200D x || between 0x2070 0x218F x || between 0x2C00 0x2FEF x ||
  between 0x3001 0xD7FF x || between 0xF900 0xFDCF x || between 0xFDF0 0xFFFD x || between 0x10000 0xEFFFF x.
Definition pn_u (x : N) : bool := pn_base x || (x =? 95).
Definition pn_chars (x : N) : bool :=
  pn_u x || (x =? 45) || digit x || (x =? 0xB7) || between 0x300 0x36F x || between 0x203F 0x2040 x.

(* one character of a class *)
Definition one (p : N -> bool) (d : text) : option nat :=
  match char d with Some (x, n) => if p x then Some n else None | None => None end.
(* the length of the longest start of bytes of a class *)
Fixpoint span (p : N -> bool) (d : text) : nat :=
  match d with c :: d' => if p c then S (span p d') else O | [] => O end.
(* r* *)
Fixpoint star (fuel : nat) (r : text -> option nat) (d : text) : nat :=
  match fuel with
  | O => O
  | S fuel' =>
    match r d with
    | Some (S n) => (S n + star fuel' r (skipn (S n) d))%nat
    | _ => O
    end
  end.
Definition many (r : text -> option nat) (d : text) : nat := star (length d) r d.
Definition alt (r s : text -> option nat) (d : text) : option nat :=
  match r d with Some n => Some n | None => s d end.
Definition seq2 (r s : text -> option nat) (d : text) : option nat :=
  match r d with Some n => option_map (Nat.add n) (s (skipn n d)) | None => None end.
Definition word (w : text) (d : text) : option nat := if startsWith d w then Some (length w) else None.
Definition opt (p : N -> bool) (d : text) : nat := match d with c :: _ => if p c then 1%nat else 0%nat | [] => O end.
Definition plus (p : N -> bool) (d : text) : option nat := match span p d with O => None | n => Some n end.
(* zero or more dots, then r *)
Definition dots (r : text -> option nat) (d : text) : option nat :=
  let n := span (N.eqb 46) d in option_map (Nat.add n) (r (skipn n d)).

Inductive tok := TurtlePrefix | SparqlPrefix | TurtleBase | SparqlBase | Dot | Comma | Semicolon
  | OpenSquared | CloseSquared | OpenRound | A | DoubleCircumflex | True_ | False_ | Langtag | Integer
  | Decimal | Double | Iriref | PnameNS | PnLocal | BlankNodeLabel | Anon.

Definition sign (c : N) : bool := (c =? 43) || (c =? 45).
Definition blank (c : N) : bool := (c =? 32) || (c =? 9) || (c =? 13) || (c =? 10).
(* 318 ExponentString *)
Definition exponent (d : text) : option nat :=
  match d with
  | c :: r => if (c =? 101) || (c =? 69) then
                let k := opt sign r in
                match plus digit (skipn k r) with Some n => Some (S (k + n)) | None => None end
              else None
  | [] => None
  end.
(* 313 LangtagString *)
Definition langtag_more (d : text) : option nat :=
  match d with
  | 45 :: r => option_map S (plus (fun c => letter c || digit c) r)
  | _ => None
  end.
Definition langtag_re (d : text) : option nat :=
  match d with
  | 64 :: r => match plus letter r with
               | Some n => Some (S (n + many langtag_more (skipn n r)))
               | None => None
               end
  | _ => None
  end.
(* 271-274, 320-321 *)
Definition integer_re (d : text) : option nat :=
  let k := opt sign d in option_map (Nat.add k) (plus digit (skipn k d)).
Definition decimal_re (d : text) : option nat :=
  let k := opt sign d in
  let m := span digit (skipn k d) in
  match skipn (k + m) d with
  | 46 :: r => option_map (fun n => (k + m + 1 + n)%nat) (plus digit r)
  | _ => None
  end.
Definition double_re (d : text) : option nat :=
  let k := opt sign d in
  let r := skipn k d in
  match plus digit r with
  | Some m =>
    match skipn m r with
    | 46 :: r' => let l := span digit r' in
                  option_map (fun n => (k + m + 1 + l + n)%nat) (exponent (skipn l r'))
    | _ => None
    end
  | None => option_map (Nat.add k) (exponent r)
  end.
(* 325 UcharString; the range A-f is written in the code *)
Definition uchar_digit (c : N) : bool := digit c || between 97 102 c || between 65 102 c.
Definition uchar (d : text) : option nat :=
  match d with
  | 92 :: 117 :: r => if Nat.leb 4 (span uchar_digit (firstn 4 r)) then Some 6%nat else None
  | 92 :: 85 :: r => if Nat.leb 8 (span uchar_digit (firstn 8 r)) then Some 10%nat else None
  | _ => None
  end.
(* 347-348 IrirefString *)
Definition iri_char (x : N) : bool :=
  negb ((x <=? 32) || existsb (N.eqb x) [60; 62; 34; 123; 125; 124; 94; 96; 92]).
Definition iriref_re (d : text) : option nat :=
  match d with
  | 60 :: r => let n := many (alt (one iri_char) uchar) r in
               match skipn n r with 62 :: _ => Some (S (S n)) | _ => None end
  | _ => None
  end.
(* 377-381 PnPrefixString, PnameNSString *)
Definition pname_ns_re (d : text) : option nat :=
  match one pn_base d with
  | Some n =>
    let m := many (alt (seq2 (word [46]) (one pn_chars)) (one pn_chars)) (skipn n d) in
    match skipn (n + m) d with 58 :: _ => Some (n + m + 1)%nat | _ => None end
  | None => None
  end.
(* 351, 384-386 PlxString *)
Definition plx (d : text) : option nat :=
  match d with
  | 37 :: a :: b :: _ => if hexdigit a && hexdigit b then Some 3%nat else None
  | 92 :: c :: _ => if existsb (N.eqb c) [95; 126; 46; 45; 33; 36; 38; 39; 40; 41; 42; 43; 44; 59; 61; 47; 63; 35; 64; 37]
                    then Some 2%nat else None
  | _ => None
  end.
(* 394-397 PnLocalString *)
Definition pn_local_first (d : text) : option nat :=
  alt (one (fun x => pn_u x || (x =? 58) || digit x)) plx d.
Definition pn_local_more (d : text) : option nat :=
  alt (one (fun x => pn_chars x || (x =? 58))) plx d.
Definition pn_local_re (d : text) : option nat :=
  match pn_local_first d with
  | Some n => Some (n + many (dots pn_local_more) (skipn n d))%nat
  | None => None
  end.
(* 403-404 BlankNodeLabelString *)
Definition blank_re (d : text) : option nat :=
  match d with
  | 95 :: 58 :: r =>
    match one (fun x => pn_u x || digit x) r with
    | Some n => Some (2 + n + many (dots (one pn_chars)) (skipn n r))%nat
    | None => None
    end
  | _ => None
  end.
(* 413 AnonString *)
Definition anon_re (d : text) : option nat :=
  match d with
  | 91 :: r => let n := span blank r in match skipn n r with 93 :: _ => Some (n + 2)%nat | _ => None end
  | _ => None
  end.

(* Tokenizer.h 247-288, Tokenizer.cpp 55-113 *)
Definition regex (t : tok) : text -> option nat :=
  match t with
  | TurtlePrefix => word (bytes "@prefix")
  | SparqlPrefix => word (bytes "PREFIX")
  | TurtleBase => word (bytes "@base")
  | SparqlBase => word (bytes "BASE")
  | Dot => word [46]
  | Comma => word [44]
  | Semicolon => word [59]
  | OpenSquared => word [91]
  | CloseSquared => word [93]
  | OpenRound => word [40]
  | A => word [97]
  | DoubleCircumflex => word [94; 94]
  | True_ => word (bytes "true")
  | False_ => word (bytes "false")
  | Langtag => langtag_re
  | Integer => integer_re
  | Decimal => decimal_re
  | Double => double_re
  | Iriref => iriref_re
  | PnameNS => pname_ns_re
  | PnLocal => pn_local_re
  | BlankNodeLabel => blank_re
  | Anon => anon_re
  end.

(* Tokenizer.h 766-774 skipWhitespace, 777-790 skipComments, Tokenizer.cpp 8-12 *)
Fixpoint skipWhitespace (d : text) : text :=
  match d with c :: d' => if blank c then skipWhitespace d' else d | [] => [] end.
Definition skipComments (d : text) : text :=
  match d with
  | 35 :: _ => match find_char (N.eqb 10) d with Some p => skipn (p + 1) d | None => d end
  | _ => d
  end.
Definition skipWhitespaceAndComments (d : text) : text := skipWhitespace (skipComments (skipWhitespace d)).

(* ---- the parser ---- *)

(* TurtleParser.h 111-135 *)
Record parser := P { data : text; last : text; prefixes : list (text * text); aPrefix : text;
                     aSubject : text; aPredicate : text; blanks : N; triples : list triple }.
Definition initial (d : text) : parser := P d [] [] [] [] [] 0 [].

(* true, false, ParseException, another exception or undefined behaviour, out of fuel *)
Inductive out := Yes (s : parser) | No (s : parser) | Raised (s : parser) | Fatal | NoFuel.
Definition and_ (a : out) (f : parser -> out) : out := match a with Yes s => f s | x => x end.
Definition or_ (a : out) (f : parser -> out) : out := match a with No s => f s | x => x end.
(* 216-227 *)
Definition check (a : out) : out := match a with No s => Raised s | x => x end.

Definition set_data d (s : parser) : parser :=
  P d (last s) (prefixes s) (aPrefix s) (aSubject s) (aPredicate s) (blanks s) (triples s).
Definition set_last l (s : parser) : parser :=
  P (data s) l (prefixes s) (aPrefix s) (aSubject s) (aPredicate s) (blanks s) (triples s).
Definition set_prefixes m (s : parser) : parser :=
  P (data s) (last s) m (aPrefix s) (aSubject s) (aPredicate s) (blanks s) (triples s).
Definition set_aPrefix p (s : parser) : parser :=
  P (data s) (last s) (prefixes s) p (aSubject s) (aPredicate s) (blanks s) (triples s).
Definition set_subject x (s : parser) : parser :=
  P (data s) (last s) (prefixes s) (aPrefix s) x (aPredicate s) (blanks s) (triples s).
Definition set_predicate x (s : parser) : parser :=
  P (data s) (last s) (prefixes s) (aPrefix s) (aSubject s) x (blanks s) (triples s).

Definition skip_ws (s : parser) : parser := set_data (skipWhitespaceAndComments (data s)) s.
(* getNextToken / skip without skipping white space *)
Definition next (t : tok) (s : parser) : out :=
  match regex t (data s) with
  | Some n => Yes (set_last (firstn n (data s)) (set_data (skipn n (data s)) s))
  | None => No s
  end.
(* TurtleParser.h 196-200; skip does not change _lastParseResult *)
Definition skip (t : tok) (s : parser) : out :=
  let s := skip_ws s in
  match regex t (data s) with Some n => Yes (set_data (skipn n (data s)) s) | None => No s end.
(* TurtleParser.cpp 347-361 *)
Definition parseTerminal (t : tok) (s : parser) : out := next t (skip_ws s).

Definition text_eqb (a b : text) : bool := if list_eq_dec N.eq_dec a b then true else false.
Fixpoint find_prefix (m : list (text * text)) (p : text) : option text :=
  match m with (q, v) :: m' => if text_eqb p q then Some v else find_prefix m' p | [] => None end.
(* 210-212 *)
Definition emitTriple (s : parser) : parser :=
  P (data s) (last s) (prefixes s) (aPrefix s) (aSubject s) (aPredicate s) (blanks s)
    (triples s ++ [(aSubject s, aPredicate s, last s)]).
(* 243-247, Constants.h:50 *)
Definition anonNode (n : N) : text := bytes "QLever-Anon-Node:" ++ decimal n.
Definition createAnonNode (s : parser) : parser :=
  P (data s) (anonNode (blanks s)) (prefixes s) (aPrefix s) (aSubject s) (aPredicate s) (blanks s + 1) (triples s).

(* the functions of RdfEscaping throw exceptions that are not ParseExceptions *)
Definition escaping (r : result text) (f : text -> out) : out := match r with Val v => f v | _ => Fatal end.

(* TurtleParser.cpp 432-438 *)
Definition iriref (s : parser) : out :=
  and_ (parseTerminal Iriref s) (fun s => escaping (unescapeIriref (last s)) (fun v => Yes (set_last v s))).
(* 371-380 *)
Definition pnameNS (s : parser) : out :=
  and_ (parseTerminal PnameNS s) (fun s => Yes (set_last [] (set_aPrefix (removelast (last s)) s))).
(* 324-338, TurtleParser.h 231-240 *)
Definition prefixedName (s : parser) : out :=
  and_ (pnameNS s) (fun s =>
    let s := match next PnLocal s with Yes s' => s' | _ => s end in
    match find_prefix (prefixes s) (aPrefix s) with
    | None => Raised s
    | Some v => escaping (unescapePrefixedIri (last s)) (fun l => Yes (set_last ([60] ++ v ++ l ++ [62]) s))
    end).
(* 316-320 *)
Definition iri (s : parser) : out := or_ (iriref s) prefixedName.
(* 187-193 *)
Definition anon (s : parser) : out := and_ (parseTerminal Anon s) (fun s => Yes (createAnonNode s)).
(* 342-344, 365-367 *)
Definition blankNode (s : parser) : out := or_ (parseTerminal BlankNodeLabel s) anon.
(* 223-229 *)
Definition collection (s : parser) : out :=
  match skip OpenRound s with Yes s => Raised s | x => x end.

(* 267-312 *)
Definition quotes4 : list text := [[34; 34; 34]; [39; 39; 39]; [34]; [39]].
Fixpoint opening (qs : list text) (d : text) : option text :=
  match qs with q :: qs' => if startsWith d q then Some q else opening qs' d | [] => None end.
Definition stringParse (s : parser) : out :=
  match opening quotes4 (data s) with
  | None => No s
  | Some q =>
    match literal_loop (S (S (length (data s)))) (data s) q (find_str_from q (data s) (length q)) with
    | None => NoFuel
    | Some None => Raised s
    | Some (Some endPos) =>
      let n := (endPos + length q)%nat in
      Yes (set_last (firstn n (data s)) (set_data (skipn n (data s)) s))
    end
  end.
(* 239-257 *)
Definition rdfLiteral (s : parser) : out :=
  and_ (stringParse s) (fun s =>
    escaping (normalizeRDFLiteral (last s)) (fun lit =>
      let s := set_last lit s in
      match parseTerminal Langtag s with
      | Yes s => Yes (set_last (lit ++ last s) s)
      | No s =>
        match skip DoubleCircumflex s with
        | Yes s => and_ (check (iri s)) (fun s => Yes (set_last (lit ++ [94; 94] ++ last s) s))
        | No s => Yes s
        | x => x
        end
      | x => x
      end)).
(* 233-235 *)
Definition numericLiteral (s : parser) : out :=
  or_ (parseTerminal Integer s) (fun s => or_ (parseTerminal Decimal s) (parseTerminal Double)).
(* 261-263 *)
Definition booleanLiteral (s : parser) : out := or_ (parseTerminal True_ s) (parseTerminal False_).
(* 194-196 *)
Definition literal (s : parser) : out :=
  or_ (rdfLiteral s) (fun s => or_ (numericLiteral s) booleanLiteral).

(* 137-174 *)
Definition rdf_type : text := bytes "<http://www.w3.org/1999/02/22-rdf-syntax-ns#type>".
Definition predicateSpecialA (s : parser) : out :=
  let s := skip_ws s in
  match regex A (data s) with Some n => Yes (set_predicate rdf_type (set_data (skipn n (data s)) s)) | None => No s end.
Definition predicate (s : parser) : out := and_ (iri s) (fun s => Yes (set_predicate (last s) s)).
Definition verb (s : parser) : out := or_ (predicateSpecialA s) predicate.
Definition subject (s : parser) : out :=
  and_ (or_ (blankNode s) (fun s => or_ (iri s) collection)) (fun s => Yes (set_subject (last s) s)).

(* 200-219 *)
Definition blankNodePropertyList (list_ : parser -> out) (s : parser) : out :=
  and_ (skip OpenSquared s) (fun s =>
    let savedSubject := aSubject s in
    let savedPredicate := aPredicate s in
    let s := createAnonNode s in
    let s := set_subject (last s) (emitTriple s) in
    and_ (check (list_ s)) (fun s =>
    and_ (check (skip CloseSquared s)) (fun s =>
    Yes (set_predicate savedPredicate (set_subject savedSubject s))))).
(* 178-190 *)
Definition object (list_ : parser -> out) (s : parser) : out :=
  match or_ (blankNode s) (fun s => or_ (literal s) iri) with
  | Yes s => Yes (emitTriple s)
  | No s => or_ (collection s) (blankNodePropertyList list_)
  | x => x
  end.
(* 124-133 *)
Fixpoint moreObjects (fuel : nat) (obj : parser -> out) (s : parser) : out :=
  match fuel with
  | O => NoFuel
  | S fuel' =>
    match skip Comma s with
    | Yes s => and_ (check (obj s)) (moreObjects fuel' obj)
    | No s => Yes s
    | x => x
    end
  end.
Definition objectList (fuel : nat) (obj : parser -> out) (s : parser) : out :=
  and_ (obj s) (moreObjects fuel obj).
(* 109-120 *)
Definition verbAndObjects (fuel : nat) (obj : parser -> out) (s : parser) : out :=
  and_ (verb s) (fun s => check (objectList fuel obj s)).
Fixpoint moreVerbs (fuel : nat) (item : parser -> out) (s : parser) : out :=
  match fuel with
  | O => NoFuel
  | S fuel' =>
    match skip Semicolon s with
    | Yes s => match item s with Yes s => moreVerbs fuel' item s | No s => moreVerbs fuel' item s | x => x end
    | No s => Yes s
    | x => x
    end
  end.
Fixpoint predicateObjectList (fuel : nat) (s : parser) : out :=
  match fuel with
  | O => NoFuel
  | S fuel' =>
    let item := verbAndObjects fuel' (object (predicateObjectList fuel')) in
    and_ (item s) (moreVerbs fuel' item)
  end.
(* 89-105 *)
Definition triples_ (fuel : nat) (s : parser) : out :=
  match subject s with
  | Yes s => check (predicateObjectList fuel s)
  | No s =>
    match blankNodePropertyList (predicateObjectList fuel) s with
    | Yes s => match predicateObjectList fuel s with No s => Yes s | x => x end
    | x => x
    end
  | x => x
  end.

(* 27-40; _prefixMap is a map: the last entry counts *)
Definition prefixID (s : parser) : out :=
  and_ (skip TurtlePrefix s) (fun s =>
    and_ (check (pnameNS s)) (fun s => and_ (check (iriref s)) (fun s => and_ (check (skip Dot s)) (fun s =>
      Yes (set_prefixes ((aPrefix s, substr (last s) 1 (length (last s) - 2)) :: prefixes s) s))))).
(* 44-55, 73-85 *)
Definition base_ (t : tok) (s : parser) : out := and_ (skip t s) (fun s => check (iriref s)).
(* 58-70 *)
Definition sparqlPrefix (s : parser) : out :=
  and_ (skip SparqlPrefix s) (fun s =>
    and_ (check (and_ (pnameNS s) iriref)) (fun s => Yes (set_prefixes ((aPrefix s, last s) :: prefixes s) s))).
(* 20-23 *)
Definition directive (s : parser) : out :=
  or_ (prefixID s) (fun s => or_ (base_ TurtleBase s) (fun s => or_ (sparqlPrefix s) (base_ SparqlBase))).
(* 13-17 *)
Definition statement (s : parser) : out :=
  let fuel := S (length (data s)) in
  or_ (directive (skip_ws s)) (fun s => and_ (triples_ fuel s) (skip Dot)).
(* TurtleParser.h 102-105 *)
Fixpoint turtleDoc (fuel : nat) (s : parser) : out :=
  match fuel with
  | O => NoFuel
  | S fuel' => match statement s with Yes s => turtleDoc fuel' s | x => x end
  end.

(* ---- reading in blocks ---- *)

(* The parser with the blocks that are still to come, _isParserExhausted and _byteVec.size(). *)
Record stream := S_ { st : parser; blocks : list text; exhausted : bool; buffered : nat }.
(* 337-342: position and number of bytes of the input are the remaining input *)
Record backup := B { b_blanks : N; b_triples : nat; b_data : text }.
Definition backupState (s : parser) : backup := B (blanks s) (length (triples s)) (data s).

(* 455-491 *)
Definition resetStateAndRead (b : backup) (block : text) (s : parser) : parser :=
  P (b_data b ++ block) (last s) (prefixes s) (aPrefix s) (aSubject s) (aPredicate s) (b_blanks b)
    (firstn (b_triples b) (triples s)).

(* the end of a call: the state, or an exception *)
Inductive read_out := Reading (s : stream) | Exception | Undefined_ | Endless.

Section Stream.
  (* PARSER_MIN_TRIPLES_AT_ONCE, BZIP2_MAX_TOTAL_BUFFER_SIZE *)
  Variables batch max_buffer : nat.
  (* 569-645 *)
  Fixpoint fill (fuel : nat) (b : backup) (s : stream) : read_out :=
    match fuel with
    | O => Endless
    | S fuel' =>
      if Nat.ltb (length (triples (st s))) batch && negb (exhausted s) then
        let failed (raised : bool) (p : parser) : read_out :=
          match blocks s with
          | [] | [] :: _ =>
            if raised then Exception
            else Reading (S_ (skip_ws p) (tl (blocks s)) true (buffered s))
          | block :: rest =>
            let p' := resetStateAndRead b block p in
            let n := length (data p') in
            if Nat.ltb max_buffer n then Exception
            else fill fuel' (backupState p') (S_ p' rest (exhausted s) n)
          end in
        match statement (st s) with
        | Yes p => fill fuel' b (S_ p (blocks s) (exhausted s) (buffered s))
        | No p => failed false p
        | Raised p => failed true p
        | Fatal => Exception
        | NoFuel => Endless
        end
      else Reading s
    end.
  (* 565-657 *)
  Definition getLine (fuel : nat) (s : stream) : read_out * option triple :=
    let filled := match triples (st s) with [] => fill fuel (backupState (st s)) s | _ => Reading s end in
    match filled with
    | Reading s =>
      match rev (triples (st s)) with
      | [] => (Reading s, None)
      | t :: r =>
        let p := st s in
        (Reading (S_ (P (data p) (last p) (prefixes p) (aPrefix p) (aSubject p) (aPredicate p) (blanks p) (rev r))
                     (blocks s) (exhausted s) (buffered s)), Some t)
      end
    | x => (x, None)
    end.
  (* a caller: until there is no line *)
  Fixpoint read_all (calls fuel : nat) (s : stream) (acc : list triple) : option (list triple) :=
    match calls with
    | O => None
    | S calls' =>
      match getLine fuel s with
      | (Reading s, Some t) => read_all calls' fuel s (acc ++ [t])
      | (Reading _, None) => Some acc
      | _ => None
      end
    end.
End Stream.

(* 549-562; fread gives blocks of the wanted size until the end of the file *)
Definition initialize (file_blocks : list text) : stream :=
  match file_blocks with
  | b :: bs => S_ (initial b) bs false (length b)
  | [] => S_ (initial []) [] false O
  end.

(* ---- the parser for mapped files: 494-509 and 512-546 ---- *)
Section Mmap.
  Variable batch : nat.
  (* 516-535 *)
  Fixpoint mmap_fill (fuel : nat) (s : parser) (done : bool) : option (parser * bool) :=
    match fuel with
    | O => None
    | S fuel' =>
      if Nat.ltb (length (triples s)) batch && negb done then
        match statement s with
        | Yes s => Some (skip_ws s, true)
        | No s => mmap_fill fuel' s done
        | _ => None
        end
      else Some (s, done)
    end.
  (* 513-546 getLine, called until there is no line *)
  Fixpoint mmap_all (calls fuel : nat) (s : parser) (done : bool) (acc : list triple) : option (list triple) :=
    match calls with
    | O => None
    | S calls' =>
      match (match triples s with [] => mmap_fill fuel s done | _ => Some (s, done) end) with
      | Some (s, done) =>
        match rev (triples s) with
        | [] => Some acc
        | t :: r => mmap_all calls' fuel (P (data s) (last s) (prefixes s) (aPrefix s) (aSubject s) (aPredicate s) (blanks s) (rev r))
                      done (acc ++ [t])
        end
      | None => None
      end
    end.
End Mmap.
