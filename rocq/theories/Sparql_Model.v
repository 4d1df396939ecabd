(* Model of the parser for SPARQL queries: parser/SparqlParser.cpp with ParsedQuery.h and ParsedQuery.cpp.
   - The parser reads its tokens from SLex_Model, property paths are parsed by PPath_Model.
   - Loops that end with the input get the length of the input as fuel.
   - Simplified: texts of exceptions, log messages, _originalString, the unused functions
     readTriplePart (494-541), ParsedQuery::parseAliases and ParsedQuery::merge are left out;
     getLowercaseUtf8 and getUppercaseUtf8 change the letters A to Z only. *)
From Coq Require Import Ascii String List NArith ZArith Arith Bool.
From Verif Require Import Strings_Model SLex_Model.
From Verif Require Conv_Model PPath_Model Turtle_Model.
Import ListNotations.
Open Scope N_scope.
Open Scope list_scope.

Notation path := PPath_Model.path.
Notation Path := PPath_Model.Path.
Notation "'let*' p ':=' e 'in' f" := (bind e (fun p => f)) (at level 200, p pattern, e at level 200, f at level 200).

(* ---- the parsed query ---- *)

(* ParsedQuery.h 95-111 *)
Record triple := Triple { t_s : text; t_p : path; t_o : text }.
(* ParsedQuery.h 113-182: _key, _desc *)
Notation order_key := (text * bool)%type.
(* ParsedQuery.h 184-208 *)
Inductive filter_type := EQ | NE | LT | LE | GT | GE | LANG_MATCHES | REGEX | PREFIX.
Record filter := Filter { f_type : filter_type; f_lhs : text; f_rhs : text; f_additionalLhs : list text;
  f_additionalPrefixes : list text; f_ignoreCase : bool; f_lhsAsString : bool }.
(* ParsedQuery.h 299-308; _isAggregate is always true *)
Inductive aggregate := COUNT | GROUP_CONCAT | SAMPLE | MIN | MAX | SUM | AVG.
Record alias := Alias { a_type : aggregate; a_in : text; a_out : text; a_distinct : bool; a_function : text;
  a_delimiter : text }.
(* ParsedQuery.h 395-470: _expressionVariant *)
Inductive bind_expr := KbConstant (v : text) | IntConstant (v : Z) | Rename (v : text) | Binary (a b : text) (op : N).
(* ParsedQuery.h 312-325 without _rootGraphPattern *)
Record head := Head { prefixes : list (text * text); selected : list text; having : list filter;
  numPatterns : N; orderBy : list order_key; groupBy : list text; limit : text; textLimit : text; offset : text;
  reduced : bool; distinct : bool; aliases : list alias }.
(* ParsedQuery.h 222-255, 355-390. The parser makes no GroupGraphPattern and no TransPath. *)
Inductive operation :=
| Basic (ts : list triple)
| Values (vars : list text) (rows : list (list text))
| Optional (g : pattern)
| Minus (g : pattern)
| Union (a b : pattern)
| Subquery (q : query)
| Bind (e : bind_expr) (target : text)
with pattern := Pattern (optional : bool) (id : N) (filters : list filter) (children : list operation)
with query := Query (h : head) (root : pattern).

(* ParsedQuery.h 56-60 *)
Definition operation_eqb (a b : PPath_Model.operation) : bool :=
  match a, b with
  | PPath_Model.SEQUENCE, PPath_Model.SEQUENCE | PPath_Model.ALTERNATIVE, PPath_Model.ALTERNATIVE
  | PPath_Model.TRANSITIVE, PPath_Model.TRANSITIVE | PPath_Model.TRANSITIVE_MIN, PPath_Model.TRANSITIVE_MIN
  | PPath_Model.TRANSITIVE_MAX, PPath_Model.TRANSITIVE_MAX | PPath_Model.INVERSE, PPath_Model.INVERSE
  | PPath_Model.IRI, PPath_Model.IRI => true
  | _, _ => false
  end.
Fixpoint path_eqb (a b : path) {struct a} : bool :=
  match a, b with
  | Path o l i cs n, Path o' l' i' cs' n' =>
      operation_eqb o o' && (l =? l') && text_eqb i i' &&
      (fix all (x y : list path) : bool :=
         match x, y with
         | [], [] => true
         | p :: x', q :: y' => path_eqb p q && all x' y'
         | _, _ => false
         end) cs cs' && Bool.eqb n n'
  end.
(* ParsedQuery.h 103-105 *)
Definition triple_eqb (a b : triple) : bool :=
  text_eqb (t_s a) (t_s b) && path_eqb (t_p a) (t_p b) && text_eqb (t_o a) (t_o b).
(* ParsedQuery.h 83-90 *)
Definition is_variable (s : text) : bool := startsWith s [63].
(* StringUtils.h toupper *)
Definition toupper (c : N) : N := if (97 <=? c) && (c <=? 122) then c - 32 else c.
Definition uppercase (s : text) : text := map toupper s.
(* s.substr(0, s.size() - n) for n <= s.size() *)
Definition drop_last (n : nat) (s : text) : text := firstn (length s - n) s.
(* s.substr(1, s.size() - 2) *)
Definition inner (s : text) : text := substr s 1 (length s - 2).

(* ---- literals ---- *)

(* SparqlParser.cpp 928-939: the content up to the delimiter, and the text that is left *)
Fixpoint literal_content (delimiter : N) (escaped : bool) (d : text) : text * text :=
  match d with
  | c :: d' =>
    if negb escaped && (c =? delimiter) then ([], d)
    else if (c =? 92) && (match d' with e :: _ => e =? delimiter | [] => false end) then
      literal_content delimiter true d'
    else let '(s, r) := literal_content delimiter false d' in (c :: s, r)
  | [] => ([], [])
  end.
(* std::isalpha in the "C" locale *)
Definition isalpha (c : N) : bool := Turtle_Model.letter c.
Fixpoint take_while (p : N -> bool) (d : text) : text * text :=
  match d with
  | c :: d' => if p c then let '(a, b) := take_while p d' in (c :: a, b) else ([], d)
  | [] => ([], [])
  end.
Definition skip_spaces (d : text) : text := snd (take_while isspace d).
(* 899-975 with isEntireString = true and off = 0, as in all calls. `pos++` at 941 may go past the end;
   every later access tests pos < size. *)
Definition parseLiteral (literal : text) : out text :=
  match skip_spaces literal with
  | [] => ParseError
  | q :: d =>
    if (q =? 34) || (q =? 39) then
      let '(content, d1) := literal_content q false d in
      let d2 := tl d1 in
      let '(tag, d3) := match d2 with
                        | c :: r => if c =? 64 then let '(t, r') := take_while isalpha r in (64 :: t, r') else ([], d2)
                        | [] => ([], [])
                        end in
      let '(dt, d4) := match d3 with
                       | a :: b :: _ => if (a =? 94) && (b =? 94) then take_while (fun c => negb (isspace c)) d3 else ([], d3)
                       | _ => ([], d3)
                       end in
      match skip_spaces d4 with
      | [] => Ok ([34] ++ content ++ [34] ++ tag ++ dt)
      | _ => ParseError
      end
    else ParseError
  end.
(* 888-896 *)
Definition stripAndLowercaseKeywordLiteral (lit : text) : text :=
  if Nat.ltb 2 (length lit) && (at_ lit 0 =? 34) && (List.last lit 0 =? 34)
  then lowercase (strip lit (N.eqb 34)) else lit.

(* ---- small parts ---- *)

(* ParsedQuery.h 116-179 *)
Definition key_end (d : text) : text := fst (take_while (fun c => negb ((c =? 41) || isspace c)) d).
Definition OrderKey (textual : text) : out order_key :=
  let lower := lowercase textual in
  let desc := startsWith lower (bytes "desc(") in
  let d := if desc then skip_spaces (skipn 5 textual) else textual in
  let d := if startsWith lower (bytes "asc(") then skip_spaces (skipn 4 d) else d in
  match d with
  | c :: r =>
    let l := tolower c in
    if l =? 40 then
      match closing_loop r 1 40 41 0 with
      | Some e => Ok (firstn (S e) d, desc)
      | None => ParseError
      end
    else if l =? 115 then
      if startsWith (lowercase d) (bytes "score(") then
        let v := skipn 6 d in
        Ok (bytes "SCORE(" ++ firstn 1 v ++ key_end (skipn 1 v) ++ [41], desc)
      else ParseError
    else if l =? 63 then Ok (c :: key_end r, desc)
    else Ok ([], desc)
  | [] => Ok ([], desc)
  end.

(* SparqlParser.cpp 92-98, 102-107 *)
Fixpoint parsePrologue (fuel : nat) (ps : list (text * text)) (l : lexer) : out (list (text * text) * lexer) :=
  match fuel with
  | O => NoFuel
  | S fuel' =>
    let* (b, l) := accept_raw (bytes "prefix") l in
    if b then
      let* l1 := expect_type IRI l in
      let* l2 := expect_type IRI l1 in
      parsePrologue fuel' (ps ++ [(drop_last 1 (raw (current l1)), raw (current l2))]) l2
    else Ok (ps, l)
  end.

(* 196-212 *)
Definition aggregate_of (agg : text) : out aggregate :=
  if text_eqb agg (bytes "count") then Ok COUNT
  else if text_eqb agg (bytes "sample") then Ok SAMPLE
  else if text_eqb agg (bytes "min") then Ok MIN
  else if text_eqb agg (bytes "max") then Ok MAX
  else if text_eqb agg (bytes "sum") then Ok SUM
  else if text_eqb agg (bytes "avg") then Ok AVG
  else if text_eqb agg (bytes "group_concat") then Ok GROUP_CONCAT
  else ParseError.
(* 190-244 *)
Definition parseAlias (l : lexer) : out (alias * lexer) :=
  let* l := expect_type AGGREGATE l in
  let agg := raw (current l) in
  let* ty := aggregate_of agg in
  let* l := expect_raw (bytes "(") l in
  let* (d, l) := accept_raw (bytes "distinct") l in
  let* l := expect_type VARIABLE l in
  let v := raw (current l) in
  let func := uppercase agg ++ (if d then bytes "DISTINCT " else []) ++ bytes "(" ++ v in
  let* (semicolon, l) := accept_raw (bytes ";") l in
  let* (func, delimiter, l) :=
    if semicolon then
      if text_eqb agg (bytes "group_concat") then
        let* l := expect_raw (bytes "separator") l in
        let* l := expect_raw (bytes "=") l in
        let* l := expect_type RDFLITERAL l in
        Ok (func ++ bytes ";SEPARATOR=" ++ raw (current l), inner (raw (current l)), l)
      else ParseError
    else Ok (func, [32], l) in
  let* l := expect_raw (bytes ")") l in
  let* l := expect_raw (bytes "as") l in
  let* l := expect_type VARIABLE l in
  let o := raw (current l) in
  Ok (Alias ty v o d (func ++ bytes ") as " ++ o) delimiter, l).

(* 121-127, 130-136, 161-167: NAME(?x) after the keyword *)
Definition parse_call (name : text) (l : lexer) : out (text * lexer) :=
  let* l := expect_raw (bytes "(") l in
  let* l := expect_type VARIABLE l in
  let v := raw (current l) in
  let* l := expect_raw (bytes ")") l in
  Ok (name ++ bytes "(" ++ v ++ bytes ")", l).
(* 117-152 *)
Fixpoint parse_selected (fuel : nat) (sel : list text) (al : list alias) (l : lexer)
  : out (list text * list alias * lexer) :=
  match fuel with
  | O => NoFuel
  | S fuel' =>
    let* (b, l) := accept_raw (bytes "where") l in
    if b then Ok (sel, al, l)
    else
      let* (sel, al, l) :=
        let* (b, l) := accept_type VARIABLE l in
        if b then Ok (sel ++ [raw (current l)], al, l)
        else
          let* (b, l) := accept_raw (bytes "text") l in
          if b then let* (v, l) := parse_call (bytes "TEXT") l in Ok (sel ++ [v], al, l)
          else
            let* (b, l) := accept_raw (bytes "score") l in
            if b then let* (v, l) := parse_call (bytes "SCORE") l in Ok (sel ++ [v], al, l)
            else
              let* (b, l) := accept_raw (bytes "(") l in
              if b then
                let* (a, l) := parseAlias l in
                let* l := expect_raw (bytes ")") l in
                Ok (sel ++ [a_out a], al ++ [a], l)
              else let* _ := accept_any l in ParseError in
      if empty l then ParseError else parse_selected fuel' sel al l
  end.
(* 110-153 *)
Definition parseSelect (h : head) (l : lexer) : out (head * lexer) :=
  let* (d, l) := accept_raw (bytes "distinct") l in
  let* (r, l) := accept_raw (bytes "reduced") l in
  let* (sel, al, l) := parse_selected (length (rest l) + 2) (selected h) (aliases h) l in
  Ok (Head (prefixes h) sel (having h) (numPatterns h) (orderBy h) (groupBy h) (limit h) (textLimit h) (offset h)
        (r || reduced h) (d || distinct h) al, l).

(* 156-187 *)
Definition parseOrderKey (order : text) (h : head) (l : lexer) : out (order_key * list alias * lexer) :=
  let* l := expect_raw (bytes "(") l in
  let* (b, l) := accept_raw (bytes "score") l in
  let* (key, al, l) :=
    if b then let* (v, l) := parse_call (bytes "SCORE") l in Ok (v, aliases h, l)
    else
      let* (b, l) := accept_raw (bytes "(") l in
      if b then
        let* (a, l) := parseAlias l in
        if existsb (fun s => text_eqb s (a_out a)) (selected h) then ParseError
        else let* l := expect_raw (bytes ")") l in Ok (a_out a, aliases h ++ [a], l)
      else let* l := expect_type VARIABLE l in Ok (raw (current l), aliases h, l) in
  let* l := expect_raw (bytes ")") l in
  let* k := OrderKey (order ++ bytes "(" ++ key ++ bytes ")") in
  Ok (k, al, l).

(* ---- filters ---- *)

(* 1015-1037: isSimple and escapePositions; `i` is the position of d *)
Definition regex_control (c : N) : bool := existsb (N.eqb c) (bytes "[]^$.|?*+()").
Fixpoint scan_regex (i : nat) (escaped : bool) (positions : list nat) (d : text) : out (bool * list nat) :=
  match d with
  | [] => Ok (true, positions)
  | c :: d' =>
    if c =? 92 then scan_regex (S i) (negb escaped) (if escaped then positions else positions ++ [i]) d'
    else if negb escaped && regex_control c then Ok (false, positions)
    else if escaped && negb (regex_control c) then ParseError
    else scan_regex (S i) false positions d'
  end.
(* 1046 *)
Definition erase (s : text) (i : nat) : text := firstn i s ++ skipn (S i) s.
(* 1002-1049 *)
Definition regex_or_prefix (rhs : text) (ignoreCase : bool) : out (filter_type * text) :=
  if (at_ rhs 0 =? 94) && negb ignoreCase then
    let* (simple, positions) := scan_regex 1 false [] (skipn 1 rhs) in
    if simple then Ok (PREFIX, fold_left erase (rev positions) rhs) else Ok (REGEX, rhs)
  else Ok (REGEX, rhs).
(* 976-1051 *)
Definition parseRegexFilter (expectKeyword : bool) (l : lexer) : out (filter * lexer) :=
  let* l := if expectKeyword then expect_raw (bytes "regex") l else Ok l in
  let* l := expect_raw (bytes "(") l in
  let* (str, l) := accept_raw (bytes "str") l in
  let* l := if str then expect_raw (bytes "(") l else Ok l in
  let* l := expect_type VARIABLE l in
  let lhs := raw (current l) in
  let* l := if str then expect_raw (bytes ")") l else Ok l in
  let* l := expect_raw (bytes ",") l in
  let* l := expect_type RDFLITERAL l in
  let rhs := inner (raw (current l)) in
  let* (comma, l) := accept_raw (bytes ",") l in
  let* l := if comma then expect_raw [34; 105; 34] l else Ok l in
  let* l := expect_raw (bytes ")") l in
  let* (ty, rhs) := regex_or_prefix rhs comma in
  Ok (Filter ty lhs rhs [] [] comma str, l).

(* 1053-1060, with what is done with the triples *)
Fixpoint last_basic (f : list triple -> list triple) (children : list operation) : list operation :=
  match children with
  | [] => [Basic (f [])]
  | [Basic ts] => [Basic (f ts)]
  | [c] => [c; Basic (f [])]
  | c :: children' => c :: last_basic f children'
  end.
(* 473-478, 870-875 *)
Definition push_new (t : triple) (ts : list triple) : list triple :=
  if existsb (fun u => triple_eqb u t) ts then ts else ts ++ [t].
Definition URI_PREFIX : text := bytes "<QLever-internal-function/".
Definition LANGUAGE_PREDICATE : text := URI_PREFIX ++ bytes "langtag>".
Definition is_iri_path (p : path) : bool :=
  match p with Path PPath_Model.IRI _ iri _ _ => negb (is_variable iri) | _ => false end.
Definition path_iri (p : path) : text := match p with Path _ _ iri _ _ => iri end.
(* 854-857, 876-884 *)
Fixpoint tag_first (lhs langTag : text) (ts : list triple) : option (list triple) :=
  match ts with
  | [] => None
  | t :: ts' =>
    if text_eqb (t_o t) lhs && is_iri_path (t_p t)
    then Some (Triple (t_s t) (PPath_Model.leaf ([64] ++ langTag ++ [64] ++ path_iri (t_p t))) (t_o t) :: ts')
    else option_map (cons t) (tag_first lhs langTag ts')
  end.
(* 847-885 *)
Definition addLangFilter (lhs rhs : text) (children : list operation) : list operation :=
  let langTag := inner rhs in
  last_basic (fun ts =>
    match tag_first lhs langTag ts with
    | Some ts' => ts'
    | None => push_new (Triple lhs (PPath_Model.leaf LANGUAGE_PREDICATE) (URI_PREFIX ++ [64] ++ langTag ++ [62])) ts
    end) children.

(* 691-693 *)
Fixpoint count_open (fuel : nat) (n : nat) (l : lexer) : out (nat * lexer) :=
  match fuel with
  | O => NoFuel
  | S fuel' => let* (b, l) := accept_raw (bytes "(") l in if b then count_open fuel' (S n) l else Ok (n, l)
  end.
(* 694-699 *)
Fixpoint expectClose (n : nat) (l : lexer) : out lexer :=
  match n with O => Ok l | S n' => let* l := expect_raw (bytes ")") l in expectClose n' l end.
(* 728-730 *)
Fixpoint more_regex (fuel : nat) (v : list filter) (l : lexer) : out (list filter * lexer) :=
  match fuel with
  | O => NoFuel
  | S fuel' =>
    let* (b, l) := accept_type LOGICAL_OR l in
    if b then let* (f, l) := parseRegexFilter true l in more_regex fuel' (v ++ [f]) l else Ok (v, l)
  end.
Definition is_prefix (f : filter) : bool := match f_type f with PREFIX => true | _ => false end.
(* 732-744 *)
Definition merge_regex (v : list filter) : out filter :=
  match v with
  | [f] => Ok f
  | f :: v' =>
    if forallb is_prefix v then
      Ok (Filter (f_type f) (f_lhs f) (f_rhs f) (f_additionalLhs f ++ map f_lhs v')
            (f_additionalPrefixes f ++ map f_rhs v') (f_ignoreCase f) (f_lhsAsString f))
    else ParseError
  | [] => Undefined
  end.
(* 777-791, 819-834 *)
Definition parse_operand (l : lexer) : out (text * lexer) :=
  let* (b, l) := accept_type SLex_Model.IRI l in
  if b then Ok (raw (current l), l) else
  let* (b, l) := accept_type VARIABLE l in
  if b then Ok (raw (current l), l) else
  let* (b, l) := accept_type RDFLITERAL l in
  if b then Ok (raw (current l), l) else
  let* (b, l) := accept_type INTEGER l in
  if b then Ok (raw (current l), l) else
  let* (b, l) := accept_type FLOAT l in
  if b then Ok (raw (current l), l) else
  let* _ := accept_any l in ParseError.
(* 796-817 *)
Definition parse_relation (l : lexer) : out (filter_type * lexer) :=
  let* (b, l) := accept_raw (bytes "=") l in
  if b then Ok (EQ, l) else
  let* (b, l) := accept_raw (bytes "!") l in
  if b then let* l := expect_raw (bytes "=") l in Ok (NE, l) else
  let* (b, l) := accept_raw (bytes "<") l in
  if b then let* (b, l) := accept_raw (bytes "=") l in Ok (if b then LE else LT, l) else
  let* (b, l) := accept_raw (bytes ">") l in
  if b then let* (b, l) := accept_raw (bytes "=") l in Ok (if b then GE else GT, l) else
  let* _ := accept_any l in ParseError.
(* 771-837 *)
Definition parse_comparison (l : lexer) : out (filter * lexer) :=
  let* (str, l) := accept_raw (bytes "str") l in
  let* l := if str then expect_raw (bytes "(") l else Ok l in
  let* (lhs, l) := parse_operand l in
  let* l := if str then expect_raw (bytes ")") l else Ok l in
  let* (ty, l) := parse_relation l in
  let* (rhs, l) := parse_operand l in
  Ok (Filter ty lhs rhs [] [] false str, l).
(* 761-764: characters are bytes *)
Definition prefix_filters (v lit : text) : list filter :=
  let r1 := drop_last 1 lit ++ [32] in
  let n := length r1 in
  let r2 := drop_last 2 v ++ [(at_ r1 (n - 2) + 1) mod 256; at_ r1 (n - 1)] in
  [Filter GE v r1 [] [] false false; Filter LT v r2 [] [] false false].
(* 687-845: whether there was a filter, _filters and the children of the pattern *)
Definition parseFilter (failOnNoFilter : bool) (fs : list filter) (children : list operation) (l : lexer)
  : out (bool * list filter * list operation * lexer) :=
  let* (n, l) := count_open (length (rest l) + 2) O l in
  let* (b, l) := accept_raw (bytes "lang") l in
  if b && Nat.ltb 0 n then
    let* l := expect_raw (bytes "(") l in
    let* l := expect_type VARIABLE l in
    let lhs := raw (current l) in
    let* l := expect_raw (bytes ")") l in
    let* l := expect_raw (bytes "=") l in
    let* l := expect_type RDFLITERAL l in
    let rhs := raw (current l) in
    let* l := expectClose n l in
    Ok (true, fs, addLangFilter lhs rhs children, l)
  else
  let* (b, l) := accept_raw (bytes "langmatches") l in
  if b then
    let* l := expect_raw (bytes "(") l in
    let* l := expect_raw (bytes "lang") l in
    let* l := expect_raw (bytes "(") l in
    let* l := expect_type VARIABLE l in
    let lhs := raw (current l) in
    let* l := expect_raw (bytes ")") l in
    let* l := expect_raw (bytes ",") l in
    let* l := expect_type RDFLITERAL l in
    let rhs := raw (current l) in
    let* l := expectClose n l in
    Ok (true, fs, addLangFilter lhs rhs children, l)
  else
  let* (b, l) := accept_raw (bytes "regex") l in
  if b then
    let* (f, l) := parseRegexFilter false l in
    let* (v, l) := if Nat.ltb 0 n then more_regex (length (rest l) + 2) [f] l else Ok ([f], l) in
    let* f := merge_regex v in
    let* l := expectClose n l in
    Ok (true, fs ++ [f], children, l)
  else
  let* (b, l) := accept_raw (bytes "prefix") l in
  if b then
    let* l := expect_raw (bytes "(") l in
    let* l := expect_type VARIABLE l in
    let v := raw (current l) in
    let* l := expect_raw (bytes ",") l in
    let* l := expect_type RDFLITERAL l in
    let lit := raw (current l) in
    let* l := expect_raw (bytes ")") l in
    let* l := expectClose n l in
    Ok (true, fs ++ prefix_filters v lit, children, l)
  else if Nat.ltb 0 n then
    let* (f, l) := parse_comparison l in
    let* l := expectClose n l in
    Ok (true, fs ++ [f], children, l)
  else if failOnNoFilter then let* _ := accept_any l in ParseError
  else Ok (false, fs, children, l).

(* ---- graph patterns ---- *)

(* 424-431, 456-463 *)
Definition parse_node (l : lexer) : out (text * lexer) :=
  let* (b, l) := accept_type VARIABLE l in
  if b then Ok (raw (current l), l) else
  let* (b, l) := accept_type RDFLITERAL l in
  if b then let* s := parseLiteral (raw (current l)) in Ok (s, l) else
  let* l := expect_type SLex_Model.IRI l in
  Ok (raw (current l), l).
(* 439-449 *)
Definition parse_predicate (l : lexer) : out (text * lexer) :=
  let* (b, l) := accept_type VARIABLE l in
  if b then Ok (raw (current l), l) else
  let* (b, l) := accept_type RDFLITERAL l in
  if b then let* s := parseLiteral (raw (current l)) in Ok (s, l) else
  let* l := accept_any (expandNextUntilWhitespace l) in
  Ok (raw (current l), l).
Definition CONTAINS_WORD_PREDICATE : text := bytes "<QLever-internal-function/contains-word>".
Definition CONTAINS_WORD_PREDICATE_NS : text := bytes "ql:contains-word".
(* the exceptions of PropertyPathParser *)
Definition of_path {A} (r : PPath_Model.result A) : out A :=
  match r with
  | PPath_Model.Val a => Ok a
  | PPath_Model.ParseError => ParseError
  | PPath_Model.Undefined => Undefined
  | PPath_Model.Fuel => NoFuel
  | _ => Error
  end.
(* 465-471 *)
Definition make_triple (s p o : text) : out triple :=
  let o := if text_eqb p CONTAINS_WORD_PREDICATE || text_eqb p CONTAINS_WORD_PREDICATE_NS
           then stripAndLowercaseKeywordLiteral o else o in
  let* q := of_path (PPath_Model.parse p) in
  Ok (Triple s q o).

(* 309: std::strtoll on -?[0-9]+ *)
Definition strtoll (s : text) : Z :=
  let '(neg, ds) := match s with c :: r => if c =? 45 then (true, r) else (false, s) | [] => (false, []) end in
  let n := Z.of_N (fold_left (fun a d => a * 10 + (d - 48)) ds 0) in
  if neg then Z.max (- n) (- 2 ^ 63) else Z.min n (2 ^ 63 - 1).
(* 279-333 *)
Definition parse_bind (l : lexer) : out (operation * lexer) :=
  let* l := expect_raw (bytes "(") l in
  let* (b, l) := accept_type VARIABLE l in
  let* (e, l) :=
    if b then
      let v := raw (current l) in
      let* (b, l) := accept_type SYMBOL l in
      if b then
        let op := at_ (raw (current l)) 0 in
        if existsb (N.eqb op) (bytes "+-*/") then
          let* l := expect_type VARIABLE l in
          Ok (Binary v (raw (current l)) op, l)
        else Error
      else Ok (Rename v, l)
    else
      let* (b, l) := accept_type RDFLITERAL l in
      if b then let* s := parseLiteral (raw (current l)) in Ok (KbConstant s, l)
      else
        let* (b, l) := accept_type INTEGER l in
        if b then Ok (IntConstant (strtoll (raw (current l))), l)
        else let* l := expect_type SLex_Model.IRI l in Ok (KbConstant (raw (current l)), l) in
  let* l := expect_raw (bytes "as") l in
  let* l := expect_type VARIABLE l in
  let target := raw (current l) in
  let* l := expect_raw (bytes ")") l in
  Ok (Bind e target, l).

(* 387-389 *)
Fixpoint parse_vars (fuel : nat) (vs : list text) (l : lexer) : out (list text * lexer) :=
  match fuel with
  | O => NoFuel
  | S fuel' =>
    let* (b, l) := accept_type VARIABLE l in
    if b then parse_vars fuel' (vs ++ [raw (current l)]) l else Ok (vs, l)
  end.
(* 394-399 *)
Fixpoint parse_row (n : nat) (l : lexer) : out (list text * lexer) :=
  match n with
  | O => Ok ([], l)
  | S n' =>
    let* (b, l) := accept_type RDFLITERAL l in
    let* l := if b then Ok l else expect_type SLex_Model.IRI l in
    let v := raw (current l) in
    let* (r, l) := parse_row n' l in
    Ok (v :: r, l)
  end.
(* 392-401 *)
Fixpoint parse_rows (fuel : nat) (n : nat) (rows : list (list text)) (l : lexer) : out (list (list text) * lexer) :=
  match fuel with
  | O => NoFuel
  | S fuel' =>
    let* (b, l) := accept_raw (bytes "(") l in
    if b then
      let* (r, l) := parse_row n l in
      let* l := expect_raw (bytes ")") l in
      parse_rows fuel' n (rows ++ [r]) l
    else Ok (rows, l)
  end.
(* 407-411 *)
Fixpoint parse_values1 (fuel : nat) (rows : list (list text)) (l : lexer) : out (list (list text) * lexer) :=
  match fuel with
  | O => NoFuel
  | S fuel' =>
    let* (b, l) := accept_type SLex_Model.IRI l in
    if b then parse_values1 fuel' (rows ++ [[raw (current l)]]) l else
    let* (b, l) := accept_type RDFLITERAL l in
    if b then parse_values1 fuel' (rows ++ [[raw (current l)]]) l else Ok (rows, l)
  end.
(* 384-419 *)
Definition parse_values (l : lexer) : out (operation * lexer) :=
  let* (b, l) := accept_raw (bytes "(") l in
  if b then
    let* (vs, l) := parse_vars (length (rest l) + 2) [] l in
    let* l := expect_raw (bytes ")") l in
    let* l := expect_raw (bytes "{") l in
    let* (rows, l) := parse_rows (length (rest l) + 2) (length vs) [] l in
    let* l := expect_raw (bytes "}") l in
    Ok (Values vs rows, l)
  else
    let* (b, l) := accept_type VARIABLE l in
    if b then
      let v := raw (current l) in
      let* l := expect_raw (bytes "{") l in
      let* (rows, l) := parse_values1 (length (rest l) + 2) [] l in
      let* l := expect_raw (bytes "}") l in
      Ok (Values [v] rows, l)
    else ParseError.

(* 639-654 *)
Fixpoint parse_order (fuel : nat) (h : head) (l : lexer) : out (head * lexer) :=
  let add k al :=
    Head (prefixes h) (selected h) (having h) (numPatterns h) (orderBy h ++ [k]) (groupBy h) (limit h) (textLimit h)
      (offset h) (reduced h) (distinct h) al in
  match fuel with
  | O => NoFuel
  | S fuel' =>
    let* (b, l) := accept_type VARIABLE l in
    if b then let* k := OrderKey (raw (current l)) in parse_order fuel' (add k (aliases h)) l else
    let* (b, l) := accept_raw (bytes "asc") l in
    if b then let* (k, al, l) := parseOrderKey (bytes "ASC") h l in parse_order fuel' (add k al) l else
    let* (b, l) := accept_raw (bytes "desc") l in
    if b then let* (k, al, l) := parseOrderKey (bytes "DESC") h l in parse_order fuel' (add k al) l else
    match orderBy h with [] => ParseError | _ => Ok (h, l) end
  end.
(* 672-674 *)
Fixpoint more_having (fuel : nat) (fs : list filter) (children : list operation) (l : lexer)
  : out (list filter * list operation * lexer) :=
  match fuel with
  | O => NoFuel
  | S fuel' =>
    let* (b, fs, children, l) := parseFilter false fs children l in
    if b then more_having fuel' fs children l else Ok (fs, children, l)
  end.
(* 634-684; the children are those of _rootGraphPattern. The second test for textlimit (675-677) is
   never reached. *)
Fixpoint parseSolutionModifiers (fuel : nat) (h : head) (children : list operation) (l : lexer)
  : out (head * list operation * lexer) :=
  match fuel with
  | O => NoFuel
  | S fuel' =>
    if empty l then Ok (h, children, l) else
    let* (b, l) := accept_raw (bytes "}") l in
    if b then Ok (h, children, l) else
    let* (b, l) := accept_type ORDER_BY l in
    if b then
      let* (h, l) := parse_order (length (rest l) + 2) h l in parseSolutionModifiers fuel' h children l
    else
    let* (b, l) := accept_raw (bytes "limit") l in
    if b then
      let* l := expect_type INTEGER l in
      parseSolutionModifiers fuel'
        (Head (prefixes h) (selected h) (having h) (numPatterns h) (orderBy h) (groupBy h) (raw (current l))
           (textLimit h) (offset h) (reduced h) (distinct h) (aliases h)) children l
    else
    let* (b, l) := accept_raw (bytes "textlimit") l in
    if b then
      let* l := expect_type INTEGER l in
      parseSolutionModifiers fuel'
        (Head (prefixes h) (selected h) (having h) (numPatterns h) (orderBy h) (groupBy h) (limit h)
           (raw (current l)) (offset h) (reduced h) (distinct h) (aliases h)) children l
    else
    let* (b, l) := accept_raw (bytes "offset") l in
    if b then
      let* l := expect_type INTEGER l in
      parseSolutionModifiers fuel'
        (Head (prefixes h) (selected h) (having h) (numPatterns h) (orderBy h) (groupBy h) (limit h) (textLimit h)
           (raw (current l)) (reduced h) (distinct h) (aliases h)) children l
    else
    let* (b, l) := accept_type GROUP_BY l in
    if b then
      let* l := expect_type VARIABLE l in
      let* (vs, l) := parse_vars (length (rest l) + 2) [raw (current l)] l in
      parseSolutionModifiers fuel'
        (Head (prefixes h) (selected h) (having h) (numPatterns h) (orderBy h) (groupBy h ++ vs) (limit h)
           (textLimit h) (offset h) (reduced h) (distinct h) (aliases h)) children l
    else
    let* (b, l) := accept_raw (bytes "having") l in
    if b then
      let* (_, fs, children, l) := parseFilter true (having h) children l in
      let* (fs, children, l) := more_having (length (rest l) + 2) fs children l in
      parseSolutionModifiers fuel'
        (Head (prefixes h) (selected h) fs (numPatterns h) (orderBy h) (groupBy h) (limit h) (textLimit h)
           (offset h) (reduced h) (distinct h) (aliases h)) children l
    else let* _ := accept_any l in ParseError
  end.

(* 45-71 *)
Definition group_ok (h : head) : bool :=
  match groupBy h with
  | [] => true
  | _ => forallb (fun v => negb (at_ v 0 =? 63) || existsb (fun a => text_eqb (a_out a) v) (aliases h) ||
                           existsb (text_eqb v) (groupBy h)) (selected h)
  end.
(* 73-87 *)
Definition count_in (v : text) (l : list text) : nat := length (List.filter (text_eqb v) l).
Definition alias_ok (h : head) : bool :=
  forallb (fun a => Nat.leb (count_in (a_out a) (selected h)) 1) (aliases h).
(* ParsedQuery.h 310-325 *)
Definition empty_head (ps : list (text * text)) : head := Head ps [] [] 1 [] [] [] [] [] false false [].
Definition set_num (n : N) (h : head) : head :=
  Head (prefixes h) (selected h) (having h) n (orderBy h) (groupBy h) (limit h) (textLimit h) (offset h) (reduced h)
    (distinct h) (aliases h).
(* 277, 335, ...: the dot is optional *)
Definition skip_dot (l : lexer) : out lexer := let* (_, l) := accept_raw (bytes ".") l in Ok l.

(* 247-492. n is _numGraphPatterns, fs and cs are the filters and children of currentPattern. The
   patterns of a UNION, OPTIONAL or MINUS are parsed with the same counter. *)
Fixpoint parseWhere (fuel : nat) (n : N) (fs : list filter) (cs : list operation) (lastSubject lastPredicate : text)
  (l : lexer) {struct fuel} : out (N * list filter * list operation * lexer) :=
  match fuel with
  | O => NoFuel
  | S fuel' =>
    let* (b, l) := accept_raw (bytes "}") l in
    if b then Ok (n, fs, cs, l) else
    if empty l then ParseError else
    let* (b, l) := accept_raw (bytes "optional") l in
    if b then
      let* l := expect_raw (bytes "{") l in
      let* (n', fs', cs', l) := parseWhere fuel' (n + 1) [] [] [] [] l in
      let* l := skip_dot l in
      parseWhere fuel' n' fs (cs ++ [Optional (Pattern true n fs' cs')]) lastSubject lastPredicate l
    else
    let* (b, l) := accept_raw (bytes "bind") l in
    if b then
      let* (op, l) := parse_bind l in
      let* l := skip_dot l in
      parseWhere fuel' n fs (cs ++ [op]) lastSubject lastPredicate l
    else
    let* (b, l) := accept_raw (bytes "minus") l in
    if b then
      let* l := expect_raw (bytes "{") l in
      let* (n', fs', cs', l) := parseWhere fuel' (n + 1) [] [] [] [] l in
      let* l := skip_dot l in
      parseWhere fuel' n' fs (cs ++ [Minus (Pattern false n fs' cs')]) lastSubject lastPredicate l
    else
    let* (b, l) := accept_raw (bytes "{") l in
    if b then
      let* (b, l) := accept_raw (bytes "select") l in
      if b then
        let* (q, l) := parseQuery fuel' (empty_head []) l in
        let* l := skip_dot l in
        parseWhere fuel' n fs (cs ++ [Subquery q]) lastSubject lastPredicate l
      else
        let* (n1, fs1, cs1, l) := parseWhere fuel' (n + 2) [] [] [] [] l in
        let* l := expect_raw (bytes "union") l in
        let* l := expect_raw (bytes "{") l in
        let* (n2, fs2, cs2, l) := parseWhere fuel' n1 [] [] [] [] l in
        let* l := skip_dot l in
        parseWhere fuel' n2 fs (cs ++ [Union (Pattern false n fs1 cs1) (Pattern false (n + 1) fs2 cs2)])
          lastSubject lastPredicate l
    else
    let* (b, l) := accept_raw (bytes "filter") l in
    if b then
      let* (_, fs, cs, l) := parseFilter true fs cs l in
      let* l := skip_dot l in
      parseWhere fuel' n fs cs lastSubject lastPredicate l
    else
    let* (b, l) := accept_raw (bytes "values") l in
    if b then
      let* (op, l) := parse_values l in
      let* l := skip_dot l in
      parseWhere fuel' n fs (cs ++ [op]) lastSubject lastPredicate l
    else
      let* (s, l) := match lastSubject with [] => parse_node l | _ => Ok (lastSubject, l) end in
      let* (p, l) := match lastPredicate with [] => parse_predicate l | _ => Ok (lastPredicate, l) end in
      let* (o, l) := parse_node l in
      let* t := make_triple s p o in
      let cs := last_basic (push_new t) cs in
      let* (b, l) := accept_raw (bytes ";") l in
      if b then parseWhere fuel' n fs cs s [] l else
      let* (b, l) := accept_raw (bytes ",") l in
      if b then parseWhere fuel' n fs cs s p l else
      let* (b, l) := accept_raw (bytes "}") l in
      if b then Ok (n, fs, cs, l) else
      let* l := expect_raw (bytes ".") l in
      parseWhere fuel' n fs cs [] [] l
  end
(* 37-88 *)
with parseQuery (fuel : nat) (h : head) (l : lexer) {struct fuel} : out (query * lexer) :=
  match fuel with
  | O => NoFuel
  | S fuel' =>
    let* (h, l) := parseSelect h l in
    let* l := expect_raw (bytes "{") l in
    let* (n, fs, cs, l) := parseWhere fuel' (numPatterns h) [] [] [] [] l in
    let* (h, cs, l) := parseSolutionModifiers (length (rest l) + 2) (set_num n h) cs l in
    if group_ok h && alias_ok h then Ok (Query h (Pattern false 0 fs cs), l) else ParseError
  end.

(* 20-34 *)
Definition parse (q : text) : out query :=
  let* l := start q in
  let* (ps, l) := parsePrologue (length q + 2) [] l in
  let* l := expect_raw (bytes "select") l in
  let* (r, l) := parseQuery (2 * length q + 4) (empty_head ps) l in
  let* _ := expectEmpty l in
  Ok r.

(* ---- prefixes: ParsedQuery.cpp 249-389 ---- *)

(* a hash map, the last entry wins *)
Fixpoint prefix_uri (m : list (text * text)) (p : text) : option text :=
  match m with
  | [] => None
  | (k, v) :: m' => match prefix_uri m' p with Some u => Some u | None => if text_eqb k p then Some v else None end
  end.
(* 250-254 *)
Definition prefix_map (ps : list (text * text)) : list (text * text) :=
  (bytes "ql", bytes "<QLever-internal-function/>") :: ps.
(* 369-383 *)
Definition expand_name (m : list (text * text)) (item : text) : out text :=
  let from := match find_str [94; 94] item with Some i => (i + 2)%nat | None => O end in
  match find_char (N.eqb 58) item with
  | Some i =>
    if Nat.leb from i then
      match prefix_uri m (substr item from (i - from)) with
      | Some uri => escaping (unescapePrefixedIri (firstn from item ++ drop_last 1 uri ++ skipn (i + 1) item ++ [62]))
      | None => Ok item
      end
    else Ok item
  | None => Ok item
  end.
(* 352-389 *)
Definition expandPrefix (m : list (text * text)) (item : text) : out text :=
  if startsWith item [63] || startsWith item [60] then Ok item
  else if startsWith item [64] then
    match find_from (N.eqb 64) item 1 with
    | None => ParseError
    | Some second =>
      let* e := expand_name m (skipn (second + 1) item) in
      Ok ([64] ++ substr item 1 (second - 1) ++ [64] ++ e)
    end
  else expand_name m item.
Fixpoint map_out {A B} (f : A -> out B) (l : list A) : out (list B) :=
  match l with
  | [] => Ok []
  | a :: l' => let* b := f a in let* r := map_out f l' in Ok (b :: r)
  end.
(* 333-349. In the code the leaves are visited in another order; only the kind of exception depends on it. *)
Fixpoint expand_path (m : list (text * text)) (p : path) {struct p} : out path :=
  match p with
  | Path PPath_Model.IRI l iri cs n => let* i := expandPrefix m iri in Ok (Path PPath_Model.IRI l i cs n)
  | Path o l iri cs n =>
    let* cs' := (fix go (ps : list path) : out (list path) :=
                   match ps with
                   | [] => Ok []
                   | p :: ps' => let* a := expand_path m p in let* r := go ps' in Ok (a :: r)
                   end) cs in
    Ok (Path o l iri cs' n)
  end.
(* 309-325 *)
Definition expand_triple (m : list (text * text)) (t : triple) : out triple :=
  let* s := expandPrefix m (t_s t) in
  let* p := expand_path m (t_p t) in
  let in_context := match p with
                    | Path PPath_Model.IRI _ iri _ _ => match find_str (bytes "in-context") iri with Some _ => true | None => false end
                    | _ => false
                    end in
  let* o := if in_context then
              match split (t_o t) 32 with
              | Some tokens => let* ts := map_out (expandPrefix m) tokens in Ok (join ts [32])
              | None => NoFuel
              end
            else expandPrefix m (t_o t) in
  Ok (Triple s p o).
(* 300-304: Constant has one string, Rename one, BinaryOperation two and the operator *)
Definition expand_bind (m : list (text * text)) (e : bind_expr) : out bind_expr :=
  match e with
  | KbConstant v => let* v := expandPrefix m v in Ok (KbConstant v)
  | IntConstant v => Ok (IntConstant v)
  | Rename v => let* v := expandPrefix m v in Ok (Rename v)
  | Binary a b op => let* a := expandPrefix m a in let* b := expandPrefix m b in Ok (Binary a b op)
  end.
(* 256-262 *)
Definition expand_filter (m : list (text * text)) (f : filter) : out filter :=
  let* l := expandPrefix m (f_lhs f) in
  let* r := match f_type f with REGEX => Ok (f_rhs f) | _ => expandPrefix m (f_rhs f) end in
  Ok (Filter (f_type f) l r (f_additionalLhs f) (f_additionalPrefixes f) (f_ignoreCase f) (f_lhsAsString f)).
(* 271-328. The filters of the patterns inside are not touched. A subquery gets the prefixes of the
   query (276). *)
Fixpoint expand_operation (ps : list (text * text)) (op : operation) {struct op} : out operation :=
  let m := prefix_map ps in
  match op with
  | Basic ts => let* ts := map_out (expand_triple m) ts in Ok (Basic ts)
  | Values vars rows => let* rows := map_out (map_out (expandPrefix m)) rows in Ok (Values vars rows)
  | Bind e target => let* e := expand_bind m e in Ok (Bind e target)
  | Optional g => let* g := expand_pattern ps g in Ok (Optional g)
  | Minus g => let* g := expand_pattern ps g in Ok (Minus g)
  | Union a b => let* a := expand_pattern ps a in let* b := expand_pattern ps b in Ok (Union a b)
  | Subquery (Query h (Pattern opt id fs cs)) =>
    let* fs := map_out (expand_filter m) fs in
    let* cs := (fix go (l : list operation) : out (list operation) :=
                  match l with
                  | [] => Ok []
                  | c :: l' => let* c := expand_operation ps c in let* r := go l' in Ok (c :: r)
                  end) cs in
    Ok (Subquery (Query (Head ps (selected h) (having h) (numPatterns h) (orderBy h) (groupBy h) (limit h) (textLimit h)
      (offset h) (reduced h) (distinct h) (aliases h)) (Pattern opt id fs cs)))
  end
with expand_pattern (ps : list (text * text)) (g : pattern) {struct g} : out pattern :=
  match g with
  | Pattern opt id fs cs =>
    let* cs := (fix go (l : list operation) : out (list operation) :=
                  match l with
                  | [] => Ok []
                  | c :: l' => let* c := expand_operation ps c in let* r := go l' in Ok (c :: r)
                  end) cs in
    Ok (Pattern opt id fs cs)
  end.
(* 249-330 *)
Definition expandPrefixes (q : query) : out query :=
  match q with
  | Query h (Pattern opt id fs cs) =>
    let* fs := map_out (expand_filter (prefix_map (prefixes h))) fs in
    let* g := expand_pattern (prefixes h) (Pattern opt id fs cs) in
    Ok (Query h g)
  end.
