(* The tokens of SPARQL queries, after the grammar of SPARQL (W3C), without reference to the code. Left
   out are the constructs that the code does not know or gets wrong: strings in single or triple quotes,
   variables with a dollar sign, `\$` in names, and names that begin with a keyword (see the
   refutations in SLex_Thm.v). Words of the language are taken in any case. *)
From Coq Require Import Ascii String List NArith Arith Bool.
From Verif Require Import Strings_Spec.
From Verif Require Conv_Model Turtle_Spec.
Import ListNotations.
Open Scope N_scope.
Open Scope list_scope.

Notation text := (list N).
Notation bytes := Conv_Model.bytes.
Notation encoded := Turtle_Spec.encoded.
Notation is_letter := Turtle_Spec.is_letter.
Notation is_digit := Turtle_Spec.is_digit.
Notation is_blank := Turtle_Spec.is_blank.
Notation name_base := Turtle_Spec.name_base.
Notation name_start := Turtle_Spec.name_start.
Notation name_char := Turtle_Spec.name_char.
Notation language := Turtle_Spec.language.

Inductive kind := KIri | KWord | KGroupBy | KOrderBy | KVariable | KSymbol | KAggregate | KLiteral | KInteger
  | KDecimal | KOr.

(* what may be between two tokens: white space and comments *)
Inductive gap : text -> Prop :=
| gap_nil : gap []
| gap_blank c g : is_blank c -> gap g -> gap (c :: g)
| gap_comment c g : ~ In 10 c -> gap g -> gap (35 :: c ++ 10 :: g).
(* after the last token the comment need not be finished *)
Inductive end_gap : text -> Prop :=
| eg_gap g : gap g -> end_gap g
| eg_comment g c : gap g -> ~ In 10 c -> end_gap (g ++ 35 :: c).

(* words in any case *)
Definition same_letter (c k : N) : Prop := c = k \/ is_letter c /\ is_letter k /\ (c + 32 = k \/ k + 32 = c).
Definition written (w k : text) : Prop := Forall2 same_letter w k.
Definition words : list text :=
  map bytes ["select"; "distinct"; "reduced"; "where"; "prefix"; "filter"; "optional"; "union"; "minus"; "bind";
    "values"; "as"; "asc"; "desc"; "limit"; "offset"; "textlimit"; "having"; "lang"; "langmatches"; "regex"; "str";
    "text"; "score"; "separator"]%string.
Definition aggregate_words : list text :=
  map bytes ["count"; "sum"; "min"; "max"; "avg"; "sample"; "group_concat"]%string.
Definition reserved : list text := words ++ aggregate_words ++ map bytes ["groupby"; "orderby"]%string.
Definition begins_reserved (w : text) : Prop := exists k u r, In k reserved /\ written u k /\ w = u ++ r.

(* names *)
Inductive name_rest : text -> Prop :=
| nr_nil : name_rest []
| nr_more k u r : encoded name_char u -> name_rest r -> name_rest (repeat 46 k ++ u ++ r).
Definition prefix (p : text) : Prop := p = [] \/ exists u r, encoded name_base u /\ name_rest r /\ p = u ++ r.
Definition name_escape (u : text) : Prop :=
  (exists a b, Turtle_Spec.is_hex a /\ Turtle_Spec.is_hex b /\ u = [37; a; b]) \/
  (exists c, local_escape c c /\ c <> 36 /\ u = [92; c]).
Inductive local_rest : text -> Prop :=
| lr_nil : local_rest []
| lr_more k u r : encoded (fun x => name_char x \/ x = 58) u \/ name_escape u -> local_rest r ->
    local_rest (repeat 46 k ++ u ++ r).
Definition local_name (l : text) : Prop :=
  exists u r, (encoded (fun x => name_start x \/ x = 58 \/ is_digit x) u \/ name_escape u) /\ local_rest r /\ l = u ++ r.
Definition iri_forbidden : list N := [60; 62; 34; 123; 125; 124; 94; 96; 92; 91; 93].
Inductive iri_body : text -> Prop :=
| ib_nil : iri_body []
| ib_char u r : encoded (fun x => 32 < x /\ ~ In x iri_forbidden) u -> iri_body r -> iri_body (u ++ r).

(* What may follow a token at once, so that the token ends there. *)
Definition head_not (p : N -> Prop) (d : text) : Prop := forall c r, d = c :: r -> ~ p c.
(* the next byte is an ASCII character outside a set *)
Definition head_ascii_not (p : N -> Prop) (d : text) : Prop := forall c r, d = c :: r -> c < 128 /\ ~ p c.
(* after a name: dots only if nothing of the name follows them *)
Inductive after_name : text -> Prop :=
| an_nil : after_name []
| an_char c r : c < 128 -> ~ name_char c -> ~ In c [46; 58; 37; 92] -> after_name (c :: r)
| an_dot r : after_name r -> after_name (46 :: r).
Definition after_integer (d : text) : Prop :=
  head_not is_digit d /\ forall r, d = 46 :: r -> head_not is_digit r.

(* an IRI, its text and what may follow *)
Inductive iri_text : text -> (text -> Prop) -> Prop :=
| it_full u : iri_body u -> iri_text ([60] ++ u ++ [62]) (fun _ => True)
| it_name p l : prefix p -> l = [] \/ local_name l -> iri_text (p ++ [58] ++ l) after_name.

(* string literals: the text between the quotes and its value *)
Inductive string_body : text -> Prop :=
| sb_nil : string_body []
| sb_char u r : encoded (fun x => ~ In x [34; 92; 10; 13]) u -> string_body r -> string_body (u ++ r)
| sb_escape c d r : string_escape c d -> string_body r -> string_body (92 :: c :: r).
Inductive suffix_text : text -> (text -> Prop) -> Prop :=
| su_none : suffix_text [] (head_not (fun c => c = 64 \/ c = 94))
| su_language l : language l -> suffix_text ([64] ++ l) (head_not (fun c => is_letter c \/ is_digit c \/ c = 45))
| su_type i f : iri_text i f -> suffix_text ([94; 94] ++ i) f.

(* A token: its kind, its text, its value and what may follow it. The value of a word is in lower case,
   the value of a literal has its escape sequences replaced. *)
Inductive token_text : kind -> text -> text -> (text -> Prop) -> Prop :=
| tk_word w k : In k words -> written w k -> token_text KWord w k (head_not is_letter)
| tk_aggregate w k : In k aggregate_words -> written w k -> token_text KAggregate w k (head_not is_letter)
| tk_group a s b : written a (bytes "group") -> Forall is_blank s -> written b (bytes "by") ->
    token_text KGroupBy (a ++ s ++ b) (bytes "group" ++ s ++ bytes "by") (fun _ => True)
| tk_order a s b : written a (bytes "order") -> Forall is_blank s -> written b (bytes "by") ->
    token_text KOrderBy (a ++ s ++ b) (bytes "order" ++ s ++ bytes "by") (fun _ => True)
| tk_variable u us : encoded (fun x => name_start x \/ is_digit x) u ->
    Forall (encoded (fun x => name_char x /\ x <> 45)) us ->
    token_text KVariable (63 :: u ++ concat us) (63 :: u ++ concat us) (head_ascii_not name_char)
| tk_iri i f : iri_text i f -> ~ begins_reserved i -> token_text KIri i i f
| tk_tagged l i f : language l -> iri_text i f -> token_text KIri ([64] ++ l ++ [64] ++ i) ([64] ++ l ++ [64] ++ i) f
| tk_literal u s x f : string_body u -> escaped string_escape False False u s -> suffix_text x f ->
    token_text KLiteral ([34] ++ u ++ [34] ++ x) ([34] ++ s ++ [34] ++ x) f
| tk_integer sg ds : sg = [] \/ sg = [45] -> ds <> [] -> Forall is_digit ds ->
    token_text KInteger (sg ++ ds) (sg ++ ds) after_integer
| tk_decimal sg ds es : sg = [] \/ sg = [45] -> ds <> [] -> Forall is_digit ds -> es <> [] -> Forall is_digit es ->
    token_text KDecimal (sg ++ ds ++ [46] ++ es) (sg ++ ds ++ [46] ++ es) (head_not is_digit)
| tk_or : token_text KOr [124; 124] [124; 124] (fun _ => True)
| tk_symbol c : In c [46; 123; 125; 40; 41; 61; 42; 44; 59; 62; 33; 47; 94; 43] -> token_text KSymbol [c] [c] (fun _ => True)
| tk_less : token_text KSymbol [60] [60] (fun d =>
    (* not the start of an IRI: before each `>` there is a character that an IRI must not contain *)
    forall u r, d = u ++ 62 :: r -> exists c, In c u /\ (c <= 32 \/ In c iri_forbidden))
| tk_bar : token_text KSymbol [124] [124] (head_not (eq 124))
| tk_question : token_text KSymbol [63] [63] (head_ascii_not name_char)
| tk_minus : token_text KSymbol [45] [45] (head_not is_digit).

(* a text that consists of tokens with gaps before them *)
Inductive spelled : list (kind * text) -> text -> Prop :=
| sp_end g : end_gap g -> spelled [] g
| sp_token k w v f ts g d : gap g -> token_text k w v f -> spelled ts d -> f d ->
    spelled ((k, v) :: ts) (g ++ w ++ d).
