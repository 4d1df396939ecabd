(* The meaning of SPARQL queries: which query a text stands for, after the grammar of SPARQL (W3C),
   without reference to the parser. The result is given with the data types of ParsedQuery.h
   (Sparql_Model.v). Left out are the constructs that the code does not know or gets wrong (see the
   refutations in Sparql_Thm.v). *)
From Coq Require Import Ascii String List NArith ZArith Arith Bool.
From Verif Require Import SLex_Spec PPath_Spec.
From Verif Require PPath_Model PPath_Proof Sparql_Model Turtle_Spec.
Import ListNotations.
Open Scope N_scope.
Open Scope list_scope.
Import Sparql_Model(triple, Triple, t_s, t_p, t_o, filter, Filter, filter_type, EQ, NE, LT, LE, GT, GE, REGEX, PREFIX, alias, Alias,
  a_out, bind_expr, KbConstant, IntConstant, Rename, Binary, head, Head, operation, Basic, Values, Optional, Minus, Union, Subquery, Bind,
  pattern, Pattern, query, Query, aggregate, COUNT, GROUP_CONCAT, SAMPLE, MIN, MAX, SUM, AVG).
Notation path := PPath_Model.path.
(* the tree for a property path *)
Notation tree_of := PPath_Proof.rep.

(* ---- texts ---- *)

(* What a query is written with: tokens, and property paths, which are followed by white space. *)
Inductive item := Tok (k : kind) (v : text) | Raw (w : text).
Definition is_space (c : N) : Prop := c = 32 \/ 9 <= c <= 13.
Inductive written_as : list item -> text -> Prop :=
| wa_end g : end_gap g -> written_as [] g
| wa_token k w v f is g d : gap g -> token_text k w v f -> written_as is d -> f d ->
    written_as (Tok k v :: is) (g ++ w ++ d)
(* w1 is the first token of the path *)
| wa_path k w1 w2 f is g c d : gap g -> token_text k w1 w1 f -> k = KIri \/ w1 = [40] \/ w1 = [94] ->
    Forall (fun x => ~ is_space x) w2 -> f (w2 ++ c :: d) -> is_blank c -> written_as is (c :: d) ->
    written_as (Raw (w1 ++ w2) :: is) (g ++ w1 ++ w2 ++ c :: d).
Definition Word (s : string) : item := Tok KWord (bytes s).
Definition Sym (s : string) : item := Tok KSymbol (bytes s).

(* Literals without quotes inside, without a backslash at the end and without hyphen in the tag *)
Definition plain (v : text) : Prop :=
  exists s x, v = [34] ++ s ++ [34] ++ x /\ ~ In 34 s /\ (forall s', s <> s' ++ [92]) /\
    (x = [] \/ (exists l, Forall is_letter l /\ x = 64 :: l) \/ (exists i, Forall (fun c => ~ is_space c /\ c <> 34) i /\ x = 94 :: 94 :: i)).
Definition lower (c : N) : N := if (65 <=? c) && (c <=? 90) then c + 32 else c.

(* ---- triples ---- *)
Inductive node := NVar (v : text) | NIri (v : text) | NLit (v : text).
Definition node_text (x : node) : text := match x with NVar v | NIri v | NLit v => v end.
Definition node_item (x : node) : item :=
  match x with NVar v => Tok KVariable v | NIri v => Tok KIri v | NLit v => Tok KLiteral v end.
Definition node_ok (x : node) : Prop := match x with NLit v => plain v | _ => True end.
Inductive predicate := PVar (v : text) | PPath (ts : list text) (p : ppath).
Definition predicate_text (p : predicate) : text := match p with PVar v => v | PPath ts _ => concat ts end.
Definition predicate_item (p : predicate) : item := match p with PVar v => Tok KVariable v | PPath ts _ => Raw (concat ts) end.
Definition predicate_path (p : predicate) : path := match p with PVar v => PPath_Model.leaf v | PPath _ p => tree_of p end.
Definition predicate_ok (p : predicate) : Prop :=
  match p with
  | PVar v => Forall (fun c => graphic c /\ ~ delim c /\ c <> 60 /\ c <> 62 /\ c <> 92) (tl v)
  | PPath ts p => path_of link_text ts p /\ counts_in_star_runs None ts
  end.
(* the words of a text search are in lower case and without quotes *)
Definition contains_word (p : predicate) : Prop :=
  In (predicate_text p) [bytes "<QLever-internal-function/contains-word>"; bytes "ql:contains-word"].
Inductive object_value (p : predicate) : node -> text -> Prop :=
| ov_words s : contains_word p -> s <> [] -> ~ In 34 s -> object_value p (NLit ([34] ++ s ++ [34])) (map lower s)
| ov_other o : ~ contains_word p \/ (forall s, s <> [] -> ~ In 34 s -> o <> NLit ([34] ++ s ++ [34])) -> object_value p o (node_text o).

(* s p o with more predicates and objects *)
Inductive more := Semi (p : predicate) (o : node) | Comma (o : node).
Definition more_items (m : more) : list item :=
  match m with Semi p o => [Sym ";"; predicate_item p; node_item o] | Comma o => [Sym ","; node_item o] end.
Fixpoint more_triples (s : node) (p : predicate) (ms : list more) : list (node * predicate * node) :=
  match ms with
  | [] => []
  | Semi q o :: ms' => (s, q, o) :: more_triples s q ms'
  | Comma o :: ms' => (s, p, o) :: more_triples s p ms'
  end.
Definition more_ok (m : more) : Prop := match m with Semi p o => predicate_ok p /\ node_ok o | Comma o => node_ok o end.

(* Triples come to the last child of the pattern if it consists of triples, else to a new one; equal
   triples count once. *)
Definition in_basic (R : list triple -> list triple -> Prop) (cs cs' : list operation) : Prop :=
  (exists cs0 ts ts', cs = cs0 ++ [Basic ts] /\ R ts ts' /\ cs' = cs0 ++ [Basic ts']) \/
  ((forall cs0 ts, cs <> cs0 ++ [Basic ts]) /\ exists ts', R [] ts' /\ cs' = cs ++ [Basic ts']).
Definition inserted (t : triple) (ts ts' : list triple) : Prop :=
  (In t ts /\ ts' = ts) \/ (~ In t ts /\ ts' = ts ++ [t]).
Inductive adds : list (node * predicate * node) -> list operation -> list operation -> Prop :=
| adds_nil cs : adds [] cs cs
| adds_cons s p o x ts cs cs1 cs2 : object_value p o x -> in_basic (inserted (Triple (node_text s) (predicate_path p) x)) cs cs1 ->
    adds ts cs1 cs2 -> adds ((s, p, o) :: ts) cs cs2.

(* ---- filters ---- *)
Inductive operand := OVar (v : text) | OIri (v : text) | OLit (v : text) | OInt (v : text) | ODec (v : text).
Definition operand_text (x : operand) : text := match x with OVar v | OIri v | OLit v | OInt v | ODec v => v end.
Definition operand_item (x : operand) : item :=
  match x with OVar v => Tok KVariable v | OIri v => Tok KIri v | OLit v => Tok KLiteral v | OInt v => Tok KInteger v | ODec v => Tok KDecimal v end.
Definition relation_items (r : filter_type) : list item :=
  match r with
  | EQ => [Sym "="] | NE => [Sym "!"; Sym "="] | LT => [Sym "<"] | LE => [Sym "<"; Sym "="]
  | GT => [Sym ">"] | GE => [Sym ">"; Sym "="] | _ => []
  end.
Definition is_relation (r : filter_type) : Prop := In r [EQ; NE; LT; LE; GT; GE].
Definition quoted (s : text) : text := [34] ++ s ++ [34].
(* regex([str(]?v[)], "s" [, "i"]) *)
Inductive regex := Regex (str : bool) (v s : text) (ignoreCase : bool).
Definition in_str (str : bool) (i : item) : list item := if str then [Word "str"; Sym "("; i; Sym ")"] else [i].
Definition regex_items (r : regex) : list item :=
  match r with
  | Regex str v s i => [Word "regex"; Sym "("] ++ in_str str (Tok KVariable v) ++ [Sym ","; Tok KLiteral (quoted s)] ++
                       (if i then [Sym ","; Tok KLiteral (quoted (bytes "i"))] else []) ++ [Sym ")"]
  end.
(* An expression without operators stands for the characters in it. *)
Definition operator (c : N) : Prop := In c (bytes "[]^$.|?*+()").
Inductive literal_regex : text -> text -> Prop :=
| lre_nil : literal_regex [] []
(* `{` is an operator as well *)
| lre_char c e s : c <> 92 -> c <> 123 -> ~ operator c -> literal_regex e s -> literal_regex (c :: e) (c :: s)
| lre_escape c e s : c = 92 \/ operator c -> literal_regex e s -> literal_regex (92 :: c :: e) (c :: s).
(* `^` and such an expression: a test for a prefix *)
Inductive regex_means : text -> bool -> filter_type -> text -> Prop :=
| rm_prefix e s : literal_regex e s -> regex_means (94 :: e) false PREFIX (94 :: s)
| rm_operator a s c b : literal_regex a s -> operator c -> regex_means (94 :: a ++ c :: b) false REGEX (94 :: a ++ c :: b)
| rm_inside e i : (forall r, e <> 94 :: r) \/ i = true -> regex_means e i REGEX e.
Inductive regex_filter : regex -> filter -> Prop :=
| rf str v s i ty s' : regex_means s i ty s' -> regex_filter (Regex str v s i) (Filter ty v s' [] [] i str).

Inductive cfilter :=
| Compare (n : nat) (str : bool) (a : operand) (r : filter_type) (b : operand)
| LangIs (n : nat) (v l : text)
| Matches (n : nat) (r : regex) (rs : list regex).
Definition filter_items (f : cfilter) : list item :=
  match f with
  | Compare n str a r b => repeat (Sym "(") n ++ in_str str (operand_item a) ++ relation_items r ++ [operand_item b] ++ repeat (Sym ")") n
  | LangIs n v l => repeat (Sym "(") n ++ [Word "lang"; Sym "("; Tok KVariable v; Sym ")"; Sym "="; Tok KLiteral (quoted l)] ++ repeat (Sym ")") n
  | Matches n r rs => repeat (Sym "(") n ++ regex_items r ++ concat (map (fun r => Tok KOr (bytes "||") :: regex_items r) rs) ++ repeat (Sym ")") n
  end.
(* comparisons and alternatives are in parentheses *)
Definition filter_ok (f : cfilter) : Prop :=
  match f with
  | Compare n str a r b => (0 < n)%nat /\ is_relation r
  | LangIs n v l => (0 < n)%nat
  | Matches n r rs => (0 < n)%nat \/ rs = []
  end.
(* A condition on the language of ?v is put into the predicate of the first triple with the object ?v, or
   becomes a triple of its own. *)
Definition language_iri (l : text) : text := bytes "<QLever-internal-function/@" ++ l ++ bytes ">".
Definition has_object (v : text) (t : triple) (iri : text) : Prop :=
  t_o t = v /\ (exists lim cs nul, t_p t = PPath_Model.Path PPath_Model.IRI lim iri cs nul) /\ forall r, iri <> 63 :: r.
Definition tagged (v l : text) (ts ts' : list triple) : Prop :=
  (exists a t b iri, ts = a ++ t :: b /\ has_object v t iri /\ (forall u i, In u a -> ~ has_object v u i) /\
     ts' = a ++ Triple (t_s t) (PPath_Model.leaf ([64] ++ l ++ [64] ++ iri)) (t_o t) :: b) \/
  ((forall u i, In u ts -> ~ has_object v u i) /\
     inserted (Triple v (PPath_Model.leaf (bytes "<QLever-internal-function/langtag>")) (language_iri l)) ts ts').
Inductive filter_means : cfilter -> filter -> Prop :=
| fm_compare n str a r b : filter_means (Compare n str a r b) (Filter r (operand_text a) (operand_text b) [] [] false str)
| fm_one n r f : regex_filter r f -> filter_means (Matches n r []) f
(* alternatives: only tests for prefixes *)
| fm_many n str v s i s' rs gs : rs <> [] -> regex_filter (Regex str v s i) (Filter PREFIX v s' [] [] i str) ->
    Forall2 (fun r g => exists str v s i s', r = Regex str v s i /\ regex_means s i PREFIX s' /\ g = (v, s')) rs gs ->
    filter_means (Matches n (Regex str v s i) rs) (Filter PREFIX v s' (map fst gs) (map snd gs) i str).
(* fs: the filters, cs: the children of the pattern *)
Inductive filter_adds : cfilter -> list filter -> list operation -> list filter -> list operation -> Prop :=
| fa_lang n v l fs cs cs' : in_basic (tagged v l) cs cs' -> filter_adds (LangIs n v l) fs cs fs cs'
| fa_other f g fs cs : filter_means f g -> filter_adds f fs cs (fs ++ [g]) cs.

(* ---- values and assignments ---- *)
Inductive cell := CIri (v : text) | CLit (v : text).
Definition cell_text (c : cell) : text := match c with CIri v | CLit v => v end.
Definition cell_item (c : cell) : item := match c with CIri v => Tok KIri v | CLit v => Tok KLiteral v end.
Inductive data := Table (vars : list text) (rows : list (list cell)) | Column (v : text) (cells : list cell).
Definition data_items (d : data) : list item :=
  match d with
  | Table vars rows => [Sym "("] ++ map (Tok KVariable) vars ++ [Sym ")"; Sym "{"] ++
      concat (map (fun r => [Sym "("] ++ map cell_item r ++ [Sym ")"]) rows) ++ [Sym "}"]
  | Column v cells => [Tok KVariable v; Sym "{"] ++ map cell_item cells ++ [Sym "}"]
  end.
Definition data_ok (d : data) : Prop :=
  match d with Table vars rows => Forall (fun r => length r = length vars) rows | Column _ _ => True end.
Definition data_means (d : data) : operation :=
  match d with
  | Table vars rows => Values vars (map (map cell_text) rows)
  | Column v cells => Values [v] (map (fun c => [cell_text c]) cells)
  end.
Inductive bound := BLit (v : text) | BInt (v : text) | BIri (v : text) | BVar (v : text) | BOp (a : text) (op : N) (b : text).
Definition bound_items (b : bound) : list item :=
  match b with
  | BLit v => [Tok KLiteral v] | BInt v => [Tok KInteger v] | BIri v => [Tok KIri v] | BVar v => [Tok KVariable v]
  | BOp a op b => [Tok KVariable a; Tok KSymbol [op]; Tok KVariable b]
  end.
(* the value of a number *)
Definition number_value (v : text) (z : Z) : Prop :=
  (exists ds, v = ds /\ Forall is_digit ds /\ z = Z.of_N (PPath_Spec.number ds)) \/
  (exists ds, v = 45 :: ds /\ Forall is_digit ds /\ z = (- Z.of_N (PPath_Spec.number ds))%Z).
Inductive bound_means : bound -> bind_expr -> Prop :=
| bm_lit v : plain v -> bound_means (BLit v) (KbConstant v)
| bm_int v z : number_value v z -> (- 2 ^ 63 <= z < 2 ^ 63)%Z -> bound_means (BInt v) (IntConstant z)
| bm_iri v : bound_means (BIri v) (KbConstant v)
| bm_var v : bound_means (BVar v) (Rename v)
| bm_op a op b : In op (bytes "+-*/") -> bound_means (BOp a op b) (Binary a b op).

(* ---- the head of a query and what follows the pattern ---- *)
Record calias := CAlias { ca_type : aggregate; ca_distinct : bool; ca_in : text; ca_separator : option text; ca_out : text }.
Definition aggregate_name (a : aggregate) : string :=
  match a with COUNT => "count" | GROUP_CONCAT => "group_concat" | SAMPLE => "sample" | MIN => "min" | MAX => "max" | SUM => "sum" | AVG => "avg" end%string.
Definition aggregate_NAME (a : aggregate) : string :=
  match a with COUNT => "COUNT" | GROUP_CONCAT => "GROUP_CONCAT" | SAMPLE => "SAMPLE" | MIN => "MIN" | MAX => "MAX" | SUM => "SUM" | AVG => "AVG" end%string.
Definition alias_items (a : calias) : list item :=
  [Tok KAggregate (bytes (aggregate_name (ca_type a))); Sym "("] ++ (if ca_distinct a then [Word "distinct"] else []) ++
  [Tok KVariable (ca_in a)] ++
  match ca_separator a with Some s => [Sym ";"; Word "separator"; Sym "="; Tok KLiteral (quoted s)] | None => [] end ++
  [Sym ")"; Word "as"; Tok KVariable (ca_out a)].
Definition alias_ok (a : calias) : Prop := match ca_separator a with Some _ => ca_type a = GROUP_CONCAT | None => True end.
(* the last two: a text for the aggregate, and the separator *)
Definition alias_means (a : calias) : alias :=
  Alias (ca_type a) (ca_in a) (ca_out a) (ca_distinct a)
    (bytes (aggregate_NAME (ca_type a)) ++ (if ca_distinct a then bytes "DISTINCT " else []) ++ bytes "(" ++ ca_in a ++
     match ca_separator a with Some s => bytes ";SEPARATOR=" ++ quoted s | None => [] end ++ bytes ") as " ++ ca_out a)
    (match ca_separator a with Some s => s | None => [32] end).
Inductive column := ColVar (v : text) | ColText (v : text) | ColScore (v : text) | ColAlias (a : calias).
Definition column_items (c : column) : list item :=
  match c with
  | ColVar v => [Tok KVariable v]
  | ColText v => [Word "text"; Sym "("; Tok KVariable v; Sym ")"]
  | ColScore v => [Word "score"; Sym "("; Tok KVariable v; Sym ")"]
  | ColAlias a => [Sym "("] ++ alias_items a ++ [Sym ")"]
  end.
Definition column_ok (c : column) : Prop := match c with ColAlias a => alias_ok a | _ => True end.
Definition column_name (c : column) : text :=
  match c with
  | ColVar v => v
  | ColText v => bytes "TEXT(" ++ v ++ bytes ")"
  | ColScore v => bytes "SCORE(" ++ v ++ bytes ")"
  | ColAlias a => ca_out a
  end.
Definition column_alias (c : column) : list alias := match c with ColAlias a => [alias_means a] | _ => [] end.

Inductive key := KeyVar (v : text) | KeyCall (desc : bool) (v : text) | KeyScore (desc : bool) (v : text) | KeyAlias (desc : bool) (a : calias).
Definition direction (desc : bool) : item := if desc then Word "desc" else Word "asc".
Definition key_items (k : key) : list item :=
  match k with
  | KeyVar v => [Tok KVariable v]
  | KeyCall d v => [direction d; Sym "("; Tok KVariable v; Sym ")"]
  | KeyScore d v => [direction d; Sym "("; Word "score"; Sym "("; Tok KVariable v; Sym ")"; Sym ")"]
  | KeyAlias d a => [direction d; Sym "("; Sym "("] ++ alias_items a ++ [Sym ")"; Sym ")"]
  end.
Definition key_ok (k : key) : Prop := match k with KeyAlias _ a => alias_ok a | _ => True end.
Definition key_means (k : key) : text * bool :=
  match k with
  | KeyVar v => (v, false)
  | KeyCall d v => (v, d)
  | KeyScore d v => (bytes "SCORE(" ++ v ++ bytes ")", d)
  | KeyAlias d a => (ca_out a, d)
  end.
Definition key_alias (k : key) : list alias := match k with KeyAlias _ a => [alias_means a] | _ => [] end.

Inductive modifier :=
| OrderBy (k : key) (ks : list key)
| Limit (n : text)
| TextLimit (n : text)
| Offset (n : text)
| GroupBy (v : text) (vs : list text)
| Having (f : cfilter) (fs : list cfilter).
Definition modifier_items (by_text : text) (m : modifier) : list item :=
  match m with
  | OrderBy k ks => Tok KOrderBy by_text :: concat (map key_items (k :: ks))
  | Limit n => [Word "limit"; Tok KInteger n]
  | TextLimit n => [Word "textlimit"; Tok KInteger n]
  | Offset n => [Word "offset"; Tok KInteger n]
  | GroupBy v vs => Tok KGroupBy by_text :: map (Tok KVariable) (v :: vs)
  | Having f fs => Word "having" :: concat (map filter_items (f :: fs))
  end.
Definition modifier_ok (m : modifier) : Prop :=
  match m with
  | OrderBy k ks => Forall key_ok (k :: ks)
  | Having f fs => Forall filter_ok (f :: fs)
  | Limit n | TextLimit n | Offset n => Forall is_digit n
  | GroupBy _ _ => True
  end.
(* the head of the query before and after *)
Inductive modifies : modifier -> head -> head -> Prop :=
| mo_order k ks ps se ha n ob gb li tl of r d al :
    (* an alias in a key has a name of its own *)
    Forall (fun k => match k with KeyAlias _ a => ~ In (ca_out a) se | _ => True end) (k :: ks) ->
    modifies (OrderBy k ks) (Head ps se ha n ob gb li tl of r d al)
      (Head ps se ha n (ob ++ map key_means (k :: ks)) gb li tl of r d (al ++ concat (map key_alias (k :: ks))))
| mo_limit v ps se ha n ob gb li tl of r d al :
    modifies (Limit v) (Head ps se ha n ob gb li tl of r d al) (Head ps se ha n ob gb v tl of r d al)
| mo_textlimit v ps se ha n ob gb li tl of r d al :
    modifies (TextLimit v) (Head ps se ha n ob gb li tl of r d al) (Head ps se ha n ob gb li v of r d al)
| mo_offset v ps se ha n ob gb li tl of r d al :
    modifies (Offset v) (Head ps se ha n ob gb li tl of r d al) (Head ps se ha n ob gb li tl v r d al)
| mo_group v vs ps se ha n ob gb li tl of r d al :
    modifies (GroupBy v vs) (Head ps se ha n ob gb li tl of r d al) (Head ps se ha n ob (gb ++ v :: vs) li tl of r d al)
| mo_having f fs gs ps se ha n ob gb li tl of r d al : Forall2 filter_means (f :: fs) gs ->
    modifies (Having f fs) (Head ps se ha n ob gb li tl of r d al) (Head ps se (ha ++ gs) n ob gb li tl of r d al).
Inductive modify_all : list modifier -> head -> head -> Prop :=
| ma_nil h : modify_all [] h h
| ma_cons m ms h h1 h2 : modifies m h h1 -> modify_all ms h1 h2 -> modify_all (m :: ms) h h2.
Inductive modifiers_items : list modifier -> list item -> Prop :=
| mi_nil : modifiers_items [] []
| mi_cons b m ms is : modifiers_items ms is -> modifiers_items (m :: ms) (modifier_items b m ++ is).
(* with GROUP BY, what is selected is grouped or aggregated *)
Definition grouped (h : head) : Prop :=
  Sparql_Model.groupBy h = [] \/
  forall v, In v (Sparql_Model.selected h) -> (exists r, v = 63 :: r) ->
    In v (Sparql_Model.groupBy h) \/ In v (map a_out (Sparql_Model.aliases h)).
(* no variable is assigned twice *)
Definition once (v : text) (l : list text) : Prop := (count_occ (list_eq_dec N.eq_dec) l v <= 1)%nat.

(* ---- patterns and queries ---- *)
Inductive ending := Dot | NoDot | Semicolon.
Inductive elements :=
| Done
| Triples (s : node) (p : predicate) (o : node) (ms : list more) (e : ending) (r : elements)
| Opt (g : elements) (dot : bool) (r : elements)
| Without (g : elements) (dot : bool) (r : elements)
| Either (a b : elements) (dot : bool) (r : elements)
| Inner (q : select) (dot : bool) (r : elements)
| Condition (f : cfilter) (dot : bool) (r : elements)
| Data (d : data) (dot : bool) (r : elements)
| Assign (b : bound) (v : text) (dot : bool) (r : elements)
with select := Select (distinct reduced : bool) (columns : list column) (g : elements) (ms : list modifier).

Definition dotted (dot : bool) : list item := if dot then [Sym "."] else [].
(* the texts of a pattern and of a query after SELECT *)
Inductive elements_items : elements -> list item -> Prop :=
| ei_done : elements_items Done []
(* the last triples need no dot *)
| ei_triples s p o ms e r is : e = Dot \/ r = Done -> elements_items r is ->
    elements_items (Triples s p o ms e r) ([node_item s; predicate_item p; node_item o] ++ concat (map more_items ms) ++
      match e with Dot => [Sym "."] | NoDot => [] | Semicolon => [Sym ";"] end ++ is)
| ei_optional g dot r is js : elements_items g is -> elements_items r js ->
    elements_items (Opt g dot r) ([Word "optional"; Sym "{"] ++ is ++ [Sym "}"] ++ dotted dot ++ js)
| ei_minus g dot r is js : elements_items g is -> elements_items r js ->
    elements_items (Without g dot r) ([Word "minus"; Sym "{"] ++ is ++ [Sym "}"] ++ dotted dot ++ js)
| ei_union a b dot r is js ks : elements_items a is -> elements_items b js -> elements_items r ks ->
    elements_items (Either a b dot r) ([Sym "{"] ++ is ++ [Sym "}"; Word "union"; Sym "{"] ++ js ++ [Sym "}"] ++ dotted dot ++ ks)
| ei_inner q dot r is js : select_items q is -> elements_items r js ->
    elements_items (Inner q dot r) ([Sym "{"; Word "select"] ++ is ++ [Sym "}"] ++ dotted dot ++ js)
| ei_filter f dot r is : elements_items r is -> elements_items (Condition f dot r) ([Word "filter"] ++ filter_items f ++ dotted dot ++ is)
| ei_values d dot r is : elements_items r is -> elements_items (Data d dot r) ([Word "values"] ++ data_items d ++ dotted dot ++ is)
| ei_bind b v dot r is : elements_items r is ->
    elements_items (Assign b v dot r) ([Word "bind"; Sym "("] ++ bound_items b ++ [Word "as"; Tok KVariable v; Sym ")"] ++ dotted dot ++ is)
with select_items : select -> list item -> Prop :=
| si distinct reduced columns g ms is js : elements_items g is -> modifiers_items ms js ->
    select_items (Select distinct reduced columns g ms)
      ((if distinct then [Word "distinct"] else []) ++ (if reduced then [Word "reduced"] else []) ++ concat (map column_items columns) ++
       [Word "where"; Sym "{"] ++ is ++ [Sym "}"] ++ js).

(* The meaning of a pattern that is read when n patterns have got a number, with the filters fs and the
   children cs so far. *)
Inductive means : elements -> N -> list filter -> list operation -> N -> list filter -> list operation -> Prop :=
| me_done n fs cs : means Done n fs cs n fs cs
| me_triples s p o ms e r n fs cs cs1 n2 fs2 cs2 : node_ok s -> predicate_ok p -> node_ok o -> Forall more_ok ms ->
    adds ((s, p, o) :: more_triples s p ms) cs cs1 -> means r n fs cs1 n2 fs2 cs2 ->
    means (Triples s p o ms e r) n fs cs n2 fs2 cs2
| me_optional g dot r n fs cs n1 fs1 cs1 n2 fs2 cs2 : means g (n + 1) [] [] n1 fs1 cs1 ->
    means r n1 fs (cs ++ [Optional (Pattern true n fs1 cs1)]) n2 fs2 cs2 -> means (Opt g dot r) n fs cs n2 fs2 cs2
| me_minus g dot r n fs cs n1 fs1 cs1 n2 fs2 cs2 : means g (n + 1) [] [] n1 fs1 cs1 ->
    means r n1 fs (cs ++ [Minus (Pattern false n fs1 cs1)]) n2 fs2 cs2 -> means (Without g dot r) n fs cs n2 fs2 cs2
| me_union a b dot r n fs cs n1 fs1 cs1 n2 fs2 cs2 n3 fs3 cs3 : means a (n + 2) [] [] n1 fs1 cs1 -> means b n1 [] [] n2 fs2 cs2 ->
    means r n2 fs (cs ++ [Union (Pattern false n fs1 cs1) (Pattern false (n + 1) fs2 cs2)]) n3 fs3 cs3 ->
    means (Either a b dot r) n fs cs n3 fs3 cs3
| me_inner q x dot r n fs cs n2 fs2 cs2 : select_means q [] x -> means r n fs (cs ++ [Subquery x]) n2 fs2 cs2 ->
    means (Inner q dot r) n fs cs n2 fs2 cs2
| me_filter f dot r n fs cs fs1 cs1 n2 fs2 cs2 : filter_ok f -> filter_adds f fs cs fs1 cs1 -> means r n fs1 cs1 n2 fs2 cs2 ->
    means (Condition f dot r) n fs cs n2 fs2 cs2
| me_values d dot r n fs cs n2 fs2 cs2 : data_ok d -> means r n fs (cs ++ [data_means d]) n2 fs2 cs2 ->
    means (Data d dot r) n fs cs n2 fs2 cs2
| me_bind b e v dot r n fs cs n2 fs2 cs2 : bound_means b e -> means r n fs (cs ++ [Bind e v]) n2 fs2 cs2 ->
    means (Assign b v dot r) n fs cs n2 fs2 cs2
(* the prefixes are those of the text *)
with select_means : select -> list (text * text) -> query -> Prop :=
| sm distinct reduced columns g ms ps n fs cs h : columns <> [] -> Forall column_ok columns -> Forall modifier_ok ms ->
    means g 1 [] [] n fs cs ->
    modify_all ms (Head ps (map column_name columns) [] n [] [] [] [] [] reduced distinct (concat (map column_alias columns))) h ->
    grouped h -> (forall a, In a (Sparql_Model.aliases h) -> once (a_out a) (Sparql_Model.selected h)) ->
    select_means (Select distinct reduced columns g ms) ps (Query h (Pattern false 0 fs cs)).
(* a text: the prefixes and a query *)
Inductive query_items : list (text * text) -> select -> list item -> Prop :=
| qi_select q is : select_items q is -> query_items [] q (Word "select" :: is)
| qi_prefix p i ps q is : query_items ps q is -> query_items ((p, i) :: ps) q ([Word "prefix"; Tok KIri (p ++ [58]); Tok KIri i] ++ is).
