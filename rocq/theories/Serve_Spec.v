(* What a server answers to the text of a query, without ids, files, plans and tables: the texts of the terms in the
   patterns stand for words, an answer gives the variables words so that the patterns are among the facts and the
   conditions hold, and the response has the words of the selected variables for the answers that LIMIT and OFFSET choose. *)
From Coq Require Import String List NArith Arith Bool Sorted.
From Verif Require Conv_Model Sparql_Model Collate_Model Collate_Spec Whole_Spec.
From Verif Require Import SLex_Spec PPath_Spec Sparql_Spec SPrefix_Spec.
Import ListNotations.
Open Scope N_scope.

(* ---- answers ---- *)
Inductive term := TVar (v : text) | TWord (w : text).
Definition tpattern := (term * term * term)%type.
Fixpoint value (U : list text) (mu : list text) (v : text) : option text :=
  match U, mu with
  | u :: U', w :: mu' => if list_eq_dec N.eq_dec u v then Some w else value U' mu' v
  | _, _ => None
  end.
Definition meaning (U : list text) (mu : list text) (t : term) : option text :=
  match t with TVar v => value U mu v | TWord w => Some w end.
Definition true_in (facts : list (text * text * text)) (U : list text) (mu : list text) (t : tpattern) : Prop :=
  let '(s, p, o) := t in exists x y z, meaning U mu s = Some x /\ meaning U mu p = Some y /\ meaning U mu o = Some z /\ In (x, y, z) facts.
(* The words that are kept on disk come last. Otherwise the order is that of the locale. *)
Definition comes_before (loc : Collate_Model.icu) (on_disk : text -> bool) (a b : text) : Prop :=
  (on_disk a = false /\ on_disk b = true) \/ (on_disk a = on_disk b /\ Collate_Spec.precedes loc a b).
(* a condition compares the value of a variable with that of another one, or with a constant: t is written in the
   query (names are expanded) and stands for the word w *)
Inductive given := GVar (y : text) | GWord (t w : text).
Definition condition := (text * Sparql_Model.filter_type * given)%type.
Definition related (before : text -> text -> Prop) (r : Sparql_Model.filter_type) (a b : text) : Prop :=
  match r with
  | Sparql_Model.EQ => a = b | Sparql_Model.NE => a <> b
  | Sparql_Model.LT => before a b | Sparql_Model.LE => before a b \/ a = b
  | Sparql_Model.GT => before b a | Sparql_Model.GE => before b a \/ a = b
  | _ => False
  end.
(* Words and constants are compared by their first characters, and by the texts of literals in the order of the locale,
   without the language. *)
Definition lower (loc : Collate_Model.icu) (a b : text) : Prop :=
  exists c v t c' v' t', Collate_Spec.parts a c v t /\ Collate_Spec.parts b c' v' t' /\
    (c < c' \/ c = c' /\ Collate_Model.icu_compare loc Collate_Model.Quaternary v v' = Lt).
Definition alike (loc : Collate_Model.icu) (a b : text) : Prop :=
  exists c v t v' t', Collate_Spec.parts a c v t /\ Collate_Spec.parts b c v' t' /\ Collate_Model.icu_compare loc Collate_Model.Quaternary v v' = Eq.
(* The words on disk are greater than all constants. *)
Definition related_constant (loc : Collate_Model.icu) (on_disk : text -> bool) (r : Sparql_Model.filter_type) (a w : text) : Prop :=
  match r with
  | Sparql_Model.EQ => on_disk a = false /\ alike loc a w
  | Sparql_Model.LT => on_disk a = false /\ lower loc a w
  | Sparql_Model.LE => on_disk a = false /\ (lower loc a w \/ alike loc a w)
  | Sparql_Model.GT => on_disk a = true \/ lower loc w a
  | Sparql_Model.GE => on_disk a = true \/ lower loc w a \/ alike loc a w
  | _ => False
  end.
Definition fulfilled (loc : Collate_Model.icu) (on_disk : text -> bool) (U : list text) (mu : list text) (c : condition) : Prop :=
  let '(x, r, y) := c in exists a, value U mu x = Some a /\
    match y with
    | GVar y => exists b, value U mu y = Some b /\ related (comes_before loc on_disk) r a b
    | GWord _ w => related_constant loc on_disk r a w
    end.
(* mu has one word for each of the variables U *)
Definition answer (loc : Collate_Model.icu) (on_disk : text -> bool) (facts : list (text * text * text)) (U : list text) (pats : list tpattern) (conds : list condition)
  (mu : list text) : Prop :=
  length mu = length U /\ (forall t, In t pats -> true_in facts U mu t) /\ forall c, In c conds -> fulfilled loc on_disk U mu c.
Definition in_pattern (v : text) (t : tpattern) : Prop := let '(s, p, o) := t in TVar v = s \/ TVar v = p \/ TVar v = o.
(* U: the variables of the patterns *)
Definition variables (U : list text) (pats : list tpattern) : Prop :=
  NoDup U /\ forall v, In v U <-> exists t, In t pats /\ in_pattern v t.
Definition term_dec : forall a b : term, {a = b} + {a <> b}.
Proof. decide equality; apply (list_eq_dec N.eq_dec). Defined.
Definition is_variable (t : term) : bool := match t with TVar _ => true | TWord _ => false end.
Definition variables_of (t : tpattern) : list term := let '(s, p, o) := t in nodup term_dec (filter is_variable [s; p; o]).
(* Patterns and variables, with edges from each pattern to its variables, have one edge less than nodes: if the graph
   is connected it is a tree. *)
Definition tree_shaped (U : list text) (pats : list tpattern) : Prop :=
  (length U + length pats = 1 + list_sum (map (fun t => length (variables_of t)) pats))%nat.

(* ---- the query ---- *)
(* a pattern that consists of triples and comparisons of a variable with something in FILTER *)
Definition compared := (text * Sparql_Model.filter_type * operand)%type.
Inductive made_of : elements -> list (node * predicate * node) -> list compared -> Prop :=
| mo_done : made_of Done [] []
| mo_triples s p o ms e r l cs : made_of r l cs -> made_of (Triples s p o ms e r) ((s, p, o) :: more_triples s p ms ++ l) cs
| mo_condition n x c y dot r l cs : (0 < n)%nat -> is_relation c -> made_of r l cs ->
    made_of (Condition (Compare n false (OVar x) c y) dot r) l ((x, c, y) :: cs).
Definition triple_text (t : node * predicate * node) : text * text * text := let '(s, p, o) := t in (node_text s, predicate_text p, node_text o).
Definition triple_ok (t : node * predicate * node) : Prop := let '(s, p, o) := t in node_ok s /\ predicate_ok p /\ node_ok o.
(* predicates that do not stand for facts *)
Definition internal_predicates : list text :=
  map bytes ["<QLever-internal-function/contains-entity>"; "<QLever-internal-function/contains-word>"; "<QLever-internal-function/text>";
             "<QLever-internal-function/has-predicate>"]%string.
(* digits, with a sign or not, with a point between them or not *)
Definition is_number (t : text) : Prop :=
  exists sign a, (sign = [] \/ sign = [43] \/ sign = [45]) /\ a <> [] /\ Forall is_digit a /\
    (t = sign ++ a \/ exists b, b <> [] /\ Forall is_digit b /\ t = sign ++ a ++ 46 :: b).
Section Reading.
Variable ps : list (text * text).   (* the prefixes *)
(* subjects *)
Inductive reads : node -> term -> Prop :=
| rd_variable v : reads (NVar (63 :: v)) (TVar (63 :: v))
| rd_iri i w : names ps i w -> reads (NIri i) (TWord w).
(* objects: literals as well. Those with a type become the words that stand for values in an index. *)
Inductive reads_object : node -> term -> Prop :=
| ro_node x t : reads x t -> reads_object x t
| ro_literal s : no_carets s -> reads_object (NLit (34 :: s)) (TWord (34 :: s))
| ro_value l s x w : stands ps l (34 :: s ++ [34; 94; 94] ++ x) -> ~ In 34 x -> (forall r, w <> 63 :: r) ->
    Conv_Model.convertValueLiteralToIndexWord (34 :: s ++ [34; 94; 94] ++ x) = Conv_Model.Ok w -> reads_object (NLit l) (TWord w).
Inductive reads_predicate : predicate -> term -> Prop :=
| rp_variable v : (forall a b, 63 :: v <> a ++ bytes "in-context" ++ b) -> reads_predicate (PVar (63 :: v)) (TVar (63 :: v))
| rp_iri i w : names ps i w -> ~ contains_word (PPath [i] (Link i)) -> ~ In w internal_predicates -> (forall a b, w <> a ++ bytes "in-context" ++ b) ->
    reads_predicate (PPath [i] (Link i)) (TWord w).
(* constants of conditions: the text in the query, and the word. Literals of IRIs and literals with quotation marks
   in their text are left out, as is !=. *)
Inductive reads_constant : operand -> text -> text -> Prop :=
| rk_iri i w : names ps i w -> (exists u, w = 60 :: u ++ [62]) -> reads_constant (OIri i) w w
| rk_literal s : no_carets s -> (forall r, s <> 60 :: r) -> (count_occ N.eq_dec s 34%N <= 1)%nat -> reads_constant (OLit (34 :: s)) (34 :: s) (34 :: s)
| rk_value l s x w : stands ps l (34 :: s ++ [34; 94; 94] ++ x) -> ~ In 34 x ->
    Conv_Model.convertValueLiteralToIndexWord (34 :: s ++ [34; 94; 94] ++ x) = Conv_Model.Ok w -> reads_constant (OLit l) (34 :: s ++ [34; 94; 94] ++ x) w
| rk_integer t w : is_number t -> Conv_Model.convertNumericToIndexWord t = Conv_Model.Ok w -> reads_constant (OInt t) t w
| rk_decimal t w : is_number t -> Conv_Model.convertNumericToIndexWord t = Conv_Model.Ok w -> reads_constant (ODec t) t w.
Inductive reads_condition : compared -> condition -> Prop :=
| rc_variable x r y : reads_condition (x, r, OVar y) (x, r, GVar y)
| rc_constant x r a t w : r <> Sparql_Model.NE -> reads_constant a t w -> reads_condition (x, r, a) (x, r, GWord t w).
Definition reads_triple (t : node * predicate * node) (u : tpattern) : Prop :=
  let '(s, p, o) := t in let '(s', p', o') := u in reads s s' /\ reads_predicate p p' /\ reads_object o o'.
End Reading.
(* no predicate is a variable that is also subject or object of the same triple *)
Definition plain_predicates (pats : list tpattern) : Prop := forall s p o, In (s, p, o) pats -> is_variable p = true -> p <> s /\ p <> o.
Definition bytes_only (t : tpattern) : Prop :=
  let '(s, p, o) := t in let ok x := match x with TVar t | TWord t => Forall (fun c => c < 256) t end in ok s /\ ok p /\ ok o.
(* LIMIT and OFFSET *)
Inductive slicing : list modifier -> option N -> option N -> Prop :=
| sl_none : slicing [] None None
| sl_limit n : n < 2 ^ 63 -> slicing [Limit (Conv_Model.decimal n)] (Some n) None
| sl_offset n : n < 2 ^ 63 -> slicing [Offset (Conv_Model.decimal n)] None (Some n)
| sl_both n m : n < 2 ^ 63 -> m < 2 ^ 63 -> slicing [Limit (Conv_Model.decimal n); Offset (Conv_Model.decimal m)] (Some n) (Some m)
| sl_other n m : n < 2 ^ 63 -> m < 2 ^ 63 -> slicing [Offset (Conv_Model.decimal m); Limit (Conv_Model.decimal n)] (Some n) (Some m).
(* ORDER BY with variables, before LIMIT and OFFSET; true: descending *)
Definition plain_key (k : key) : Prop := match k with KeyVar _ | KeyCall _ _ => True | _ => False end.
Inductive modifying : list modifier -> list (text * bool) -> option N -> option N -> Prop :=
| mf_slice ms l o : slicing ms l o -> modifying ms [] l o
| mf_order k ks ms l o : Forall plain_key (k :: ks) -> slicing ms l o -> modifying (OrderBy k ks :: ms) (map key_means (k :: ks)) l o.

(* ---- DISTINCT and ORDER BY ---- *)
Fixpoint may_precede (before : text -> text -> Prop) (U : list text) (keys : list (text * bool)) (mu nu : list text) : Prop :=
  match keys with
  | [] => True
  | (v, desc) :: keys' => exists a b, value U mu v = Some a /\ value U nu v = Some b /\
      ((if desc : bool then before b a else before a b) \/ (a = b /\ may_precede before U keys' mu nu))
  end.
Definition in_order (before : text -> text -> Prop) (U : list text) (keys : list (text * bool)) (sols : list (list text)) : Prop :=
  StronglySorted (may_precede before U keys) sols.
Definition selected (U sel : list text) (mu : list text) : list (option text) := map (value U mu) sel.
(* Without DISTINCT every answer is there once. With DISTINCT what is selected is different for any two, and nothing is lost. *)
Definition solutions (distinct : bool) (U sel : list text) (P : list text -> Prop) (sols : list (list text)) : Prop :=
  if distinct
  then NoDup (map (selected U sel) sols) /\ (forall mu, In mu sols -> P mu) /\
       (forall mu, P mu -> exists nu, In nu sols /\ selected U sel nu = selected U sel mu)
  else Whole_Spec.lists sols P.

(* ---- the response ---- *)
(* Words that begin with :v: stand for values and are displayed as literals. *)
Definition displays (w l : text) : Prop :=
  ((forall t, w <> bytes ":v:" ++ t) /\ l = w) \/
  ((exists t, w = bytes ":v:" ++ t) /\ Conv_Model.convertIndexWordToValueLiteral w = Conv_Model.Ok l).
Definition displayable (facts : list (text * text * text)) : Prop :=
  forall x y z w, In (x, y, z) facts -> In w [x; y; z] -> exists l, displays w l.
(* the values of the selected variables *)
Definition row_of (U sel : list text) (mu : list text) (row : list (option text)) : Prop :=
  Forall2 (fun v x => exists w l, value U mu v = Some w /\ displays w l /\ x = Some l) sel row.

(* a request for lines, with CSV or TSV, in letters of any case *)
Definition same_letter (c w : N) : Prop := c = w \/ (97 <= w <= 122 /\ c + 32 = w).
Definition asks_for_lines (action : text) (sep : N) : Prop :=
  (Forall2 same_letter action (bytes "csv_export") /\ sep = 44) \/ (Forall2 same_letter action (bytes "tsv_export") /\ sep = 9).
