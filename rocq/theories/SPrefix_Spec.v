(* What the names in a query stand for, given the declarations of its prefixes (SPARQL, W3C, 4.1.1). *)
From Coq Require Import Ascii String List NArith Arith Bool.
From Verif Require Import SLex_Spec Strings_Spec.
From Verif Require PPath_Model Sparql_Model.
Import ListNotations.
Open Scope N_scope.
Open Scope list_scope.
Import Sparql_Model(triple, Triple, filter, Filter, filter_type, REGEX, PREFIX, bind_expr, KbConstant, IntConstant, Rename, Binary,
  head, Head, operation, Basic, Values, Optional, Minus, Union, Subquery, Bind, pattern, Pattern, query, Query).

(* characters that the name of a prefix does not contain: a double quote, `:`, `<`, `?`, `@`, `^` *)
Definition good_prefix (p : text) : Prop := Forall (fun c => ~ In c [34; 58; 60; 63; 64; 94]) p.
Definition good_declaration (d : text * text) : Prop := good_prefix (fst d) /\ exists u, snd d = 60 :: u ++ [62] /\ ~ In 92 u.
(* The last declaration of a prefix counts; `ql` is declared from the start. *)
Definition declared (ps : list (text * text)) (p u : text) : Prop :=
  exists a b, (bytes "ql", bytes "<QLever-internal-function/>") :: ps = a ++ (p, u) :: b /\ ~ In p (map fst b).
Definition no_carets (t : text) : Prop := forall a b, t <> a ++ 94 :: 94 :: b.

Section Names.
Variable ps : list (text * text).

(* names: the IRI that is declared for the prefix, with the local name without its backslashes *)
Inductive names : text -> text -> Prop :=
| nm_iri v : no_carets v -> names (60 :: v) (60 :: v)
| nm_name p l l' u : declared ps p (60 :: u ++ [62]) -> no_carets l -> escaped local_escape False False l l' ->
    names (p ++ 58 :: l) (60 :: u ++ l' ++ [62]).
(* all that occurs in a query *)
Inductive stands : text -> text -> Prop :=
| st_variable v : stands (63 :: v) (63 :: v)
| st_iri v : stands (60 :: v) (60 :: v)
| st_name t t' : names t t' -> stands t t'
(* a predicate with a language *)
| st_tagged g t t' : ~ In 64 g -> names t t' -> stands (64 :: g ++ 64 :: t) (64 :: g ++ 64 :: t')
(* literals: without two carets in the text *)
| st_literal s : no_carets s -> stands (34 :: s) (34 :: s)
| st_typed_iri s v : no_carets s -> stands (34 :: s ++ [34; 94; 94; 60] ++ v) (34 :: s ++ [34; 94; 94; 60] ++ v)
(* and here without colons and backslashes in the text *)
| st_typed s t t' : no_carets s -> ~ In 58 s -> ~ In 92 s -> names t t' -> stands (34 :: s ++ [34; 94; 94] ++ t) (34 :: s ++ [34; 94; 94] ++ t')
(* beginnings for a test, numbers, words *)
| st_beginning t : no_carets (94 :: t) -> stands (94 :: t) (94 :: t)
| st_other t : ~ In 58 t -> (forall r, t <> 64 :: r) -> stands t t.

Inductive path_stands : PPath_Model.path -> PPath_Model.path -> Prop :=
| ps_link l i i' cs n : stands i i' -> path_stands (PPath_Model.Path PPath_Model.IRI l i cs n) (PPath_Model.Path PPath_Model.IRI l i' cs n)
| ps_inner o l i cs cs' n : o <> PPath_Model.IRI -> paths_stand cs cs' -> path_stands (PPath_Model.Path o l i cs n) (PPath_Model.Path o l i cs' n)
with paths_stand : list PPath_Model.path -> list PPath_Model.path -> Prop :=
| pss_nil : paths_stand [] []
| pss_cons p p' l l' : path_stands p p' -> paths_stand l l' -> paths_stand (p :: l) (p' :: l').
(* The object of a search for words in a context is a list of words with single spaces. *)
Definition in_context (p : PPath_Model.path) : Prop :=
  match p with PPath_Model.Path PPath_Model.IRI _ i _ _ => exists a b, i = a ++ bytes "in-context" ++ b | _ => False end.
Definition words_stand (t t' : text) : Prop :=
  exists ws ws', ws <> [] /\ Forall (fun w => ~ In 32 w /\ w <> []) ws /\ Forall2 stands ws ws' /\ t = glue [32] ws /\ t' = glue [32] ws'.
Inductive triple_stands : triple -> triple -> Prop :=
| ts_triple s s' p p' o o' : stands s s' -> path_stands p p' -> ~ in_context p' -> stands o o' -> triple_stands (Triple s p o) (Triple s' p' o')
| ts_context s s' p p' o o' : stands s s' -> path_stands p p' -> in_context p' -> words_stand o o' -> triple_stands (Triple s p o) (Triple s' p' o').
Inductive filter_stands : filter -> filter -> Prop :=
| fs_regex l l' r al ap i s : stands l l' -> filter_stands (Filter REGEX l r al ap i s) (Filter REGEX l' r al ap i s)
| fs_other ty l l' r r' al ap i s : ty <> REGEX -> stands l l' -> stands r r' -> filter_stands (Filter ty l r al ap i s) (Filter ty l' r' al ap i s).
Inductive bind_stands : bind_expr -> bind_expr -> Prop :=
| bs_constant v v' : stands v v' -> bind_stands (KbConstant v) (KbConstant v')
| bs_number z : bind_stands (IntConstant z) (IntConstant z)
| bs_rename v v' : stands v v' -> bind_stands (Rename v) (Rename v')
| bs_binary a a' b b' op : stands a a' -> stands b b' -> bind_stands (Binary a b op) (Binary a' b' op).

(* the head of a query: only the conditions in HAVING contain names; a subquery gets the prefixes *)
Inductive head_stands : list (text * text) -> head -> head -> Prop :=
| hs qs p se ha ha' n ob gb li tl of r d al : Forall2 filter_stands ha ha' ->
    head_stands qs (Head p se ha n ob gb li tl of r d al) (Head qs se ha' n ob gb li tl of r d al).
Inductive op_stands : operation -> operation -> Prop :=
| os_basic ts ts' : Forall2 triple_stands ts ts' -> op_stands (Basic ts) (Basic ts')
| os_values vars rows rows' : Forall2 (Forall2 stands) rows rows' -> op_stands (Values vars rows) (Values vars rows')
| os_bind e e' v : bind_stands e e' -> op_stands (Bind e v) (Bind e' v)
| os_optional g g' : pattern_stands g g' -> op_stands (Optional g) (Optional g')
| os_minus g g' : pattern_stands g g' -> op_stands (Minus g) (Minus g')
| os_union a a' b b' : pattern_stands a a' -> pattern_stands b b' -> op_stands (Union a b) (Union a' b')
| os_subquery h h' g g' : head_stands ps h h' -> pattern_stands g g' -> op_stands (Subquery (Query h g)) (Subquery (Query h' g'))
with pattern_stands : pattern -> pattern -> Prop :=
| pt opt id fs fs' cs cs' : Forall2 filter_stands fs fs' -> ops_stand cs cs' -> pattern_stands (Pattern opt id fs cs) (Pattern opt id fs' cs')
with ops_stand : list operation -> list operation -> Prop :=
| oss_nil : ops_stand [] []
| oss_cons o o' l l' : op_stands o o' -> ops_stand l l' -> ops_stand (o :: l) (o' :: l').

(* Patterns in a query whose filters contain no names: in the groups of the pattern (not in the outermost
   ones of the query and its subqueries), and in HAVING. *)
Definition nameless (f : filter) : Prop := filter_stands f f.
Definition head_nameless (h : head) : Prop := Forall nameless (Sparql_Model.having h).
Inductive op_nameless : operation -> Prop :=
| on_basic ts : op_nameless (Basic ts)
| on_values vars rows : op_nameless (Values vars rows)
| on_bind e v : op_nameless (Bind e v)
| on_optional g : group_nameless g -> op_nameless (Optional g)
| on_minus g : group_nameless g -> op_nameless (Minus g)
| on_union a b : group_nameless a -> group_nameless b -> op_nameless (Union a b)
| on_subquery h opt id fs cs : head_nameless h -> ops_nameless cs -> op_nameless (Subquery (Query h (Pattern opt id fs cs)))
with group_nameless : pattern -> Prop :=
| gn opt id fs cs : Forall nameless fs -> ops_nameless cs -> group_nameless (Pattern opt id fs cs)
with ops_nameless : list operation -> Prop :=
| ons_nil : ops_nameless []
| ons_cons o l : op_nameless o -> ops_nameless l -> ops_nameless (o :: l).
End Names.

Inductive query_stands : query -> query -> Prop :=
| qs h h' g g' : head_stands (Sparql_Model.prefixes h) (Sparql_Model.prefixes h) h h' -> pattern_stands (Sparql_Model.prefixes h) g g' ->
    query_stands (Query h g) (Query h' g').
Inductive query_nameless : query -> Prop :=
| qn h opt id fs cs : head_nameless (Sparql_Model.prefixes h) h -> ops_nameless (Sparql_Model.prefixes h) cs ->
    query_nameless (Query h (Pattern opt id fs cs)).
