(* A query from its text to the response: engine/Server.cpp:205-236 with QueryPlanner::createExecutionTree
   (QueryPlanner.cpp:37-103), for queries whose pattern consists of triples and
   comparisons of a variable with a variable or a constant in FILTER, without grouping and HAVING. The parts are
   Sparql_Model (parser and prefixes), Plan_Model (planner), Whole_Model (execution on the files of an index),
   Query_Model (DISTINCT and ORDER BY) and Output_Model (Json). Here they are put together: the planner has terms as `string`, the others as
   lists of bytes. *)
From Coq Require Import Ascii String List NArith Arith Bool.
From Verif Require Query_Spec Query_Model Conv_Model PPath_Model SLex_Model Sparql_Model Output_Model Perm_Model Vocab_Model.
From Verif Require Strings_Model Collate_Model Filter_Model.
From Verif Require Import Table_Spec Ops_Spec Ops_Model Plan_Model Whole_Model.
Import ListNotations.

Fixpoint str (t : list N) : string :=
  match t with [] => EmptyString | c :: t' => String (ascii_of_N c) (str t') end.

(* IndexScan.h:48-54 setObject, for the object of a triple *)
Definition set_object (o : list N) : Conv_Model.outcome (list N) :=
  if Conv_Model.isXsdValue o then Conv_Model.convertValueLiteralToIndexWord o else Conv_Model.Ok o.
(* Constants.h:39-47: triples with these predicates get other operations than index scans (QueryPlanner.cpp:1172-1173,
   1188, 1262) *)
Definition other_operation (p : list N) : bool :=
  existsb (fun s => if list_eq_dec N.eq_dec (Conv_Model.bytes s) p then true else false)
    ["<QLever-internal-function/contains-entity>"; "<QLever-internal-function/contains-word>"; "<QLever-internal-function/text>";
     "<QLever-internal-function/has-predicate>"]%string.
(* QueryPlanner.cpp:1182-1475: a triple of the query for the planner; None: not covered here *)
Definition plan_triple (t : Sparql_Model.triple) : option triple :=
  match Sparql_Model.t_p t with
  | PPath_Model.Path PPath_Model.IRI _ i _ _ =>
      if other_operation i then None
      else match set_object (Sparql_Model.t_o t) with
           | Conv_Model.Ok w => Some (T (str (Sparql_Model.t_s t)) (str i) (str w))
           | _ => None
           end
  | _ => None
  end.

(* SparqlFilter (ParsedQuery.h): the comparisons *)
Definition comparison (ty : Sparql_Model.filter_type) : option comparison_op :=
  match ty with
  | Sparql_Model.EQ => Some EQ | Sparql_Model.NE => Some NE | Sparql_Model.LT => Some LT
  | Sparql_Model.LE => Some LE | Sparql_Model.GT => Some GT | Sparql_Model.GE => Some GE
  | _ => None
  end.
(* Filter.cpp:651-659: the quotation marks around a literal are removed if they surround an IRI or another literal *)
Definition strip_quotes (t : list N) : list N :=
  let quote := Strings_Model.at_ t (length t - 1) in
  if Nat.ltb 2 (length t) && N.eqb (Strings_Model.at_ t 1) 60 && N.eqb (Strings_Model.at_ t 0) 34 && N.eqb quote 34 then firstn (length t - 2) (skipn 1 t)
  else if Nat.ltb 2 (count_occ N.eq_dec t 34%N) && N.eqb quote 34 then firstn (length t - 2) (skipn 1 t)
  else t.
(* Filter.cpp:642-660: the word that a constant is compared as *)
Definition constant_word (t : list N) : Conv_Model.outcome (list N) :=
  if Conv_Model.isXsdValue t then Conv_Model.convertValueLiteralToIndexWord t
  else if Conv_Model.isNumeric t then Conv_Model.convertNumericToIndexWord t
  else Conv_Model.Ok (strip_quotes t).
(* a filter of the query for the planner, with its number; None: not covered here. That are filters that are no
   comparisons, and != with a constant: whether a row stays does not depend on the row only (C15_not_equal_refuted). *)
Definition plan_filter (i : nat) (f : Sparql_Model.filter) : option filt :=
  let p := F i (str (Sparql_Model.f_lhs f)) [] (str (Sparql_Model.f_rhs f)) in
  match comparison (Sparql_Model.f_type f), Sparql_Model.f_additionalLhs f, Sparql_Model.f_lhsAsString f with
  | Some op, [], false =>
      if is_var (str (Sparql_Model.f_rhs f)) then Some p
      else match op, constant_word (Sparql_Model.f_rhs f) with NE, _ => None | _, Conv_Model.Ok _ => Some p | _, _ => None end
  | _, _, _ => None
  end.
Fixpoint plan_filters (i : nat) (fs : list Sparql_Model.filter) : list (option filt) :=
  match fs with [] => [] | f :: fs' => plan_filter i f :: plan_filters (S i) fs' end.
(* Filter.cpp:255-262: whether a row stays, by the values of the two variables (computeFilter, 135-185), or of the one
   that is compared with a constant (computeResultFixedValue, 641-678 and 750-771). All columns are entries of the
   knowledge base. The searches in sorted columns give the same rows as here (C15_filter_fixed_partial,
   C15_filter_range). *)
Definition filter_holds (v : vocabulary) (fs : list Sparql_Model.filter) (f : filt) (values : list (option N)) : bool :=
  match nth_error fs (f_id f) with
  | Some g =>
      match comparison (Sparql_Model.f_type g) with
      | Some op =>
          if is_var (str (Sparql_Model.f_rhs g))
          then match values with
               | [Some x; Some y] => match Filter_Model.compute_filter_dynamic KB op 0 1 [[x; y]] with [] => false | _ => true end
               | _ => false
               end
          else match values, constant_word (Sparql_Model.f_rhs g) with
               | [Some x], Conv_Model.Ok w =>
                   match Filter_Model.compute_filter_kb (fun a b => Collate_Model.before (v_loc v) a b Collate_Model.QUARTERNARY) (v_words v) op 0 w false [[x]] with
                   | Some (_ :: _) => true
                   | _ => false
                   end
               | _, _ => false
               end
      | None => false
      end
  | None => false
  end.

(* Index.h:183-185, Index::idToOptionalString; a failed check and a read outside of the file are not values *)
Definition world_of (v : vocabulary) : Output_Model.world :=
  Output_Model.World (fun id => match Vocab_Model.idToOptionalString (v_words v) (v_external v) id with Vocab_Model.Word w => Some w | _ => None end)
    (fun _ => []) (fun _ => []) [].
(* the result of a tree whose columns are all entries of the knowledge base, and its columns of variables *)
Definition result_of (m : var_map) (w : nat) (tab : table) : Output_Model.result :=
  Output_Model.Result tab (repeat Output_Model.KB w) (map (fun p => (Conv_Model.bytes (fst p), N.of_nat (snd p))) m).

(* what createExecutionTree knows about DISTINCT and ORDER BY *)
Definition query_of (h : Sparql_Model.head) : Query_Spec.query :=
  Query_Spec.Query (map str (Sparql_Model.selected h)) (Sparql_Model.distinct h) (map (fun k => (str (fst k), snd k)) (Sparql_Model.orderBy h)) [] [] [].
(* Server.cpp:205-217: parse, expandPrefixes, createExecutionTree, and the execution of the tree (QueryExecutionTree.cpp). d
   is the text of the query. DISTINCT and ORDER BY are added to every plan of the last row before the cheapest
   is chosen (QueryPlanner.cpp:62-95). Here any of them may be the cheapest, so nothing depends on the estimates for
   these two operations. *)
Inductive evaluated (o : oracle) (v : vocabulary) (ix : Perm_Model.index) (d : list N) : Sparql_Model.head -> Query_Model.node -> Prop :=
| Evaluated x h gs us ts fs t tab mid res : Sparql_Model.parse d = SLex_Model.Ok x ->
    Sparql_Model.expandPrefixes x = SLex_Model.Ok (Sparql_Model.Query h (Sparql_Model.Pattern false 0 gs [Sparql_Model.Basic us])) ->
    Sparql_Model.groupBy h = [] -> Sparql_Model.aliases h = [] -> Sparql_Model.having h = [] ->
    map plan_triple us = map Some ts -> plan_filters 0 gs = map Some fs -> planned o ts fs [] t -> runs o v ix (filter_holds v gs) t tab ->
    Query_Model.distinct_step (query_of h) (Query_Model.Node (vars o t) (width_of t) (sorted_of t) tab) mid ->
    Query_Model.order_step (query_of h) mid res -> evaluated o v ix d h res.
Definition shown_result (res : Query_Model.node) : Output_Model.result :=
  result_of (Query_Model.n_vars res) (Query_Model.n_width res) (Query_Model.n_rows res).
(* Server.cpp:236, composeResponseJson; send is the parameter of the request *)
Inductive responds (o : oracle) (v : vocabulary) (ix : Perm_Model.index) (d : list N) (send : option (list N)) :
  Conv_Model.outcome (list (list (option (list N)))) -> Prop :=
| Responds h res : evaluated o v ix d h res ->
    responds o v ix d send (Output_Model.responseJson (world_of v) (shown_result res) (Sparql_Model.selected h) (Sparql_Model.limit h) (Sparql_Model.offset h) send).
(* Server.cpp:222, 228: the separator of an export, by the parameter `action`; getLowercase, here for ASCII *)
Definition separator (action : list N) : option N :=
  let a := SLex_Model.lowercase action in
  if list_eq_dec N.eq_dec a (Conv_Model.bytes "csv_export") then Some 44%N
  else if list_eq_dec N.eq_dec a (Conv_Model.bytes "tsv_export") then Some 9%N
  else None.
(* Server.cpp:222-237: a table as Json, or lines *)
Inductive reply := Json (rows : list (list (option (list N)))) | Lines (text : list N).
Definition as_reply {A} (f : A -> reply) (x : Conv_Model.outcome A) : Conv_Model.outcome reply := Conv_Model.bind x (fun a => Conv_Model.Ok (f a)).
Inductive replies (o : oracle) (v : vocabulary) (ix : Perm_Model.index) (d action : list N) (send : option (list N)) : Conv_Model.outcome reply -> Prop :=
| ReplyLines sep h res : separator action = Some sep -> evaluated o v ix d h res ->
    replies o v ix d action send (as_reply Lines (Output_Model.responseSepValues (world_of v) (shown_result res)
      (Sparql_Model.selected h) (Sparql_Model.limit h) (Sparql_Model.offset h) sep))
| ReplyJson r : separator action = None -> responds o v ix d send r -> replies o v ix d action send (as_reply Json r).
