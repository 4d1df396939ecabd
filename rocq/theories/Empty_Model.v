(* Model of knownEmptyResult: which operations are declared empty without being computed, and Join::computeResult,
   which relies on it. src/engine/*.h (the lines are given at `known_op`), QueryExecutionTree.cpp 175-180,
   IndexScan.cpp 306-332, Index.cpp 1202-1263, Index.Text.cpp 1155-1203 and 1372-1403.
   - A tree is an operation with its inputs. What an operation computes from the results of its inputs is taken
     from the models of the operations (Join_Model, MultiJoin_Model, Ops_Model, ...).
   - Filter: a row stays or goes; the algorithms of Filter.cpp are the subject of C15.
   - Executions that throw have no result. *)
From Coq Require Import String List NArith Arith Bool.
From Verif Require Import Table_Spec Std_Model Ops_Spec Ops_Model Join_Model MultiJoin_Model Vars_Model GroupBy_Spec GroupBy_Model
  Path_Model HasPred_Spec HasPred_Model Plan_Model Fts_Model Postings_Model TextIndex_Model TextOp_Model.
From Verif Require Bind_Model Values_Model.
Import ListNotations.
Local Open Scope N_scope.

(* ---------- text ---------- *)

(* A word of a text search after the look-up in the vocabularies: found; a word or entity that is not there; a
   prefix no word begins with, with the position where such words would be (Vocabulary.cpp:314-327). *)
Inductive word := Found (t : term) | NoWord | NoPrefix (p : N).
Definition as_term (w : word) : term := match w with Found t => t | _ => Unknown end.

(* Index.Text.cpp:1372-1403 getSizeEstimate: the number of entity postings of the smallest block *)
Fixpoint estimate_loop (m : text_meta) (minElLength : N) (ws : list word) : Postings_Model.result N :=
  match ws with
  | [] => Done (1 + minElLength / 100)
  | Found t :: ws' =>
      rbind (term_block m t) (fun b => estimate_loop m (N.min minElLength (N.of_nat (l_count (b_ecl b)))) ws')
  | _ => Done 0
  end.
Definition text_estimate (m : text_meta) (ws : list word) : Postings_Model.result N := estimate_loop m (2 ^ 64 - 1) ws.

(* Index.Text.cpp:1155-1203 getIndexOfBestSuitedElTerm. The loop: the entries that are sorted, or the index of a
   word that is not in the vocabulary (inr). The result of getIdRangeForFullTextPrefix is not looked at: the range
   of a prefix no word begins with is p .. p - 1. *)
Definition suited := (nat * bool * N)%type.
Fixpoint suited_loop (m : text_meta) (i : nat) (ws : list word) : Postings_Model.result (list suited + nat) :=
  let add b ws' :=
    rbind (suited_loop m (S i) ws') (fun r =>
      Done (match r with
            | inl es => inl ((i, b_first b =? b_last b, N.of_nat (l_count (b_ecl b))) :: es)
            | inr j => inr j
            end)) in
  match ws with
  | [] => Done (inl [])
  | NoWord :: _ => Done (inr i)
  | NoPrefix p :: ws' => rbind (getBlockInfoByWordRange m p ((p + (2 ^ 64 - 1)) mod 2 ^ 64)) (fun b => add b ws')
  | Found t :: ws' => rbind (term_block m t) (fun b => add b ws')
  end.
(* 1194-1201 *)
Definition suited_less (a b : suited) : bool :=
  let '(_, fa, na) := a in let '(_, fb, nb) := b in
  if Bool.eqb fa fb then na <? nb else fa.
(* std::sort and the first entry; `i` is a possible result *)
Definition best_suited (m : text_meta) (ws : list word) (i : nat) : Prop :=
  match suited_loop m 0 ws with
  | Done (inr j) => i = j
  | Done (inl es) => exists sorted e rest, sort_result suited_less es sorted /\ sorted = e :: rest /\ i = fst (fst e)
  | _ => False
  end.
(* Index.Text.cpp:638-694: the term is only chosen if there are several *)
Definition entity_lists (file : list N) (m : text_meta) (ws : list word) (ps : list posting) : Prop :=
  exists use, match ws with [] | [_] => True | _ => best_suited m ws use end /\
    getContextEntityScoreListsForWords file m use (map as_term ws) = Done ps.

(* ---------- operations ---------- *)

Inductive op :=
| IndexScan (o : order) (bound : list string)            (* one or two bound terms *)
| Join (lc rc : nat)
| JoinFullLeft (o : order) (rc : nat)                     (* the other side is a full index scan *)
| JoinFullRight (o : order) (lc : nat)
| TwoColumnJoin (wl wr jc1l jc2l jc1r jc2r : nat)
| MultiColumnJoin (wr : nat) (jcs : list (nat * nat))
| OptionalJoin (wl wr : nat) (leftOptional rightOptional : bool) (jcs : list (nat * nat))
| Minus (jcs : list (nat * nat))
| Union (os : list origin) (wl wr : nat)
| Distinct (w : nat) (keep : list nat)
| Sort (c : nat)
| OrderBy (key : list (nat * bool))
| Filter (keep : row -> bool)
| GroupBy (types : list result_type) (sub : var_map) (groupVars : list string) (aliases : list GroupBy_Spec.alias) (blank : nat -> row)
| BindOp (b : Bind_Model.bind) (types : list Bind_Model.type) (columns : list (list N * nat))
| ValuesOp (v : Values_Model.sparql_values)
| TransitivePath (leftIsVar rightIsVar : bool) (leftSubCol rightSubCol : nat) (leftValue rightValue minDist maxDist : N)
| PathLeftBound (leftSideCol : nat) (rightIsVar : bool) (leftSubCol rightSubCol : nat) (rightValue minDist maxDist : N) (blank : row) (w : nat)
| PathRightBound (rightSideCol : nat) (leftIsVar : bool) (leftSubCol rightSubCol : nat) (leftValue minDist maxDist : N) (blank : row) (w : nat)
| HasPredicateFreeS (object : N) | HasPredicateFreeO (subject : N) | HasPredicateFull | HasPredicateSubquery (c : nat)
| CountPredicates (c : nat) | CountPredicatesAll | CountPredicatesOne (e : N)
| Text (o : text_op) (ws : list word)
| TextFilter (o : text_op) (ws : list word) (junk : N) (fw fcol : nat).
Inductive tree := Node (o : op) (inputs : list tree).

(* what the operations read *)
Record world := World {
  voc : string -> option N; ix : index; num_triples : N;
  pinned : order -> list string -> option N;             (* QueryExecutionContext::getPinnedSizes *)
  env : environment; bind_world : Bind_Model.world; values_id : list N -> option N;
  fuel : nat; iteration : iteration_order;
  patterns_of : pattern_index; hash_order : map_order;
  text_file : list N; text_metadata : text_meta;
  chosen : op -> list table -> table                     (* see `computes` *)
}.

Section World.
Variable w : world.

(* the result of an operation, given the results of its inputs *)
Definition apply (o : op) (xs : list table) (r : table) : Prop :=
  match o, xs with
  | IndexScan od bound, [] => bound <> [] /\ r = scan_table (voc w) (ix w) od bound
  | Join lc rc, [a; b] => join a lc b rc = Some r
  | JoinFullLeft od rc, [b] => r = full_scan_left (full_scan_method (ix w) od) b rc
  | JoinFullRight od lc, [a] => r = full_scan_right (full_scan_method (ix w) od) a lc
  | TwoColumnJoin wl wr jc1l jc2l jc1r jc2r, [a; b] => two_column_join wl wr a b jc1l jc2l jc1r jc2r = TcjTable (Some r)
  | MultiColumnJoin wr jcs, [a; b] => multi_column_join wr a b jcs = Some r
  | OptionalJoin wl wr lo ro jcs, [a; b] => optional_join wl wr a b lo ro jcs = Some r
  | Minus jcs, [a; b] => compute_minus a b jcs = Some r
  | Union os wl wr, [a; b] => compute_union os wl wr a b = Some r
  | Distinct wd keep, [a] => distinct_rows wd keep a = Some r
  | Sort c, [a] => sort_result (sort_less c) a r
  | OrderBy key, [a] => sort_result (order_by_less key) a r
  | Filter keep, [a] => r = filter keep a
  | GroupBy types sub groupVars aliases blank, [a] =>
      exists strings, group_by_result (env w) types sub groupVars aliases blank a = Some (r, strings)
  | BindOp b types columns, [a] =>
      exists t, Bind_Model.computeResult (bind_world w) b (Bind_Model.Table types columns a) = Some t /\ r = Bind_Model.data t
  | ValuesOp v, [] => exists t, Values_Model.computeResult (values_id w) v = Some t /\ r = Values_Model.data t
  | TransitivePath lv rv lsc rsc lval rval mn mx, [sub] =>
      compute_path (fuel w) (iteration w) sub lv rv lsc rsc lval rval mn mx = Some r
  | PathLeftBound sc rv lsc rsc rval mn mx blank wd, [sub; side] =>
      compute_path_left_bound (fuel w) (iteration w) sub side sc rv lsc rsc rval mn mx blank wd = Some r
  | PathRightBound sc lv lsc rsc lval mn mx blank wd, [sub; side] =>
      compute_path_right_bound (fuel w) (iteration w) sub side sc lv lsc rsc lval mn mx blank wd = Some r
  | HasPredicateFreeS object, [] => compute_free_s (patterns_of w) object = Some r
  | HasPredicateFreeO subject, [] => compute_free_o (patterns_of w) subject = Some r
  | HasPredicateFull, [] => compute_full_scan (patterns_of w) = Some r
  | HasPredicateSubquery c, [a] => compute_subquery_s (patterns_of w) c a = Some r
  | CountPredicates c, [a] => pattern_trick (patterns_of w) (hash_order w) c a = Some r
  | CountPredicatesAll, [] => pattern_trick_all (patterns_of w) (hash_order w) = Some r
  | CountPredicatesOne e, [] => pattern_trick_one (patterns_of w) (hash_order w) e = Some r
  | Text o ws, [] =>
      if Nat.eqb (nof_vars o) 0
      then exists cs, getContextListForWords (text_file w) (text_metadata w) (map as_term ws) = Done cs /\ text_result o cs [] r
      else exists ps, entity_lists (text_file w) (text_metadata w) ws ps /\ text_result o [] ps r
  | TextFilter o ws junk fw fcol, [a] =>
      exists ps, entity_lists (text_file w) (text_metadata w) ws ps /\ text_filter_result junk o ps fw a fcol (Some r)
  | _, _ => False
  end.

(* The result of a tree, all inputs computed. Where an operation has several possible results (the order of equal
   rows, of the entries of a hash map), `chosen` says which one it is: an operation run twice on the same tables
   gives the same table. *)
Inductive computes : tree -> table -> Prop :=
| Computed : forall o ts xs, Forall2 computes ts xs -> apply o xs (chosen w o xs) -> computes (Node o ts) (chosen w o xs).

(* Index.cpp:1202-1235: the number of triples with this subject, predicate or object, read from SPO, PSO or OSP *)
Definition cardinality_order (o : order) : order :=
  match o with SPO | SOP => SPO | PSO | POS => PSO | OSP | OPS => OSP end.
(* global/Constants.h:35 and 44-45 *)
Definition TEXT_PREDICATE : string := "<QLever-internal-function/text>".
Definition TEXT_PREDICATE_CARDINALITY : N := 1000000000.
Definition is_predicate_order (o : order) : bool := match o with PSO | POS => true | _ => false end.
Definition cardinality (o : order) (x : string) : N :=
  if is_predicate_order o && String.eqb x TEXT_PREDICATE then TEXT_PREDICATE_CARDINALITY
  else match voc w x with
       | Some id => N.of_nat (length (filter (fun r => col 0 r =? id) (ix w (cardinality_order o))))
       | None => 0
       end.
(* IndexScan.cpp:306-332 computeSizeEstimate *)
Definition scan_estimate (o : order) (bound : list string) : N :=
  match bound with
  | [] => num_triples w
  | [x] => cardinality o x
  | _ => match pinned w o bound with
         | Some n => n
         | None => N.of_nat (length (scan_table (voc w) (ix w) o bound))
         end
  end.
(* an exception of getSizeEstimate ends the query *)
Definition text_known_empty (ws : list word) : bool :=
  match text_estimate (text_metadata w) ws with Done 0 => true | _ => false end.

(* knownEmptyResult of the operations, given that of the inputs: Join.h:56, TwoColumnJoin.h:52, MultiColumnJoin.h:34,
   OptionalJoin.h:36, Minus.h:39, Union.cpp:82, Distinct.h:52, Sort.h:47, OrderBy.h:53, Filter.h:99, GroupBy.h:62,
   Bind.cpp:65, Values.h:28, TransitivePath.cpp:152, HasPredicateScan.cpp:117, CountAvailablePredicates.h:71,
   TextOperationWithoutFilter.h:56, TextOperationWithFilter.h:57, IndexScan.h:85. *)
Definition known_op (o : op) (ks : list bool) : bool :=
  match o, ks with
  | IndexScan od bound, _ => scan_estimate od bound =? 0
  | Join _ _, [l; r] => l || r
  | JoinFullLeft _ _, [r] => (num_triples w =? 0) || r
  | JoinFullRight _ _, [l] => l || (num_triples w =? 0)
  | TwoColumnJoin _ _ _ _ _ _, [l; r] => l || r
  | MultiColumnJoin _ _, [l; r] => l || r
  | OptionalJoin _ _ lo ro _, [l; r] => (l && negb lo) || (r && negb ro) || (l && r)
  | Minus _, [l; _] => l
  | Union _ _ _, [l; r] => l && r
  | Distinct _ _, [k] => k
  | Sort _, [k] => k
  | OrderBy _, [k] => k
  | Filter _, [k] => k
  | GroupBy _ _ _ _ _, [k] => k
  | BindOp _ _ _, [k] => k
  | ValuesOp v, _ => match Values_Model.sanitizeValues v with
                     | Some v' => (match Values_Model.variables v' with [] => true | _ => false end) || (match Values_Model.values v' with [] => true | _ => false end)
                     | None => false
                     end
  | TransitivePath _ _ _ _ _ _ _ _, [k] => k
  | PathLeftBound _ _ _ _ _ _ _ _ _, [k; _] => k
  | PathRightBound _ _ _ _ _ _ _ _ _, [k; _] => k
  | HasPredicateSubquery _, [k] => k
  | CountPredicates _, [k] => k
  | Text _ ws, _ => text_known_empty ws
  | TextFilter _ ws _ _ _, [k] => k || text_known_empty ws
  | _, _ => false
  end.

(* results in the cache *)
Variable cached : tree -> option table.

(* QueryExecutionTree.cpp:175-180 *)
Fixpoint known_empty (t : tree) : bool :=
  match cached t with
  | Some r => match r with [] => true | _ => false end
  | None => match t with Node o ts => known_op o (map known_empty ts) end
  end.

Definition is_join (o : op) : bool :=
  match o with Join _ _ | JoinFullLeft _ _ | JoinFullRight _ _ => true | _ => false end.
(* Execution: a result is taken from the cache or computed; Join.cpp:74-82 gives an empty result if an input is known
   to be empty, 96-104 if the left one turns out to be empty. *)
Inductive runs : tree -> table -> Prop :=
| RCached : forall t r, cached t = Some r -> runs t r
| RKnown : forall o ts, is_join o = true -> known_op o (map known_empty ts) = true -> runs (Node o ts) []
| RLeftEmpty : forall lc rc l r, runs l [] -> runs (Node (Join lc rc) [l; r]) []
| RComputed : forall o ts xs, Forall2 runs ts xs -> apply o xs (chosen w o xs) -> runs (Node o ts) (chosen w o xs).
End World.
