(* Model of the textual cache keys of operations (engine/*.cpp: asString) and of what
   computeResult reads. Texts are lists of bytes, columns and numbers are N. *)
From Coq Require Import Ascii String List NArith Bool.
From Verif Require Import Conv_Model Std_Model.
Import ListNotations.
Open Scope N_scope.

Notation text := (list N).

(* QueryExecutionTree.h: _variableColumnMap, a hash map from variables to columns. The map is
   arbitrary: nothing in the class ties it to the operation. *)
Notation vars := (list (list N * N)).

(* engine/IndexScan.h 14-30: IndexScan::ScanType. *)
Inductive scan_type :=
| PSO_BOUND_S | POS_BOUND_O | SOP_BOUND_O | PSO_FREE_S | POS_FREE_O | SPO_FREE_P | SOP_FREE_O
| OPS_FREE_P | OSP_FREE_S | FULL_SPO | FULL_SOP | FULL_PSO | FULL_POS | FULL_OSP | FULL_OPS.

(* parser/ParsedQuery.h 186-196: SparqlFilter::FilterType. *)
Inductive filter_type := EQ | NE | LT | LE | GT | GE | LANG_MATCHES | REGEX | PREFIX.

(* parser/ParsedQuery.h 260-270: AggregateType (the implemented ones). *)
Inductive aggregate := COUNT | GROUP_CONCAT | FIRST | LAST | SAMPLE | MIN | MAX | SUM | AVG.

(* parser/ParsedQuery.h 299-308: Alias, without _function and _isAggregate (GroupBy keeps only
   the aggregates, GroupBy.cpp 19-23). *)
Record alias := mk_alias {
  al_type : aggregate; al_in : text; al_out : text; al_distinct : bool; al_delimiter : text }.

(* parser/ParsedQuery.h 395-441: the expression of a BIND. A Constant is an integer (its text is
   std::to_string) or a word of the knowledge base. *)
Inductive bind_expr :=
| Rename (var : text)
| ConstInt (value : N)
| ConstKb (word : text)
| Binary (var1 var2 op : text).

(* The operations of engine/, with the members their asString and computeResult functions read.
   A tree is a QueryExecutionTree: root operation, getResultWidth() (arbitrary here) and the
   variable columns. A side is _leftSideTree/_leftSideCol of TransitivePath. *)
Inductive op :=
| Scan (type : scan_type) (s p o : text)
| Join (left right : tree) (lc rc : N)
| MultiJoin (left right : tree) (jcs : list (N * N))
| TwoJoin (left right : tree) (jc1l jc2l jc1r jc2r : N)
| Optional (left right : tree) (lopt ropt : bool) (jcs : list (N * N))
| Minus (left right : tree) (matched : list (N * N))
| Sort (sub : tree) (c : N)
| OrderBy (sub : tree) (indices : list (N * bool))
| Distinct (sub : tree) (keep : list N)
| Filter (sub : tree) (lhs : text) (type : filter_type) (rhs : text) (ignore_case as_str : bool)
         (additional : list (text * text))
| GroupBy (sub : tree) (group : list text) (aliases : list alias)
| Union (left right : tree) (origins : list (option N * option N))
| Path (sub : tree) (lsub rsub : N) (lval rval : option N) (mind maxd : N)
       (width : N) (left right : side)
| HasPredS (object : text)
| HasPredO (subject : text)
| HasPredAll
| HasPredSub (sub : tree) (c : N)
| CountEntity (entity : text)
| CountAll
| CountSub (sub : tree) (c : N)
| Text (words : text) (nvars limit : N)
| TextFilter (words : text) (nvars limit : N) (sub : tree) (c : N)
| Bind (sub : tree) (e : bind_expr) (target : text)
| Values (variables : list text) (values : list (list text))
with tree := Tree (o : op) (width : N) (vs : vars)
with side := NoSide | Side (t : tree) (c : N).

Definition tree_op (t : tree) : op := let (o, _, _) := t in o.
Definition tree_width (t : tree) : N := let (_, w, _) := t in w.
Definition tree_vars (t : tree) : vars := let (_, _, v) := t in v.

Fixpoint text_eqb (a b : text) : bool :=
  match a, b with
  | [], [] => true
  | x :: a', y :: b' => (x =? y) && text_eqb a' b'
  | _, _ => false
  end.

(* HashMap::find / at: the column of a variable. *)
Fixpoint lookup (m : vars) (v : text) : option N :=
  match m with
  | [] => None
  | (k, c) :: m' => if text_eqb k v then Some c else lookup m' v
  end.

(* at() throws std::out_of_range for an unknown variable; then there is no key at all
   (excluded by the well-formedness condition of the theorems), here 0. *)
Definition lookup_at (m : vars) (v : text) : N :=
  match lookup m v with Some c => c | None => 0 end.

Definition nl : text := [10].
Definition spaces (i : nat) : text := repeat 32 i.

(* IndexScan.cpp 17-66: the texts of the scan types, and (IndexScan.cpp 223-265: computeResult)
   the constants that are read. *)
Definition scan_text (ty : scan_type) (s p o : text) : text :=
  match ty with
  | PSO_BOUND_S => bytes "SCAN PSO with P = " ++ [34] ++ p ++ [34] ++ bytes ", S = " ++ [34] ++ s ++ [34]
  | POS_BOUND_O => bytes "SCAN POS with P = " ++ [34] ++ p ++ [34] ++ bytes ", O = " ++ [34] ++ o ++ [34]
  | SOP_BOUND_O => bytes "SCAN SOP with S = " ++ [34] ++ s ++ [34] ++ bytes ", O = " ++ [34] ++ o ++ [34]
  | PSO_FREE_S => bytes "SCAN PSO with P = " ++ [34] ++ p ++ [34]
  | POS_FREE_O => bytes "SCAN POS with P = " ++ [34] ++ p ++ [34]
  | SPO_FREE_P => bytes "SCAN SPO with S = " ++ [34] ++ s ++ [34]
  | SOP_FREE_O => bytes "SCAN SOP with S = " ++ [34] ++ s ++ [34]
  | OPS_FREE_P => bytes "SCAN OPS with O = " ++ [34] ++ o ++ [34]
  | OSP_FREE_S => bytes "SCAN OSP with O = " ++ [34] ++ o ++ [34]
  | FULL_SPO => bytes "SCAN FOR FULL INDEX SPO (DUMMY OPERATION)"
  | FULL_SOP => bytes "SCAN FOR FULL INDEX SOP (DUMMY OPERATION)"
  | FULL_PSO => bytes "SCAN FOR FULL INDEX PSO (DUMMY OPERATION)"
  | FULL_POS => bytes "SCAN FOR FULL INDEX POS (DUMMY OPERATION)"
  | FULL_OSP => bytes "SCAN FOR FULL INDEX OSP (DUMMY OPERATION)"
  | FULL_OPS => bytes "SCAN FOR FULL INDEX OPS (DUMMY OPERATION)"
  end.

Definition scan_args (ty : scan_type) (s p o : text) : list text :=
  match ty with
  | PSO_BOUND_S => [p; s]
  | POS_BOUND_O => [p; o]
  | SOP_BOUND_O => [s; o]
  | PSO_FREE_S | POS_FREE_O => [p]
  | SPO_FREE_P | SOP_FREE_O => [s]
  | OPS_FREE_P | OSP_FREE_S => [o]
  | FULL_SPO | FULL_SOP | FULL_PSO | FULL_POS | FULL_OSP | FULL_OPS => []
  end.

(* Filter.cpp 47-78. *)
Definition filter_text (ty : filter_type) (ignore_case : bool) : text :=
  match ty with
  | EQ => bytes " == "
  | NE => bytes " != "
  | LT => bytes " < "
  | LE => bytes " <= "
  | GT => bytes " > "
  | GE => bytes " >= "
  | LANG_MATCHES => bytes " LANG_MATCHES "
  | REGEX => bytes " REGEX " ++ (if ignore_case then bytes "ignoring case " else [])
  | PREFIX => bytes " PREFIX "
  end.

(* Filter.cpp 83-85. *)
Fixpoint additional_text (l : list (text * text)) : text :=
  match l with
  | [] => []
  | (v, p) :: l' => bytes " || " ++ v ++ [32] ++ p ++ additional_text l'
  end.

(* parser/ParsedQuery.h 272-297. *)
Definition aggregate_text (a : aggregate) : text :=
  match a with
  | COUNT => bytes "COUNT" | GROUP_CONCAT => bytes "GROUP_CONCAT" | FIRST => bytes "FIRST"
  | LAST => bytes "LAST" | SAMPLE => bytes "SAMPLE" | MIN => bytes "MIN" | MAX => bytes "MAX"
  | SUM => bytes "SUM" | AVG => bytes "AVG"
  end.

(* GroupBy.cpp 32-41: _varColMap; a repeated name keeps the last column. *)
Fixpoint number_names (i : N) (names : list text) (m : vars) : vars :=
  match names with
  | [] => m
  | v :: names' => number_names (i + 1) names' ((v, i) :: m)
  end.
Definition group_columns (group : list text) (aliases : list alias) : vars :=
  number_names 0 (group ++ map al_out aliases) [].

(* GroupBy.cpp 56-58. *)
Fixpoint group_text (m : vars) (group : list text) : text :=
  match group with
  | [] => []
  | v :: g' => decimal (lookup_at m v) ++ bytes ", " ++ group_text m g'
  end.

Definition is_concat (a : aggregate) : bool :=
  match a with GROUP_CONCAT => true | _ => false end.

(* GroupBy.cpp 59-67. *)
Fixpoint aliases_text (input m : vars) (l : list alias) : text :=
  match l with
  | [] => []
  | a :: l' =>
    aggregate_text (al_type a) ++ (if is_concat (al_type a) then al_delimiter a else []) ++
    [32] ++ decimal (lookup_at input (al_in a)) ++ [32] ++ decimal (lookup_at m (al_out a)) ++
    aliases_text input m l'
  end.

(* MultiColumnJoin.cpp 41-43, 50-52 and OptionalJoin.cpp 44-46, 53-55: numbers separated by
   ampersands. *)
Fixpoint columns_text (l : list N) : text :=
  match l with
  | [] => []
  | [c] => decimal c
  | c :: l' => decimal c ++ bytes " & " ++ columns_text l'
  end.

(* OrderBy.cpp 36-38. *)
Fixpoint order_text (l : list (N * bool)) : text :=
  match l with
  | [] => []
  | (c, d) :: l' =>
    bytes (if d then "desc(" else "asc(")%string ++ decimal c ++ bytes ") " ++ order_text l'
  end.

Definition starts_with_question (s : text) : bool :=
  match s with c :: _ => c =? 63 | [] => false end.

(* Bind.cpp 102-107: getVariableColumns; the width of the operation is that of its input plus
   one (Bind.cpp 12). *)
Definition bind_columns (sub : tree) (target : text) : vars :=
  (target, tree_width sub) :: tree_vars sub.

(* Bind.cpp 78-95. *)
Definition bind_string (m : vars) (s : text) : text :=
  if starts_with_question s then bytes "(col " ++ decimal (lookup_at m s) ++ bytes ") "
  else s ++ [32].

Definition bind_name (e : bind_expr) : text :=
  match e with
  | Rename _ => bytes "Rename"
  | ConstInt _ | ConstKb _ => bytes "Constant"
  | Binary _ _ _ => bytes "Binary operation"
  end.

Definition bind_strings (e : bind_expr) : list text :=
  match e with
  | Rename v => [v]
  | ConstInt n => [decimal n]
  | ConstKb w => [w]
  | Binary v1 v2 o => [v1; v2; o]
  end.

(* Values.cpp 23-28, 33-38: texts separated by spaces. *)
Fixpoint words_text (l : list text) : text :=
  match l with
  | [] => []
  | [w] => w
  | w :: l' => w ++ [32] ++ words_text l'
  end.

(* Values.cpp 30-43: the rows; a space follows row i when i + 1 < number of variables. *)
Fixpoint rows_text (nvars : nat) (i : nat) (rows : list (list text)) : text :=
  match rows with
  | [] => []
  | r :: rows' =>
    [40] ++ words_text r ++ [41] ++ (if Nat.ltb (i + 1) nvars then [32] else []) ++
    rows_text nvars (i + 1) rows'
  end.

(* The asString functions. *)
Fixpoint asString (i : nat) (o : op) {struct o} : text :=
  match o with
  (* IndexScan.cpp 12-68 *)
  | Scan ty s p ob => spaces i ++ scan_text ty s p ob
  (* Join.cpp 37-50 *)
  | Join l r lc rc =>
    spaces i ++ bytes "JOIN" ++ nl ++ treeString i l ++ bytes " join-column: [" ++ decimal lc ++
    bytes "]" ++ nl ++ spaces i ++ bytes "|X|" ++ nl ++ treeString i r ++
    bytes " join-column: [" ++ decimal rc ++ bytes "]"
  (* MultiColumnJoin.cpp 34-55 *)
  | MultiJoin l r jcs =>
    spaces i ++ bytes "MULTI_COLUMN_JOIN" ++ nl ++ treeString i l ++ bytes " join-columns: [" ++
    columns_text (map fst jcs) ++ bytes "]" ++ nl ++ spaces i ++ bytes "|X|" ++ nl ++
    treeString i r ++ bytes " join-columns: [" ++ columns_text (map snd jcs) ++ bytes "]"
  (* TwoColumnJoin.cpp 51-78 *)
  | TwoJoin l r a b c d =>
    spaces i ++ bytes "TWO_COLUMN_JOIN" ++ nl ++ spaces i ++ treeString i l ++ nl ++ spaces i ++
    bytes "join-columns: [" ++ decimal a ++ bytes " & " ++ decimal b ++ bytes "]" ++ nl ++
    spaces i ++ bytes "|X|" ++ nl ++ spaces i ++ treeString i r ++ nl ++ spaces i ++
    bytes "join-columns: [" ++ decimal c ++ bytes " & " ++ decimal d ++ bytes "]"
  (* OptionalJoin.cpp 37-58 *)
  | Optional l r _ _ jcs =>
    spaces i ++ bytes "OPTIONAL_JOIN" ++ nl ++ treeString i l ++ bytes " join-columns: [" ++
    columns_text (map fst jcs) ++ bytes "]" ++ nl ++ spaces i ++ bytes "|X|" ++ nl ++
    treeString i r ++ bytes " join-columns: [" ++ columns_text (map snd jcs) ++ bytes "]"
  (* Minus.cpp 33-41 *)
  | Minus l r _ =>
    spaces i ++ bytes "MINUS" ++ nl ++ treeString i l ++ nl ++ treeString i r ++ bytes " "
  (* Sort.cpp 21-35 *)
  | Sort t c =>
    spaces i ++ bytes "SORT / ORDER BY on columns:" ++ bytes "asc(" ++ decimal c ++ bytes ") " ++
    nl ++ treeString i t
  (* OrderBy.cpp 26-42 *)
  | OrderBy t l =>
    spaces i ++ bytes "SORT / ORDER BY on columns:" ++ order_text l ++ nl ++ treeString i t
  (* Distinct.cpp 22-29 *)
  | Distinct t _ => spaces i ++ bytes "Distinct " ++ treeString i t
  (* Filter.cpp 40-88 *)
  | Filter t lhs ty rhs ic str add =>
    spaces i ++ bytes "FILTER " ++ treeString i t ++ bytes " with " ++ lhs ++ filter_text ty ic ++
    (if str then bytes "LHS_AS_STR " else []) ++ rhs ++ additional_text add ++ nl
  (* GroupBy.cpp 48-71 *)
  | GroupBy t group aliases =>
    let m := group_columns group aliases in
    spaces i ++ bytes "GROUP_BY " ++ group_text m group ++
    aliases_text (tree_vars t) m aliases ++ nl ++ treeString i t
  (* Union.cpp 41-50 *)
  | Union l r _ =>
    treeString i l ++ nl ++ spaces i ++ bytes "UNION" ++ nl ++ treeString i r ++ nl
  (* TransitivePath.cpp 41-67 *)
  | Path t ls rs lv rv mn mx _ lt rt =>
    spaces i ++ bytes "TransitivePath leftCol " ++ decimal ls ++ bytes " rightCol " ++ decimal rs ++
    match lv with Some v => bytes " leftValue " ++ decimal v | None => [] end ++
    match rv with Some v => bytes " rightValue " ++ decimal v | None => [] end ++
    bytes " minDist " ++ decimal mn ++ bytes " maxDist " ++ decimal mx ++ nl ++
    treeString i t ++ nl ++ sideString i (bytes "Left subtree:") lt ++
    treeString i t ++ nl ++ sideString i (bytes "Right subtree:") rt
  (* HasPredicateScan.cpp 23-43 *)
  | HasPredS ob => spaces i ++ bytes "HAS_RELATION_SCAN with O = " ++ ob
  | HasPredO s => spaces i ++ bytes "HAS_RELATION_SCAN with S = " ++ s
  | HasPredAll => spaces i ++ bytes "HAS_RELATION_SCAN for the full relation"
  | HasPredSub t _ => spaces i ++ bytes "HAS_RELATION_SCAN with S = " ++ treeString i t
  (* CountAvailablePredicates.cpp 38-52 *)
  | CountEntity e => spaces i ++ bytes "COUNT_AVAILABLE_PREDICATES for " ++ e
  | CountAll => spaces i ++ bytes "COUNT_AVAILABLE_PREDICATES for all entities"
  | CountSub t c =>
    spaces i ++ bytes "COUNT_AVAILABLE_PREDICATES (col " ++ decimal c ++ bytes ")" ++ nl ++
    treeString i t
  (* TextOperationWithoutFilter.cpp 43-54 *)
  | Text w n lim =>
    spaces i ++ bytes "TEXT OPERATION WITHOUT FILTER:" ++ bytes " co-occurrence with words: " ++
    [34] ++ w ++ [34] ++ bytes " and " ++ decimal n ++ bytes " variables" ++
    bytes " with textLimit = " ++ decimal lim
  (* TextOperationWithFilter.cpp 57-71 *)
  | TextFilter w n lim t c =>
    spaces i ++ bytes "TEXT OPERATION WITH FILTER:" ++ bytes " co-occurrence with words: " ++
    [34] ++ w ++ [34] ++ bytes " and " ++ decimal n ++ bytes " variables with textLimit = " ++
    decimal lim ++ bytes " filtered by" ++ nl ++ treeString i t ++ nl ++ spaces i ++
    bytes " filtered on column " ++ decimal c
  (* Bind.cpp 68-99 *)
  | Bind t e target =>
    spaces i ++ bytes "BIND (" ++ bind_name e ++ bytes ") on" ++
    concat (map (bind_string (bind_columns t target)) (bind_strings e)) ++ nl ++ treeString i t
  (* Values.cpp 17-46 *)
  | Values variables rows =>
    spaces i ++ bytes "VALUES (" ++ words_text variables ++ bytes ") {" ++
    rows_text (length variables) 0 rows ++ bytes "}"
  end
(* QueryExecutionTree.cpp 32-52; every tree has a root operation here, and the stored text
   _asString is only reused for the same indent, so it is left out. *)
with treeString (i : nat) (t : tree) {struct t} : text :=
  match t with
  | Tree o w _ =>
    spaces i ++ bytes "{" ++ nl ++ asString (i + 2) o ++ nl ++ spaces i ++
    bytes "  qet-width: " ++ decimal w ++ bytes " " ++ nl ++ spaces i ++ bytes "}"
  end
(* TransitivePath.cpp 57-60, 62-65 *)
with sideString (i : nat) (header : text) (s : side) {struct s} : text :=
  match s with
  | NoSide => []
  | Side t _ => header ++ nl ++ treeString i t ++ nl
  end.

(* Operation.cpp 65: the key under which the result is cached. *)
Definition cache_key (o : op) : text := asString 0 o.

(* What computeResult does, as an arbitrary function of exactly what it reads: one function per
   kind of operation. R is the type of results. *)
Inductive filter_rhs := RhsColumn (c : option N) | RhsConst (w : text).
Inductive bind_arg := BindColumn (c : N) | BindInt (n : N) | BindKb (w : text)
                    | BindBinary (c1 c2 : N) (o : text).

Record algebra (R : Type) := {
  (* IndexScan.cpp 223-265 *)
  a_scan : scan_type -> list text -> R;
  (* Join.cpp 65-134 *)
  a_join : N -> N -> N -> N -> R -> R -> R;
  (* MultiColumnJoin.cpp 73-119 *)
  a_multi : list (N * N) -> R -> R -> R;
  (* TwoColumnJoin.cpp 92-131: the widths of the subtrees and the join columns *)
  a_two : N -> N -> N -> N -> N -> N -> R -> R -> R;
  (* OptionalJoin.cpp 76-124 *)
  a_optional : bool -> bool -> list (N * N) -> R -> R -> R;
  (* Minus.cpp 47-75 *)
  a_minus : list (N * N) -> R -> R -> R;
  (* Sort.cpp 51-87 *)
  a_sort : N -> R -> R;
  (* OrderBy.cpp 75-124 *)
  a_order : list (N * bool) -> R -> R;
  (* Distinct.cpp 40-56 *)
  a_distinct : list N -> R -> R;
  (* Filter.cpp 205-265, 622-795: column of _lhs, _type, flags, _rhs (a column if it is a variable), the
     additional columns and prefixes *)
  a_filter : filter_type -> bool -> bool -> option N -> filter_rhs -> list (option N * text) ->
             R -> R;
  (* GroupBy.cpp 686-812: columns of the group-by variables in the input and in the result;
     type, distinct flag, delimiter, input and result column of every aggregate *)
  a_group : list (N * N) -> list (aggregate * bool * text * N * N) -> R -> R;
  (* Union.cpp 128-157 *)
  a_union : list (option N * option N) -> R -> R -> R;
  (* TransitivePath.cpp 667-725 *)
  a_path : N -> N -> option N -> option N -> N -> N -> N -> R -> option (N * R) ->
           option (N * R) -> R;
  (* HasPredicateScan.cpp 203-261 *)
  a_has_s : text -> R;
  a_has_o : text -> R;
  a_has_all : R;
  a_has_sub : N -> R -> R;
  (* CountAvailablePredicates.cpp 134-180 *)
  a_count_entity : text -> R;
  a_count_all : R;
  a_count_sub : N -> R -> R;
  (* TextOperationWithoutFilter.cpp 62-107, TextOperationWithFilter.cpp 79-104 *)
  a_text : text -> N -> N -> R;
  a_text_filter : text -> N -> N -> N -> R -> R;
  (* Bind.cpp 118-181 *)
  a_bind : bind_arg -> R -> R;
  (* Values.cpp 126-136, 187-219: number of variables and rows *)
  a_values : N -> list (list text) -> R }.

Arguments a_scan {R}. Arguments a_join {R}. Arguments a_multi {R}. Arguments a_two {R}.
Arguments a_optional {R}. Arguments a_minus {R}. Arguments a_sort {R}. Arguments a_order {R}.
Arguments a_distinct {R}. Arguments a_filter {R}. Arguments a_group {R}. Arguments a_union {R}.
Arguments a_path {R}. Arguments a_has_s {R}. Arguments a_has_o {R}. Arguments a_has_all {R}.
Arguments a_has_sub {R}. Arguments a_count_entity {R}. Arguments a_count_all {R}.
Arguments a_count_sub {R}. Arguments a_text {R}. Arguments a_text_filter {R}.
Arguments a_bind {R}. Arguments a_values {R}.

Definition filter_arg (m : vars) (rhs : text) : filter_rhs :=
  if starts_with_question rhs then RhsColumn (lookup m rhs) else RhsConst rhs.

Definition group_arg (input m : vars) (v : text) : N * N := (lookup_at input v, lookup_at m v).

Definition alias_arg (input m : vars) (a : alias) : aggregate * bool * text * N * N :=
  (al_type a, al_distinct a, (if is_concat (al_type a) then al_delimiter a else []),
   lookup_at input (al_in a), lookup_at m (al_out a)).

(* Bind.cpp 132-165: the columns of the subtree, not of the operation. *)
Definition bind_argument (t : tree) (e : bind_expr) : bind_arg :=
  match e with
  | Rename v => BindColumn (lookup_at (tree_vars t) v)
  | ConstInt n => BindInt n
  | ConstKb w => BindKb w
  | Binary v1 v2 o => BindBinary (lookup_at (tree_vars t) v1) (lookup_at (tree_vars t) v2) o
  end.

(* The result of an operation without any cache: computeResult applied to the results of the
   subtrees. *)
Fixpoint eval {R} (A : algebra R) (o : op) : R :=
  match o with
  | Scan ty s p ob => a_scan A ty (scan_args ty s p ob)
  | Join l r lc rc =>
    a_join A (tree_width l) (tree_width r) lc rc (eval_tree A l) (eval_tree A r)
  | MultiJoin l r jcs => a_multi A jcs (eval_tree A l) (eval_tree A r)
  | TwoJoin l r a b c d =>
    a_two A (tree_width l) (tree_width r) a b c d (eval_tree A l) (eval_tree A r)
  | Optional l r lo ro jcs => a_optional A lo ro jcs (eval_tree A l) (eval_tree A r)
  | Minus l r m => a_minus A m (eval_tree A l) (eval_tree A r)
  | Sort t c => a_sort A c (eval_tree A t)
  | OrderBy t l => a_order A l (eval_tree A t)
  | Distinct t keep => a_distinct A keep (eval_tree A t)
  | Filter t lhs ty rhs ic str add =>
    a_filter A ty (match ty with REGEX => ic | _ => false end) str (lookup (tree_vars t) lhs)
      (filter_arg (tree_vars t) rhs)
      (map (fun vp => (lookup (tree_vars t) (fst vp), snd vp)) add) (eval_tree A t)
  | GroupBy t group aliases =>
    let m := group_columns group aliases in
    a_group A (map (group_arg (tree_vars t) m) group) (map (alias_arg (tree_vars t) m) aliases)
      (eval_tree A t)
  | Union l r os => a_union A os (eval_tree A l) (eval_tree A r)
  | Path t ls rs lv rv mn mx w lt rt =>
    a_path A ls rs lv rv mn mx w (eval_tree A t) (eval_side A lt) (eval_side A rt)
  | HasPredS ob => a_has_s A ob
  | HasPredO s => a_has_o A s
  | HasPredAll => a_has_all A
  | HasPredSub t c => a_has_sub A c (eval_tree A t)
  | CountEntity e => a_count_entity A e
  | CountAll => a_count_all A
  | CountSub t c => a_count_sub A c (eval_tree A t)
  | Text w n lim => a_text A w n lim
  | TextFilter w n lim t c => a_text_filter A w n lim c (eval_tree A t)
  | Bind t e _ => a_bind A (bind_argument t e) (eval_tree A t)
  | Values variables rows => a_values A (N.of_nat (length variables)) rows
  end
with eval_tree {R} (A : algebra R) (t : tree) : R :=
  match t with Tree o _ _ => eval A o end
with eval_side {R} (A : algebra R) (s : side) : option (N * R) :=
  match s with NoSide => None | Side t c => Some (c, eval_tree A t) end.

(* A cache maps keys to results; QueryExecutionContext.h: QueryResultCache (the concurrent cache
   of util/Cache.h and util/ConcurrentCache.h has its own model). *)
Definition cache R := list (text * R).
Fixpoint cache_find {R} (c : cache R) (k : text) : option R :=
  match c with
  | [] => None
  | (k', v) :: c' => if text_eqb k' k then Some v else cache_find c' k
  end.

(* Operation.cpp 61-144: getResult; a result is computed from the (cached) results of the
   subtrees, first the left one, and stored under the key. *)
Definition through {R} (c : cache R) (o : op) (compute : cache R -> R * cache R) : R * cache R :=
  match cache_find c (cache_key o) with
  | Some v => (v, c)
  | None => let (v, c') := compute c in (v, (cache_key o, v) :: c')
  end.

Fixpoint getResult {R} (A : algebra R) (c : cache R) (o : op) {struct o} : R * cache R :=
  let two (l r : tree) (f : R -> R -> R) (c : cache R) : R * cache R :=
    let (a, c1) := getResult_tree A c l in let (b, c2) := getResult_tree A c1 r in (f a b, c2) in
  let one (t : tree) (f : R -> R) (c : cache R) : R * cache R :=
    let (a, c1) := getResult_tree A c t in (f a, c1) in
  through c o
    match o with
    | Join l r lc rc => two l r (a_join A (tree_width l) (tree_width r) lc rc)
    | MultiJoin l r jcs => two l r (a_multi A jcs)
    | TwoJoin l r a b x y => two l r (a_two A (tree_width l) (tree_width r) a b x y)
    | Optional l r lo ro jcs => two l r (a_optional A lo ro jcs)
    | Minus l r m => two l r (a_minus A m)
    | Sort t x => one t (a_sort A x)
    | OrderBy t l => one t (a_order A l)
    | Distinct t keep => one t (a_distinct A keep)
    | Filter t lhs ty rhs ic str add =>
      one t (a_filter A ty (match ty with REGEX => ic | _ => false end) str
               (lookup (tree_vars t) lhs) (filter_arg (tree_vars t) rhs)
               (map (fun vp => (lookup (tree_vars t) (fst vp), snd vp)) add))
    | GroupBy t group aliases =>
      let m := group_columns group aliases in
      one t (a_group A (map (group_arg (tree_vars t) m) group)
               (map (alias_arg (tree_vars t) m) aliases))
    | Union l r os => two l r (a_union A os)
    | Path t ls rs lv rv mn mx w lt rt =>
      fun c => let (a, c1) := getResult_tree A c t in
               let (b, c2) := getResult_side A c1 lt in
               let (d, c3) := getResult_side A c2 rt in
               (a_path A ls rs lv rv mn mx w a b d, c3)
    | HasPredSub t x => one t (a_has_sub A x)
    | CountSub t x => one t (a_count_sub A x)
    | TextFilter w n lim t x => one t (a_text_filter A w n lim x)
    | Bind t e _ => one t (a_bind A (bind_argument t e))
    | Scan _ _ _ _ | HasPredS _ | HasPredO _ | HasPredAll | CountEntity _ | CountAll
    | Text _ _ _ | Values _ _ => fun c => (eval A o, c)
    end
with getResult_tree {R} (A : algebra R) (c : cache R) (t : tree) {struct t} : R * cache R :=
  match t with Tree o _ _ => getResult A c o end
with getResult_side {R} (A : algebra R) (c : cache R) (s : side) {struct s}
  : option (N * R) * cache R :=
  match s with
  | NoSide => (None, c)
  | Side t x => let (a, c1) := getResult_tree A c t in (Some (x, a), c1)
  end.

(* QueryExecutionTree.cpp 188-197: readFromCache looks for the text of the tree. *)
Definition readFromCache {R} (c : cache R) (t : tree) : option R := cache_find c (treeString 0 t).
