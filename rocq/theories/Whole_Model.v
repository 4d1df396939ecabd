(* The execution of a plan on the files of an index: the operations of Plan_Model, with scans that look up their keys in
   the vocabulary (Vocab_Model) and read the files of the permutations (Perm_Model). *)
From Coq Require Import String List NArith Arith Bool.
From Verif Require Strings_Model Conv_Model Perm_Model Merge_Model.
From Verif Require Import Table_Spec Ops_Spec Ops_Model Vars_Model Join_Model MultiJoin_Model Collate_Model Vocab_Model Plan_Model Meta_Model.
Import ListNotations.

(* the vocabulary in memory (on the expanded words) and on disk; Index.cpp:988-991 *)
Record vocabulary := V {
  v_loc : icu;
  v_externalize : list N -> bool;    (* Vocabulary::shouldBeExternalized *)
  v_words : list (list N);
  v_external : external }.
(* Vocabulary.h:370-381: the id of a term, if there is one; a search that does not end well is UB *)
Definition id_of (v : vocabulary) (t : string) : outcome (option N) :=
  match getId (v_loc v) (v_externalize v) (v_words v) (v_external v) (Conv_Model.bytes t) with
  | Found id => Ok (Some id)
  | NotFound => Ok None
  | Broken => UB
  end.

(* Index.h:98-115: the permutations *)
Definition files_of (ix : Perm_Model.index) (ord : order) : list N * rmap :=
  match ord with
  | SPO => Perm_Model.x_spo ix | SOP => Perm_Model.x_sop ix | PSO => Perm_Model.x_pso ix
  | POS => Perm_Model.x_pos ix | OSP => Perm_Model.x_osp ix | OPS => Perm_Model.x_ops ix
  end.
Definition pair_row (p : N * N) : row := [fst p; snd p].

(* Index.h:376-386: a scan with one id; the metadata is loaded when the server starts (Index.cpp:985-998) *)
Definition scan_id (ix : Perm_Model.index) (ord : order) (id : N) : outcome table :=
  bind (Perm_Model.load_permutation (files_of ix ord)) (fun m =>
  bind (Perm_Model.scan (fst (files_of ix ord)) m id) (fun l => Ok (map pair_row l))).
(* Index.h:426-465 after the vocabulary lookups *)
Definition scan_ids (ix : Perm_Model.index) (ord : order) (id1 id2 : N) : outcome table :=
  bind (Perm_Model.load_permutation (files_of ix ord)) (fun m =>
  bind (Perm_Model.scan2 (fst (files_of ix ord)) m id1 id2) (fun l => Ok (map (fun x => [x]) l))).
(* IndexScan.cpp:223-303 and 334-381: computeResult. The keys of a scan are looked up one after the other (Index.h:398-408
   and 432: && does not look up the second key if there is no first one); a full scan throws. *)
Definition index_scan (v : vocabulary) (ix : Perm_Model.index) (ord : order) (bound : list string) : outcome table :=
  match bound with
  | [a] => bind (id_of v a) (fun x => match x with Some id => scan_id ix ord id | None => Ok [] end)
  | [a; b] =>
      bind (id_of v a) (fun x => match x with
      | Some id1 => bind (id_of v b) (fun y => match y with Some id2 => scan_ids ix ord id1 id2 | None => Ok [] end)
      | None => Ok []
      end)
  | _ => Throw
  end.

(* `runs … t result`: the execution of the plan t can give result. The rules are those of Plan_Model.computes, except
   that scans are index_scan, and that a join with a full scan (Join.cpp:276-401) scans the files for every id of the
   join column of the other operand. *)
Inductive runs (o : oracle) (v : vocabulary) (ix : Perm_Model.index) (sat : filt -> list (option N) -> bool) : tree -> table -> Prop :=
| RScan : forall ord bound vs t, dummy (Scan ord bound vs) = false -> index_scan v ix ord bound = Ok t ->
    runs o v ix sat (Scan ord bound vs) t
| REq : forall t x y a, runs o v ix sat t a ->
    runs o v ix sat (EqFilter t x y)
      (filter (fun r => same_value (value_of (vars o t) r x) (value_of (vars o t) r y)) a)
| RFilter : forall t f a, runs o v ix sat t a ->
    runs o v ix sat (FilterT t f) (filter (fun r => sat f (map (value_of (vars o t) r) (filter_vars f))) a)
| RSort : forall t c a b, runs o v ix sat t a -> sort_result (sort_less c) a b -> runs o v ix sat (SortT t c) b
| ROrderBy : forall t key a b, runs o v ix sat t a ->
    sort_result (order_by_less (map (fun c => (c, false)) key)) a b -> runs o v ix sat (OrderByT t key) b
| RJoin : forall l r lc rc a b t, dummy l = false -> dummy r = false -> runs o v ix sat l a -> runs o v ix sat r b ->
    (N.of_nat (length a) / N.of_nat (length b) <= 1000)%N -> join a lc b rc = Some t -> runs o v ix sat (JoinT l r lc rc) t
| RJoinEmpty : forall l r lc rc, dummy l = false -> dummy r = false -> runs o v ix sat l [] -> runs o v ix sat (JoinT l r lc rc) []
| RFullLeft : forall ord vs r lc rc b scan, dummy (Scan ord [] vs) = true -> runs o v ix sat r b ->
    (forall x, In x b -> scan_id ix ord (col rc x) = Ok (scan (col rc x))) ->
    runs o v ix sat (JoinT (Scan ord [] vs) r lc rc) (full_scan_left scan b rc)
| RFullRight : forall l ord vs lc rc a scan, dummy l = false -> dummy (Scan ord [] vs) = true -> runs o v ix sat l a ->
    (forall x, In x a -> scan_id ix ord (col lc x) = Ok (scan (col lc x))) ->
    runs o v ix sat (JoinT l (Scan ord [] vs) lc rc) (full_scan_right scan a lc)
| RTwo : forall l r jc1l jc2l jc1r jc2r a b t, runs o v ix sat l a -> runs o v ix sat r b ->
    two_column_join (width_of l) (width_of r) a b jc1l jc2l jc1r jc2r = TcjTable (Some t) ->
    runs o v ix sat (TwoT l r jc1l jc2l jc1r jc2r) t
| RMulti : forall l r jcs a b t, runs o v ix sat l a -> runs o v ix sat r b ->
    multi_column_join (width_of r) a b jcs = Some t -> runs o v ix sat (MultiT l r jcs) t.

(* An index is built from the parsed triples (`parts`, Merge_Model: passFileForVocabulary) and loaded by the server:
   Index.cpp:62-126 (createFromFile) and 985-998 (createFromOnDiskIndex). w: the vocabulary files and its size; the
   triples with global ids are written to six permutations; the words are compressed with the prefixes, and read and
   expanded again; the words on disk are those of the second vocabulary file. *)
Definition index_built (loc : icu) (numMaps : nat) (linesPerPartial : N) (bufferSize : nat)
  (parts : list (list (nat * (list N * (list N * list N * list N)))))
  (per thr : nat) (logmult : N -> N -> N) (sort2 : list (N * N) -> list (N * N))
  (sort3 : (N * N * N -> N * N * N) -> list (N * N * N) -> list (N * N * N)) (prefixes : list (list N))
  (ix : Perm_Model.index) (v : vocabulary) : Prop :=
  exists w ids map1 vec1 map2 vec2 stored f,
    Merge_Model.first_pass loc numMaps linesPerPartial bufferSize parts w (Merge_Model.Ok ids) /\
    Perm_Model.create_index per thr logmult sort2 sort3 (N.to_nat (Merge_Model.total w)) ids = Ok (Some ix) /\
    initializePrefixes prefixes map1 vec1 /\ initializePrefixes (lines (prefix_file prefixes)) map2 vec2 /\
    readFromFile map2 vec2 (prefixCompressFile vec1 (Merge_Model.outfile w)) = Strings_Model.Val stored /\
    map (expandPrefix map2) stored = map Some (v_words v) /\
    buildFromTextFile (Merge_Model.outfile_ext w) = Strings_Model.Val f /\ initFromFile f = Some (v_external v) /\
    v_loc v = loc.
