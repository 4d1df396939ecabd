(* Model of the numbers that the planner is told about an index: Index::relationCardinality, subjectCardinality,
   objectCardinality, sizeEstimate, and the size estimates of index scans and the multiplicities of those of the full index.
   Index scans are those of IScan_Model, the files those of Perm_Model; all six permutations are loaded. The multiplicities
   of a relation are those stored with it (C25). *)
From Coq Require Import String List NArith Arith Bool.
From Verif Require Perm_Model.
From Verif Require Import Table_Spec Ops_Spec Ops_Model Vars_Model Plan_Model Meta_Model Whole_Model IScan_Model.
Import ListNotations.
Local Open Scope string_scope.
Local Open Scope N_scope.

(* global/Constants.h:35, 44-45 *)
Definition INTERNAL_TEXT_MATCH_PREDICATE : string := "<QLever-internal-function/text>".
Definition TEXT_PREDICATE_CARDINALITY_ESTIMATE : N := 1000 * 1000 * 1000.

(* Index.cpp:1206-1213, 1217-1223, 1228-1234: the number of elements of a relation of a permutation *)
Definition relation_size (v : vocabulary) (files : list N * rmap) (word : string) : outcome N :=
  bind (id_of v word) (fun x =>
  match x with
  | None => Ok 0
  | Some id =>
      bind (Perm_Model.load_permutation files) (fun m =>
      bind (relation_exists id m) (fun e =>
      if e then bind (get_rmd id m) (fun r => Ok (nof_elements (f_word (fst r)))) else Ok 0))
  end).
(* Index.cpp:1202-1213 *)
Definition relationCardinality (v : vocabulary) (ix : Perm_Model.index) (relationName : string) : outcome N :=
  if String.eqb relationName INTERNAL_TEXT_MATCH_PREDICATE then Ok TEXT_PREDICATE_CARDINALITY_ESTIMATE
  else relation_size v (Perm_Model.x_pso ix) relationName.
(* Index.cpp:1216-1224 *)
Definition subjectCardinality (v : vocabulary) (ix : Perm_Model.index) (sub : string) : outcome N :=
  relation_size v (Perm_Model.x_spo ix) sub.
(* Index.cpp:1227-1235 *)
Definition objectCardinality (v : vocabulary) (ix : Perm_Model.index) (obj : string) : outcome N :=
  relation_size v (Perm_Model.x_osp ix) obj.
(* Index.h:301, IndexMetaData.h:152 *)
Definition getNofTriples (ix : Perm_Model.index) : outcome N :=
  bind (Perm_Model.load_permutation (Perm_Model.x_pso ix)) (fun m => Ok (i_elements m)).
(* Index.h:309-331, IndexMetaDataImpl.h:264-267 *)
Definition nof_distinct (files : list N * rmap) : outcome N :=
  bind (Perm_Model.load_permutation files) (fun m => Ok (rmap_size (i_data m))).
Definition getNofSubjects (ix : Perm_Model.index) : outcome N := nof_distinct (Perm_Model.x_spo ix).
Definition getNofObjects (ix : Perm_Model.index) : outcome N := nof_distinct (Perm_Model.x_osp ix).
Definition getNofPredicates (ix : Perm_Model.index) : outcome N := nof_distinct (Perm_Model.x_pso ix).

(* Index.cpp:1238-1263 *)
Definition nonempty (s : string) : bool := Nat.ltb 0 (String.length s).
Definition sizeEstimate (v : vocabulary) (ix : Perm_Model.index) (sub pred obj : string) : outcome N :=
  if nonempty sub && negb (nonempty pred) && negb (nonempty obj) then subjectCardinality v ix sub
  else if negb (nonempty sub) && nonempty pred && negb (nonempty obj) then relationCardinality v ix pred
  else if negb (nonempty sub) && negb (nonempty pred) && nonempty obj then objectCardinality v ix obj
  else if negb (nonempty sub) && negb (nonempty pred) && negb (nonempty obj) then getNofTriples ix
  else Meta_Model.Throw.
(* IndexScan.cpp:306-332 with an execution context. pinned: the sizes of pinned results by the text of the scan *)
Definition computeSizeEstimate (v : vocabulary) (ix : Perm_Model.index) (pinned : index_scan_op -> option N) (x : index_scan_op) : outcome N :=
  if Nat.eqb (getResultWidth x) 1 then
    match pinned x with
    | Some n => Ok n
    | None => bind (computeResult v ix x) (fun r => Ok (N.of_nat (length (r_data r))))
    end
  else match i_type x with
       | SPO_FREE_P | SOP_FREE_O => sizeEstimate v ix (i_subject x) "" ""
       | POS_FREE_O | PSO_FREE_S => sizeEstimate v ix "" (i_predicate x) ""
       | OPS_FREE_P | OSP_FREE_S => sizeEstimate v ix "" "" (i_object x)
       | _ => sizeEstimate v ix "" "" ""
       end.

(* Index.h:98-115 the key orders of the permutations *)
Definition key_order (ord : order) : list nat :=
  match ord with
  | SPO => [0; 1; 2] | SOP => [0; 2; 1] | PSO => [1; 0; 2] | POS => [1; 2; 0] | OSP => [2; 0; 1] | OPS => [2; 1; 0]
  end%nat.
(* Index.h:356-364; the divisions are of integers, by zero UB; the conversion to float is not modelled *)
Definition full_multiplicities (ix : Perm_Model.index) (ord : order) : outcome (list N) :=
  bind (getNofTriples ix) (fun n =>
  bind (getNofSubjects ix) (fun s =>
  bind (getNofPredicates ix) (fun p =>
  bind (getNofObjects ix) (fun o =>
  if (s =? 0) || (p =? 0) || (o =? 0) then UB
  else let m := [n / s; n / p; n / o] in Ok (map (fun k => nth k m 0) (key_order ord)))))).
