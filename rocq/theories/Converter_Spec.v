(* What a converted permutation should be. *)
From Coq Require Import List NArith.
From Verif Require Import Meta_Model.
Import ListNotations.
Open Scope N_scope.

(* the formats of sparse permutations: without and with a magic number, and with a version *)
Inductive format := Plain | Magic | Versioned.
Definition header (f : format) : list N :=
  match f with Plain => [] | Magic => word MAGIC_SPARSE | Versioned => word MAGIC_SPARSE_VERSION ++ word V_CURRENT end.
(* a permutation: the bytes of its relations, the metadata of these in the format, and where it begins *)
Definition permutation (f : format) (data : list N) (m : imd) (relations file : list N) : Prop :=
  hmap_bytes (rmap_entries (i_data m)) (i_blocks m) = Ok relations /\
  file = data ++ (header f ++ word (N.of_nat (length (i_name m))) ++ i_name m ++
                  word (N.of_nat (length (rmap_entries (i_data m)))) ++ word (i_after m) ++ relations ++
                  match f with Versioned => word (i_elements m) ++ word (i_bytes m) ++ word (i_nblocks m) | _ => [] end) ++
         word (N.of_nat (length data)).
(* the metadata tells the same about a relation *)
Definition tells_alike (m m' : imd) (id : N) : Prop :=
  relation_exists id m' = relation_exists id m /\ get_rmd id m' = get_rmd id m /\ nof_blocks_for id m' = nof_blocks_for id m.
Definition alike (m m' : imd) : Prop :=
  i_name m' = i_name m /\ i_after m' = i_after m /\
  forall k f, In (k, f) (rmap_entries (i_data m')) <-> In (k, f) (rmap_entries (i_data m)).
(* the metadata with the statistics of the permutation: stored in it, or computed from its relations *)
Definition stat_of (f : format) (m : imd) : imd := match f with Versioned => m | _ => statistics m end.
(* without a magic number the metadata begins with the length of the name, which then should be no magic number *)
Definition plain_name (f : format) (m : imd) : Prop := f = Plain -> N.of_nat (length (i_name m)) < MAGIC_SPARSE_VERSION.
