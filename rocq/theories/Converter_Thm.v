(* C85: the tool for old indices keeps what they say. *)
From Coq Require Import List NArith Arith Bool Lia ZifyBool ZifyN ZifyNat.
From Verif Require Import Bytes Std_Model Meta_Model Meta_Proof Meta_Thm Vocab_Model Vocab_Spec Vocab_Proof Converter_Model Converter_Spec Converter_Proof.
Import ListNotations.
Open Scope N_scope.

Lemma append_front data m new : append_to_file data m = Ok new -> firstn (length data) new = data.
Proof.
  unfold append_to_file. destruct (imd_bytes m) as [bs| |]; cbn [bind]; intros E; [|discriminate|discriminate]. injection E as <-.
  rewrite firstn_app, Nat.sub_diag, firstn_all. apply app_nil_r.
Qed.

(* The bytes of the relations are copied as they are, whatever the size of the file. *)
Theorem C85_copied data x m new : N.of_nat (length data) < 2 ^ 64 ->
  writeNewPermutation (data ++ x ++ word (N.of_nat (length data))) m = Done new ->
  exists meta, imd_bytes m = Ok meta /\ new = data ++ meta ++ word (N.of_nat (length data)).
Proof.
  intros H. rewrite writeNewPermutation_at by exact H. unfold append_to_file.
  destruct (imd_bytes m) as [bs| |]; cbn [bind lift]; intros E; [|discriminate|discriminate]. injection E as <-. exists bs. auto.
Qed.

Theorem C85_sparse f data m l relations file verify :
  wf m -> i_data m = Hmap l -> N.of_nat (length data) < 2 ^ 64 -> plain_name f m ->
  i_elements (stat_of f m) < 2 ^ 64 -> i_bytes (stat_of f m) < 2 ^ 64 -> i_nblocks (stat_of f m) < 2 ^ 64 ->
  permutation f data m relations file ->
  exists new m', convertPermutationToHmap verify file = Done new /\ firstn (length data) new = data /\
    read_from_file (Hmap []) new = Ok m' /\ i_version m' = V_CURRENT /\ alike m m' /\ (forall id, tells_alike m m' id) /\
    i_elements m' = i_elements (stat_of f m) /\ i_bytes m' = i_bytes (stat_of f m) /\ i_nblocks m' = i_nblocks (stat_of f m).
Proof.
  intros W Hd Hl P E1 E2 E3 Pm. pose proof (read_back_wf f l m W Hd E1 E2 E3) as W'.
  destruct (C26_round_trip data _ W' Hl) as (new & An & m' & Rn & Sm & Vm). cbn [read_back i_data before_reading] in Rn.
  exists new, m'. unfold convertPermutationToHmap. rewrite (read_sparse f data m l relations file W Hd Hl P Pm). cbn [andThen].
  destruct Pm as (_ & ->). rewrite writeNewPermutation_at by exact Hl. rewrite An. cbn [lift].
  split; [reflexivity|]. split; [eapply append_front; eauto|]. split; [exact Rn|]. split; [exact Vm|].
  pose proof (C26_same_answers _ _ Sm) as SA. destruct Sm as (A & B & C & D & S1 & S2 & S3). cbn [read_back i_after i_name i_data i_elements i_bytes i_nblocks] in *.
  split. { split; [auto|]. split; [auto|]. intros k g. rewrite C, Hd. tauto. }
  split; [|auto]. intros id. destruct (SA id) as (X & Y & Z). destruct (read_back_tells f l m W Hd id) as (X' & Y' & Z').
  unfold tells_alike. rewrite X, Y, Z. auto.
Qed.

(* Missing: ids above the largest one of a relation, and two of the statistics, see the refutations below. *)
Theorem C85_dense_partial f data m l relations file verify :
  wf m -> i_data m = Hmap l -> (forall k g, In (k, g) l -> k < 2 ^ 64 - 1) -> N.of_nat (length data) < 2 ^ 64 -> plain_name f m ->
  i_elements (stat_of f m) < 2 ^ 64 -> i_bytes (stat_of f m) < 2 ^ 64 -> i_nblocks (stat_of f m) < 2 ^ 64 ->
  permutation f data m relations file ->
  exists new size vec m', convertPermutationToMmap verify file = Done (Some new, Some (Dense size vec)) /\ firstn (length data) new = data /\
    read_from_file (Dense 0 vec) new = Ok m' /\ i_version m' = V_CURRENT /\ alike m m' /\ i_elements m' = i_elements (stat_of f m) /\
    (forall k g, In (k, g) l -> k < N.of_nat (length vec)) /\
    (forall id, id < N.of_nat (length vec) -> tells_alike m m' id).
Proof.
  intros W Hd Hk Hl P E1 E2 E3 Pm. pose proof (read_back_wf f l m W Hd E1 E2 E3) as W'.
  pose proof (wf_keys m W) as K. rewrite Hd in K. pose proof (wf_full m W) as F. rewrite Hd in F. cbn [rmap_entries] in F.
  destruct (convert_vector l K) as (vec & Ev & Lv & Iv & Nv & Sv).
  { intros k g Hi. split; [apply (F k g Hi)|exact (Hk k g Hi)]. }
  set (d := Dense (N.of_nat (length l)) vec) in *.
  assert (Wd : wf (converted (read_back f l m) d)).
  { apply converted_wf; [exact W'|exact Sv|exact Iv|exact Nv|]. cbn [d rmap_size rmap_entries]. now rewrite Nv. }
  destruct (C26_round_trip data _ Wd Hl) as (new & An & m' & Rn & Sm & Vm). cbn [converted i_data before_reading d] in Rn.
  exists new, (N.of_nat (length l)), vec, m'. unfold convertPermutationToMmap.
  rewrite (read_sparse f data m l relations file W Hd Hl P Pm). cbn [andThen].
  unfold convertHmapMetaDataToMmap. cbn [read_back i_data rmap_entries]. rewrite Ev. cbn [lift andThen].
  fold d. fold (read_back f l m). rewrite verified_ok; [|exact K|exact I|exact Iv]. cbn [andThen].
  destruct Pm as (_ & ->). rewrite writeNewPermutation_at by exact Hl. rewrite An. cbn [lift andThen].
  split; [reflexivity|]. split; [eapply append_front; eauto|]. split; [exact Rn|]. split; [exact Vm|].
  pose proof (C26_same_answers _ _ Sm) as SA. destruct Sm as (A & B & C & D & S1 & _).
  cbn [converted read_back i_after i_name i_data i_elements] in A, B, C, S1.
  split. { split; [auto|]. split; [auto|]. intros k g. rewrite C, Hd. apply Iv. }
  split; [exact S1|]. split. { intros k g Hi. pose proof (max_id_above l 0 k g Hi) as Q. fold (max_id l) in Q. lia. }
  intros id Hid. destruct (SA id) as (X & Y & Z). destruct (read_back_tells f l m W Hd id) as (X' & Y' & Z').
  assert (T : tells_alike (read_back f l m) (converted (read_back f l m) d) id).
  { apply converted_tells; [exact K|exact I|exact Iv|exact I|]. cbn [d]. lia. }
  destruct T as (X2 & Y2 & Z2). unfold tells_alike. rewrite X, Y, Z, X2, Y2, Z2. auto.
Qed.

(* The metadata of a dense permutation as a hash map. *)
Theorem C85_to_hash_map m size vec verify : wf m -> i_data m = Dense size vec ->
  exists m', convertMmapMetaDataToHmap verify m = Done m' /\ wf m' /\ is_mmap (i_data m') = false /\ alike m m' /\
    i_elements m' = i_elements m /\ (forall id, id < N.of_nat (length vec) -> tells_alike m m' id).
Proof.
  intros W Hd. unfold convertMmapMetaDataToHmap, convertMmapHandlerToHmap.
  assert (Nd : NoDup (map fst (rmap_entries (i_data m)))) by (rewrite Hd; apply dense_entries_keys).
  rewrite fold_amap by exact Nd. cbn [app].
  assert (H : forall k f, In (k, f) (rmap_entries (Hmap (rmap_entries (i_data m)))) <-> In (k, f) (rmap_entries (i_data m))) by (intros; tauto).
  rewrite verified_ok; [|now rewrite Hd|exact Nd|exact H]. eexists. split; [reflexivity|]. split.
  { apply converted_wf; auto. }
  split; [reflexivity|]. split; [split; [reflexivity|split; [reflexivity|exact H]]|]. split; [reflexivity|].
  intros id Hid. apply converted_tells; auto; rewrite Hd; auto. lia.
Qed.

(* A configuration that is up to date is left alone. *)
Theorem C85_configuration prefixes literals c b file : c_prefixes c = Some (Flag b) ->
  CompressVocabAndCreateConfigurationFile prefixes literals (Some c) (Some file) = Done (None, Some file).
Proof. intros H. cbn [CompressVocabAndCreateConfigurationFile]. now rewrite H. Qed.

(* ---------- refutations ---------- *)
Definition rel3 := make_full 3 0 2 0 0 true false.
Definition rel5 := make_full 5 32 1 0 0 false true.
Definition bl5 := {| b_start_rhs := 56; b_after := 64; b_blocks := [(7, 48)] |}.
Definition built (d : rmap) : Meta_Model.outcome imd :=
  bind (add rel3 no_blocks (new_imd d)) (fun m => bind (add rel5 bl5 m) (fun m => Ok (statistics m))).
Definition get {A} (d : A) (x : Meta_Model.outcome A) : A := match x with Ok a => a | _ => d end.
Definition sparse_imd := get (new_imd (Hmap [])) (built (Hmap [])).
Definition dense_imd := get (new_imd (Hmap [])) (built (Dense 0 (repeat empty_full 9))).
Definition vec_of (m : imd) : list full := match i_data m with Dense _ vec => vec | _ => [] end.
Definition bytes64 : list N := repeat 1 64.
Definition sparse_file := get [] (append_to_file bytes64 sparse_imd).
Definition dense_file := get [] (append_to_file bytes64 dense_imd).

Lemma sparse_wf : wf sparse_imd.
Proof.
  destruct C26_new as [W0 _].
  assert (A1 : exists m1, add rel3 no_blocks (new_imd (Hmap [])) = Ok m1 /\ wf m1).
  { destruct (C26_add (new_imd (Hmap [])) rel3 no_blocks W0) as (m1 & A1 & W1 & _); [repeat split; reflexivity|reflexivity|discriminate|reflexivity|intros f' []|exact I|reflexivity|reflexivity|].
    exists m1. auto. }
  destruct A1 as (m1 & A1 & W1).
  assert (M1 : rmap_entries (i_data m1) = [(3, rel3)] /\ is_mmap (i_data m1) = false /\ i_blocks m1 = []).
  { vm_compute in A1. injection A1 as <-. repeat split. }
  destruct M1 as (M1 & M2 & M3).
  assert (A2 : exists m2, add rel5 bl5 m1 = Ok m2 /\ wf m2).
  { destruct (C26_add m1 rel5 bl5 W1) as (m2 & A2 & W2 & _);
      [repeat split; reflexivity|reflexivity|intros _; repeat split; try reflexivity; repeat constructor|reflexivity| | | | |].
    - rewrite M1. intros f' [Q|[]]. discriminate.
    - destruct (i_data m1); [exact I|discriminate].
    - rewrite M1. reflexivity.
    - rewrite M3. reflexivity.
    - exists m2. auto. }
  destruct A2 as (m2 & A2 & W2).
  assert (E : sparse_imd = statistics m2).
  { vm_compute in A1. injection A1 as <-. vm_compute in A2. injection A2 as <-. vm_compute. reflexivity. }
  rewrite E. apply C26_statistics; auto; rewrite <- E; reflexivity.
Qed.
(* A dense permutation made by the tool has room for ids up to the largest one that has a relation only. So looking up any other word that the vocabulary knows, for example a literal in SPO, reads outside of the vector. *)
Theorem C85_out_of_range_refuted : exists file new d m m' id, convertPermutationToMmap true file = Done (Some new, Some d) /\
  readFromFile (Hmap []) file = Done m /\ readFromFile d new = Done m' /\ relation_exists id m = Ok false /\ relation_exists id m' = UB.
Proof.
  exists sparse_file. do 4 eexists. exists 8. split; [vm_compute; reflexivity|]. split; [vm_compute; reflexivity|].
  split; [vm_compute; reflexivity|]. split; vm_compute; reflexivity.
Qed.
(* The conversion of sparse metadata to dense metadata forgets the numbers of bytes and of blocks: both are 0 afterwards. *)
Theorem C85_statistics_refuted : exists m m', wf m /\ convertHmapMetaDataToMmap true m = Done m' /\
  i_bytes m = 64 /\ i_nblocks m = 1 /\ i_bytes m' = 0 /\ i_nblocks m' = 0.
Proof.
  exists sparse_imd. eexists. split; [exact sparse_wf|]. split; [vm_compute; reflexivity|]. repeat split.
Qed.
(* The tool reads dense permutations without opening their vectors: on a dense permutation of the current version that has a relation with blocks it uses the entries of a vector that was never set up. *)
Theorem C85_current_dense_refuted : exists data m file, is_mmap (i_data m) = true /\ append_to_file data m = Ok file /\
  readFromFile (i_data m) file = Done m /\ convertPermutationToMmap true file = Undefined /\ convertPermutationToHmap true file = Undefined.
Proof. exists bytes64, dense_imd, dense_file. repeat split; vm_compute; reflexivity. Qed.
(* A dense permutation of the old version loses the blocks of its relations and all of the statistics when it is converted. *)
Theorem C85_old_dense_refuted : exists file vec m new m' id g b, readFromFile (Dense 0 vec) file = Done m /\ get_rmd id m = Ok (g, Some b) /\
  convertPermutationToMmap true file = Done (Some new, None) /\ readFromFile (Dense 0 vec) new = Done m' /\ get_rmd id m' = UB /\
  i_elements m = 3 /\ i_elements m' = 0.
Proof.
  exists (bytes64 ++ (word MAGIC_MMAP ++ word 0 ++ word 2 ++ word 64 ++ blocks_bytes bl5) ++ word 64), (vec_of dense_imd).
  do 3 eexists. exists 5. do 2 eexists. split; [vm_compute; reflexivity|]. split; [vm_compute; reflexivity|].
  split; [vm_compute; reflexivity|]. split; [vm_compute; reflexivity|]. repeat split; vm_compute; reflexivity.
Qed.
Definition small_imd := get (new_imd (Hmap [])) (bind (add rel3 no_blocks (new_imd (Dense 0 (repeat empty_full 9)))) (fun m => Ok (statistics m))).
(* A dense permutation whose relations have no blocks becomes a sparse permutation without any relation. *)
Theorem C85_dense_to_sparse_refuted : exists data m file new m' id, append_to_file data m = Ok file /\ relation_exists id m = Ok true /\
  convertPermutationToHmap true file = Done new /\ readFromFile (Hmap []) new = Done m' /\ forall k, relation_exists k m' = Ok false.
Proof.
  exists bytes64, small_imd. do 3 eexists. exists 3. split; [vm_compute; reflexivity|]. split; [vm_compute; reflexivity|].
  split; [vm_compute; reflexivity|]. split; [vm_compute; reflexivity|]. intros k. reflexivity.
Qed.
(* A configuration with a list of prefixes is written again with that list, and a new one gets such a list and no locale: neither can be read by the server. *)
Theorem C85_configuration_refuted : forall prefixes literals file,
  (forall c ws, c_prefixes c = Some (Words ws) -> Forall no_newline ws -> exists file',
     CompressVocabAndCreateConfigurationFile prefixes literals (Some c) file = Done (Some c, Some file') /\ lines file' = ws /\
     readConfiguration c (Some file') = Fails) /\
  exists c file', CompressVocabAndCreateConfigurationFile prefixes literals None file = Done (Some c, file') /\
     readConfiguration c file' = Fails.
Proof.
  intros prefixes literals file. split.
  - intros c ws H Nl. exists (flat_map (fun w => w ++ [10]) ws). cbn [CompressVocabAndCreateConfigurationFile]. rewrite H.
    split; [destruct file; reflexivity|]. split; [now apply lines_flat|]. unfold readConfiguration. now rewrite H.
  - eexists. eexists. split; [reflexivity|]. reflexivity.
Qed.
(* An index that was built without compression, which has no file of prefixes, can be read by the server but not by the tool. *)
Theorem C85_uncompressed_refuted : exists c, readConfiguration c None = Done [] /\ forall prefixes literals,
  CompressVocabAndCreateConfigurationFile prefixes literals (Some c) None = Fails.
Proof. exists {| c_external := None; c_prefixes := Some (Flag false); c_locale := true; c_ignore_case := false |}. split; reflexivity. Qed.

(* an old sparse permutation with two relations, one with blocks, in all formats *)
Definition old_file (f : format) : list N :=
  bytes64 ++ (header f ++ word 0 ++ word 2 ++ word 64 ++ get [] (hmap_bytes (rmap_entries (i_data sparse_imd)) (i_blocks sparse_imd)) ++
    match f with Versioned => word 3 ++ word 64 ++ word 1 | _ => [] end) ++ word 64.
Example C85_ex_file f : exists relations, permutation f bytes64 sparse_imd relations (old_file f) /\ plain_name f sparse_imd.
Proof. eexists. split; [split; [vm_compute; reflexivity|destruct f; vm_compute; reflexivity]|intros _; reflexivity]. Qed.
Example C85_ex_sparse : exists new, convertPermutationToHmap true (old_file Plain) = Done new /\ new = sparse_file.
Proof. eexists. split; vm_compute; reflexivity. Qed.
Example C85_ex_dense : exists new size vec m', convertPermutationToMmap true (old_file Magic) = Done (Some new, Some (Dense size vec)) /\
  size = 2 /\ length vec = 6%nat /\ readFromFile (Dense 0 vec) new = Done m' /\ get_rmd 5 m' = Ok (rel5, Some bl5) /\ relation_exists 4 m' = Ok false.
Proof. do 4 eexists. split; [vm_compute; reflexivity|]. split; [reflexivity|]. split; [reflexivity|]. split; [vm_compute; reflexivity|]. split; reflexivity. Qed.
Example C85_ex_hash_map : exists m', convertMmapMetaDataToHmap true dense_imd = Done m' /\ get_rmd 3 m' = Ok (rel3, None).
Proof. eexists. split; vm_compute; reflexivity. Qed.
Print Assumptions C85_copied.
Print Assumptions C85_sparse.
Print Assumptions C85_dense_partial.
Print Assumptions C85_to_hash_map.
Print Assumptions C85_configuration.
Print Assumptions C85_out_of_range_refuted.
Print Assumptions C85_statistics_refuted.
Print Assumptions C85_current_dense_refuted.
Print Assumptions C85_old_dense_refuted.
Print Assumptions C85_dense_to_sparse_refuted.
Print Assumptions C85_configuration_refuted.
Print Assumptions C85_uncompressed_refuted.
