(* Lemmas about the conversion of permutations. *)
From Coq Require Import List NArith Arith Bool Lia ZifyBool ZifyN ZifyNat Permutation.
From Verif Require Import Bytes Std_Model Meta_Model Meta_Proof Meta_Thm Converter_Model Converter_Spec.
Import ListNotations.
Open Scope N_scope.

(* ---------- copying ---------- *)
Lemma copy_ok size : 0 < size -> forall fuel rest n, n < (N.of_nat fuel + 1) * size -> n <= N.of_nat (length rest) ->
  copy_chunks fuel size rest n = Done (firstn (N.to_nat n) rest).
Proof.
  intros Hs. induction fuel as [|fuel IH]; intros rest n Hn Hl; cbn [copy_chunks].
  - replace (size <=? n) with false by lia. unfold chunk. replace (N.of_nat (length rest) <? n) with false by lia. reflexivity.
  - destruct (N.leb_spec size n) as [L|L].
    + unfold chunk at 1. replace (N.of_nat (length rest) <? size) with false by lia. cbn [andThen].
      assert (Hn' : n - size < (N.of_nat fuel + 1) * size).
      { replace (N.of_nat (S fuel) + 1) with (N.of_nat fuel + 1 + 1) in Hn by lia. rewrite (N.mul_add_distr_r (N.of_nat fuel + 1)) in Hn. lia. }
      rewrite IH; [|exact Hn'|rewrite skipn_length; lia]. cbn [andThen]. f_equal.
      rewrite <- (firstn_skipn (N.to_nat size) rest) at 3. rewrite firstn_app, firstn_length.
      rewrite (firstn_all2 (n := N.to_nat n)) by (rewrite firstn_length; lia). f_equal. f_equal. lia.
    + unfold chunk. replace (N.of_nat (length rest) <? n) with false by lia. reflexivity.
Qed.
Lemma word_length v : length (word v) = 8%nat.
Proof. apply le_length. Qed.
Lemma getLastOffset_at data x : N.of_nat (length data) < W64 ->
  getLastOffset (data ++ x ++ word (N.of_nat (length data))) = Done (N.of_nat (length data), length (data ++ x)).
Proof.
  intros H. unfold getLastOffset. rewrite !app_length, word_length.
  replace (Nat.ltb (length data + (length x + 8)) 8) with false by (symmetry; apply Nat.ltb_ge; lia).
  rewrite (load_word_at _ _ 8 (N.of_nat (length data)) (data ++ x) []);
    try (now rewrite <- app_assoc, app_nil_r); try (rewrite app_length; lia); try exact H.
  cbn [of_option lift andThen]. f_equal. f_equal. lia.
Qed.
Lemma writeNewPermutation_at data x m : N.of_nat (length data) < W64 ->
  writeNewPermutation (data ++ x ++ word (N.of_nat (length data))) m = lift (append_to_file data m).
Proof.
  intros H. unfold writeNewPermutation. rewrite getLastOffset_at by exact H. cbn [andThen fst].
  assert (B : 0 < BufferSize) by reflexivity. rewrite copy_ok; [|exact B| |rewrite app_length; lia].
  - cbn [andThen]. rewrite Nat2N.id, firstn_app, Nat.sub_diag, firstn_all. cbn [firstn]. now rewrite app_nil_r.
  - rewrite N2Nat.id. pose proof (N.mul_succ_div_gt (N.of_nat (length data)) BufferSize) as D. generalize dependent BufferSize. intros size B D.
    rewrite N.mul_comm. replace (N.of_nat (length data) / size + 1) with (N.succ (N.of_nat (length data) / size)) by lia. apply D. lia.
Qed.
Lemma readFromFile_at d data x : N.of_nat (length data) < W64 ->
  readFromFile d (data ++ x ++ word (N.of_nat (length data))) = createFromByteBuffer d x.
Proof.
  intros H. unfold readFromFile. rewrite getLastOffset_at by exact H. cbn [andThen fst snd]. rewrite app_length.
  replace (N.of_nat (length data + length x) <? N.of_nat (length data)) with false by lia.
  rewrite Nat2N.id, (load_at' _ _ _ data x (word (N.of_nat (length data)))); auto. lia.
Qed.

(* ---------- reading sparse permutations ---------- *)
Lemma sum_ext {A} (f g : A -> N) l : (forall x, In x l -> f x = g x) -> sum f l = sum g l.
Proof.
  unfold sum. generalize 0. induction l as [|x l IH]; intros a H; [reflexivity|]. cbn [fold_left].
  rewrite (H x (or_introl eq_refl)). apply IH. intros y Hy. apply H. now right.
Qed.
(* the metadata that is read *)
Definition read_back (f : format) (l : list (N * full)) (m : imd) : imd :=
  {| i_after := i_after m; i_name := i_name m; i_data := Hmap l; i_blocks := block_list l (i_blocks m);
     i_elements := i_elements (stat_of f m); i_bytes := i_bytes (stat_of f m); i_nblocks := i_nblocks (stat_of f m);
     i_version := match f with Versioned => V_CURRENT | _ => V_NO_VERSION end |}.
Lemma parse_header f m rest : N.of_nat (length (i_name m)) < W64 -> plain_name f m ->
  parseMagicNumberAndVersioning false (header f ++ word (N.of_nat (length (i_name m))) ++ rest) =
  Done (match f with Versioned => V_CURRENT | _ => V_NO_VERSION end, word (N.of_nat (length (i_name m))) ++ rest).
Proof.
  intros S P. unfold parseMagicNumberAndVersioning. destruct f; cbn [header app].
  - rewrite take_word_at by exact S. cbn [of_option lift andThen fst snd]. specialize (P eq_refl).
    unfold MAGIC_MMAP, MAGIC_MMAP_VERSION, MAGIC_SPARSE, MAGIC_SPARSE_VERSION, MAX64 in *.
    repeat match goal with |- context [N.of_nat (length (i_name m)) =? ?x] => replace (N.of_nat (length (i_name m)) =? x) with false by lia end.
    reflexivity.
  - rewrite take_word_at by reflexivity. cbn [of_option lift andThen fst snd]. reflexivity.
  - rewrite <- app_assoc, take_word_at by reflexivity. cbn [of_option lift andThen fst snd].
    replace ((MAGIC_SPARSE_VERSION =? MAGIC_MMAP) || (MAGIC_SPARSE_VERSION =? MAGIC_MMAP_VERSION)) with false by reflexivity.
    replace (MAGIC_SPARSE_VERSION =? MAGIC_SPARSE) with false by reflexivity. rewrite N.eqb_refl.
    rewrite take_word_at by reflexivity. cbn [of_option lift andThen fst snd]. reflexivity.
Qed.

Lemma read_sparse f data m l relations file : wf m -> i_data m = Hmap l -> N.of_nat (length data) < W64 -> plain_name f m ->
  permutation f data m relations file ->
  readFromFile (Hmap []) file = Done (read_back f l m).
Proof.
  intros W Hd Hl P (Er & ->). rewrite readFromFile_at by exact Hl.
  pose proof (wf_small m W) as (S1 & S2 & S3 & S4). pose proof (wf_stat m W) as (T1 & T2 & T3).
  rewrite Hd in *. cbn [rmap_entries] in *.
  unfold createFromByteBuffer. cbn [is_mmap]. rewrite parse_header by auto. cbn [andThen].
  unfold read_rest. cbn [fst snd].
  rewrite take_word_at by exact S2. cbn [of_option bind fst snd]. rewrite Nat2N.id, load_front.
  cbn [of_option bind fst snd]. rewrite skipn_app, skipn_all, Nat.sub_diag. cbn [skipn app].
  rewrite take_word_at by exact S3. cbn [of_option bind fst snd].
  rewrite take_word_at by exact S1. cbn [of_option bind fst snd]. rewrite Nat2N.id.
  destruct (block_list_get m l Hd W) as [Nb Gb].
  set (v := match f with Versioned => V_CURRENT | _ => V_NO_VERSION end).
  set (m0 := {| i_after := i_after m |}).
  rewrite (read_relations_at (i_blocks m) l relations [] m0); auto.
  - cbn [bind fst snd]. destruct f; cbn [v].
    1,2: replace (V_NO_VERSION <? V_CURRENT) with true by reflexivity; cbn [lift]; unfold read_back, stat_of;
      apply (f_equal Done); unfold statistics; rewrite Hd; cbn [rmap_entries i_elements i_bytes i_nblocks i_after i_name i_data i_blocks i_version app m0 v];
      rewrite (sum_ext (fun e => total_bytes_for (snd e) _) (fun e => total_bytes_for (snd e) m))
        by (intros e _; unfold total_bytes_for; cbn [i_blocks]; now rewrite Gb);
      rewrite (sum_ext (fun e => nof_blocks_for (fst e) _) (fun e => nof_blocks_for (fst e) m))
        by (intros e _; unfold nof_blocks_for; cbn [i_blocks]; now rewrite Gb); reflexivity.
    replace (V_CURRENT <? V_CURRENT) with false by reflexivity.
    rewrite take_word_at by exact T1. cbn [of_option bind fst snd].
    rewrite take_word_at by exact T2. cbn [of_option bind fst snd].
    rewrite <- (app_nil_r (word (i_nblocks m))), take_word_at by exact T3. cbn [of_option bind fst snd lift]. reflexivity.
  - pose proof (wf_keys m W) as K. rewrite Hd in K. exact K.
  - intros k g Hi. pose proof (wf_full m W k g) as F. rewrite Hd in F. destruct (F Hi) as (A & B & _ & C). auto.
  - intros k b Hi. destruct (wf_block m W k b Hi) as (A & B & _). auto.
Qed.

Lemma block_list_length l bs : (length (block_list l bs) <= length l)%nat.
Proof.
  unfold block_list. induction l as [|e l IH]; cbn [flat_map length]; [lia|]. rewrite app_length.
  destruct (has_blocks (f_word (snd e))); cbn [length]; [destruct (amap_get _ bs); cbn [length]|]; lia.
Qed.
Lemma read_back_wf f l m : wf m -> i_data m = Hmap l ->
  i_elements (stat_of f m) < W64 -> i_bytes (stat_of f m) < W64 -> i_nblocks (stat_of f m) < W64 -> wf (read_back f l m).
Proof.
  intros W Hd E1 E2 E3. destruct (block_list_get m l Hd W) as [Nb Gb].
  pose proof (wf_keys m W) as K. pose proof (wf_full m W) as F. pose proof (wf_block m W) as B. pose proof (wf_size m W) as Z.
  pose proof (wf_small m W) as (S1 & S2 & S3 & S4). rewrite Hd in *. cbn [rmap_entries] in *.
  assert (In_b : forall k b, In (k, b) (block_list l (i_blocks m)) <-> In (k, b) (i_blocks m)).
  { intros k b. rewrite <- (amap_get_in k b _ Nb), <- (amap_get_in k b _ (wf_bkeys m W)), Gb. tauto. }
  constructor; cbn [read_back i_data i_blocks i_after i_name i_elements i_bytes i_nblocks rmap_entries]; auto.
  - intros k g Hi. destruct (F k g Hi) as (A & C & D & G). split; auto. split; auto. split; auto.
    intros X. destruct (D X) as [b Hb]. exists b. now apply In_b.
  - intros k b Hi. apply In_b in Hi. exact (B k b Hi).
  - split; auto. split; auto. split; auto. pose proof (block_list_length l (i_blocks m)). lia.
Qed.
Lemma read_back_tells f l m : wf m -> i_data m = Hmap l -> forall id, tells_alike m (read_back f l m) id.
Proof.
  intros W Hd id. destruct (block_list_get m l Hd W) as [_ Gb].
  unfold tells_alike, relation_exists, get_rmd, nof_blocks_for. cbn [read_back i_data i_blocks]. rewrite Hd, Gb. auto.
Qed.

(* ---------- from a hash map to a vector ---------- *)
Lemma max_id_above l : forall acc k f, In (k, f) l -> k <= fold_left (fun acc (e : N * full) => if acc <? fst e then fst e else acc) l acc.
Proof.
  assert (G : forall l acc, acc <= fold_left (fun acc (e : N * full) => if acc <? fst e then fst e else acc) l acc).
  { intros l'. induction l' as [|e l' IH]; intros acc; cbn [fold_left]; [lia|]. etransitivity; [|apply IH].
    destruct (N.ltb_spec acc (fst e)); lia. }
  induction l as [|e l IH]; intros acc k f H; [destruct H|]. cbn [fold_left]. destruct H as [->|H].
  - cbn [fst]. etransitivity; [|apply G]. destruct (N.ltb_spec acc k); lia.
  - eapply IH; eauto.
Qed.
Lemma max_id_below b l : 0 < b -> (forall k f, In (k, f) l -> k < b) -> max_id l < b.
Proof.
  intros Hb. unfold max_id. assert (G : forall acc, acc < b -> (forall k f, In (k, f) l -> k < b) ->
    fold_left (fun acc (e : N * full) => if acc <? fst e then fst e else acc) l acc < b).
  { induction l as [|[k f] l IH]; intros acc Ha H; cbn [fold_left]; [exact Ha|]. apply IH.
    - cbn [fst]. pose proof (H k f (or_introl eq_refl)). destruct (N.ltb_spec acc k); lia.
    - intros k' f' Hi. apply (H k' f'). now right. }
  intros H. apply G; auto.
Qed.
Lemma fill_vector l : forall size vec, NoDup (map fst l) ->
  (forall k f, In (k, f) l -> nth_error vec (N.to_nat k) = Some empty_full) ->
  exists vec', fold_left (fun d e => bind d (rmap_set (fst e) (snd e))) l (Ok (Dense size vec)) =
    Ok (Dense (size + N.of_nat (length l)) vec') /\ length vec' = length vec /\
    forall j, nth_error vec' j = match amap_get (N.of_nat j) l with Some f => Some f | None => nth_error vec j end.
Proof.
  induction l as [|[k f] l IH]; intros size vec Nd H.
  - exists vec. cbn [fold_left length]. rewrite N.add_0_r. auto.
  - cbn [map fst] in Nd. inversion Nd as [|? ? Nk Nl]; subst. cbn [fold_left bind rmap_set fst snd].
    rewrite (H k f (or_introl eq_refl)), (proj2 (full_eqb_eq _ _) eq_refl).
    destruct (IH (size + 1) (vec_set (N.to_nat k) f vec) Nl) as (vec' & E & L & G).
    + intros k' f' Hi. rewrite vec_set_nth. destruct (Nat.eqb_spec (N.to_nat k) (N.to_nat k')) as [Q|Q].
      * apply N2Nat.inj in Q. subst k'. exfalso. apply Nk. now apply (in_map fst) in Hi.
      * apply (H k' f'). now right.
    + exists vec'. rewrite E. split; [f_equal; f_equal; cbn [length]; lia|]. split; [rewrite L; apply vec_set_length|].
      intros j. rewrite G, vec_set_nth. unfold amap_get at 2. cbn [find fst].
      destruct (N.eqb_spec k (N.of_nat j)) as [->|Q].
      * cbn [option_map snd]. rewrite Nat2N.id, Nat.eqb_refl.
        replace (amap_get (N.of_nat j) l) with (@None full) by (symmetry; now apply amap_get_none).
        pose proof (H (N.of_nat j) f (or_introl eq_refl)) as Hj. rewrite Nat2N.id in Hj. rewrite Hj. reflexivity.
      * fold (amap_get (N.of_nat j) l). destruct (Nat.eqb_spec (N.to_nat k) j); [lia|reflexivity].
Qed.
Lemma same_length {A} (l l' : list (N * A)) : NoDup (map fst l) -> NoDup (map fst l') -> (forall x, In x l <-> In x l') -> length l = length l'.
Proof.
  intros H H' E. apply Permutation_length, NoDup_Permutation; auto; eapply NoDup_map_inv; eauto.
Qed.
Lemma convert_vector l : NoDup (map fst l) -> (forall k f, In (k, f) l -> f_rel f = k /\ k < MAX64) ->
  exists vec, convertHmapHandlerToMmap l = Ok (Dense (N.of_nat (length l)) vec) /\ N.of_nat (length vec) = max_id l + 1 /\
    (forall k f, In (k, f) (dense_entries 0 vec) <-> In (k, f) l) /\ length (dense_entries 0 vec) = length l /\ N.of_nat (length vec) < W64.
Proof.
  intros Nd H. unfold convertHmapHandlerToMmap.
  assert (M : max_id l < MAX64) by (apply max_id_below; [reflexivity|intros k f Hi; apply (H k f Hi)]).
  rewrite N.mod_small by (unfold MAX64 in M; lia).
  destruct (fill_vector l 0 (repeat empty_full (N.to_nat (max_id l + 1))) Nd) as (vec & E & L & G).
  { intros k f Hi. apply nth_error_repeat. pose proof (max_id_above l 0 k f Hi) as A. fold (max_id l) in A. lia. }
  rewrite N.add_0_l in E. rewrite repeat_length in L. exists vec. split; [exact E|].
  assert (I : forall k f, In (k, f) (dense_entries 0 vec) <-> In (k, f) l).
  { intros k f. rewrite dense_entries_in, N.sub_0_r, G, N2Nat.id. rewrite <- (amap_get_in k f l Nd).
    destruct (amap_get k l) as [g|] eqn:A.
    - split.
      + intros (_ & Q & _). congruence.
      + intros Q. injection Q as ->. split; [lia|]. split; [reflexivity|]. intros ->. apply (amap_get_in _ _ _ Nd) in A.
        destruct (H _ _ A) as [R1 R2]. cbn [f_rel empty_full make_full] in R1. lia.
    - split; [|discriminate]. intros (_ & Q & Ne). apply nth_error_In in Q. apply repeat_spec in Q. contradiction. }
  split; [lia|]. split; [exact I|]. split; [|unfold MAX64, W64 in *; lia].
  apply same_length; auto; [apply dense_entries_keys|]. intros [k f]. apply I.
Qed.
Lemma verify_ok es b : (forall k f, In (k, f) es -> rmap_get k b = Ok f) -> verify_entries es b = Done tt.
Proof.
  induction es as [|[k f] es IH]; intros H; [reflexivity|]. cbn [verify_entries]. rewrite (H k f (or_introl eq_refl)).
  cbn [lift andThen]. rewrite (proj2 (full_eqb_eq _ _) eq_refl). apply IH. intros. apply H. now right.
Qed.
Lemma verified_ok verify m d : match i_data m with Hmap l => NoDup (map fst l) | _ => True end ->
  match d with Hmap l => NoDup (map fst l) | _ => True end ->
  (forall k f, In (k, f) (rmap_entries d) <-> In (k, f) (rmap_entries (i_data m))) ->
  verified verify m d = Done (converted m d).
Proof.
  intros Nm Nd H. unfold verified. destruct verify; [|reflexivity].
  rewrite !verify_ok; [reflexivity| |].
  - intros k f Hi. apply rmap_get_entries; auto. now apply H.
  - intros k f Hi. apply rmap_get_entries; auto. now apply H.
Qed.
(* the metadata with another map of the same relations *)
Lemma converted_wf m d : wf m ->
  match d with Hmap l => NoDup (map fst l) | Dense _ vec => N.of_nat (length vec) < W64 end ->
  (forall k f, In (k, f) (rmap_entries d) <-> In (k, f) (rmap_entries (i_data m))) ->
  length (rmap_entries d) = length (rmap_entries (i_data m)) -> rmap_size d = N.of_nat (length (rmap_entries d)) -> wf (converted m d).
Proof.
  intros W K H L S. pose proof (wf_small m W) as (S1 & S2 & S3 & S4). pose proof (wf_stat m W) as (T1 & _).
  constructor; cbn [converted i_data i_blocks i_after i_name i_elements i_bytes i_nblocks]; auto.
  - intros k f Hi. apply H in Hi. exact (wf_full m W k f Hi).
  - apply (wf_bkeys m W).
  - intros k b Hi. destruct (wf_block m W k b Hi) as (A & B & f & C & D). split; auto. split; auto. exists f. split; auto. now apply H.
  - rewrite L. auto.
  - repeat split; auto.
Qed.
Lemma converted_tells m d id : match i_data m with Hmap l => NoDup (map fst l) | _ => True end ->
  match d with Hmap l => NoDup (map fst l) | _ => True end ->
  (forall k f, In (k, f) (rmap_entries d) <-> In (k, f) (rmap_entries (i_data m))) ->
  match i_data m with Dense _ vec => (N.to_nat id < length vec)%nat | _ => True end ->
  match d with Dense _ vec => (N.to_nat id < length vec)%nat | _ => True end -> tells_alike m (converted m d) id.
Proof.
  intros Nm Nd H Im Id.
  assert (G : rmap_get id d = rmap_get id (i_data m)).
  { assert (T : forall r, match r with Hmap l => NoDup (map fst l) | _ => True end ->
              match r with Dense _ vec => (N.to_nat id < length vec)%nat | _ => True end ->
              (exists f, rmap_get id r = Ok f /\ In (id, f) (rmap_entries r)) \/ (rmap_get id r = Throw /\ forall f, ~ In (id, f) (rmap_entries r))).
    { intros r N0 I0. destruct (rmap_get id r) as [f| |] eqn:E.
      - left. exists f. split; auto. now apply rmap_get_entries.
      - right. split; auto. intros f Hi. apply rmap_get_entries in Hi; auto. congruence.
      - exfalso. destruct r as [l|s vec]; cbn [rmap_get] in E.
        + destruct (amap_get id l); discriminate.
        + destruct (nth_error vec (N.to_nat id)) eqn:Q; [destruct (full_eqb _ _); discriminate|]. apply nth_error_None in Q. lia. }
    destruct (T d Nd Id) as [(f & -> & Hf)|[-> Hf]], (T (i_data m) Nm Im) as [(f' & E' & Hf')|[E' Hf']]; rewrite E'; auto.
    - apply H in Hf. apply rmap_get_entries in Hf; auto. congruence.
    - exfalso. apply (Hf' f). now apply H.
    - exfalso. apply (Hf f'). now apply H. }
  assert (C : forall r, match r with Dense _ vec => (N.to_nat id < length vec)%nat | _ => True end ->
     rmap_count id r = Ok (match rmap_get id r with Ok _ => true | _ => false end)).
  { intros [l|s vec] I0; cbn [rmap_count rmap_get].
    - destruct (amap_get id l); reflexivity.
    - destruct (nth_error vec (N.to_nat id)) as [v|] eqn:Q; [|apply nth_error_None in Q; lia]. destruct (full_eqb v empty_full); reflexivity. }
  unfold tells_alike, relation_exists, get_rmd, nof_blocks_for. cbn [converted i_data i_blocks].
  rewrite (C d Id), (C _ Im), G. auto.
Qed.

(* ---------- from a vector to a hash map ---------- *)
Lemma fold_amap (es l : list (N * full)) : NoDup (map fst (l ++ es)) ->
  fold_left (fun l (e : N * full) => amap_set (fst e) (snd e) l) es l = l ++ es.
Proof.
  revert l. induction es as [|[k f] es IH]; intros l Nd; cbn [fold_left fst snd].
  - now rewrite app_nil_r.
  - rewrite amap_set_new.
    + rewrite IH; rewrite <- app_assoc; auto.
    + rewrite map_app in Nd. cbn [map fst] in Nd. apply NoDup_remove_2 in Nd. intros Hi. apply Nd, in_app_iff. now left.
Qed.
