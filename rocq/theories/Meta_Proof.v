(* Auxiliary facts for the metadata of permutations. *)
From Coq Require Import List NArith Arith Bool Lia ZifyN ZifyNat ZifyBool.
From Verif Require Import Bytes Std_Model Std_Proof ListAux Meta_Model.
Import ListNotations.
Open Scope N_scope.

(* ---------- bits ---------- *)
Lemma tb_ones n i : N.testbit (N.ones n) i = (i <? n).
Proof.
  destruct (N.ltb_spec i n); [now apply N.ones_spec_low|now apply N.ones_spec_high].
Qed.
Lemma tb_shiftl a n i : N.testbit (N.shiftl a n) i = (n <=? i) && N.testbit a (i - n).
Proof.
  destruct (N.leb_spec n i); [now rewrite N.shiftl_spec_high'|now rewrite N.shiftl_spec_low].
Qed.
Lemma tb_small m k i : m < 2 ^ k -> k <= i -> N.testbit m i = false.
Proof.
  intros H Hi. destruct (N.eq_dec m 0) as [->|Hm]; [apply N.bits_0|].
  apply N.bits_above_log2. apply N.lt_le_trans with k; auto. apply N.log2_lt_pow2; lia.
Qed.
Lemma tb_lt w k : (forall i, k <= i -> N.testbit w i = false) -> w < 2 ^ k.
Proof.
  intros H. destruct (N.eq_dec w 0) as [->|Hw]; [apply N.neq_0_lt_0, N.pow_nonzero; lia|].
  apply N.log2_lt_pow2; [lia|]. destruct (N.lt_ge_cases (N.log2 w) k) as [|Hl]; auto.
  specialize (H _ Hl). rewrite N.bit_log2 in H by exact Hw. discriminate.
Qed.
Lemma tb_mod w k i : N.testbit (w mod 2 ^ k) i = (i <? k) && N.testbit w i.
Proof.
  destruct (N.ltb_spec i k); [now rewrite N.mod_pow2_bits_low|now rewrite N.mod_pow2_bits_high].
Qed.

Lemma mask_functional : IS_FUNCTIONAL_MASK = N.shiftl (N.ones 1) 56. Proof. reflexivity. Qed.
Lemma mask_blocks : HAS_BLOCKS_MASK = N.shiftl (N.ones 1) 57. Proof. reflexivity. Qed.
Lemma mask_nof : NOF_ELEMENTS_MASK = N.ones 40. Proof. reflexivity. Qed.
Lemma mask_1 : 0xFF00FFFFFFFFFFFF = N.lor (N.ones 48) (N.shiftl (N.ones 8) 56). Proof. reflexivity. Qed.
Lemma mask_2 : 0xFFFF00FFFFFFFFFF = N.lor (N.ones 40) (N.shiftl (N.ones 16) 48). Proof. reflexivity. Qed.
Lemma mask_1' : 0x00FF000000000000 = N.shiftl (N.ones 8) 48. Proof. reflexivity. Qed.
Lemma mask_2' : 0x0000FF0000000000 = N.shiftl (N.ones 8) 40. Proof. reflexivity. Qed.

Lemma bit_mask w k : negb (N.land w (N.shiftl (N.ones 1) k) =? 0) = N.testbit w k.
Proof.
  assert (E : N.land w (N.shiftl (N.ones 1) k) = if N.testbit w k then N.shiftl 1 k else 0).
  { apply N.bits_inj. intros i. rewrite N.land_spec, tb_shiftl, tb_ones.
    destruct (N.leb_spec k i), (N.ltb_spec (i - k) 1); cbn [andb].
    - replace i with k by lia. destruct (N.testbit w k) eqn:E; [|now rewrite N.bits_0].
      rewrite tb_shiftl. replace (k <=? k) with true by lia. now rewrite N.sub_diag.
    - rewrite andb_false_r. destruct (N.testbit w k); [|now rewrite N.bits_0].
      rewrite tb_shiftl, (tb_small 1 1); [now rewrite andb_false_r|reflexivity|lia].
    - rewrite andb_false_r. destruct (N.testbit w k); [|now rewrite N.bits_0].
      rewrite tb_shiftl. replace (k <=? i) with false by lia. reflexivity.
    - rewrite andb_false_r. destruct (N.testbit w k); [|now rewrite N.bits_0].
      rewrite tb_shiftl. replace (k <=? i) with false by lia. reflexivity. }
  rewrite E. destruct (N.testbit w k); auto.
Qed.
Lemma functional_bit w : is_functional w = N.testbit w 56.
Proof. unfold is_functional. rewrite mask_functional. apply bit_mask. Qed.
Lemma blocks_bit w : has_blocks w = N.testbit w 57.
Proof. unfold has_blocks. rewrite mask_blocks. apply bit_mask. Qed.
Lemma nof_bit w i : N.testbit (nof_elements w) i = (i <? 40) && N.testbit w i.
Proof. unfold nof_elements. rewrite mask_nof, N.land_spec, tb_ones. apply andb_comm. Qed.
Lemma col1_bit w i : N.testbit (col1 w) i = (i <? 8) && N.testbit w (i + 48).
Proof.
  unfold col1. change 256 with (2 ^ 8). rewrite tb_mod, N.shiftr_spec', mask_1', N.land_spec, tb_shiftl, tb_ones.
  destruct (N.ltb_spec i 8); auto. replace (48 <=? i + 48) with true by lia.
  replace (i + 48 - 48 <? 8) with true by lia. now rewrite andb_true_r.
Qed.
Lemma col2_bit w i : N.testbit (col2 w) i = (i <? 8) && N.testbit w (i + 40).
Proof.
  unfold col2. change 256 with (2 ^ 8). rewrite tb_mod, N.shiftr_spec', mask_2', N.land_spec, tb_shiftl, tb_ones.
  destruct (N.ltb_spec i 8); auto. replace (40 <=? i + 40) with true by lia.
  replace (i + 40 - 40 <? 8) with true by lia. now rewrite andb_true_r.
Qed.

Lemma set_functional_bit b w i : N.testbit (set_functional b w) i = if i =? 56 then b else N.testbit w i.
Proof.
  unfold set_functional. rewrite mask_functional.
  destruct b; rewrite ?N.lor_spec, ?N.ldiff_spec, tb_shiftl, tb_ones;
    destruct (N.eqb_spec i 56), (N.leb_spec 56 i), (N.ltb_spec (i - 56) 1); try lia; cbn [andb orb negb];
    rewrite ?orb_true_r, ?orb_false_r, ?andb_false_r, ?andb_true_r; auto.
Qed.
Lemma set_blocks_bit b w i : N.testbit (set_blocks b w) i = if i =? 57 then b else N.testbit w i.
Proof.
  unfold set_blocks. rewrite mask_blocks.
  destruct b; rewrite ?N.lor_spec, ?N.ldiff_spec, tb_shiftl, tb_ones;
    destruct (N.eqb_spec i 57), (N.leb_spec 57 i), (N.ltb_spec (i - 57) 1); try lia; cbn [andb orb negb];
    rewrite ?orb_true_r, ?orb_false_r, ?andb_false_r, ?andb_true_r; auto.
Qed.
Lemma set_col1_bit m w i : m < 256 ->
  N.testbit (set_col1 m w) i = if (48 <=? i) && (i <? 56) then N.testbit m (i - 48) else N.testbit w i && (i <? 64).
Proof.
  intros Hm. unfold set_col1. rewrite mask_1, N.lor_spec, N.land_spec, N.lor_spec, !tb_shiftl, !tb_ones.
  destruct (N.leb_spec 48 i), (N.ltb_spec i 56), (N.ltb_spec i 48), (N.leb_spec 56 i), (N.ltb_spec (i - 56) 8),
    (N.ltb_spec i 64); try lia; cbn [andb orb];
    rewrite ?orb_false_r, ?andb_false_r, ?andb_true_r; auto;
    rewrite (tb_small m 8) by (auto; lia); cbn [orb]; auto using orb_false_r.
Qed.
Lemma set_col2_bit m w i : m < 256 ->
  N.testbit (set_col2 m w) i = if (40 <=? i) && (i <? 48) then N.testbit m (i - 40) else N.testbit w i && (i <? 64).
Proof.
  intros Hm. unfold set_col2. rewrite mask_2, N.lor_spec, N.land_spec, N.lor_spec, !tb_shiftl, !tb_ones.
  destruct (N.leb_spec 40 i), (N.ltb_spec i 48), (N.ltb_spec i 40), (N.leb_spec 48 i), (N.ltb_spec (i - 48) 16),
    (N.ltb_spec i 64); try lia; cbn [andb orb];
    rewrite ?orb_false_r, ?andb_false_r, ?andb_true_r; auto;
    rewrite (tb_small m 8) by (auto; lia); cbn [orb]; auto using orb_false_r.
Qed.

(* ---------- reading words ---------- *)
Definition W64 : N := 18446744073709551616.
Lemma take_word_at v rest : v < W64 -> take_word (word v ++ rest) = Some (v, rest).
Proof.
  intros H. unfold take_word, word. rewrite (load_at' _ 0 8 [] (le 8 v) rest); auto using le_length.
  - rewrite of_le_le by exact H. rewrite skipn_app, le_length. rewrite skipn_all2 by (rewrite le_length; lia).
    reflexivity.
Qed.
Opaque word.

Definition full_ok (f : full) : Prop := f_rel f < W64 /\ f_start f < W64 /\ f_word f < W64.
Definition blocks_ok (b : blocks) : Prop :=
  b_start_rhs b < W64 /\ b_after b < W64 /\ N.of_nat (length (b_blocks b)) < W64 /\
  Forall (fun p => fst p < W64 /\ snd p < W64) (b_blocks b).

Lemma take_full_at f rest : full_ok f -> take_full (full_bytes f ++ rest) = Some (f, rest).
Proof.
  intros (H1 & H2 & H3). unfold take_full, full_bytes. rewrite <- !app_assoc.
  rewrite take_word_at by exact H1. rewrite take_word_at by exact H2. rewrite take_word_at by exact H3.
  now destruct f.
Qed.
Lemma take_blocks_at l rest : Forall (fun p => fst p < W64 /\ snd p < W64) l ->
  take_blocks (length l) (flat_map (fun p : N * N => word (fst p) ++ word (snd p)) l ++ rest) = Some (l, rest).
Proof.
  induction 1 as [|[x y] l [H1 H2] _ IH]; auto. cbn [length take_blocks flat_map fst snd]. rewrite <- !app_assoc.
  rewrite take_word_at by exact H1. rewrite take_word_at by exact H2. rewrite IH. reflexivity.
Qed.
Lemma take_block_data_at b rest : blocks_ok b -> take_block_data (blocks_bytes b ++ rest) = Some (b, rest).
Proof.
  intros (H1 & H2 & H3 & H4). unfold take_block_data, blocks_bytes. rewrite <- !app_assoc.
  rewrite take_word_at by exact H1. rewrite take_word_at by exact H2. rewrite take_word_at by exact H3.
  rewrite Nat2N.id, take_blocks_at by exact H4. now destruct b.
Qed.

(* ---------- association lists ---------- *)
Lemma amap_get_set {A} k (v : A) m k' : amap_get k' (amap_set k v m) = if k =? k' then Some v else amap_get k' m.
Proof.
  unfold amap_get. induction m as [|[x y] m IH]; cbn [amap_set find fst snd option_map].
  - destruct (N.eqb_spec k k'); reflexivity.
  - destruct (N.eqb_spec x k) as [->|Hn]; cbn [find fst snd option_map].
    + destruct (N.eqb_spec k k'); reflexivity.
    + destruct (N.eqb_spec x k') as [->|Hn']; cbn [option_map]; [|exact IH].
      destruct (N.eqb_spec k k'); congruence.
Qed.
Lemma amap_get_none {A} k (m : list (N * A)) : amap_get k m = None <-> ~ In k (map fst m).
Proof.
  unfold amap_get. induction m as [|[x y] m IH]; cbn [find fst snd option_map map In]; [tauto|].
  destruct (N.eqb_spec x k); cbn [option_map]; [split; [discriminate|tauto]|]. rewrite IH. tauto.
Qed.
Lemma amap_get_in {A} k (v : A) m : NoDup (map fst m) -> (amap_get k m = Some v <-> In (k, v) m).
Proof.
  unfold amap_get. induction m as [|[x y] m IH]; intros H; cbn [find fst snd option_map map In]; [split; [discriminate|tauto]|].
  cbn [map fst] in H. inversion H as [|? ? Hx Hm]; subst. destruct (N.eqb_spec x k) as [->|Hn]; cbn [option_map snd].
  - split; [intros E; injection E as ->; now left|]. intros [E|E]; [congruence|].
    elim Hx. now apply (in_map fst) in E.
  - rewrite IH by exact Hm. split; [now right|]. intros [E|E]; [congruence|exact E].
Qed.
Lemma amap_set_new {A} k (v : A) m : ~ In k (map fst m) -> amap_set k v m = m ++ [(k, v)].
Proof.
  induction m as [|[x y] m IH]; intros H; auto. cbn [amap_set]. cbn [map fst In] in H.
  destruct (N.eqb_spec x k); [tauto|]. rewrite IH by tauto. reflexivity.
Qed.
Lemma amap_set_keys {A} k (v : A) m x : In x (map fst (amap_set k v m)) <-> x = k \/ In x (map fst m).
Proof.
  induction m as [|[y z] m IH]; cbn [amap_set map fst In]; [intuition|].
  destruct (N.eqb_spec y k) as [->|Hn]; cbn [map fst In]; [intuition|]. rewrite IH. intuition.
Qed.
Lemma amap_set_nodup {A} k (v : A) m : NoDup (map fst m) -> NoDup (map fst (amap_set k v m)).
Proof.
  induction m as [|[y z] m IH]; intros H; cbn [amap_set map fst]; [repeat constructor; intros []|].
  cbn [map fst] in H. inversion H as [|? ? Hx Hm]; subst. destruct (N.eqb_spec y k) as [->|Hn]; cbn [map fst].
  - now constructor.
  - constructor; auto. rewrite amap_set_keys. intuition.
Qed.
Lemma amap_set_in {A} k (v : A) m x y : NoDup (map fst m) ->
  (In (x, y) (amap_set k v m) <-> (x = k /\ y = v) \/ (x <> k /\ In (x, y) m)).
Proof.
  intros H. rewrite <- amap_get_in by (now apply amap_set_nodup). rewrite amap_get_set.
  destruct (N.eqb_spec k x) as [->|Hn].
  - split; [intros E; injection E as ->; left; auto|]. intros [[_ ->]|[E _]]; congruence.
  - rewrite amap_get_in by exact H. split; [auto|]. intros [[E _]|[_ E]]; congruence.
Qed.

(* ---------- writing and reading ---------- *)
Definition expected_after (f : full) (b : blocks) : N :=
  if has_blocks (f_word f) then b_after b else f_start f + nof_bytes f.

(* what is kept of the blocks of the given relations *)
Definition block_list (es : list (N * full)) (bs : list (N * blocks)) : list (N * blocks) :=
  flat_map (fun e => if has_blocks (f_word (snd e)) then
                       match amap_get (f_rel (snd e)) bs with Some b => [(f_rel (snd e), b)] | None => [] end
                     else []) es.

(* metadata as it arises from add, and small enough for the file *)
Record wf (m : imd) : Prop := {
  wf_keys : match i_data m with Hmap l => NoDup (map fst l) | Dense _ vec => N.of_nat (length vec) < W64 end;
  wf_full : forall k f, In (k, f) (rmap_entries (i_data m)) -> f_rel f = k /\ full_ok f /\
              (has_blocks (f_word f) = true -> exists b, In (k, b) (i_blocks m)) /\
              (has_blocks (f_word f) = false -> f_start f + nof_bytes f <= i_after m);
  wf_bkeys : NoDup (map fst (i_blocks m));
  wf_block : forall k b, In (k, b) (i_blocks m) -> blocks_ok b /\ b_after b <= i_after m /\
              exists f, In (k, f) (rmap_entries (i_data m)) /\ has_blocks (f_word f) = true;
  wf_size : rmap_size (i_data m) = N.of_nat (length (rmap_entries (i_data m)));
  wf_small : i_after m < W64 /\ N.of_nat (length (i_name m)) < W64 /\
             N.of_nat (length (rmap_entries (i_data m))) < W64 /\ N.of_nat (length (i_blocks m)) < W64;
  wf_stat : i_elements m < W64 /\ i_bytes m < W64 /\ i_nblocks m < W64 }.

(* the same metadata; the hash map of the blocks may be iterated in another order *)
Definition same_imd (m m' : imd) : Prop :=
  i_after m' = i_after m /\ i_name m' = i_name m /\ i_data m' = i_data m /\
  (forall id, amap_get id (i_blocks m') = amap_get id (i_blocks m)) /\
  i_elements m' = i_elements m /\ i_bytes m' = i_bytes m /\ i_nblocks m' = i_nblocks m.

Lemma hmap_bytes_ok es bs :
  (forall k f, In (k, f) es -> has_blocks (f_word f) = true -> exists b, amap_get (f_rel f) bs = Some b) ->
  exists out, hmap_bytes es bs = Ok out.
Proof.
  induction es as [|[k f] es IH]; intros H; [eexists; reflexivity|]. cbn [hmap_bytes].
  destruct IH as [out E]; [intros; eapply H; [right|]; eauto|]. rewrite E.
  destruct (has_blocks (f_word f)) eqn:B.
  - destruct (H k f (or_introl eq_refl) B) as [b Hb]. rewrite Hb. cbn [bind]. eexists. reflexivity.
  - cbn [bind]. eexists. reflexivity.
Qed.

Lemma read_relations_at bs : forall es out pre m rest,
  hmap_bytes es bs = Ok out -> i_data m = Hmap pre -> NoDup (map fst (pre ++ es)) ->
  NoDup (map fst (i_blocks m ++ block_list es bs)) ->
  (forall k f, In (k, f) es -> f_rel f = k /\ full_ok f /\
     (has_blocks (f_word f) = false -> f_start f + nof_bytes f <= i_after m)) ->
  (forall k b, In (k, b) bs -> blocks_ok b /\ b_after b <= i_after m) ->
  read_relations (length es) (out ++ rest) m =
  Ok ({| i_after := i_after m; i_name := i_name m; i_data := Hmap (pre ++ es);
         i_blocks := i_blocks m ++ block_list es bs; i_elements := i_elements m; i_bytes := i_bytes m;
         i_nblocks := i_nblocks m; i_version := i_version m |}, rest).
Proof.
  induction es as [|[k f] es IH]; intros out pre m rest Ho Hd Hn Hnb Hf Hb.
  - injection Ho as <-. cbn [length read_relations block_list flat_map app]. rewrite !app_nil_r, <- Hd. now destruct m.
  - cbn [hmap_bytes] in Ho. destruct (Hf k f (or_introl eq_refl)) as (Hk & Hok & Haft).
    cbn [length read_relations].
    assert (Hnew : ~ In k (map fst pre)).
    { rewrite map_app in Hn. cbn [map fst] in Hn. apply NoDup_remove_2 in Hn. intros Hi. apply Hn. apply in_app_iff. now left. }
    assert (Step : forall b out', (has_blocks (f_word f) = true -> amap_get k bs = Some b) ->
              hmap_bytes es bs = Ok out' ->
              bind (add f b m) (fun m0 => read_relations (length es) (out' ++ rest) m0) =
              Ok ({| i_after := i_after m; i_name := i_name m; i_data := Hmap (pre ++ (k, f) :: es);
                     i_blocks := i_blocks m ++ block_list ((k, f) :: es) bs; i_elements := i_elements m;
                     i_bytes := i_bytes m; i_nblocks := i_nblocks m; i_version := i_version m |}, rest)).
    { intros b out' Hbb Eo. unfold add. rewrite Hd. cbn [rmap_set bind]. rewrite Hk, amap_set_new by exact Hnew.
      set (m1 := add_blocks f b (with_data (Hmap (pre ++ [(k, f)])) m)).
      assert (Aft : i_after m1 = i_after m).
      { unfold m1, add_blocks. cbn [i_after with_data].
        destruct (has_blocks (f_word f)) eqn:B.
        - assert (In (k, b) bs).
          { specialize (Hbb eq_refl). unfold amap_get in Hbb. destruct (find _ bs) as [[k' b']|] eqn:F; [|discriminate].
            apply find_some in F. destruct F as [F1 F2]. cbn [fst snd option_map] in *. apply N.eqb_eq in F2. congruence. }
          destruct (Hb k b H) as [_ Hle]. destruct (N.ltb_spec (i_after m) (b_after b)); lia.
        - specialize (Haft eq_refl). destruct (N.ltb_spec (i_after m) (f_start f + nof_bytes f)); lia. }
      assert (Bl : i_blocks m1 ++ block_list es bs = i_blocks m ++ block_list ((k, f) :: es) bs).
      { unfold m1, add_blocks, block_list. cbn [i_blocks with_data flat_map snd]. rewrite Hk.
        destruct (has_blocks (f_word f)) eqn:B; [|reflexivity]. rewrite (Hbb eq_refl).
        rewrite amap_set_new; [now rewrite <- app_assoc|].
        unfold block_list in Hnb. cbn [flat_map snd] in Hnb. rewrite B, Hk, (Hbb eq_refl) in Hnb. cbn [app] in Hnb.
        rewrite map_app in Hnb. cbn [map fst] in Hnb. apply NoDup_remove_2 in Hnb. intros Hi. apply Hnb, in_app_iff. now left. }
      rewrite (IH out' (pre ++ [(k, f)]) m1 rest); auto.
      - rewrite Bl, Aft, <- app_assoc. unfold m1, add_blocks. cbn [i_name i_elements i_bytes i_nblocks i_version with_data].
        reflexivity.
      - rewrite <- app_assoc. exact Hn.
      - rewrite Bl. exact Hnb.
      - intros k' f' Hi. rewrite Aft. apply Hf. now right.
      - intros k' b' Hi. rewrite Aft. exact (Hb k' b' Hi). }
    destruct (has_blocks (f_word f)) eqn:B.
    + rewrite Hk in Ho. destruct (amap_get k bs) as [b|] eqn:G; [|discriminate]. cbn [bind] in Ho.
      destruct (hmap_bytes es bs) as [out'| |] eqn:Eo; try discriminate. injection Ho as <-.
      rewrite <- !app_assoc, take_full_at by exact Hok. cbn [of_option bind fst snd]. rewrite B.
      assert (In (k, b) bs).
      { unfold amap_get in G. destruct (find _ bs) as [[k' b']|] eqn:F; [|discriminate].
        apply find_some in F. destruct F as [F1 F2]. cbn [fst snd option_map] in *. apply N.eqb_eq in F2. congruence. }
      rewrite take_block_data_at by (exact (proj1 (Hb k b H))). cbn [of_option bind fst snd]. apply Step; auto.
    + cbn [bind] in Ho. destruct (hmap_bytes es bs) as [out'| |] eqn:Eo; try discriminate. injection Ho as <-.
      rewrite <- !app_assoc, take_full_at by exact Hok. cbn [of_option bind fst snd]. rewrite B.
      apply Step; auto. discriminate.
Qed.

Lemma read_block_list_at : forall bs m rest,
  NoDup (map fst (i_blocks m ++ bs)) ->
  (forall k b, In (k, b) bs -> k < W64 /\ blocks_ok b /\ b_after b <= i_after m /\
     exists f, rmap_get k (i_data m) = Ok f /\ f_rel f = k /\ has_blocks (f_word f) = true) ->
  read_block_list (length bs) (flat_map (fun e : N * blocks => word (fst e) ++ blocks_bytes (snd e)) bs ++ rest) m =
  Ok ({| i_after := i_after m; i_name := i_name m; i_data := i_data m;
         i_blocks := i_blocks m ++ bs; i_elements := i_elements m; i_bytes := i_bytes m;
         i_nblocks := i_nblocks m; i_version := i_version m |}, rest).
Proof.
  induction bs as [|[k b] bs IH]; intros m rest Hn Hb.
  - cbn [length read_block_list flat_map app]. rewrite app_nil_r. now destruct m.
  - destruct (Hb k b (or_introl eq_refl)) as (Hk & Hok & Hle & f & Hf & Hrel & B).
    cbn [length read_block_list flat_map fst snd]. rewrite <- !app_assoc.
    rewrite take_word_at by exact Hk. cbn [of_option bind fst snd].
    rewrite take_block_data_at by exact Hok. cbn [of_option bind fst snd]. rewrite Hf. cbn [bind].
    set (m1 := add_blocks f b m).
    assert (Aft : i_after m1 = i_after m).
    { unfold m1, add_blocks. cbn [i_after]. rewrite B. destruct (N.ltb_spec (i_after m) (b_after b)); lia. }
    assert (Bl : i_blocks m1 = i_blocks m ++ [(k, b)]).
    { unfold m1, add_blocks. cbn [i_blocks]. rewrite B, Hrel. apply amap_set_new.
      rewrite map_app in Hn. cbn [map fst] in Hn. apply NoDup_remove_2 in Hn. intros Hi. apply Hn, in_app_iff. now left. }
    rewrite IH.
    + rewrite Bl, Aft, <- app_assoc. reflexivity.
    + rewrite Bl, <- app_assoc. exact Hn.
    + intros k' b' Hi. rewrite Aft. apply Hb. now right.
Qed.

(* ---------- the dense map ---------- *)
Lemma full_eqb_eq a b : full_eqb a b = true <-> a = b.
Proof.
  unfold full_eqb. rewrite !andb_true_iff, !N.eqb_eq. destruct a, b; cbn. split; [intros [[-> ->] ->]; auto|].
  intros E; injection E as -> -> ->. auto.
Qed.
Lemma dense_entries_in vec : forall id k f,
  In (k, f) (dense_entries id vec) <-> id <= k /\ nth_error vec (N.to_nat (k - id)) = Some f /\ f <> empty_full.
Proof.
  induction vec as [|v vec IH]; intros id k f; cbn [dense_entries].
  - split; [intros []|]. intros (_ & H & _). destruct (N.to_nat (k - id)); discriminate.
  - assert (R : In (k, f) (dense_entries (id + 1) vec) <->
                id < k /\ nth_error (v :: vec) (N.to_nat (k - id)) = Some f /\ f <> empty_full).
    { rewrite IH. destruct (N.le_gt_cases (id + 1) k).
      - replace (N.to_nat (k - id)) with (S (N.to_nat (k - (id + 1)))) by lia. cbn [nth_error]. intuition lia.
      - split; [intuition lia|]. intros [H' _]. lia. }
    destruct (full_eqb v empty_full) eqn:E.
    + apply full_eqb_eq in E. rewrite R. split; [intuition lia|]. intros (H1 & H2 & H3). split; auto.
      destruct (N.eq_dec id k) as [->|]; [|lia]. rewrite N.sub_diag in H2. cbn in H2. congruence.
    + cbn [In]. rewrite R. split.
      * intros [Q|H]; [|intuition lia]. injection Q as -> ->. rewrite N.sub_diag. cbn [N.to_nat nth_error].
        repeat split; auto; [lia|]. intros Q. apply full_eqb_eq in Q. congruence.
      * intros (H1 & H2 & H3). destruct (N.eq_dec id k) as [->|]; [left|right; intuition lia].
        rewrite N.sub_diag in H2. cbn in H2. congruence.
Qed.
Lemma dense_entries_keys vec : forall id, NoDup (map fst (dense_entries id vec)).
Proof.
  induction vec as [|v vec IH]; intros id; cbn [dense_entries]; [constructor|].
  destruct (full_eqb v empty_full); auto. cbn [map fst]. constructor; auto.
  intros Hi. apply in_map_iff in Hi. destruct Hi as ([k f] & <- & Hi). apply dense_entries_in in Hi. cbn [fst] in *. lia.
Qed.
Lemma rmap_get_entries id m f : match m with Hmap l => NoDup (map fst l) | _ => True end ->
  (rmap_get id m = Ok f <-> In (id, f) (rmap_entries m)).
Proof.
  destruct m as [l|size vec]; cbn [rmap_get rmap_entries]; intros H.
  - rewrite <- amap_get_in by exact H. destruct (amap_get id l); split; intros E; congruence.
  - rewrite dense_entries_in, N.sub_0_r. destruct (nth_error vec (N.to_nat id)) as [v|].
    + destruct (full_eqb v empty_full) eqn:E.
      * apply full_eqb_eq in E. split; [discriminate|]. intros (_ & H1 & H2). congruence.
      * split.
        -- intros Q. injection Q as <-. repeat split; auto; [lia|]. intros Q. apply full_eqb_eq in Q. congruence.
        -- intros (_ & H1 & H2). congruence.
    + split; [discriminate|]. intros (_ & H1 & _). discriminate.
Qed.

Lemma block_list_get m l : i_data m = Hmap l -> wf m ->
  NoDup (map fst (block_list l (i_blocks m))) /\
  forall id, amap_get id (block_list l (i_blocks m)) = amap_get id (i_blocks m).
Proof.
  intros Hd W. pose proof (wf_keys m W) as K. rewrite Hd in K. pose proof (wf_full m W) as F. rewrite Hd in F.
  cbn [rmap_entries] in F.
  assert (I : forall es, incl es l -> forall k b, In (k, b) (block_list es (i_blocks m)) <->
              In (k, b) (i_blocks m) /\ exists f, In (k, f) es /\ has_blocks (f_word f) = true).
  { intros es Hi k b. unfold block_list. rewrite in_flat_map. split.
    - intros ([k' f] & He & Hin). cbn [snd] in Hin. destruct (F k' f (Hi _ He)) as (Hk & _).
      destruct (has_blocks (f_word f)) eqn:B; [|destruct Hin].
      destruct (amap_get (f_rel f) (i_blocks m)) as [b'|] eqn:G; [|destruct Hin]. destruct Hin as [Q|[]].
      injection Q as <- <-. apply amap_get_in in G; [|apply (wf_bkeys m W)]. split; auto. exists f. rewrite Hk. auto.
    - intros (Hb & f & Hf & B). exists (k, f). split; auto. cbn [snd]. rewrite B.
      destruct (F k f (Hi _ Hf)) as (Hk & _). rewrite Hk.
      apply amap_get_in in Hb; [|apply (wf_bkeys m W)]. rewrite Hb. now left. }
  assert (Nd : NoDup (map fst (block_list l (i_blocks m)))).
  { revert K I. clear -F. induction l as [|[k f] l IH]; intros K I; [constructor|].
    cbn [map fst] in K. inversion K as [|? ? Kx Kl]; subst.
    assert (IHl : NoDup (map fst (block_list l (i_blocks m)))).
    { apply IH; auto.
      - intros. apply F. now right.
      - intros es Hes. apply I. intros x Hx. right. auto. }
    unfold block_list. cbn [flat_map snd]. fold (block_list l (i_blocks m)).
    destruct (F k f (or_introl eq_refl)) as (Hk & _).
    destruct (has_blocks (f_word f)) eqn:B; auto.
    destruct (amap_get (f_rel f) (i_blocks m)) as [b|] eqn:G; auto. cbn [app map fst]. constructor; auto.
    intros Hi. apply in_map_iff in Hi. destruct Hi as ([k' b'] & Q & Hi). cbn [fst] in Q. subst k'.
    apply (I l) in Hi; [|intros x Hx; now right]. destruct Hi as (_ & f' & Hf' & _). rewrite Hk in Hf'.
    apply Kx. now apply (in_map fst) in Hf'. }
  split; auto. intros id. destruct (amap_get id (i_blocks m)) as [b|] eqn:G.
  - apply amap_get_in; auto. apply (I l); [intros x; auto|].
    apply amap_get_in in G; [|apply (wf_bkeys m W)]. split; auto.
    destruct (wf_block m W _ _ G) as (_ & _ & f & Hf & B). rewrite Hd in Hf. exists f. auto.
  - apply amap_get_none. intros Hi. apply in_map_iff in Hi. destruct Hi as ([k b] & Q & Hi). cbn [fst] in Q. subst k.
    apply (I l) in Hi; [|intros x; auto]. destruct Hi as [Hi _]. apply amap_get_in in Hi; [|apply (wf_bkeys m W)]. congruence.
Qed.
