(* Properties C26 and C27: metadata of index permutations. *)
From Coq Require Import List NArith Arith Bool Lia ZifyN ZifyNat ZifyBool.
From Verif Require Import Bytes Std_Model Std_Proof ListAux Meta_Model Meta_Proof.
Import ListNotations.
Open Scope N_scope.

(* ---------- C27: packed statistics ---------- *)
(* the five values in one word *)
Record stats := { st_nof : N; st_col1 : N; st_col2 : N; st_functional : bool; st_blocks : bool }.
Definition view (w : N) : stats :=
  {| st_nof := nof_elements w; st_col1 := col1 w; st_col2 := col2 w; st_functional := is_functional w;
     st_blocks := has_blocks w |}.

Inductive setter := SetFunctional (b : bool) | SetBlocks (b : bool) | SetCol1 (m : N) | SetCol2 (m : N).
(* the values are uint8_t *)
Definition setter_ok (s : setter) : Prop := match s with SetCol1 m | SetCol2 m => m < 256 | _ => True end.
Definition exec (s : setter) (w : N) : N :=
  match s with
  | SetFunctional b => set_functional b w | SetBlocks b => set_blocks b w
  | SetCol1 m => set_col1 m w | SetCol2 m => set_col2 m w
  end.
(* what a setter should do *)
Definition apply (s : setter) (x : stats) : stats :=
  match s with
  | SetFunctional b => {| st_nof := st_nof x; st_col1 := st_col1 x; st_col2 := st_col2 x; st_functional := b; st_blocks := st_blocks x |}
  | SetBlocks b => {| st_nof := st_nof x; st_col1 := st_col1 x; st_col2 := st_col2 x; st_functional := st_functional x; st_blocks := b |}
  | SetCol1 m => {| st_nof := st_nof x; st_col1 := m; st_col2 := st_col2 x; st_functional := st_functional x; st_blocks := st_blocks x |}
  | SetCol2 m => {| st_nof := st_nof x; st_col1 := st_col1 x; st_col2 := m; st_functional := st_functional x; st_blocks := st_blocks x |}
  end.

Ltac bits := repeat match goal with
  | |- context [if ?a =? ?b then _ else _] => destruct (N.eqb_spec a b)
  | |- context [?a <? ?b] => destruct (N.ltb_spec a b)
  | |- context [?a <=? ?b] => destruct (N.leb_spec a b)
  end; try lia; cbn [andb]; rewrite ?andb_true_r, ?andb_false_r; auto.

Theorem C27_setter s w : setter_ok s -> view (exec s w) = apply s (view w).
Proof.
  destruct s as [b|b|m|m]; cbn [setter_ok exec apply]; intros Hm; unfold view; cbn [st_nof st_col1 st_col2 st_functional st_blocks]; f_equal;
    rewrite ?functional_bit, ?blocks_bit, ?set_functional_bit, ?set_blocks_bit, ?set_col1_bit, ?set_col2_bit by exact Hm; auto;
    try (apply N.bits_inj; intros i;
         rewrite ?nof_bit, ?col1_bit, ?col2_bit, ?set_functional_bit, ?set_blocks_bit, ?set_col1_bit, ?set_col2_bit by exact Hm; bits);
    try (cbn; rewrite ?andb_true_r; reflexivity).
  all: try (replace (i + 48 - 48) with i by lia; reflexivity); try (replace (i + 40 - 40) with i by lia; reflexivity).
  all: try (apply tb_small with 8; auto; fail); try (symmetry; apply tb_small with 8; auto; fail).
Qed.

(* any sequence of setters *)
Theorem C27_setters ss : forall w, Forall setter_ok ss ->
  view (fold_left (fun w s => exec s w) ss w) = fold_left (fun x s => apply s x) ss (view w).
Proof.
  induction ss as [|s ss IH]; intros w H; auto. inversion H; subst. cbn [fold_left]. now rewrite IH, C27_setter.
Qed.
(* a new relation has the values it was made with *)
Theorem C27_constructor rel start nof c1 c2 fn bl : nof < 2 ^ 40 -> c1 < 256 -> c2 < 256 ->
  view (f_word (make_full rel start nof c1 c2 fn bl)) =
    {| st_nof := nof; st_col1 := c1; st_col2 := c2; st_functional := fn; st_blocks := bl |} /\
  f_word (make_full rel start nof c1 c2 fn bl) < 2 ^ 64.
Proof.
  intros Hn H1 H2. cbn [make_full f_word]. split.
  - pose proof (C27_setters [SetFunctional fn; SetBlocks bl; SetCol1 c1; SetCol2 c2] nof) as C.
    cbn [fold_left exec apply st_nof st_col1 st_col2 st_functional st_blocks] in C. rewrite C by (repeat constructor; auto).
    f_equal. unfold view. cbn [st_nof]. apply N.bits_inj. intros i. rewrite nof_bit.
    destruct (N.ltb_spec i 40); auto. symmetry. cbn [andb]. now apply tb_small with 40.
  - apply tb_lt. intros i Hi. rewrite set_col2_bit, set_col1_bit, set_blocks_bit, set_functional_bit by assumption. bits.
Qed.
Theorem C27_word s w : setter_ok s -> w < 2 ^ 64 -> exec s w < 2 ^ 64.
Proof.
  intros Hs Hw. apply tb_lt. intros i Hi. pose proof (tb_small w 64 i Hw Hi) as T.
  destruct s as [b|b|m|m]; cbn [exec setter_ok] in *;
    rewrite ?set_functional_bit, ?set_blocks_bit, ?set_col1_bit, ?set_col2_bit by exact Hs; bits.
Qed.
(* equality of all getters means equality of the word up to the six unused bits *)
Theorem C27_injective w w' : w < 2 ^ 58 -> w' < 2 ^ 58 -> view w = view w' -> w = w'.
Proof.
  intros Hw Hw' E. unfold view in E. injection E as E1 E2 E3 E4 E5. apply N.bits_inj. intros i.
  rewrite functional_bit, functional_bit in E4. rewrite blocks_bit, blocks_bit in E5.
  destruct (N.lt_ge_cases i 40) as [L|L].
  { pose proof (nof_bit w i). pose proof (nof_bit w' i). rewrite E1 in *. replace (i <? 40) with true in * by lia. cbn [andb] in *. congruence. }
  destruct (N.lt_ge_cases i 48) as [L1|L1].
  { pose proof (col2_bit w (i - 40)) as A. pose proof (col2_bit w' (i - 40)) as B. rewrite E3 in A.
    replace (i - 40 <? 8) with true in * by lia. replace (i - 40 + 40) with i in * by lia. cbn [andb] in *. congruence. }
  destruct (N.lt_ge_cases i 56) as [L2|L2].
  { pose proof (col1_bit w (i - 48)) as A. pose proof (col1_bit w' (i - 48)) as B. rewrite E2 in A.
    replace (i - 48 <? 8) with true in * by lia. replace (i - 48 + 48) with i in * by lia. cbn [andb] in *. congruence. }
  destruct (N.eq_dec i 56) as [->|]; auto. destruct (N.eq_dec i 57) as [->|]; auto.
  rewrite (tb_small w 58), (tb_small w' 58) by (auto; lia). reflexivity.
Qed.
Print Assumptions C27_setter.
Print Assumptions C27_setters.
Print Assumptions C27_constructor.
Print Assumptions C27_word.
Print Assumptions C27_injective.

Example C27_ex : view (f_word (make_full 7 4096 123456789 17 200 false true)) =
  {| st_nof := 123456789; st_col1 := 17; st_col2 := 200; st_functional := false; st_blocks := true |}.
Proof. vm_compute. reflexivity. Qed.
(* a relation with 2^40 triples claims to have none *)
Theorem C27_too_many_refuted : exists rel start nof c1 c2 fn bl, nof < 2 ^ 64 /\ c1 < 256 /\ c2 < 256 /\
  nof_elements (f_word (make_full rel start nof c1 c2 fn bl)) <> nof.
Proof. exists 0, 0, (2 ^ 40), 0, 0, false, false. repeat split; vm_compute; discriminate. Qed.

(* ---------- C26: metadata survives a restart ---------- *)
(* the map a server starts with *)
Definition before_reading (d : rmap) : rmap := match d with Hmap _ => Hmap [] | Dense _ vec => Dense 0 vec end.

Lemma load_front (x rest : list N) : load (x ++ rest) 0 (length x) = Some x.
Proof. apply (load_at' _ _ _ [] x rest); auto. Qed.
Lemma create_from_buffer_ok m rest : wf m -> exists out, imd_bytes m = Ok out /\
  exists m', create_from_buffer (before_reading (i_data m)) (out ++ rest) = Ok m' /\ same_imd m m' /\ i_version m' = V_CURRENT.
Proof.
  intros W. pose proof (wf_small m W) as (S1 & S2 & S3 & S4). pose proof (wf_stat m W) as (T1 & T2 & T3).
  pose proof (wf_size m W) as Sz.
  assert (Mg : forall b : bool, (if b then MAGIC_MMAP_VERSION else MAGIC_SPARSE_VERSION) < W64) by (intros []; vm_compute; auto).
  destruct (i_data m) as [l|size vec] eqn:Hd.
  - assert (Hb : forall k f, In (k, f) l -> has_blocks (f_word f) = true -> exists b, amap_get (f_rel f) (i_blocks m) = Some b).
    { intros k f Hi B. pose proof (wf_full m W k f) as F. rewrite Hd in F. destruct (F Hi) as (Hk & _ & E & _).
      destruct (E B) as [b Hb]. exists b. rewrite Hk. apply amap_get_in; auto. apply (wf_bkeys m W). }
    destruct (hmap_bytes_ok _ _ Hb) as [body Eb].
    unfold imd_bytes. rewrite Hd, Eb. cbn [bind is_mmap rmap_size]. eexists. split; [reflexivity|].
    unfold create_from_buffer, parse_magic. cbn [before_reading is_mmap]. rewrite <- !app_assoc.
    rewrite take_word_at by apply (Mg false). cbn [of_option bind fst snd]. rewrite N.eqb_refl.
    rewrite take_word_at by reflexivity. cbn [of_option bind fst snd]. rewrite N.eqb_refl. cbn [bind fst snd].
    rewrite take_word_at by exact S2. cbn [of_option bind fst snd]. rewrite Nat2N.id.
    rewrite load_front.
    cbn [of_option bind fst snd]. rewrite skipn_app, skipn_all, Nat.sub_diag. cbn [skipn app].
    rewrite take_word_at by exact S3. cbn [of_option bind fst snd].
    rewrite take_word_at by exact S1. cbn [of_option bind fst snd]. rewrite Nat2N.id.
    destruct (block_list_get m l Hd W) as [Nb Gb].
    set (m0 := {| i_after := i_after m |}).
    rewrite (read_relations_at (i_blocks m) l body [] m0); auto.
    + cbn [bind fst snd]. rewrite take_word_at by exact T1. cbn [of_option bind fst snd].
      rewrite take_word_at by exact T2. cbn [of_option bind fst snd].
      rewrite take_word_at by exact T3. cbn [of_option bind fst snd].
      eexists. split; [reflexivity|]. unfold same_imd, m0. cbn. rewrite Hd. repeat split; auto.
    + pose proof (wf_keys m W) as K. rewrite Hd in K. exact K.
    + intros k f Hi. pose proof (wf_full m W k f) as F. rewrite Hd in F. destruct (F Hi) as (A & B & _ & C). auto.
    + intros k b Hi. destruct (wf_block m W k b Hi) as (A & B & _). auto.
  - unfold imd_bytes. rewrite Hd. cbn [bind is_mmap rmap_size]. eexists. split; [reflexivity|].
    unfold create_from_buffer, parse_magic. cbn [before_reading is_mmap]. rewrite <- !app_assoc.
    rewrite take_word_at by apply (Mg true). cbn [of_option bind fst snd]. rewrite N.eqb_refl.
    rewrite take_word_at by reflexivity. cbn [of_option bind fst snd]. rewrite N.eqb_refl. cbn [bind fst snd].
    rewrite take_word_at by exact S2. cbn [of_option bind fst snd]. rewrite Nat2N.id.
    rewrite load_front.
    cbn [of_option bind fst snd]. rewrite skipn_app, skipn_all, Nat.sub_diag. cbn [skipn app].
    cbn [rmap_size] in Sz. rewrite take_word_at by (rewrite Sz; exact S3). cbn [of_option bind fst snd].
    rewrite take_word_at by exact S1. cbn [of_option bind fst snd].
    rewrite take_word_at by exact S4. cbn [of_option bind fst snd]. rewrite Nat2N.id.
    set (m0 := {| i_after := i_after m |}).
    rewrite (read_block_list_at (i_blocks m) m0).
    + cbn [bind fst snd]. rewrite take_word_at by exact T1. cbn [of_option bind fst snd].
      rewrite take_word_at by exact T2. cbn [of_option bind fst snd].
      rewrite take_word_at by exact T3. cbn [of_option bind fst snd].
      eexists. split; [reflexivity|]. unfold same_imd, m0. cbn. rewrite Hd. repeat split; auto.
    + apply (wf_bkeys m W).
    + intros k b Hi. destruct (wf_block m W k b Hi) as (A & B & f & Hf & C).
      destruct (wf_full m W k f Hf) as (Hk & (Hk' & _) & _). rewrite Hd in Hf. cbn [m0 i_data i_after].
      split; [lia|]. split; auto. split; auto. exists f. split; auto. now apply rmap_get_entries.
Qed.

(* appended to any file and read back *)
Theorem C26_round_trip file m : wf m -> N.of_nat (length file) < W64 ->
  exists file', append_to_file file m = Ok file' /\
  exists m', read_from_file (before_reading (i_data m)) file' = Ok m' /\ same_imd m m' /\ i_version m' = V_CURRENT.
Proof.
  intros Wf Hf. destruct (create_from_buffer_ok m [] Wf) as (out & Ho & m' & Hm & Hs). rewrite app_nil_r in Hm.
  unfold append_to_file. rewrite Ho. cbn [bind]. eexists. split; [reflexivity|]. exists m'. split; [|exact Hs].
  unfold read_from_file. rewrite !app_length.
  assert (Lw : length (word (N.of_nat (length file))) = 8%nat) by apply le_length. rewrite Lw.
  replace (Nat.ltb (length file + (length out + 8)) 8) with false by (symmetry; apply Nat.ltb_ge; lia).
  rewrite (load_word_at _ _ 8 (N.of_nat (length file)) (file ++ out) []);
    try (now rewrite <- app_assoc, app_nil_r); try (rewrite app_length; lia); try exact Hf.
  cbn [of_option bind].
  replace (N.of_nat (length file + (length out + 8) - 8) <? N.of_nat (length file)) with false by lia.
  rewrite Nat2N.id. rewrite (load_at' _ _ _ file out (word (N.of_nat (length file)))); auto; lia.
Qed.

(* the same metadata answers all queries alike *)
Theorem C26_same_answers m m' : same_imd m m' -> forall id,
  relation_exists id m' = relation_exists id m /\ get_rmd id m' = get_rmd id m /\
  nof_blocks_for id m' = nof_blocks_for id m.
Proof.
  intros (A & B & C & D & E) id. unfold relation_exists, get_rmd, nof_blocks_for. rewrite C, D. auto.
Qed.

(* everything built by add can be stored: new metadata ... *)
Lemma entries_empty n : forall id, dense_entries id (repeat empty_full n) = [].
Proof. induction n; intros; auto. cbn [repeat dense_entries]. rewrite (proj2 (full_eqb_eq _ _) eq_refl). apply IHn. Qed.
Theorem C26_new : wf (new_imd (Hmap [])) /\ forall n, N.of_nat n < W64 -> wf (new_imd (Dense 0 (repeat empty_full n))).
Proof.
  assert (Z : 0 < W64) by reflexivity. assert (Z' : N.of_nat 0 < W64) by exact Z.
  split; [|intros n Hn]; constructor; cbn [i_data i_blocks i_after i_name i_elements i_bytes i_nblocks new_imd rmap_entries rmap_size map];
    rewrite ?entries_empty, ?repeat_length; cbn [length In map].
  all: try (intros k f []; fail); try (apply NoDup_nil); try reflexivity; auto.
Qed.

Lemma vec_set_nth {A} i (v : A) l : forall j, nth_error (vec_set i v l) j =
  if Nat.eqb i j then option_map (fun _ => v) (nth_error l j) else nth_error l j.
Proof.
  revert i. induction l as [|x l IH]; intros i j.
  - replace (vec_set i v []) with (@nil A) by (destruct i; reflexivity). destruct j; cbn [nth_error option_map]; destruct (Nat.eqb i _); auto.
  - destruct i, j; cbn [vec_set nth_error Nat.eqb option_map]; auto.
Qed.
Lemma vec_set_length {A} i (v : A) l : length (vec_set i v l) = length l.
Proof. revert i. induction l as [|x l IH]; intros [|i]; cbn [vec_set length]; auto. Qed.
Lemma dense_count v vec : v <> empty_full -> forall i id, nth_error vec i = Some empty_full ->
  length (dense_entries id (vec_set i v vec)) = S (length (dense_entries id vec)).
Proof.
  intros Hv. assert (E : full_eqb v empty_full = false).
  { destruct (full_eqb v empty_full) eqn:E; auto. apply full_eqb_eq in E. contradiction. }
  induction vec as [|x vec IH]; intros [|i] id H; try discriminate; cbn [nth_error vec_set dense_entries] in *.
  - injection H as ->. rewrite E, (proj2 (full_eqb_eq _ _) eq_refl). reflexivity.
  - specialize (IH i (id + 1) H). destruct (full_eqb x empty_full); cbn [length]; lia.
Qed.

(* ... and every added relation with a new id *)
Theorem C26_add m f b : wf m -> full_ok f -> f_rel f < MAX64 ->
  (has_blocks (f_word f) = true -> blocks_ok b) -> expected_after f b < W64 ->
  (forall f', ~ In (f_rel f, f') (rmap_entries (i_data m))) ->
  (match i_data m with Hmap _ => True | Dense _ vec => (N.to_nat (f_rel f) < length vec)%nat end) ->
  N.of_nat (length (rmap_entries (i_data m))) + 1 < W64 -> N.of_nat (length (i_blocks m)) + 1 < W64 ->
  exists m', add f b m = Ok m' /\ wf m' /\
    get_rmd (f_rel f) m' = Ok (f, if has_blocks (f_word f) then Some b else None) /\
    (forall k f', In (k, f') (rmap_entries (i_data m')) <-> (k = f_rel f /\ f' = f) \/ In (k, f') (rmap_entries (i_data m))) /\
    (forall k, k <> f_rel f -> get_rmd k m' = get_rmd k m).
Proof.
  intros Wm Hf Hmax Hb Hexp Hnew Hdense Hsz1 Hsz2.
  assert (Hne : f <> empty_full). { intros ->. cbn [f_rel empty_full make_full] in Hmax. lia. }
  pose proof (wf_small m Wm) as (S1 & S2 & S3 & S4).
  (* the new map *)
  assert (D : exists d, rmap_set (f_rel f) f (i_data m) = Ok d /\
     (match d with Hmap l => NoDup (map fst l) | Dense _ vec => N.of_nat (length vec) < W64 end) /\
     (forall k f', In (k, f') (rmap_entries d) <-> (k = f_rel f /\ f' = f) \/ In (k, f') (rmap_entries (i_data m))) /\
     rmap_size d = rmap_size (i_data m) + 1 /\
     length (rmap_entries d) = S (length (rmap_entries (i_data m))) /\
     (forall k, k <> f_rel f -> rmap_get k d = rmap_get k (i_data m)) /\ rmap_get (f_rel f) d = Ok f).
  { pose proof (wf_keys m Wm) as K. destruct (i_data m) as [l|size vec] eqn:Ed; cbn [rmap_set rmap_entries] in *.
    - assert (Nk : ~ In (f_rel f) (map fst l)).
      { intros Hi. apply in_map_iff in Hi. destruct Hi as ([k f'] & Q & Hi). cbn [fst] in Q. subst k. apply (Hnew f'). exact Hi. }
      eexists. split; [reflexivity|]. split; [now apply amap_set_nodup|]. split.
      { intros k f'. cbn [rmap_entries]. rewrite amap_set_in by exact K. split; [tauto|]. intros [H|H]; auto. right. split; auto.
        intros ->. apply (Hnew f'). exact H. }
      cbn [rmap_size rmap_entries]. rewrite amap_set_new by exact Nk. rewrite app_length. cbn [length].
      split; [lia|]. split; [lia|]. rewrite <- amap_set_new by exact Nk. split.
      + intros k Hk. cbn [rmap_get]. rewrite amap_get_set. destruct (N.eqb_spec (f_rel f) k); congruence.
      + cbn [rmap_get]. rewrite amap_get_set, N.eqb_refl. reflexivity.
    - destruct (nth_error vec (N.to_nat (f_rel f))) as [old|] eqn:En; [|apply nth_error_None in En; lia].
      assert (Eo : old = empty_full).
      { destruct (full_eqb old empty_full) eqn:Eq; [now apply full_eqb_eq|]. exfalso. apply (Hnew old).
        apply dense_entries_in. rewrite N.sub_0_r. repeat split; auto; [lia|]. intros ->.
        rewrite (proj2 (full_eqb_eq _ _) eq_refl) in Eq. discriminate. }
      subst old. rewrite (proj2 (full_eqb_eq _ _) eq_refl). eexists. split; [reflexivity|].
      split; [now rewrite vec_set_length|]. split.
      { intros k f'. cbn [rmap_entries]. rewrite !dense_entries_in, N.sub_0_r, vec_set_nth.
        destruct (Nat.eqb_spec (N.to_nat (f_rel f)) (N.to_nat k)) as [Q|Q].
        - apply N2Nat.inj in Q. subst k. rewrite En. cbn [option_map]. split.
          + intros (_ & H & _). left. split; congruence.
          + intros [[_ ->]|(_ & H & H')]; [repeat split; auto; lia|congruence].
        - split; [right; auto|]. intros [[-> _]|H]; auto. congruence. }
      cbn [rmap_size rmap_entries]. split; [lia|]. split; [now apply dense_count|].
      split; [intros k Hk|]; cbn [rmap_get]; rewrite vec_set_nth.
      + destruct (Nat.eqb_spec (N.to_nat (f_rel f)) (N.to_nat k)) as [Q|Q]; [apply N2Nat.inj in Q; congruence|reflexivity].
      + rewrite Nat.eqb_refl, En. cbn [option_map]. destruct (full_eqb f empty_full) eqn:Eq; auto.
        apply full_eqb_eq in Eq. contradiction. }
  destruct D as (d & Ed & Dk & De & Ds & Dl & Dg & Dg').
  unfold add. rewrite Ed. cbn [bind]. eexists. split; [reflexivity|].
  assert (Nb : ~ In (f_rel f) (map fst (i_blocks m))).
  { intros Hi. apply in_map_iff in Hi. destruct Hi as ([k b'] & Q & Hi). cbn [fst] in Q. subst k.
    destruct (wf_block m Wm _ _ Hi) as (_ & _ & f' & Hf' & _). apply (Hnew f'). exact Hf'. }
  set (m' := add_blocks f b (with_data d m)).
  assert (Aft : i_after m <= i_after m' /\ expected_after f b <= i_after m' /\ i_after m' < W64).
  { unfold m', add_blocks, expected_after in *. cbn [i_after with_data].
    destruct (N.ltb_spec (i_after m) (if has_blocks (f_word f) then b_after b else f_start f + nof_bytes f)); lia. }
  assert (Bl : i_blocks m' = if has_blocks (f_word f) then i_blocks m ++ [(f_rel f, b)] else i_blocks m).
  { unfold m', add_blocks. cbn [i_blocks with_data]. destruct (has_blocks (f_word f)); auto. now apply amap_set_new. }
  assert (Dd : i_data m' = d) by reflexivity.
  split.
  { constructor; rewrite ?Dd.
    - exact Dk.
    - intros k f' Hi. apply De in Hi. destruct Hi as [[-> ->]|Hi].
      + split; auto. split; auto. split; intros B; rewrite ?Bl, ?B.
        * exists b. apply in_app_iff. right. now left.
        * unfold expected_after in Aft. rewrite B in Aft. lia.
      + destruct (wf_full m Wm k f' Hi) as (A & B & C & D). split; auto. split; auto. split.
        * intros X. destruct (C X) as [b' Hb']. exists b'. rewrite Bl. destruct (has_blocks (f_word f)); auto. apply in_app_iff. now left.
        * intros X. specialize (D X). lia.
    - rewrite Bl. destruct (has_blocks (f_word f)); [|apply (wf_bkeys m Wm)]. rewrite map_app. cbn [map fst].
      apply NoDup_app_intro; [apply (wf_bkeys m Wm)|repeat constructor; intros []|]. intros x Hx [<-|[]]. contradiction.
    - intros k b' Hi. rewrite Bl in Hi.
      assert (Old : In (k, b') (i_blocks m) -> blocks_ok b' /\ b_after b' <= i_after m' /\
                    exists f0, In (k, f0) (rmap_entries d) /\ has_blocks (f_word f0) = true).
      { intros Hi'. destruct (wf_block m Wm k b' Hi') as (A & B & f0 & C & D). split; auto. split; [lia|].
        exists f0. split; auto. apply De. now right. }
      destruct (has_blocks (f_word f)) eqn:B; auto. apply in_app_iff in Hi. destruct Hi as [Hi|[Q|[]]]; auto.
      injection Q as <- <-. split; auto. unfold expected_after in Aft. rewrite B in Aft. split; [lia|].
      exists f. split; auto. apply De. now left.
    - rewrite Ds, Dl. pose proof (wf_size m Wm). lia.
    - split; [lia|]. split; [exact S2|]. rewrite Dl. split; [lia|]. rewrite Bl. destruct (has_blocks (f_word f)); [|exact S4].
      rewrite app_length. cbn [length]. lia.
    - apply (wf_stat m Wm). }
  split.
  { unfold get_rmd. rewrite Dd, Dg'. cbn [bind]. destruct (has_blocks (f_word f)) eqn:B; auto. rewrite Bl.
    rewrite <- (amap_set_new _ b _ Nb), amap_get_set, N.eqb_refl. reflexivity. }
  split; [exact De|].
  intros k Hk. unfold get_rmd. rewrite Dd, Dg by exact Hk.
  assert (G : amap_get k (i_blocks m') = amap_get k (i_blocks m)).
  { rewrite Bl. destruct (has_blocks (f_word f)); auto. rewrite <- (amap_set_new _ b _ Nb), amap_get_set.
    destruct (N.eqb_spec (f_rel f) k); congruence. }
  now rewrite G.
Qed.
(* the statistics are stored with it *)
Theorem C26_statistics m : wf m -> i_elements (statistics m) < W64 -> i_bytes (statistics m) < W64 ->
  i_nblocks (statistics m) < W64 -> wf (statistics m).
Proof. intros [] H1 H2 H3. constructor; auto. Qed.
Print Assumptions C26_round_trip.
Print Assumptions C26_same_answers.
Print Assumptions C26_new.
Print Assumptions C26_add.
Print Assumptions C26_statistics.

(* ---------- example ---------- *)
Definition ex_f1 := make_full 2 0 3 1 5 false true.
Definition ex_b1 := {| b_start_rhs := 80; b_after := 104; b_blocks := [(4, 48); (9, 64)] |}.
Definition ex_f2 := make_full 0 104 2 0 5 true false.
Definition ex_imd (d : rmap) : outcome imd :=
  bind (add ex_f1 ex_b1 (new_imd d)) (fun m => bind (add ex_f2 no_blocks m) (fun m => Ok (statistics m))).
Example C26_ex_hmap : bind (ex_imd (Hmap [])) (fun m => bind (append_to_file [1; 2; 3] m) (fun f => read_from_file (Hmap []) f)) =
  ex_imd (Hmap []) /\ exists m, ex_imd (Hmap []) = Ok m /\ i_after m = 136 /\ i_elements m = 5 /\ i_nblocks m = 2 /\ i_bytes m = 136.
Proof. split; [vm_compute; reflexivity|]. eexists. split; [vm_compute; reflexivity|]. repeat split. Qed.
Example C26_ex_dense : bind (ex_imd (Dense 0 (repeat empty_full 4))) (fun m => bind (append_to_file [1; 2; 3] m) (fun f =>
    read_from_file (before_reading (i_data m)) f)) = ex_imd (Dense 0 (repeat empty_full 4)).
Proof. vm_compute. reflexivity. Qed.

Print Assumptions C27_too_many_refuted.
