(* The counts in the metadata of the permutations. *)
From Coq Require Import List NArith Arith Bool Lia ZifyN ZifyNat ZifyBool Sorted Permutation.
From Verif Require Import Bytes Std_Model Std_Proof ListAux Base Ops_Spec Ops_Proof Meta_Model Meta_Proof Meta_Thm Perm_Model Perm_Spec Perm_Proof Perm_Proof2 Perm_Proof3 Perm_Proof4 Perm_Thm.
Import ListNotations.
Open Scope N_scope.

Lemma rel_of_count vec xs : NoDup xs -> (forall t, In t vec -> In (first t) xs) ->
  list_sum (map (fun x => length (rel_of x vec)) xs) = length vec.
Proof.
  intros Hn. induction vec as [|t vec IH]; intros Hx.
  - cbn. clear. induction xs; cbn; auto.
  - cbn [length]. rewrite <- IH by (intros; apply Hx; now right).
    assert (G : forall ys, NoDup ys -> list_sum (map (fun x => length (rel_of x (t :: vec))) ys) =
                 ((if existsb (N.eqb (first t)) ys then 1 else 0) + list_sum (map (fun x => length (rel_of x vec)) ys))%nat).
    { induction ys as [|y ys IHy]; intros Hy; [reflexivity|]. inversion Hy as [|? ? Hy1 Hy2]; subst. specialize (IHy Hy2).
      cbn [map list_sum fold_right existsb]. unfold list_sum in *.
      assert (L : length (rel_of y (t :: vec)) = ((if N.eqb (first t) y then 1 else 0) + length (rel_of y vec))%nat).
      { unfold rel_of. cbn [filter]. destruct (first t =? y); reflexivity. }
      rewrite L. destruct (N.eqb_spec (first t) y) as [E|E]; cbn [orb].
      - assert (existsb (N.eqb (first t)) ys = false). { destruct (existsb (N.eqb (first t)) ys) eqn:X; auto. apply in_existsb in X. subst. contradiction. }
        rewrite H in IHy. lia.
      - lia. }
    rewrite (G xs Hn). replace (existsb (N.eqb (first t)) xs) with true; [reflexivity|]. symmetry. apply in_existsb. apply Hx. now left.
Qed.
Lemma sum_exact {A} (g : N * A -> N) (w : N -> nat) es : (forall e, In e es -> g e = N.of_nat (w (fst e))) ->
  sum g es = N.of_nat (list_sum (map w (map fst es))).
Proof.
  unfold sum. assert (G : forall es acc, (forall e, In e es -> g e = N.of_nat (w (fst e))) ->
    fold_left (fun acc x => acc + g x) es acc = acc + N.of_nat (list_sum (map w (map fst es)))).
  { clear. induction es as [|e es IH]; intros acc H; cbn [fold_left map list_sum fold_right]; [lia|].
    rewrite IH by (intros; apply H; now right). rewrite (H e) by now left. unfold list_sum. lia. }
  intros H. now rewrite G.
Qed.

Section Pair.
  Variables per thr : nat.
  Variable logmult : N -> N -> N.
  Hypothesis Hper : (0 < per)%nat.
  Hypothesis Hlog : forall a b, logmult a b < 256.
  Variable sort2 : list pair_t -> list pair_t.
  Hypothesis Hsort2 : forall l, sort_result pair_less l (sort2 l).
  Variable kd : option nat.
  Variable vec : list triple.
  Hypothesis Hvec : tsorted vec.
  Hypothesis Hids : forall t, In t vec -> first t < MAX64 /\ fst (rest t) < MAX64 /\ snd (rest t) < MAX64.
  Hypothesis Hkd : match kd with None => True | Some n => forall t, In t vec -> (N.to_nat (first t) < n)%nat end.
  Hypothesis Hsize : N.of_nat (length vec) < 2 ^ 40.
  Notation D1 := (D1 vec). Notation D2 := (D2 sort2 vec).

  (* the numbers of triples and of relations *)
  Definition counted (p : list N * rmap) : Prop := forall m, load_permutation p = Ok m ->
    i_elements m = N.of_nat (length vec) /\ rmap_size (i_data m) = N.of_nat (length (nodup N.eq_dec (map first vec))).

  Lemma half_counted D h ys d file : (D = D1 \/ D = D2) -> hinv per kd h (R D ys) ->
    (forall x, In x ys <-> In x (map first vec)) -> rsim (i_data (h_meta h)) d -> NoDup ys ->
    finish_file (statistics (h_meta h)) d (h_out h) = Ok (file, d) -> counted (file, d).
  Proof using Hper Hlog Hsort2 Hvec Hsize.
    intros HD H Hys Hs Hn Hf m Hm. pose proof (stat_wf per logmult Hper Hlog sort2 Hsort2 kd vec Hvec Hsize 0 D h ys HD H) as W1.
    assert (W : wf (with_data d (statistics (h_meta h)))) by (apply wf_sim; auto).
    assert (Lout : N.of_nat (length (h_out h)) < W64).
    { pose proof (hi_len _ _ _ _ H) as L. pose proof (R_total_bound sort2 Hsort2 vec Hvec D ys HD Hn) as T. assert (P40 : 2 ^ 40 = 1099511627776) by reflexivity.
      rewrite P40 in Hsize. unfold W64. lia. }
    destruct (C26_round_trip (h_out h) _ W Lout) as (file' & Ha & m' & Hr & Hsame & _).
    unfold finish_file in Hf. rewrite Ha in Hf. cbn [bind] in Hf. injection Hf as <-.
    assert (m' = m). { change (load_permutation (file', d)) with (read_from_file (before_reading d) file') in Hm. cbn [with_data i_data] in Hr. rewrite Hr in Hm. now injection Hm. }
    subst m'. destruct Hsame as (_ & _ & S3 & _ & S5 & _). rewrite S5, S3. cbn [with_data i_data i_elements statistics].
    pose proof (hi_wf _ _ _ _ H) as W0. pose proof (keys_perm per kd h _ H) as Kp. rewrite R_keys in Kp. split.
    - rewrite (sum_exact _ (fun x => length (rel_of x vec))).
      + f_equal. apply rel_of_count; [eapply Permutation_NoDup; [apply Permutation_sym; exact Kp|exact Hn]|].
        intros t Ht. eapply Permutation_in; [apply Permutation_sym; exact Kp|]. apply Hys. now apply in_map.
      + intros [k f] Hi. cbn [fst snd]. assert (Hk : In k (map fst (R D ys))) by (apply (hi_keys _ _ _ _ H); exists f; exact Hi). rewrite R_keys in Hk.
        destruct (hi_rel _ _ _ _ H k (D k)) as (f' & ob & Hg & (Hno & _)); [now apply R_in|].
        assert (Q : f' = f). { unfold get_rmd in Hg. rewrite (get_of_entries _ W0 k f Hi) in Hg. cbn [bind] in Hg. destruct (has_blocks (f_word f)); [destruct (amap_get k _)|]; congruence. }
        subst f'. rewrite Hno. f_equal. destruct HD as [->| ->]; [reflexivity|now apply D2_length].
    - pose proof (wf_size _ W) as Z. cbn [with_data i_data] in Z. rewrite Z. f_equal.
      rewrite <- (map_length fst), (rsim_keys _ _ Hs). rewrite (Permutation_length Kp). apply same_length; [exact Hn|apply NoDup_nodup|].
      intros x. rewrite nodup_In. apply Hys.
  Qed.

  Lemma pair_counted data0 t v p1 p2 : (data0 = Hmap [] \/ exists n, data0 = Dense 0 (repeat empty_full n) /\ N.of_nat n < W64) -> kind data0 = kd ->
    vec = t :: v -> permutation_pair per thr logmult sort2 data0 vec = Ok (Some (p1, p2)) -> counted p1 /\ counted p2.
  Proof using Hper Hlog Hsort2 Hvec Hids Hkd Hsize.
    intros Hd Hk Hv Hp. unfold permutation_pair, create_pair in Hp. destruct t as [[x y] z].
    assert (M : forall (A : Type) (a : A) (b : N -> A), match vec with [] => a | (x, _, _) :: _ => b x end = b x) by (intros; rewrite Hv; reflexivity).
    rewrite M in Hp. clear M.
    pose proof (hinv_new per kd data0 Hd Hk D1) as I1.
    pose proof (hinv_new per kd data0 Hd Hk D2) as I2.
    set (h0 := {| h_off := 0; h_meta := new_imd data0; h_out := [] |}) in *.
    set (s0 := {| s_rel := x; s_buf := []; s_fun := true; s_dist := 1; s_last := MAX64; s_h1 := h0; s_h2 := h0 |}) in *.
    assert (L0 : linv per thr logmult sort2 kd vec x [] s0 []).
    { constructor; unfold s0; cbn [s_rel s_buf s_fun s_dist s_last s_h1 s_h2]; auto; try (intros ? []; fail).
      - constructor.
      - intros x'. cbn. tauto.
      - unfold g1. rewrite N.eqb_refl. reflexivity. }
    assert (NE : vec <> []) by (rewrite Hv; discriminate).
    assert (FX : exists t v, vec = t :: v /\ first t = x) by (exists (x, y, z), v; split; [exact Hv|reflexivity]).
    destruct (loop_ok per thr logmult Hper Hlog sort2 Hsort2 kd vec Hvec Hids Hkd Hsize x vec [] s0 [] eq_refl L0 NE FX)
      as (h1 & h2 & ys & Hl & Hn & Hys & J1 & J2 & S1 & S2).
    rewrite Hl in Hp. cbn [bind fst snd statistics i_data] in Hp.
    assert (Gx : forall D h, hinv per kd h (R D ys) -> forall id, In id ys -> exists f, rmap_get id (i_data (h_meta h)) = Ok f /\ f_rel f < MAX64).
    { intros D h J id Hid. assert (Hid' := Hid). rewrite <- (R_keys D ys) in Hid'. apply (hi_keys _ _ _ _ J) in Hid'. destruct Hid' as (f & Hf).
      exists f. split; [apply get_of_entries; auto; apply J|]. destruct (wf_full _ (hi_wf _ _ _ _ J) id f Hf) as (-> & _).
      apply Hys in Hid. apply in_map_iff in Hid. destruct Hid as (t' & <- & Ht'). apply (Hids t' Ht'). }
    assert (Mk : forall D h, hinv per kd h (R D ys) -> mkeys (i_data (h_meta h))).
    { intros D h J. pose proof (wf_keys _ (hi_wf _ _ _ _ J)) as K. destruct (i_data (h_meta h)); cbn; auto. }
    pose proof (keys_perm per kd h1 _ J1) as Kp. rewrite R_keys in Kp.
    destruct (exchange_ok (rmap_entries (i_data (h_meta h1))) (i_data (h_meta h1)) (i_data (h_meta h2))) as (m1 & m2 & He & R1 & R2 & _).
    { apply entries_keys, J1. }
    { now apply (Mk D1). }
    { now apply (Mk D2). }
    { intros id Hid. apply (Permutation_in _ Kp) in Hid. destruct (Gx D1 h1 J1 id Hid) as (f1 & A1 & B1). destruct (Gx D2 h2 J2 id Hid) as (f2 & A2 & B2). exists f1, f2. auto. }
    rewrite He in Hp. cbn [bind fst snd] in Hp.
    destruct (finish_file (statistics (h_meta h1)) m1 (h_out h1)) as [[file1 d1]| |] eqn:F1; try discriminate. cbn [bind] in Hp.
    destruct (finish_file (statistics (h_meta h2)) m2 (h_out h2)) as [[file2 d2]| |] eqn:F2; try discriminate. cbn [bind] in Hp.
    injection Hp as <- <-.
    assert (Ed : forall m d out file d', finish_file m d out = Ok (file, d') -> d' = d).
    { intros m d out file d' X. unfold finish_file in X. destruct (append_to_file _ _); try discriminate. cbn [bind] in X. now injection X. }
    assert (d1 = m1) by eauto. assert (d2 = m2) by eauto. subst d1 d2. split.
    - apply (half_counted D1 h1 ys); auto.
    - apply (half_counted D2 h2 ys); auto.
  Qed.
End Pair.

Section Index.
  Variables per thr : nat.
  Variable logmult : N -> N -> N.
  Variable sort2 : list pair_t -> list pair_t.
  Variable sort3 : (triple -> triple) -> list triple -> list triple.
  Hypothesis Hper : (0 < per)%nat.
  Hypothesis Hlog : forall a b, logmult a b < 256.
  Hypothesis Hsorts : sorts sort2 sort3.
  Variable vocab : nat.
  Variable T : list triple.
  Hypothesis Hok : input_ok vocab T.

  Lemma counted_pair (key : triple -> triple) data0 vec p1 p2 : (forall a b, key a = key b -> a = b) ->
    (forall t, In t T -> first (key t) < N.of_nat vocab /\ fst (rest (key t)) < N.of_nat vocab /\ snd (rest (key t)) < N.of_nat vocab) ->
    (data0 = Hmap [] \/ data0 = Dense 0 (repeat empty_full vocab)) ->
    T <> [] -> tsorted (map key vec) -> (forall t, In t vec <-> In t T) ->
    permutation_pair per thr logmult sort2 data0 (map key vec) = Ok (Some (p1, p2)) ->
    forall p m, p = p1 \/ p = p2 -> load_permutation p = Ok m ->
      i_elements m = N.of_nat (length (nodup triple_dec T)) /\ rmap_size (i_data m) = N.of_nat (length (nodup N.eq_dec (map (fun t => first (key t)) T))).
  Proof using Hper Hlog Hsorts Hok.
    intros Hinj Hids Hd Hne Hs Hin Hp p m Hpp Hm. destruct Hok as (V1 & V2 & V3). destruct Hsorts as (So2 & _).
    assert (Hb : forall t, In t (map key vec) -> first t < MAX64 /\ fst (rest t) < MAX64 /\ snd (rest t) < MAX64).
    { intros t Ht. apply in_map_iff in Ht. destruct Ht as (u & <- & Hu). apply Hin in Hu. destruct (Hids u Hu) as (A & B & C). lia. }
    assert (Hkd : match kind data0 with None => True | Some n => forall t, In t (map key vec) -> (N.to_nat (first t) < n)%nat end).
    { destruct Hd as [->| ->]; cbn [kind]; auto. intros t Ht. rewrite repeat_length. apply in_map_iff in Ht. destruct Ht as (u & <- & Hu).
      apply Hin in Hu. destruct (Hids u Hu) as (A & _). lia. }
    assert (Hlen : length vec = length (nodup triple_dec T)).
    { apply same_length; [|apply NoDup_nodup|].
      - apply tsorted_nodup in Hs. now apply NoDup_map_inv in Hs.
      - intros t. rewrite nodup_In. apply Hin. }
    assert (Hsize : N.of_nat (length (map key vec)) < 2 ^ 40) by (rewrite map_length, Hlen; exact V2).
    assert (Hnv : exists t v, map key vec = t :: v).
    { destruct T as [|t T']; [congruence|]. assert (H : In t vec) by (apply Hin; now left). destruct vec as [|u v]; [destruct H|]. eexists. eexists. reflexivity. }
    destruct Hnv as (t & v & Hv).
    assert (Hd' : data0 = Hmap [] \/ exists n, data0 = Dense 0 (repeat empty_full n) /\ N.of_nat n < W64).
    { destruct Hd as [H|H]; auto. right. exists vocab. split; auto. unfold W64, MAX64 in *. lia. }
    destruct (pair_counted per thr logmult Hper Hlog sort2 So2 (kind data0) (map key vec) Hs Hb Hkd Hsize data0 t v p1 p2 Hd' eq_refl Hv Hp) as [C1 C2].
    assert (C : counted (map key vec) p) by (destruct Hpp as [->| ->]; assumption). destruct (C m Hm) as [E1 E2]. rewrite E1, E2, map_length, Hlen. split; [reflexivity|].
    f_equal. rewrite map_map. apply same_length; [apply NoDup_nodup|apply NoDup_nodup|]. intros x. rewrite !nodup_In, !in_map_iff.
    split; intros (u & A & B); exists u; split; auto; now apply Hin.
  Qed.

  Lemma index_counted ix : create_index per thr logmult sort2 sort3 vocab T = Ok (Some ix) ->
    all_permutations ix (fun key p _ => forall m, load_permutation p = Ok m ->
      i_elements m = N.of_nat (length (nodup triple_dec T)) /\ rmap_size (i_data m) = N.of_nat (length (nodup N.eq_dec (map (fun t => first (key t)) T)))).
  Proof using Hper Hlog Hsorts Hok.
    intros H. assert (Hne : T <> []).
    { intros ->. rewrite C25_no_triples in H by assumption. discriminate. }
    destruct Hok as (V1 & V2 & V3). pose proof Hsorts as (So2 & So3). unfold create_index in H.
    set (vec1 := std_unique triple_eqb (sort3 pso T)) in *.
    assert (S1 : tsorted (map pso vec1)).
    { destruct (So3 pso T) as [_ S]. apply tsorted_map. unfold vec1, std_unique. destruct (sort3 pso T) as [|a l]; [constructor|].
      apply unique_sorted; auto using pso_inj. }
    assert (E1 : forall t, In t vec1 <-> In t T).
    { intros t. unfold vec1. rewrite std_unique_in. destruct (So3 pso T) as [P _]. split; apply Permutation_in; auto. now apply Permutation_sym. }
    assert (N1 : NoDup vec1) by (apply tsorted_nodup in S1; now apply NoDup_map_inv in S1). clearbody vec1.
    destruct (sort_strict spo spo_inj vec1 _ (So3 spo vec1) N1) as [S2 P2]. set (vec2 := sort3 spo vec1) in *. clearbody vec2.
    assert (N2 : NoDup vec2) by (eapply Permutation_NoDup; eauto).
    destruct (sort_strict osp osp_inj vec2 _ (So3 osp vec2) N2) as [S3 P3]. set (vec3 := sort3 osp vec2) in *. clearbody vec3.
    assert (E2 : forall t, In t vec2 <-> In t T).
    { intros t. rewrite <- E1. split; apply Permutation_in; auto. now apply Permutation_sym. }
    assert (E3 : forall t, In t vec3 <-> In t T).
    { intros t. rewrite <- E2. split; apply Permutation_in; auto. now apply Permutation_sym. }
    destruct (permutation_pair per thr logmult sort2 (Hmap []) (map pso vec1)) as [[[a b]|]| |] eqn:Q1; cbn [bind] in H; try discriminate.
    2: { destruct (permutation_pair _ _ _ _ _ _) in H; cbn [bind] in H; try discriminate. destruct (permutation_pair _ _ _ _ _ _) in H; discriminate. }
    destruct (permutation_pair per thr logmult sort2 (Dense 0 (repeat empty_full vocab)) (map spo vec2)) as [[[c d]|]| |] eqn:Q2; cbn [bind] in H; try discriminate.
    2: { destruct (permutation_pair _ _ _ _ _ _) in H; discriminate. }
    destruct (permutation_pair per thr logmult sort2 (Dense 0 (repeat empty_full vocab)) (map osp vec3)) as [[[e f]|]| |] eqn:Q3; cbn [bind] in H; try discriminate.
    injection H as <-. unfold all_permutations. cbn [x_pso x_pos x_spo x_sop x_osp x_ops].
    assert (I : forall t, In t T -> let '(s, p, o) := t in s < N.of_nat vocab /\ p < N.of_nat vocab /\ o < N.of_nat vocab).
    { intros [[s p] o] Ht. now apply V3. }
    assert (C1 := counted_pair pso (Hmap []) vec1 a b pso_inj). assert (C2 := counted_pair spo (Dense 0 (repeat empty_full vocab)) vec2 c d spo_inj).
    assert (C3 := counted_pair osp (Dense 0 (repeat empty_full vocab)) vec3 e f osp_inj).
    assert (K : forall k k' : triple -> triple, (forall t, first (k t) = first (k' t)) -> map (fun t => first (k t)) T = map (fun t => first (k' t)) T).
    { intros k k' X. now apply map_ext. }
    split; [|split; [|split; [|split; [|split]]]]; intros m Hm.
    - rewrite (K PSO pso) by (now intros [[? ?] ?]). apply (C1) with (p := a); auto. intros [[s p] o] Ht. specialize (I _ Ht). cbv beta iota in I. unfold first, rest. cbn [fst snd pso spo osp]. tauto.
    - rewrite (K POS pso) by (now intros [[? ?] ?]). apply (C1) with (p := b); auto. intros [[s p] o] Ht. specialize (I _ Ht). cbv beta iota in I. unfold first, rest. cbn [fst snd pso spo osp]. tauto.
    - rewrite (K SPO spo) by (now intros [[? ?] ?]). apply (C2) with (p := c); auto. intros [[s p] o] Ht. specialize (I _ Ht). cbv beta iota in I. unfold first, rest. cbn [fst snd pso spo osp]. tauto.
    - rewrite (K SOP spo) by (now intros [[? ?] ?]). apply (C2) with (p := d); auto. intros [[s p] o] Ht. specialize (I _ Ht). cbv beta iota in I. unfold first, rest. cbn [fst snd pso spo osp]. tauto.
    - rewrite (K OSP osp) by (now intros [[? ?] ?]). apply (C3) with (p := e); auto. intros [[s p] o] Ht. specialize (I _ Ht). cbv beta iota in I. unfold first, rest. cbn [fst snd pso spo osp]. tauto.
    - rewrite (K OPS osp) by (now intros [[? ?] ?]). apply (C3) with (p := f); auto. intros [[s p] o] Ht. specialize (I _ Ht). cbv beta iota in I. unfold first, rest. cbn [fst snd pso spo osp]. tauto.
  Qed.
End Index.
