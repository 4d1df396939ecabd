(* Auxiliary facts on writing a pair of permutations. *)
From Coq Require Import List NArith Arith Bool Lia ZifyN ZifyNat ZifyBool Sorted Permutation.
From Verif Require Import Bytes Std_Model Std_Proof ListAux Base Meta_Model Meta_Proof Meta_Thm Perm_Model Perm_Proof.
Import ListNotations.
Open Scope N_scope.

(* the same relation, the second multiplicity may differ *)
Definition alike (f f' : full) : Prop :=
  f_rel f' = f_rel f /\ f_start f' = f_start f /\ nof_elements (f_word f') = nof_elements (f_word f) /\
  has_blocks (f_word f') = has_blocks (f_word f) /\ is_functional (f_word f') = is_functional (f_word f) /\
  col1 (f_word f') = col1 (f_word f) /\ (f_word f < W64 -> f_word f' < W64).
Lemma alike_refl f : alike f f.
Proof. unfold alike. auto 10. Qed.
Lemma alike_trans f g h : alike f g -> alike g h -> alike f h.
Proof. unfold alike. intros (A1 & A2 & A3 & A4 & A5 & A6 & A7) (B1 & B2 & B3 & B4 & B5 & B6 & B7). rewrite B1, B2, B3, B4, B5, B6. auto 10. Qed.
Lemma alike_col2 c f : c < 256 -> alike f (set_full_col2 c f).
Proof.
  intros Hc. pose proof (C27_setter (SetCol2 c) (f_word f) Hc) as V. cbn [Meta_Thm.exec apply] in V. unfold view in V.
  cbn [st_nof st_col1 st_col2 st_functional st_blocks] in V. injection V as V1 V2 V3 V4 V5.
  unfold alike, set_full_col2. cbn [f_rel f_start f_word]. repeat split; auto.
  intros H. apply (C27_word (SetCol2 c) (f_word f) Hc H).
Qed.
Lemma col1_small w : col1 w < 256.
Proof. unfold col1. apply N.mod_lt. lia. Qed.
Lemma col2_set c w : c < 256 -> col2 (set_col2 c w) = c.
Proof. intros Hc. pose proof (C27_setter (SetCol2 c) w Hc) as V. cbn [Meta_Thm.exec apply] in V. unfold view in V. injection V as _ _ V _ _. exact V. Qed.

Section Perm.
  Variables per thr : nat.
  Variable logmult : N -> N -> N.
  Hypothesis Hper : (0 < per)%nat.
  Hypothesis Hlog : forall a b, logmult a b < 256.

  (* a relation in a file *)
  Definition stored (file : list N) (f : full) (ob : option blocks) (data : list pair_t) : Prop :=
    nof_elements (f_word f) = N.of_nat (length data) /\
    exists pre post, f_start f = N.of_nat (length pre) /\
      match ob with
      | None => file = pre ++ flat_map pair_bytes data ++ post
      | Some b => is_functional (f_word f) = false /\ N.of_nat (length pre + 40 * length data) < W64 /\
                  exists bytes, write_nonfunctional per f data = (b, bytes) /\
                  file = pre ++ flat_map pair_bytes data ++ bytes ++ post
      end.
  Lemma stored_app file more f ob data : stored file f ob data -> stored (file ++ more) f ob data.
  Proof.
    intros (Hn & pre & post & Hs & H). split; auto. exists pre, (post ++ more). split; auto. destruct ob as [b|].
    - destruct H as (A & B & bytes & C & ->). repeat split; auto. exists bytes. split; auto. now rewrite <- !app_assoc.
    - rewrite H, <- !app_assoc. reflexivity.
  Qed.
  Lemma stored_alike file f f' ob data : alike f f' -> stored file f ob data -> stored file f' ob data.
  Proof.
    intros (A1 & A2 & A3 & A4 & A5 & A6 & A7) (Hn & pre & post & Hs & H). split; [congruence|]. exists pre, post. split; [congruence|].
    destruct ob as [b|]; auto. destruct H as (B1 & B2 & bytes & C & D). split; [congruence|]. split; auto. exists bytes. split; auto.
    rewrite <- C. unfold write_nonfunctional, start_of_lhs. now rewrite A2, A3.
  Qed.

  Definition good (data : list pair_t) : Prop :=
    psorted data /\ data <> [] /\ forall p, In p data -> fst p < MAX64 /\ snd p < MAX64.
  Lemma good_small data : good data -> Forall small data.
  Proof. intros (_ & _ & H). apply Forall_forall. intros p Hp. destruct (H p Hp). unfold small, W64, MAX64 in *. lia. Qed.

  Lemma get_exists m key f ob : get_rmd key m = Ok (f, ob) -> relation_exists key m = Ok true.
  Proof.
    unfold get_rmd, relation_exists, rmap_get, rmap_count. destruct (i_data m) as [l|sz vec].
    - destruct (amap_get key l); [auto|discriminate].
    - destruct (nth_error vec (N.to_nat key)) as [v|]; [|discriminate]. destruct (full_eqb v empty_full); [discriminate|auto].
  Qed.
  Lemma scan_stored file m key f ob data : get_rmd key m = Ok (f, ob) -> stored file f ob data -> good data ->
    scan file m key = Ok data.
  Proof.
    intros Hg (Hn & pre & post & Hs & H) Hd. unfold scan. rewrite (get_exists _ _ _ _ Hg). cbn [bind]. rewrite Hg. cbn [bind fst].
    rewrite Hn, Nat2N.id. destruct ob as [b|].
    - destruct H as (_ & _ & bytes & _ & H). apply read_pairs_at with pre (bytes ++ post); auto. now apply good_small.
    - apply read_pairs_at with pre post; auto. now apply good_small.
  Qed.
  Lemma scan2_stored file m key f ob data y : get_rmd key m = Ok (f, ob) -> stored file f ob data -> good data ->
    scan2 file m key y = if match ob with Some _ => unsafe per (lhss data) y | None => false end then UB
                         else Ok (map snd (eq_x y data)).
  Proof.
    intros Hg Hst Hd. pose proof (scan_stored _ _ _ _ _ _ Hg Hst Hd) as Hsc. destruct Hst as (Hn & pre & post & Hs & H).
    unfold scan2, scan in *. rewrite (get_exists _ _ _ _ Hg) in *. cbn [bind] in *. rewrite Hg in *. cbn [bind fst snd] in *.
    destruct ob as [b|].
    - destruct H as (Hf & Hsz & bytes & Hw & Hfile). rewrite Hf. destruct Hd as (D1 & D2 & D3).
      exact (scan_blocks per Hper f data b bytes file pre post y D1 D2 D3 Hn Hs Hsz Hw Hfile).
    - rewrite Hsc. cbn [bind]. destruct Hd as (D1 & _). now apply rhs_for_lhs_ok.
  Qed.

  (* ---------- what has been written of a permutation ---------- *)
  Definition total (rels : list (N * list pair_t)) : nat := list_sum (map (fun r => length (snd r)) rels).
  Definition kind (d : rmap) : option nat := match d with Hmap _ => None | Dense _ vec => Some (length vec) end.
  Record hinv (kd : option nat) (h : half) (rels : list (N * list pair_t)) : Prop := {
    hi_wf : wf (h_meta h);
    hi_kind : kind (i_data (h_meta h)) = kd;
    hi_off : h_off h = N.of_nat (length (h_out h));
    hi_after : i_after (h_meta h) = h_off h;
    hi_len : (length (h_out h) <= 40 * total rels)%nat;
    hi_keys : forall k, (exists f, In (k, f) (rmap_entries (i_data (h_meta h)))) <-> In k (map fst rels);
    hi_nodup : NoDup (map fst rels);
    hi_good : forall x data, In (x, data) rels -> good data;
    hi_rel : forall x data, In (x, data) rels -> exists f ob, get_rmd x (h_meta h) = Ok (f, ob) /\ stored (h_out h) f ob data }.

  Lemma entries_keys m : wf m -> NoDup (map fst (rmap_entries (i_data m))).
  Proof. intros W. pose proof (wf_keys m W) as K. destruct (i_data m); auto. apply dense_entries_keys. Qed.
  Lemma keys_perm kd h rels : hinv kd h rels -> Permutation (map fst (rmap_entries (i_data (h_meta h)))) (map fst rels).
  Proof.
    intros H. apply NoDup_Permutation; [apply entries_keys, H|apply H|]. intros k. rewrite <- (hi_keys _ _ _ H). rewrite in_map_iff. split.
    - intros ([k' f] & <- & Hi). exists f. exact Hi.
    - intros (f & Hi). exists (k, f). auto.
  Qed.
  Lemma rels_count rels : (forall x data, In (x, data) rels -> good data) -> (length rels <= total rels)%nat.
  Proof.
    induction rels as [|[x d] rels IH]; intros H; [cbn; lia|]. unfold total in *. cbn [map snd list_sum fold_right length].
    assert (IH' := IH (fun y e Hy => H y e (or_intror Hy))). destruct (H x d (or_introl eq_refl)) as (_ & Hne & _).
    assert (length d <> 0%nat) by (now rewrite length_zero_iff_nil). unfold list_sum in *. lia.
  Qed.
  Lemma blocks_count m : wf m -> (length (i_blocks m) <= length (rmap_entries (i_data m)))%nat.
  Proof.
    intros W. rewrite <- (map_length fst (i_blocks m)), <- (map_length fst (rmap_entries (i_data m))).
    apply NoDup_incl_length; [apply (wf_bkeys m W)|]. intros k Hk. apply in_map_iff in Hk. destruct Hk as ([k' b] & <- & Hb).
    destruct (wf_block m W _ _ Hb) as (_ & _ & f & Hf & _). apply in_map_iff. exists (k', f). auto.
  Qed.
  Lemma add_kind f b m m' : add f b m = Ok m' -> kind (i_data m') = kind (i_data m).
  Proof.
    unfold add, rmap_set. destruct (i_data m) as [l|sz vec] eqn:E; cbn [bind].
    - intros Q. injection Q as <-. reflexivity.
    - destruct (nth_error vec (N.to_nat (f_rel f))); cbn [bind]; [|discriminate]. intros Q. injection Q as <-. cbn. now rewrite vec_set_length.
  Qed.

  (* what write_rel produces *)
  Lemma lhss_length data : (length (lhs_loop MAX64 0 data) <= length data)%nat.
  Proof.
    generalize MAX64 as l. generalize 0 as i. induction data as [|[x z] d IH]; intros i l; auto.
    cbn [lhs_loop length]. destruct (negb (x =? l)); cbn [length]; specialize (IH (i + 1)); [specialize (IH x)|specialize (IH l)]; lia.
  Qed.
  Lemma block_loop_bound s es : forall i, (length (block_loop per s i es) <= length es)%nat /\
    forall p, In p (block_loop per s i es) -> (exists e, In e es /\ fst p = fst e) /\ snd p <= s + N.of_nat (i + length es) * 16.
  Proof.
    induction es as [|e es IH]; intros i; cbn [block_loop]; [split; auto; intros p []|].
    destruct (IH (S i)) as [L B]. cbn [length]. destruct (Nat.eqb (i mod per) 0); split; try (cbn [length]; lia); intros p Hp.
    - destruct Hp as [<-|Hp]; cbn [fst snd]; [split; [exists e; split; auto; now left|lia]|].
      destruct (B p Hp) as [(e' & He & Q) U]. split; [exists e'; split; auto; now right|lia].
    - destruct (B p Hp) as [(e' & He & Q) U]. split; [exists e'; split; auto; now right|lia].
  Qed.
  Lemma lhs_loop_in data : forall l i e, In e (lhs_loop l i data) -> exists p, In p data /\ fst e = fst p.
  Proof.
    induction data as [|[x z] d IH]; intros l i e; cbn [lhs_loop]; [intros []|]. destruct (negb (x =? l)); [intros [<-|H]|intros H].
    - exists (x, z). split; auto. now left.
    - destruct (IH _ _ _ H) as (p & Hp & Q). exists p. split; auto. now right.
    - destruct (IH _ _ _ H) as (p & Hp & Q). exists p. split; auto. now right.
  Qed.

  Lemma write_rel_ok pre x data dist fn : good data -> x < MAX64 -> N.of_nat (length data) < 2 ^ 40 ->
    N.of_nat (length pre + 40 * length data) < W64 ->
    exists f b bytes, write_rel per thr logmult (N.of_nat (length pre)) x data dist fn = Ok (f, b, bytes) /\
      f_rel f = x /\ full_ok f /\ is_functional (f_word f) = fn /\
      col1 (f_word f) = (if fn then 0 else logmult (N.of_nat (length data)) dist) /\
      has_blocks (f_word f) = negb fn && Nat.ltb thr (length data) /\
      (has_blocks (f_word f) = true -> blocks_ok b) /\
      expected_after f b = N.of_nat (length (pre ++ bytes)) /\ (length bytes <= 40 * length data)%nat /\
      (length (b_blocks b) <= length data)%nat /\ nof_elements (f_word f) = N.of_nat (length data) /\
      stored (pre ++ bytes) f (if has_blocks (f_word f) then Some b else None) data.
  Proof.
    intros Hd Hx Hn Hsz. pose proof Hd as (D1 & D2 & D3). unfold write_rel.
    assert (M : forall (A : Type) (t e : A), match data with [] => t | _ :: _ => e end = e) by (intros; destruct data; congruence).
    rewrite M. clear M.
    set (c1 := if fn then 0 else logmult (N.of_nat (length data)) dist).
    assert (Hc1 : c1 < 256) by (unfold c1; destruct fn; [lia|apply Hlog]).
    set (f := make_full x (N.of_nat (length pre)) (N.of_nat (length data)) c1 5 fn (negb fn && Nat.ltb thr (length data))).
    destruct (C27_constructor x (N.of_nat (length pre)) (N.of_nat (length data)) c1 5 fn (negb fn && Nat.ltb thr (length data)) Hn Hc1 ltac:(lia)) as [V Vw].
    fold f in V, Vw. pose proof (f_equal st_nof V) as V1. pose proof (f_equal st_col1 V) as V2.
    pose proof (f_equal st_functional V) as V4. pose proof (f_equal st_blocks V) as V5. clear V.
    cbn [view st_nof st_col1 st_functional st_blocks] in V1, V2, V4, V5.
    assert (Vr : f_rel f = x) by reflexivity. assert (Vs : f_start f = N.of_nat (length pre)) by reflexivity. clearbody f.
    assert (Fok : full_ok f).
    { unfold full_ok. rewrite Vr, Vs. split; [unfold W64, MAX64 in *; lia|]. split; [lia|exact Vw]. }
    assert (El : nof_bytes f = N.of_nat (length (flat_map pair_bytes data))).
    { unfold nof_bytes. rewrite V1, pairs_length. lia. }
    destruct (has_blocks (f_word f)) eqn:B.
    - destruct (write_nonfunctional per f data) as [b bytes] eqn:Ew.
      exists f, b, (flat_map pair_bytes data ++ bytes).
      unfold write_nonfunctional in Ew. injection Ew as Eb Ebytes.
      set (E := lhs_loop MAX64 0 data) in *. pose proof (lhss_length data) as LE. fold E in LE.
      assert (Ss : start_of_lhs f = N.of_nat (length pre + 16 * length data)).
      { unfold start_of_lhs. rewrite V1, Vs. lia. }
      assert (Lb : length bytes = (16 * length E + 8 * length data)%nat).
      { rewrite <- Ebytes, app_length, pairs_length, map_length. f_equal.
        clear. induction data as [|a d IH]; auto. cbn [flat_map length]. rewrite app_length, IH. replace (length (word (snd a))) with 8%nat by (symmetry; apply le_length). lia. }
      assert (Fn : fn = false) by (destruct fn; auto; cbn in V5; congruence).
      split; [reflexivity|]. split; [exact Vr|]. split; auto. split; auto. split; auto. split; [congruence|]. split; [|split; [|split; [|split; [|split]]]].
      + intros _. rewrite <- Eb. unfold blocks_ok. cbn [b_start_rhs b_after b_blocks].
        destruct (block_loop_bound (start_of_lhs f) (map (fun e => (fst e, snd e + (start_of_lhs f + N.of_nat (length E) * 16))) E) 0) as [BL BB].
        rewrite map_length in BL, BB. rewrite V1, Ss in *. split; [lia|]. split; [lia|]. split; [lia|].
        apply Forall_forall. intros p Hp. destruct (BB p Hp) as [(e & He & Q) U]. apply in_map_iff in He. destruct He as (e' & <- & He').
        cbn [fst] in Q. destruct (lhs_loop_in _ _ _ _ He') as (p' & Hp' & Q'). destruct (D3 p' Hp') as [D _].
        split; [rewrite Q, Q'; unfold W64, MAX64 in *; lia|lia].
      + unfold expected_after. rewrite B, <- Eb. cbn [b_after]. rewrite V1, Ss, !app_length, Lb, pairs_length. lia.
      + rewrite app_length, Lb, pairs_length. lia.
      + rewrite <- Eb. cbn [b_blocks].
        destruct (block_loop_bound (start_of_lhs f) (map (fun e => (fst e, snd e + (start_of_lhs f + N.of_nat (length E) * 16))) E) 0) as [BL _].
        rewrite map_length in BL. lia.
      + exact V1.
      + rewrite B. split; [exact V1|]. exists pre, []. split; [exact Vs|]. split; [congruence|]. split; auto.
        exists bytes. split; [|now rewrite app_nil_r]. unfold write_nonfunctional. fold E. now rewrite Eb, Ebytes.
    - exists f, no_blocks, (flat_map pair_bytes data). split; [reflexivity|]. split; [exact Vr|]. split; auto. split; auto. split; auto. split; [congruence|].
      split; [congruence|]. split; [unfold expected_after; rewrite B, El, Vs, app_length; lia|].
      split; [rewrite pairs_length; lia|]. split; [cbn; lia|]. split; [exact V1|]. rewrite B. split; [exact V1|].
      exists pre, []. split; [exact Vs|]. now rewrite app_nil_r.
  Qed.

  Lemma finish_ok kd h rels x data dist fn : hinv kd h rels -> ~ In x (map fst rels) -> good data -> x < MAX64 ->
    (match kd with None => True | Some n => (N.to_nat x < n)%nat end) ->
    N.of_nat (total rels + length data) < 2 ^ 40 ->
    exists f b bytes h', write_rel per thr logmult (h_off h) x data dist fn = Ok (f, b, bytes) /\
      finish_rel h (f, b, bytes) = Ok h' /\ hinv kd h' (rels ++ [(x, data)]) /\
      get_rmd x (h_meta h') = Ok (f, if has_blocks (f_word f) then Some b else None) /\
      (forall k, k <> x -> get_rmd k (h_meta h') = get_rmd k (h_meta h)) /\
      is_functional (f_word f) = fn /\ col1 (f_word f) = (if fn then 0 else logmult (N.of_nat (length data)) dist) /\
      has_blocks (f_word f) = negb fn && Nat.ltb thr (length data).
  Proof.
    intros H Hnew Hd Hx Hk Htot. pose proof (hi_len _ _ _ H) as Hlen.
    assert (P40 : 2 ^ 40 = 1099511627776) by reflexivity. rewrite P40 in Htot.
    rewrite (hi_off _ _ _ H).
    destruct (write_rel_ok (h_out h) x data dist fn Hd Hx) as (f & b & bytes & Hw & Hrel & Fok & Ffn & Fc1 & Fhb & Bok & Exp & Lb & Lbb & Fn & Hst).
    { rewrite P40. lia. }
    { unfold W64. lia. }
    exists f, b, bytes. unfold finish_rel.
    pose proof (Permutation_length (keys_perm _ _ _ H)) as PL. rewrite !map_length in PL.
    pose proof (rels_count rels (hi_good _ _ _ H)) as RC. pose proof (blocks_count _ (hi_wf _ _ _ H)) as BC.
    destruct (C26_add (h_meta h) f b (hi_wf _ _ _ H) Fok) as (m' & Ha & Wm & Hg & Hent & Hoth); auto.
    - lia.
    - rewrite Exp, app_length. unfold W64. lia.
    - intros f' Hi. apply Hnew. rewrite Hrel in Hi. apply (hi_keys _ _ _ H). eauto.
    - rewrite Hrel. rewrite <- (hi_kind _ _ _ H) in Hk. destruct (i_data (h_meta h)); auto.
    - unfold W64. lia.
    - unfold W64. lia.
    - rewrite Ha. cbn [bind]. eexists. split; [exact Hw|]. split; [reflexivity|].
      assert (Aft : i_after m' = N.of_nat (length (h_out h ++ bytes))).
      { revert Ha. unfold add. destruct (rmap_set (f_rel f) f (i_data (h_meta h))); cbn [bind]; try discriminate. intros Q. injection Q as <-.
        unfold add_blocks. cbn [i_after with_data]. fold (expected_after f b). rewrite Exp.
        pose proof (hi_after _ _ _ H) as A1. rewrite A1, (hi_off _ _ _ H). rewrite app_length.
        destruct (N.ltb_spec (N.of_nat (length (h_out h))) (N.of_nat (length (h_out h) + length bytes))); lia. }
      rewrite Hrel in *. split.
      { constructor; cbn [h_meta h_off h_out]; auto.
        - rewrite <- (hi_kind _ _ _ H). now apply add_kind with f b.
        - rewrite app_length. unfold total in *. rewrite map_app, list_sum_app. cbn [map snd list_sum fold_right]. lia.
        - intros k. rewrite map_app, in_app_iff. cbn [map fst In]. rewrite <- (hi_keys _ _ _ H). split.
          + intros (f' & Hi). apply Hent in Hi. destruct Hi as [[-> _]|Hi]; auto. left. eauto.
          + intros [(f' & Hi)|[<-|[]]]; [exists f'|exists f]; apply Hent; auto.
        - rewrite map_app. apply NoDup_app_intro; [apply (hi_nodup _ _ _ H)|repeat constructor; intros []|].
          cbn [map fst]. intros y Hy [<-|[]]. contradiction.
        - intros y e Hi. apply in_app_iff in Hi. destruct Hi as [Hi|[Q|[]]]; [now apply (hi_good _ _ _ H y)|injection Q as <- <-; auto].
        - intros y e Hi. apply in_app_iff in Hi. destruct Hi as [Hi|[Q|[]]].
          + destruct (hi_rel _ _ _ H y e Hi) as (f0 & ob & G & S). exists f0, ob. split; [|now apply stored_app].
            rewrite Hoth; auto. intros ->. apply Hnew. apply in_map_iff. exists (x, e). auto.
          + injection Q as <- <-. exists f. eexists. split; [exact Hg|]. exact Hst. }
      cbn [h_meta]. auto 10.
  Qed.
End Perm.
