(* The loaded text index, and the postings of a term. *)
From Coq Require Import List NArith Arith Bool Lia Permutation Sorted ZifyN ZifyNat ZifyBool.
From Verif Require Import Base Bytes Std_Model Std_Proof ListAux Ops_Spec Fts_Model Fts_Spec Postings_Model
  Fts_Proof Fts_Proof7 Fts_Thm TextIndex_Model TextIndex_Spec TextIndex_Proof TextIndex_Proof2 TextIndex_Proof3
  TextIndex_Proof4.
Import ListNotations.
Open Scope N_scope.

Lemma distinct_length l : (length (distinct l) <= length l)%nat.
Proof. induction l as [|x l IH]; cbn; auto. pose proof (filter_length_le (fun y => negb (y =? x)) (distinct l)). lia. Qed.
Lemma forall2_map_r {A B C} (P : A -> C -> Prop) (f : B -> C) l l' :
  Forall2 P l (map f l') <-> Forall2 (fun a b => P a (f b)) l l'.
Proof.
  revert l'. induction l as [|a l IH]; intros l'; split; intros H.
  - destruct l'; [constructor|inversion H].
  - inversion H; constructor.
  - destruct l'; inversion H; subst. constructor; auto. now apply IH.
  - inversion H; subst. cbn. constructor; auto. now apply IH.
Qed.
Lemma forall2_nth {A B} (P : A -> B -> Prop) l l' : Forall2 P l l' ->
  forall i b, nth_error l' i = Some b -> exists a, nth_error l i = Some a /\ P a b.
Proof.
  induction 1; intros i z H1; [destruct i; discriminate H1|].
  destruct i; cbn in *; [injection H1 as <-; eauto|]. auto.
Qed.
Lemma forall2_length {A B} (P : A -> B -> Prop) l l' : Forall2 P l l' -> length l = length l'.
Proof. induction 1; cbn; auto. Qed.

Section Index.
  Variables (bounds : list N) (cs : list context).
  Hypothesis C : corpus bounds cs.
  Hypothesis Apart : entities_apart bounds cs.
  Variable vec : list entry.
  Hypothesis V : sort_result text_less (text_vec bounds cs) vec.
  Variables wbook sbook : nat -> list N -> list N.
  Hypothesis wbook_ok : forall off l, codebook l (wbook off l).
  Hypothesis sbook_ok : forall off l, codebook l (sbook off l).

  (* the loaded index *)
  Record good (file : list N) (m : text_meta) (E : list N) : Prop := {
    g_words : m_words m = bounds;
    g_ents : m_ents m = E;
    g_strict : strictly_ascending E;
    g_in : forall e, In e E <-> is_entity cs e;
    g_wblock : forall i, (i < length bounds)%nat ->
      exists blk body rest, nth_error (m_blocks m) i = Some blk /\ file = body ++ rest /\
        holds bounds cs body blk (N.of_nat i);
    g_eblock : forall j e, nth_error E j = Some e ->
      exists blk body rest, nth_error (m_blocks m) (j + length bounds) = Some blk /\ file = body ++ rest /\
        holds bounds cs body blk (e + N.of_nat (length bounds))
  }.

  Lemma chain_words wr : forall i b0,
    Forall2 (fun blk i => b_first blk = lowest bounds i /\ b_last blk = nth i bounds 0) (b0 :: wr) (seq i (length (b0 :: wr))) ->
    (i + length (b0 :: wr) <= length bounds)%nat -> chained b0 wr.
  Proof.
    induction wr as [|b1 wr IH]; intros i b0 F Hi; cbn [chained]; auto.
    cbn [length seq] in F. inversion F as [|? ? ? ? F1 F2]; subst. split.
    - inversion F2 as [|? ? ? ? F3 F4]; subst. destruct F1 as [_ F1]. destruct F3 as [F3 _].
      rewrite F1, F3. cbn [lowest]. unfold add64. apply N.mod_small.
      cbn [length] in Hi. pose proof (nth_le_last bounds i (strict_bounds bounds cs C) ltac:(lia)).
      pose proof (proj2 (proj2 (co_bounds _ _ C))). lia.
    - apply (IH (S i)); [exact F2|cbn [length] in *; lia].
  Qed.

  Lemma ents_length : (length (ents bounds vec) <= length vec)%nat.
  Proof.
    unfold ents. rewrite map_length. pose proof (filter_length_le (fun x => N.of_nat (length bounds) <=? x) (ids vec)).
    unfold ids in *. pose proof (distinct_length (map t_block vec)). rewrite map_length in H0. lia.
  Qed.
  Lemma all_ents_length : (length (flat_map c_ents cs) <= length vec)%nat.
  Proof.
    rewrite <- (Permutation_length (proj1 V)). unfold text_vec. generalize cs. intros l.
    induction l as [|c l IH]; [cbn; lia|]. cbn [flat_map]. rewrite !app_length. unfold addContextToVector at 1.
    rewrite !app_length, !map_length. lia.
  Qed.

  Lemma index_loads nofs name : length nofs = 3%nat -> Forall (fun v => v < 2 ^ 64) nofs ->
    exists file, createTextIndex wbook sbook bounds vec nofs name = Done file /\
      (N.of_nat (length file) < 2 ^ 63 ->
       exists m, load_text_meta file = Done m /\ good file m (ents bounds vec) /\
         m_stats m = N.of_nat (length (ents bounds vec)) :: N.of_nat (length (flat_map c_ents cs)) :: nofs /\
         m_name m = name).
  Proof.
    intros Hn Hnb.
    destruct (index_written bounds cs C vec V wbook sbook wbook_ok sbook_ok)
      as [file [blks [ne [nec [W [F [Ene [Enec L]]]]]]]].
    unfold createTextIndex. rewrite W. cbn [rbind o_blocks o_file o_ents o_ectxs].
    unfold getOffsetAfter. destruct (rev blks) as [|z zs] eqn:Erev; [tauto|]. cbn [rbind]. rewrite L.
    eexists. split; [reflexivity|]. intros Hlen.
    rewrite !app_length, le_length in Hlen.
    pose proof (ids_split bounds cs C vec V) as Eids. rewrite Eids in F.
    apply Forall2_app_inv_r in F. destruct F as [wb [eb [Fw [Fe Eb]]]]. subst blks.
    apply (proj1 (forall2_map_r _ _ _ _)) in Fw. apply (proj1 (forall2_map_r _ _ _ _)) in Fe.
    assert (Lw : length wb = length bounds) by (rewrite (forall2_length _ _ _ Fw); apply seq_length).
    assert (Bw : Forall2 (fun blk i => b_first blk = lowest bounds i /\ b_last blk = nth i bounds 0) wb (seq 0 (length bounds))).
    { assert (Hs : forall i, In i (seq 0 (length bounds)) -> (i < length bounds)%nat) by (intros i Hi; apply in_seq in Hi; lia).
      revert Fw Hs. generalize (seq 0 (length bounds)). clear - C. intros s F. induction F; intros Hs; constructor.
      - eapply word_block_bounds; eauto. apply Hs. now left.
      - apply IHF. intros; apply Hs; now right. }
    assert (Be : Forall2 (fun blk e => b_first blk = e /\ b_last blk = e) eb (ents bounds vec)).
    { assert (Hs : forall e, In e (ents bounds vec) -> is_entity cs e) by (intros e He; now apply (ents_in bounds cs C vec V)).
      revert Fe Hs. generalize (ents bounds vec). clear - C. intros s F. induction F; intros Hs; constructor.
      - destruct (entity_block_bounds bounds cs C file x y) as [A1 [A2 _]]; auto. apply Hs. now left.
      - apply IHF. intros; apply Hs; now right. }
    assert (Hv : Forall valid_block (wb ++ eb)).
    { apply Forall_app. split.
      - apply Forall_forall. intros blk Hb. apply In_nth_error in Hb. destruct Hb as [i Hi].
        assert (Hil : (i < length bounds)%nat) by (rewrite <- Lw; apply nth_error_Some; congruence).
        destruct (forall2_nth _ _ _ Fw i i) as [b1 [N1 H1]].
        { rewrite nth_error_nth' with (d := 0%nat) by (rewrite seq_length; lia). rewrite seq_nth by lia. reflexivity. }
        destruct (forall2_nth _ _ _ Bw i i) as [b2 [N2 H2]].
        { rewrite nth_error_nth' with (d := 0%nat) by (rewrite seq_length; lia). rewrite seq_nth by lia. reflexivity. }
        assert (b1 = blk) by congruence. assert (b2 = blk) by congruence. subst b1 b2.
        pose proof (lowest_le bounds cs C i Hil). pose proof (nth_le_last bounds i (strict_bounds bounds cs C) Hil).
        pose proof (proj2 (proj2 (co_bounds _ _ C))).
        eapply (holds_valid bounds cs); eauto; lia.
      - apply Forall_forall. intros blk Hb. apply In_nth_error in Hb. destruct Hb as [i Hi].
        assert (Hil : (i < length (ents bounds vec))%nat).
        { rewrite <- (forall2_length _ _ _ Be). apply nth_error_Some. congruence. }
        destruct (nth_error (ents bounds vec) i) as [e|] eqn:Ee; [|apply nth_error_None in Ee; lia].
        destruct (forall2_nth _ _ _ Fe i e Ee) as [b1 [N1 H1]].
        destruct (forall2_nth _ _ _ Be i e Ee) as [b2 [N2 H2]].
        assert (b1 = blk) by congruence. assert (b2 = blk) by congruence. subst b1 b2.
        assert (is_entity cs e) by (apply (ents_in bounds cs C vec V); eapply nth_error_In; eauto).
        pose proof (co_entities _ _ C e H).
        eapply (holds_valid bounds cs); eauto; lia. }
    assert (Cl : classify (wb ++ eb) false (mk_text_meta [] [] [] [] []) =
                 mk_text_meta (wb ++ eb) bounds (ents bounds vec) [] []).
    { assert (Mb : map b_last wb = bounds).
      { apply nth_ext with (d := 0) (d' := 0); [now rewrite map_length|]. intros i Hi. rewrite map_length in Hi.
        destruct (forall2_nth _ _ _ Bw i i) as [b2 [N2 [_ H2]]].
        { rewrite nth_error_nth' with (d := 0%nat) by (rewrite seq_length; lia). rewrite seq_nth by lia. reflexivity. }
        rewrite <- H2. apply nth_error_nth. rewrite nth_error_map, N2. reflexivity. }
      assert (Me : map b_last eb = ents bounds vec).
      { revert Be. generalize (ents bounds vec). clear. intros l F. induction F; cbn; auto. destruct H. congruence. }
      pose proof (B_pos bounds cs C) as Bp. destruct wb as [|b0 wr]; [cbn in Lw; lia|].
      cbn [app classify negb andb m_blocks rev m_words m_ents].
      assert (Ch : chained b0 wr) by (apply (chain_words wr 0%nat); rewrite ?Lw; auto; lia).
      pose proof (classify_words wr b0 [] [b_last b0] [] eb Ch) as K. cbn [app] in K. rewrite K. clear K.
      change (b_last b0 :: map b_last wr) with (map b_last (b0 :: wr)) || change ([b_last b0] ++ map b_last wr) with (map b_last (b0 :: wr)). rewrite Mb.
      destruct eb as [|e0 er]; [cbn [classify]; rewrite app_nil_r, <- Me; reflexivity|].
      cbn [classify negb andb m_blocks m_words m_ents].
      assert (NW : match rev (b0 :: wr) with [] => true | p :: _ => add64 (b_last p) 1 =? b_first e0 end = false).
      { destruct (exists_last (l := b0 :: wr)) as [l' [bl El]]; [discriminate|]. rewrite El, rev_app_distr. cbn [rev app].
        assert (Hbl : b_last bl = last bounds 0). { rewrite <- Mb, El, map_app. cbn [map]. now rewrite last_last. }
        rewrite Hbl. apply N.eqb_neq. intros Eq. unfold add64 in Eq.
        pose proof (proj2 (proj2 (co_bounds _ _ C))). rewrite N.mod_small in Eq by lia.
        destruct (ents bounds vec) as [|x xs] eqn:Ex; [inversion Be|].
        assert (Q1 : b_first e0 = x) by (inversion Be; tauto).
        pose proof (ents_strict bounds vec V) as St || pose proof (ents_strict bounds cs vec V) as St.
        rewrite Ex in St.
        assert (He : is_entity cs (last bounds 0 + 1)).
        { apply (ents_in bounds cs C vec V). rewrite Ex. left. congruence. }
        destruct (Apart He) as [e [He' Hle]]. apply (ents_in bounds cs C vec V) in He'. rewrite Ex in He'.
        apply StronglySorted_inv in St. destruct St as [_ St]. rewrite Forall_forall in St.
        destruct He' as [He'|He']; [lia|]. specialize (St e He'). lia. }
      rewrite NW. cbn [negb]. rewrite classify_ents. rewrite <- Me. cbn [map app]. rewrite <- app_assoc. reflexivity. }
    exists (mk_text_meta (wb ++ eb) bounds (ents bounds vec) (ne :: nec :: nofs) name).
    split; [|split; [|split]].
    - rewrite load_meta; auto.
      + rewrite Cl. reflexivity.
      + cbn. now rewrite Hn.
      + pose proof ents_length. pose proof all_ents_length. pose proof (vec_length bounds cs C vec V).
        constructor; [lia|]. constructor; [lia|]. auto.
      + rewrite app_length. lia.
    - constructor; cbn [m_words m_ents m_blocks]; auto.
      + apply (ents_strict bounds vec V) || apply (ents_strict bounds cs vec V).
      + apply (ents_in bounds cs C vec V).
      + intros i Hi. destruct (forall2_nth _ _ _ Fw i i) as [b1 [N1 H1]].
        { rewrite nth_error_nth' with (d := 0%nat) by (rewrite seq_length; lia). rewrite seq_nth by lia. reflexivity. }
        exists b1, file. eexists. split; [|split; [reflexivity|exact H1]].
        rewrite nth_error_app1; auto. lia.
      + intros j e Hj. destruct (forall2_nth _ _ _ Fe j e Hj) as [b1 [N1 H1]].
        exists b1, file. eexists. split; [|split; [reflexivity|exact H1]].
        rewrite nth_error_app2 by lia. rewrite Lw. replace (j + length bounds - length bounds)%nat with j by lia. auto.
    - cbn. congruence.
    - reflexivity.
  Qed.
End Index.
