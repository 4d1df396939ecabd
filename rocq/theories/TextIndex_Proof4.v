(* The metadata of the text index: written and loaded again. *)
From Coq Require Import List NArith Arith Bool Lia Permutation Sorted ZifyN ZifyNat ZifyBool.
From Verif Require Import Base Bytes Std_Model Std_Proof ListAux Ops_Spec Fts_Model Fts_Spec Postings_Model
  Fts_Proof Fts_Proof7 TextIndex_Model TextIndex_Spec TextIndex_Proof TextIndex_Proof2 TextIndex_Proof3.
Import ListNotations.
Open Scope N_scope.

(* ---- one block ---- *)
Definition valid_list (m : list_meta) : Prop :=
  N.of_nat (l_count m) < 2 ^ 64 /\ N.of_nat (l_contexts m) < 2 ^ 64 /\ N.of_nat (l_words m) < 2 ^ 64 /\
  N.of_nat (l_scores m) < 2 ^ 64 /\ N.of_nat (l_end m) < 2 ^ 64 /\ (0 < l_end m)%nat.
Definition valid_block (b : block) : Prop :=
  b_first b < 2 ^ 64 /\ b_last b < 2 ^ 64 /\ valid_list (b_cl b) /\ valid_list (b_ecl b).

Lemma cl_words_round m : valid_list m -> cl_of_words (cl_words m) = Some m.
Proof.
  intros [_ [_ [_ [_ [H5 H6]]]]]. unfold cl_of_words, cl_words. rewrite !Nat2N.id.
  replace (N.to_nat (add64 (sub64 (N.of_nat (l_end m)) 1) 1)) with (l_end m); [now destruct m|].
  unfold add64, sub64. replace (N.of_nat (l_end m) + 2 ^ 64 - 1) with (N.of_nat (l_end m) - 1 + 1 * 2 ^ 64) by lia.
  rewrite N.mod_add by discriminate. rewrite N.mod_small by lia. rewrite N.mod_small by lia. lia.
Qed.
Lemma cl_words_bound m : valid_list m -> Forall (fun v => v < 256 ^ N.of_nat 8) (cl_words m).
Proof.
  intros [H1 [H2 [H3 [H4 [H5 H6]]]]]. change (256 ^ N.of_nat 8) with (2 ^ 64). unfold cl_words.
  repeat constructor; auto. unfold sub64. apply N.mod_lt. discriminate.
Qed.
Lemma block_bytes b : words 8 (block_words b) =
  le 8 (b_first b) ++ le 8 (b_last b) ++ words 8 (cl_words (b_cl b)) ++ words 8 (cl_words (b_ecl b)).
Proof. unfold block_words, words. cbn [flat_map]. rewrite flat_map_app. reflexivity. Qed.
Lemma block_bytes_length b : length (words 8 (block_words b)) = 96%nat.
Proof. rewrite words_length. reflexivity. Qed.
Lemma cl_bytes_length m : length (words 8 (cl_words m)) = 40%nat.
Proof. rewrite words_length. reflexivity. Qed.

Lemma read_block_at b pre post : valid_block b ->
  read_block (pre ++ words 8 (block_words b) ++ post) (length pre) = Done b.
Proof.
  intros [H1 [H2 [H3 H4]]]. unfold read_block. rewrite block_bytes.
  rewrite (load_word_at _ _ 8 (b_first b) pre (le 8 (b_last b) ++ words 8 (cl_words (b_cl b)) ++
             words 8 (cl_words (b_ecl b)) ++ post)); [| now rewrite <- !app_assoc|auto|auto].
  rewrite (load_word_at _ _ 8 (b_last b) (pre ++ le 8 (b_first b)) (words 8 (cl_words (b_cl b)) ++
             words 8 (cl_words (b_ecl b)) ++ post));
    [| now rewrite <- !app_assoc|now rewrite app_length, le_length|auto].
  change 5%nat with (length (cl_words (b_cl b))) at 1.
  rewrite (load_words_at 8 (cl_words (b_cl b)) _ _ (pre ++ le 8 (b_first b) ++ le 8 (b_last b))
             (words 8 (cl_words (b_ecl b)) ++ post));
    [|now rewrite <- !app_assoc|now rewrite !app_length, !le_length|now apply cl_words_bound].
  change 5%nat with (length (cl_words (b_ecl b))).
  rewrite (load_words_at 8 (cl_words (b_ecl b)) _ _
             (pre ++ le 8 (b_first b) ++ le 8 (b_last b) ++ words 8 (cl_words (b_cl b))) post);
    [|now rewrite <- !app_assoc|now rewrite !app_length, !le_length, cl_bytes_length|now apply cl_words_bound].
  rewrite !cl_words_round by auto. now destruct b.
Qed.

(* ---- all blocks ---- *)
Fixpoint classify (blks : list block) (step : bool) (m : text_meta) : text_meta :=
  match blks with
  | [] => m
  | b :: blks' =>
      let is_word := negb step &&
        match rev (m_blocks m) with [] => true | p :: _ => add64 (b_last p) 1 =? b_first b end in
      classify blks' (negb is_word)
        (if is_word
         then mk_text_meta (m_blocks m ++ [b]) (m_words m ++ [b_last b]) (m_ents m) [] []
         else mk_text_meta (m_blocks m ++ [b]) (m_words m) (m_ents m ++ [b_last b]) [] [])
  end.
Lemma read_blocks_at blks : forall pre post step m, Forall valid_block blks ->
  read_blocks (length blks) (pre ++ flat_map (fun b => words 8 (block_words b)) blks ++ post) (length pre) step m =
  Done (length pre + 96 * length blks, classify blks step m)%nat.
Proof.
  induction blks as [|b blks IH]; intros pre post step m H.
  - cbn [length read_blocks classify]. rewrite Nat.mul_0_r, Nat.add_0_r. reflexivity.
  - inversion H as [|? ? H1 H2]; subst. cbn [length read_blocks flat_map]. rewrite <- app_assoc.
    rewrite read_block_at by auto. cbn [rbind classify].
    rewrite app_assoc. replace (length pre + 96)%nat with (length (pre ++ words 8 (block_words b)))
      by now rewrite app_length, block_bytes_length.
    rewrite IH by auto. rewrite app_length, block_bytes_length. f_equal. f_equal. lia.
Qed.

Lemma classify_ents blks : forall bl ws es,
  classify blks true (mk_text_meta bl ws es [] []) = mk_text_meta (bl ++ blks) ws (es ++ map b_last blks) [] [].
Proof.
  induction blks as [|b blks IH]; intros bl ws es; cbn [classify negb andb m_blocks m_words m_ents map].
  - now rewrite !app_nil_r.
  - rewrite IH, <- !app_assoc. reflexivity.
Qed.
(* p is followed directly by the first of the list, and so on *)
Fixpoint chained (p : block) (blks : list block) : Prop :=
  match blks with [] => True | b :: blks' => add64 (b_last p) 1 = b_first b /\ chained b blks' end.
Lemma classify_words blks : forall p bl ws es rest, chained p blks ->
  classify (blks ++ rest) false (mk_text_meta (bl ++ [p]) ws es [] []) =
  classify rest false (mk_text_meta (bl ++ p :: blks) (ws ++ map b_last blks) es [] []).
Proof.
  induction blks as [|b blks IH]; intros p bl ws es rest H.
  - cbn [app map]. now rewrite app_nil_r.
  - destruct H as [H1 H2]. cbn [app classify negb andb m_blocks m_words m_ents map].
    rewrite rev_app_distr. cbn [rev app]. rewrite H1, N.eqb_refl. cbn [negb].
    rewrite (IH b (bl ++ [p])) by auto. rewrite <- !app_assoc. reflexivity.
Qed.

Lemma load_meta file blks stats name : Forall valid_block blks -> length stats = 5%nat ->
  Forall (fun v => v < 2 ^ 64) stats ->
  N.of_nat (length (file ++ meta_bytes blks stats name)) < 2 ^ 64 ->
  let m := classify blks false (mk_text_meta [] [] [] [] []) in
  load_text_meta (file ++ meta_bytes blks stats name ++ le 8 (N.of_nat (length file))) =
  Done (mk_text_meta (m_blocks m) (m_words m) (m_ents m) stats name).
Proof.
  intros Hb Hs Hst Hl m. unfold load_text_meta. set (mb := meta_bytes blks stats name) in *.
  rewrite !app_length, le_length. rewrite app_length in Hl.
  replace (Nat.ltb (length file + (length mb + 8)) 8) with false by (symmetry; apply Nat.ltb_ge; lia).
  cbv zeta. replace (length file + (length mb + 8) - 8)%nat with (length (file ++ mb)) by (rewrite app_length; lia).
  rewrite (load_word_at _ _ 8 (N.of_nat (length file)) (file ++ mb) []);
    [|now rewrite app_nil_r, <- app_assoc|reflexivity|change (256 ^ N.of_nat 8) with (2 ^ 64); lia].
  rewrite Nat2N.id. replace (Nat.ltb (length (file ++ mb)) (length file)) with false
    by (symmetry; apply Nat.ltb_ge; rewrite app_length; lia).
  rewrite (load_at' _ _ _ file mb (le 8 (N.of_nat (length file))));
    [|reflexivity|reflexivity|rewrite app_length; lia].
  unfold createFromByteBuffer. set (body := flat_map (fun b => words 8 (block_words b)) blks).
  assert (Lb : length body = (96 * length blks)%nat).
  { unfold body. clear. induction blks as [|b l IH]; [reflexivity|]. cbn [flat_map length].
    rewrite app_length, block_bytes_length, IH. lia. }
  assert (Lm : length mb = (8 + (length body + (40 + (8 + length name))))%nat).
  { unfold mb, meta_bytes. fold body. rewrite !app_length, !le_length, words_length, Hs. reflexivity. }
  unfold mb at 1. unfold meta_bytes. fold body.
  rewrite (load_word_at _ 0 8 (N.of_nat (length blks)) [] (body ++ words 8 stats ++ le 8 (N.of_nat (length name)) ++ name));
    [|reflexivity|reflexivity|change (256 ^ N.of_nat 8) with (2 ^ 64); lia].
  rewrite Nat2N.id. unfold mb, meta_bytes, body.
  match goal with |- rbind (read_blocks _ _ ?x _ _) _ = _ =>
    replace x with (length (le 8 (N.of_nat (length blks)))) by apply le_length end.
  rewrite read_blocks_at by auto. cbn [rbind]. rewrite le_length. fold body.
  match goal with |- context [load_words ?x ?o 8 5] =>
    assert (LW : load_words x o 8 (length stats) = Some stats) end.
  { rewrite (load_words_at 8 stats _ _ (le 8 (N.of_nat (length blks)) ++ body)
             (le 8 (N.of_nat (length name)) ++ name));
    [reflexivity|now rewrite <- !app_assoc|now rewrite app_length, le_length, Lb|exact Hst]. }
  rewrite Hs in LW. rewrite LW.
  rewrite (load_word_at _ _ 8 (N.of_nat (length name)) (le 8 (N.of_nat (length blks)) ++ body ++ words 8 stats) name);
    [|now rewrite <- !app_assoc|rewrite !app_length, le_length, Lb, words_length, Hs; lia
     |change (256 ^ N.of_nat 8) with (2 ^ 64); lia].
  rewrite Nat2N.id.
  rewrite (load_at' _ _ _ (le 8 (N.of_nat (length blks)) ++ body ++ words 8 stats ++ le 8 (N.of_nat (length name)))
             name []); [reflexivity|now rewrite app_nil_r, <- !app_assoc|
     rewrite !app_length, !le_length, Lb, words_length, Hs; lia|reflexivity].
Qed.

(* ---- the words of the blocks ---- *)
Section Blocks.
  Variables (bounds : list N) (cs : list context).
  Hypothesis C : corpus bounds cs.

  Definition lowest (i : nat) : N := match i with O => 0 | S i' => nth i' bounds 0 + 1 end.
  Lemma lowest_le i : (i < length bounds)%nat -> lowest i <= nth i bounds 0.
  Proof.
    intros Hi. destruct i as [|i]; cbn [lowest]; [lia|].
    pose proof (sorted_nth_le _ _ (strict_bounds bounds cs C) i (S i) ltac:(lia) Hi). cbn beta in H. lia.
  Qed.
  Lemma in_word_block i w : (i < length bounds)%nat ->
    find bounds w = i <-> lowest i <= w <= nth i bounds 0.
  Proof.
    intros Hi. rewrite (find_iff bounds w i (strict_bounds bounds cs C) Hi).
    destruct i as [|i]; cbn [lowest]; [|replace (S i - 1)%nat with i by lia]; lia.
  Qed.
  Lemma block_word i p : (i < length bounds)%nat ->
    In p (flat_map (context_classics bounds (N.of_nat i)) cs) ->
    lowest i <= p_eid p <= nth i bounds 0.
  Proof.
    intros Hi H. apply in_flat_map in H. destruct H as [c [Hc H]]. unfold context_classics in H.
    apply in_map_iff in H. destruct H as [[w s] [<- H]]. cbn. apply in_app_or in H.
    rewrite !filter_In in H. cbn [fst] in H. destruct H as [[H E]|[H E]].
    - apply (in_word_block i w Hi). rewrite word_block in E. lia.
    - rewrite (entity_block bounds cs C) in E; [lia|]. exists c. split; auto. apply in_map_iff. exists (w, s). auto.
  Qed.
  Lemma word_in_block i w : (i < length bounds)%nat -> lowest i <= w <= nth i bounds 0 ->
    exists p, In p (flat_map (context_classics bounds (N.of_nat i)) cs) /\ p_eid p = w.
  Proof.
    intros Hi Hw. pose proof (nth_le_last bounds i (strict_bounds bounds cs C) Hi) as Hl.
    assert (W : is_word cs w) by (apply (co_vocabulary _ _ C); lia).
    destruct W as [c [Hc W]]. apply in_map_iff in W. destruct W as [[x s] [E W]]. cbn in E. subst x.
    exists (c_id c, w, s). split; [|reflexivity]. apply in_flat_map. exists c. split; auto.
    apply in_map_iff. exists (w, s). split; auto. apply in_or_app. left. apply filter_In. split; auto.
    cbn [fst]. rewrite word_block. apply (in_word_block i w Hi) in Hw. lia.
  Qed.
  Lemma word_block_bounds file blk i : (i < length bounds)%nat -> holds bounds cs file blk (N.of_nat i) ->
    b_first blk = lowest i /\ b_last blk = nth i bounds 0.
  Proof.
    intros Hi [cl [en [[_ [_ [_ [_ [H1 [H2 H3]]]]]] [_ [_ [_ [_ [P _]]]]]]]].
    assert (A : forall p, In p cl -> lowest i <= p_eid p <= nth i bounds 0).
    { intros p Hp. apply block_word; auto. eapply Permutation_in; eauto. }
    assert (D : forall w, lowest i <= w <= nth i bounds 0 -> exists p, In p cl /\ p_eid p = w).
    { intros w Hw. destruct (word_in_block i w Hi Hw) as [p [Hp E]]. exists p. split; auto.
      eapply Permutation_in; [apply Permutation_sym; eauto|auto]. }
    apply in_map_iff in H2. destruct H2 as [p2 [E2 H2]]. apply in_map_iff in H3. destruct H3 as [p3 [E3 H3]].
    pose proof (lowest_le i Hi).
    destruct (D (lowest i)) as [q1 [Q1 Q1']]; [lia|]. destruct (D (nth i bounds 0)) as [q2 [Q2 Q2']]; [lia|].
    pose proof (H1 q1 Q1). pose proof (H1 q2 Q2). pose proof (A p2 H2). pose proof (A p3 H3). lia.
  Qed.
  Lemma entity_block_bounds file blk e : is_entity cs e -> holds bounds cs file blk (e + N.of_nat (length bounds)) ->
    b_first blk = e /\ b_last blk = e /\
    forall cl, Permutation cl (flat_map (context_classics bounds (e + N.of_nat (length bounds))) cs) ->
      forall p, In p cl -> p_eid p = e.
  Proof.
    intros He [cl [en [[_ [_ [_ [_ [H1 [H2 H3]]]]]] [_ [_ [_ [_ [P _]]]]]]]].
    assert (A : forall cl, Permutation cl (flat_map (context_classics bounds (e + N.of_nat (length bounds))) cs) ->
      forall p, In p cl -> p_eid p = e).
    { clear - C. intros cl P p Hp. assert (H : In p (flat_map (context_classics bounds (e + N.of_nat (length bounds))) cs))
        by (eapply Permutation_in; eauto).
      apply in_flat_map in H. destruct H as [c [Hc H]]. unfold context_classics in H.
      apply in_map_iff in H. destruct H as [[w s] [<- H]]. cbn. apply in_app_or in H.
      rewrite !filter_In in H. cbn [fst] in H. destruct H as [[H E]|[H E]].
      - rewrite word_block in E. pose proof (find_spec bounds w (strict_bounds bounds cs C)).
        assert (w <= last bounds 0).
        { apply (co_vocabulary _ _ C). exists c. split; auto. apply in_map_iff. exists (w, s). auto. }
        pose proof (find_lt bounds w (strict_bounds bounds cs C) (proj1 (co_bounds _ _ C)) H1). lia.
      - rewrite (entity_block bounds cs C) in E; [lia|]. exists c. split; auto. apply in_map_iff. exists (w, s). auto. }
    apply in_map_iff in H2. destruct H2 as [p2 [E2 H2]]. apply in_map_iff in H3. destruct H3 as [p3 [E3 H3]].
    split; [|split; [|exact A]]; [rewrite <- E2|rewrite <- E3]; eapply A; eauto.
  Qed.

  Lemma holds_valid file blk b : holds bounds cs file blk b ->
    N.of_nat (length file) < 2 ^ 64 -> b_first blk < 2 ^ 64 -> b_last blk < 2 ^ 64 -> valid_block blk.
  Proof.
    intros [cl [en [[[L1 [L2 [_ L3]]] [[M1 [M2 _]] [M3 [Hn _]]]] [_ [_ [H1 [H2 _]]]]]]] Hf Ha Hb.
    split; auto. split; auto. destruct (L3 Hn) as [L4 _].
    split; unfold valid_list; lia.
  Qed.
End Blocks.
