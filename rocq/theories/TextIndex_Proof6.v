(* The postings of a term in a loaded text index. *)
From Coq Require Import List NArith Arith Bool Lia Permutation Sorted ZifyN ZifyNat ZifyBool.
From Verif Require Import Base Bytes Std_Model Std_Proof ListAux Ops_Spec Fts_Model Fts_Spec Postings_Model
  Fts_Proof Fts_Proof7 Fts_Thm TextIndex_Model TextIndex_Spec TextIndex_Proof TextIndex_Proof2 TextIndex_Proof3
  TextIndex_Proof4 TextIndex_Proof5.
Import ListNotations.
Open Scope N_scope.

Lemma zip3_maps ps : zip3 (map p_cid ps) (map p_eid ps) (map p_score ps) = ps.
Proof. unfold zip3. induction ps as [|[[c e] s] ps IH]; cbn; auto. now rewrite IH. Qed.
Lemma zip2_maps (ps : list posting) : combine (map p_cid ps) (map p_score ps) = map (fun p => (p_cid p, p_score p)) ps.
Proof. induction ps as [|[[c e] s] ps IH]; cbn; auto. now rewrite IH. Qed.
Lemma ascending_filter (p : posting -> bool) ps : ascending (map p_cid ps) -> ascending (map p_cid (filter p ps)).
Proof.
  unfold ascending. induction ps as [|x ps IH]; cbn [map filter]; auto. intros H.
  apply StronglySorted_inv in H. destruct H as [H1 H2]. destruct (p x); cbn [map]; auto. constructor; auto.
  rewrite Forall_forall in *. intros y Hy. apply H2. apply in_map_iff in Hy. destruct Hy as [z [<- Hz]].
  apply filter_In in Hz. now apply in_map.
Qed.
Lemma filter_filter_sub {A} (p q : A -> bool) l : (forall a, In a l -> p a = true -> q a = true) ->
  filter p (filter q l) = filter p l.
Proof.
  induction l as [|a l IH]; intros H; auto. cbn [filter]. destruct (q a) eqn:Eq; cbn [filter].
  - now rewrite IH by (intros; apply H; auto; now right).
  - rewrite IH by (intros; apply H; auto; now right). destruct (p a) eqn:Ep; auto.
    rewrite (H a) in Eq; auto; [discriminate Eq|now left].
Qed.

Section Query.
  Variables (bounds : list N) (cs : list context).
  Hypothesis C : corpus bounds cs.
  Variables (file : list N) (m : text_meta) (E : list N).
  Hypothesis G : good bounds cs file m E.

  Definition range (t : term) (p : posting) : bool :=
    (fst (term_range t) <=? p_eid p) && (p_eid p <=? snd (term_range t)).
  (* the number of the block of a term *)
  Definition block_of (t : term) : N :=
    match t with
    | Words lo _ => N.of_nat (find bounds lo)
    | Entity e => e + N.of_nat (length bounds)
    | Unknown => 0
    end.

  Lemma words_below c w : In c cs -> In w (map fst (c_words c)) -> w <= last bounds 0 /\ (find bounds w < length bounds)%nat.
  Proof.
    intros Hc Hw. assert (w <= last bounds 0) by (apply (co_vocabulary _ _ C); exists c; auto). split; auto.
    apply find_lt; auto. - apply (strict_bounds bounds cs C). - apply (co_bounds _ _ C).
  Qed.
  Lemma searchable_words lo hi : searchable bounds cs (Words lo hi) ->
    let i := find bounds lo in
    (i < length bounds)%nat /\ lowest bounds i <= lo /\ hi <= nth i bounds 0.
  Proof.
    intros [H1 [H2 H3]] i.
    assert (Hi : (i < length bounds)%nat).
    { apply find_lt; [apply (strict_bounds bounds cs C)|apply (co_bounds _ _ C)|lia]. }
    split; auto. pose proof (proj1 (in_word_block bounds cs C i lo Hi) eq_refl) as L. split; [lia|].
    specialize (H3 (nth i bounds 0) (nth_In bounds 0 Hi)). lia.
  Qed.

  (* the block of a term, and what it holds *)
  Lemma term_block_ok t : t <> Unknown -> searchable bounds cs t ->
    exists blk body rest, term_block m t = Done blk /\ file = body ++ rest /\ holds bounds cs body blk (block_of t).
  Proof.
    intros Hu H. destruct t as [lo hi|e|]; [| |congruence].
    - destruct (searchable_words lo hi H) as [Hi [L1 L2]]. destruct H as [H1 [H2 H3]].
      destruct (g_wblock _ _ _ _ _ G (find bounds lo) Hi) as [blk [body [rest [N1 [Ef Hh]]]]].
      exists blk, body, rest. split; [|split; auto].
      cbn [term_block]. unfold getBlockInfoByWordRange. rewrite (g_words _ _ _ _ _ G).
      replace (hi <? lo) with false by lia.
      replace (Nat.eqb (find bounds lo) (length bounds)) with false by (symmetry; apply Nat.eqb_neq; lia).
      rewrite (nth_error_nth' bounds 0 Hi). replace (nth (find bounds lo) bounds 0 <? hi) with false by lia.
      unfold get_block. now rewrite N1.
    - apply (g_in _ _ _ _ _ G) in H. apply In_nth with (d := 0) in H. destruct H as [j [Hj En]].
      assert (Ej : find E e = j) by (rewrite <- En; apply find_nth; auto; apply (g_strict _ _ _ _ _ G)).
      destruct (g_eblock _ _ _ _ _ G j e) as [blk [body [rest [N1 [Ef Hh]]]]].
      { rewrite (nth_error_nth' E 0 Hj), En. reflexivity. }
      exists blk, body, rest. split; [|split; auto].
      cbn [term_block]. unfold getBlockInfoByEntityId, get_block.
      rewrite (g_words _ _ _ _ _ G), (g_ents _ _ _ _ _ G), Ej, N1. reflexivity.
  Qed.

  (* the postings of the term among the postings of the block *)
  Lemma hits_classics t : t <> Unknown -> searchable bounds cs t ->
    map (fun p => (p_cid p, p_score p)) (filter (range t) (flat_map (context_classics bounds (block_of t)) cs)) =
    hits t cs.
  Proof.
    intros Hu H. rewrite filter_flat_map, map_flat_map. unfold hits. apply flat_map_ext'. intros c Hc.
    unfold context_classics. rewrite filter_map', map_map. unfold range, p_cid, p_score, p_eid. cbn [fst snd].
    change (fun x : N * N => (c_id c, snd x)) with (fun w : N * N => (c_id c, snd w)). f_equal.
    rewrite filter_app. destruct t as [lo hi|e|]; [| |congruence]; cbn [term_range fst snd block_of matches].
    - destruct (searchable_words lo hi H) as [Hi [L1 L2]]. destruct H as [H1 [H2 H3]].
      rewrite (filter_all_false (fun e : N * N => getEntityBlockId bounds (fst e) =? _)).
      2:{ intros [e s] He. cbn [fst]. rewrite (entity_block bounds cs C); [lia|].
          exists c. split; auto. apply in_map_iff. exists (e, s). auto. }
      cbn [filter]. rewrite app_nil_r. apply filter_filter_sub. intros [w s] Hw Hr. cbn [fst] in *.
      rewrite word_block. apply N.eqb_eq. f_equal. apply (in_word_block bounds cs C); auto. lia.
    - rewrite (filter_all_false (fun w : N * N => getWordBlockId bounds (fst w) =? _)).
      2:{ intros [w s] Hw. cbn [fst]. rewrite word_block. destruct (words_below c w Hc); [|lia].
          apply in_map_iff. exists (w, s). auto. }
      cbn [filter app]. rewrite filter_filter_sub.
      + apply filter_ext'. intros a. lia.
      + intros [x s] Hx Hr. cbn [fst] in *. rewrite (entity_block bounds cs C); [lia|].
        exists c. split; auto. apply in_map_iff. exists (x, s). auto.
  Qed.

  (* if the list of words is skipped or not needed, the block is the term *)
  Lemma whole_block t blk body cl en : t <> Unknown -> searchable bounds cs t ->
    block_ok body blk cl en ->
    holds bounds cs body blk (block_of t) ->
    Permutation cl (flat_map (context_classics bounds (block_of t)) cs) ->
    hasMultipleWords (b_cl blk) = false \/ full_block blk t = true ->
    match t with
    | Words lo hi => lo = lowest bounds (find bounds lo) /\ hi = nth (find bounds lo) bounds 0
    | _ => True
    end /\ forall p, In p cl -> range t p = true.
  Proof.
    intros Hu H B Hh P D. destruct B as [[_ [_ [_ B1]]] [_ [_ [Hn [B2 _]]]]].
    destruct t as [lo hi|e|]; [| |congruence].
    - destruct (searchable_words lo hi H) as [Hi [L1 L2]]. destruct H as [H1 [H2 H3]].
      destruct (word_block_bounds bounds cs C body blk (find bounds lo) Hi Hh) as [F1 F2].
      assert (Q : lo = lowest bounds (find bounds lo) /\ hi = nth (find bounds lo) bounds 0).
      { destruct D as [D|D].
        - destruct (B1 Hn) as [_ B3]. destruct (B3 []) as [_ [_ [_ B4]]]. destruct (B4 D) as [_ B5].
          pose proof (lowest_le bounds cs C _ Hi).
          destruct (word_in_block bounds cs C _ (lowest bounds (find bounds lo)) Hi) as [p1 [P1 E1]]; [lia|].
          destruct (word_in_block bounds cs C _ (nth (find bounds lo) bounds 0) Hi) as [p2 [P2 E2]]; [lia|].
          assert (p_eid p1 = p_eid p2).
          { apply B5; (eapply Permutation_in; [apply Permutation_sym; exact P|auto]). }
          lia.
        - unfold full_block in D. cbn [term_range fst snd] in D. lia. }
      split; auto. intros p Hp. unfold range. cbn [term_range fst snd].
      specialize (B2 p Hp). destruct Q as [Q1 Q2]. rewrite F1, F2 in B2. lia.
    - split; auto. intros p Hp. destruct (entity_block_bounds bounds cs C body blk e H Hh) as [_ [_ A]].
      unfold range. cbn [term_range fst snd]. rewrite (A cl P p Hp). lia.
  Qed.

  Lemma word_postings t : searchable bounds cs t ->
    exists res, getWordPostingsForTerm file m t = Done res /\ ascending (map fst res) /\
      Permutation res (hits t cs).
  Proof.
    intros H. assert (Hu : t = Unknown \/ t <> Unknown) by (destruct t; auto; right; discriminate).
    destruct Hu as [->|Hu].
    - exists []. split; [reflexivity|]. split; [constructor|].
      replace (hits Unknown cs) with (@nil (N * N)); [constructor|].
      symmetry. unfold hits. cbn. clear. induction cs; auto.
    - destruct (term_block_ok t Hu H) as [blk [body [rest [T [Ef Hh]]]]].
      pose proof Hh as [cl [en [B [A1 [A2 [_ [_ [P1 P2]]]]]]]].
      pose proof B as [[_ [_ [_ L]]] [_ [_ [Hn _]]]]. destruct (L Hn) as [_ L1].
      destruct (L1 rest) as [R1 [R2 [R3 R4]]]. rewrite <- Ef in R1, R2, R3. clear L L1.
      exists (map (fun p => (p_cid p, p_score p)) (filter (range t) cl)).
      assert (S : ascending (map fst (map (fun p => (p_cid p, p_score p)) (filter (range t) cl)))).
      { rewrite map_map. cbn [fst]. change (fun x : posting => p_cid x) with p_cid. now apply ascending_filter. }
      assert (Q : Permutation (map (fun p => (p_cid p, p_score p)) (filter (range t) cl)) (hits t cs)).
      { rewrite <- (hits_classics t Hu H). now apply Permutation_map, perm_filter. }
      split; [|split; auto].
      assert (K : rbind (term_block m t) (fun b =>
        rbind (read_contexts file (b_cl b)) (fun cids =>
        if hasMultipleWords (b_cl b) && negb (full_block b t) then
          rbind (read_word_ids file (b_cl b)) (fun wids =>
          rbind (read_scores file (b_cl b)) (fun scores =>
            Done (filterByRange (fst (term_range t)) (snd (term_range t)) (zip3 cids wids scores))))
        else
          rbind (read_scores file (b_cl b)) (fun scores => Done (combine cids scores)))) =
        Done (map (fun p => (p_cid p, p_score p)) (filter (range t) cl))).
      { rewrite T. cbn [rbind]. rewrite R1. cbn [rbind].
        destruct (hasMultipleWords (b_cl blk) && negb (full_block blk t)) eqn:D.
        - apply andb_prop in D. destruct D as [D1 D2]. rewrite (R3 D1). cbn [rbind]. rewrite R2. cbn [rbind].
          rewrite zip3_maps, C05_filter_by_range. reflexivity.
        - rewrite R2. cbn [rbind]. rewrite zip2_maps. f_equal. f_equal. symmetry. apply filter_all_true.
          eapply whole_block; eauto. destruct (hasMultipleWords (b_cl blk)); auto. right.
          now destruct (full_block blk t). }
      destruct t as [lo hi|e|]; [exact K| |congruence].
      unfold getWordPostingsForTerm.
      assert (X : existsTextBlockForEntityId m e = Done true).
      { unfold existsTextBlockForEntityId. rewrite (g_ents _ _ _ _ _ G).
        apply (g_in _ _ _ _ _ G) in H. apply In_nth with (d := 0) in H. destruct H as [j [Hj En]].
        assert (Ej : find E e = j) by (rewrite <- En; apply find_nth; auto; apply (g_strict _ _ _ _ _ G)).
        rewrite Ej, (nth_error_nth' E 0 Hj), En, N.eqb_refl. reflexivity. }
      rewrite X. cbn [rbind negb]. exact K.
  Qed.

  (* an entity that is not in the text, but smaller than one that is *)
  Lemma word_postings_absent e : ~ is_entity cs e -> (exists e', is_entity cs e' /\ e < e') ->
    getWordPostingsForTerm file m (Entity e) = Done [].
  Proof.
    intros Hn [e' [He' Hlt]]. unfold getWordPostingsForTerm, existsTextBlockForEntityId.
    rewrite (g_ents _ _ _ _ _ G). destruct (find_spec E e (g_strict _ _ _ _ _ G)) as [F1 [F2 F3]].
    apply (g_in _ _ _ _ _ G) in He'. apply In_nth with (d := 0) in He'. destruct He' as [j [Hj En]].
    assert (Hf : (find E e < length E)%nat).
    { destruct (Nat.lt_ge_cases j (find E e)) as [L|L]; [|lia]. specialize (F2 j L). lia. }
    rewrite (nth_error_nth' E 0 Hf). cbn [rbind].
    replace (nth (find E e) E 0 =? e) with false; [reflexivity|]. symmetry. apply N.eqb_neq. intros Eq.
    apply Hn. apply (g_in _ _ _ _ _ G). rewrite <- Eq. now apply nth_In.
  Qed.

  (* ---- entity postings ---- *)
  Definition touches (t : term) (c : context) : bool := existsb (N.eqb (block_of t)) (touchedBlocks bounds c).
  Lemma mentions_iff t c : mentions t c = true <-> exists x, In x (matches t c).
  Proof. unfold mentions. destruct (matches t c) as [|x l]; split; auto; [discriminate|intros [x []]|exists x; now left]. Qed.
  Lemma mentions_touches t c : t <> Unknown -> searchable bounds cs t -> In c cs ->
    mentions t c = true -> touches t c = true.
  Proof.
    intros Hu H Hc M. apply mentions_iff in M. destruct M as [[w s] Hm]. unfold touches.
    apply existsb_exists. exists (block_of t). split; [|apply N.eqb_refl].
    apply (touched_iff bounds cs C c _ Hc). destruct t as [lo hi|e|]; [| |congruence]; cbn [matches block_of] in *;
      apply filter_In in Hm; cbn [fst] in Hm; destruct Hm as [Hm Hr].
    - left. exists w. split; [apply in_map_iff; exists (w, s); auto|]. f_equal.
      destruct (searchable_words lo hi H) as [Hi [L1 L2]]. symmetry. apply (in_word_block bounds cs C); auto. lia.
    - right. exists e. split; auto. apply in_map_iff. exists (w, s). cbn. split; auto. lia.
  Qed.
  (* if the term is the whole block *)
  Lemma touches_mentions t c : t <> Unknown -> searchable bounds cs t -> In c cs ->
    match t with
    | Words lo hi => lo = lowest bounds (find bounds lo) /\ hi = nth (find bounds lo) bounds 0
    | _ => True
    end ->
    touches t c = true -> mentions t c = true.
  Proof.
    intros Hu H Hc W T. apply mentions_iff. unfold touches in T. apply existsb_exists in T.
    destruct T as [b [T1 T2]]. apply N.eqb_eq in T2. subst b. apply (touched_iff bounds cs C c _ Hc) in T1.
    destruct t as [lo hi|e|]; [| |congruence]; cbn [matches block_of] in *.
    - destruct (searchable_words lo hi H) as [Hi [L1 L2]]. destruct T1 as [[w [Hw Eq]]|[e [He Eq]]]; [|lia].
      apply in_map_iff in Hw. destruct Hw as [[x s] [Ex Hw]]. cbn in Ex. subst x.
      exists (w, s). apply filter_In. split; auto. cbn [fst]. apply Nat2N.inj in Eq.
      symmetry in Eq. apply (in_word_block bounds cs C) in Eq; auto. lia.
    - destruct T1 as [[w [Hw Eq]]|[e' [He Eq]]].
      + destruct (words_below c w Hc Hw). lia.
      + assert (e' = e) by lia. subst e'. apply in_map_iff in He. destruct He as [[x s] [Ex He]]. cbn in Ex. subst x.
        exists (e, s). apply filter_In. cbn. split; auto. lia.
  Qed.

  (* there is an entity in a context of the block of the term *)
  Definition has_entities (t : term) : Prop := exists c, In c cs /\ touches t c = true /\ c_ents c <> [].

  Lemma entity_list_ok t blk body rest cl en : block_ok body blk cl en -> file = body ++ rest ->
    Permutation en (flat_map entities_of (filter (touches t) cs)) ->
    (has_entities t -> read_entity_list file blk = Done en) /\
    (~ has_entities t -> read_entity_list file blk = Throw).
  Proof.
    intros [_ [[L0 [L1 [L2 L3]]] _]] Ef P. split.
    - intros [c [Hc [Ht He]]].
      assert (Hn : en <> []).
      { destruct (c_ents c) as [|x xs] eqn:Ec; [congruence|]. intros E0. rewrite E0 in P. apply Permutation_nil in P.
        assert (In (c_id c, fst x, snd x) []); [|auto]. rewrite <- P. apply in_flat_map. exists c. split.
        - apply filter_In. auto.
        - unfold entities_of. rewrite Ec. now left. }
      destruct (L3 Hn) as [_ L4]. destruct (L4 rest) as [R1 [R2 [R3 R4]]]. rewrite <- Ef in *.
      unfold read_entity_list. rewrite R1. cbn [rbind].
      destruct (hasMultipleWords (b_ecl blk)) eqn:M; [|destruct (R4 eq_refl) as [R5 _]; discriminate R5].
      rewrite (R3 eq_refl). cbn [rbind]. rewrite R2. cbn [rbind]. now rewrite zip3_maps.
    - intros Hn. assert (E0 : en = []).
      { assert (Z : flat_map entities_of (filter (touches t) cs) = []).
        { assert (forall c, In c (filter (touches t) cs) -> entities_of c = []).
          { intros c Hc. apply filter_In in Hc. unfold entities_of.
            destruct (c_ents c) as [|x xs] eqn:Ec; auto. exfalso. apply Hn. exists c. rewrite Ec. intuition discriminate. }
          clear - H. induction (filter (touches t) cs) as [|c l IH]; auto. cbn. rewrite H by now left.
          apply IH. intros; apply H; now right. }
        rewrite Z in P. apply Permutation_nil. now apply Permutation_sym. }
      subst en. destruct (L2 eq_refl) as [E1 [E2 E3]]. cbn [length] in L0.
      unfold read_entity_list, read_contexts, readGapComprList. rewrite E1, L0, Nat.sub_diag. cbn.
      unfold read_word_ids, readFreqComprList. rewrite E1, E2, Nat.sub_diag. reflexivity.
  Qed.

End Query.
