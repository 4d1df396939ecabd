(* Properties C42 and C50: the text index. *)
From Coq Require Import List NArith Arith Bool Lia Permutation Sorted ZifyN ZifyNat ZifyBool.
From Verif Require Import Base Bytes Std_Model Std_Proof ListAux Ops_Spec Ops_Proof Fts_Model Fts_Spec Postings_Model
  Postings_Proof Fts_Proof Fts_Proof7 Fts_Thm TextIndex_Model TextIndex_Spec TextIndex_Proof TextIndex_Proof2
  TextIndex_Proof3 TextIndex_Proof4 TextIndex_Proof5 TextIndex_Proof6 TextIndex_Proof7 TextIndex_Proof8.
Import ListNotations.
Open Scope N_scope.

(* ---- the context file ---- *)

(* The lines of a context file are collected to contexts: one context per context id (and one for
   0), each word and entity once, with the sum of the scores of its lines. *)
Theorem C50_contexts lines : ascending (map ln_cid lines) ->
  strictly_ascending (map c_id (passContextFile lines)) /\
  (forall x, In x (map c_id (passContextFile lines)) <-> x = 0 \/ In x (map ln_cid lines)) /\
  forall c, In c (passContextFile lines) ->
    NoDup (map fst (c_words c)) /\ NoDup (map fst (c_ents c)) /\
    (forall i s, In (i, s) (c_words c) <->
       filter (for_id false (c_id c) i) lines <> [] /\
       s = score_sum (map ln_score (filter (for_id false (c_id c) i) lines))) /\
    (forall i s, In (i, s) (c_ents c) <->
       filter (for_id true (c_id c) i) lines <> [] /\
       s = score_sum (map ln_score (filter (for_id true (c_id c) i) lines))).
Proof.
  intros Ha. unfold passContextFile.
  destruct (pass_loop_ok lines (mk_context 0 [] []) []) as [H1 [H2 H3]]; auto.
  { repeat split; try constructor. }
  { intros l []. }
  { intros. cbn. lia. }
  split; auto. split; auto. intros c Hc. destruct (H2 c Hc) as [_ [D1 [D2 [D3 D4]]]].
  split; auto. split; auto. cbn [app] in *.
  assert (K : forall ls s, score_of_lines ls = Some s <-> ls <> [] /\ s = score_sum (map ln_score ls)).
  { intros [|l ls] s; cbn [score_of_lines]; split; [discriminate|intros [Q _]; congruence| |].
    - intros Q. injection Q as <-. split; [discriminate|reflexivity].
    - intros [_ ->]. reflexivity. }
  split; intros i s; rewrite get_in by assumption; rewrite ?D3, ?D4; apply K.
Qed.
Print Assumptions C50_contexts.

Example contexts_example :
  passContextFile [mk_line 3 false (Some 7) 1; mk_line 3 true (Some 2) 2; mk_line 3 false (Some 7) 4;
                   mk_line 5 true None 1; mk_line 5 false (Some 8) 1] =
  [mk_context 0 [] []; mk_context 3 [(7, 5)] [(2, 2)]; mk_context 5 [(8, 1)] []].
Proof. reflexivity. Qed.

(* If the lines of a context are not contiguous, the context is split. *)
Theorem C50_unordered_lines_refuted : exists lines,
  ~ NoDup (map c_id (passContextFile lines)).
Proof.
  exists [mk_line 3 false (Some 7) 1; mk_line 5 false (Some 7) 1; mk_line 3 false (Some 7) 1].
  vm_compute. intros H. inversion H as [|? ? _ H1]; subst. inversion H1 as [|? ? H2 _]; subst.
  apply H2. right. now left.
Qed.

(* ---- writing and loading the index ---- *)

(* The index of a corpus, for any result of the sort and any codebooks createCodebooks may choose. *)
Definition books (book : nat -> list N -> list N) : Prop := forall off l, codebook l (book off l).
Definition numbers (nofs : list N) : Prop := length nofs = 3%nat /\ Forall (fun v => v < 2 ^ 64) nofs.
Definition indexed (bounds : list N) (cs : list context) (nofs name file : list N) (m : text_meta) : Prop :=
  exists wbook sbook vec, books wbook /\ books sbook /\
    sort_result text_less (text_vec bounds cs) vec /\
    createTextIndex wbook sbook bounds vec nofs name = Done file /\ load_text_meta file = Done m.

(* The index is written, and it can be loaded. *)
Theorem C42_index_created bounds cs : corpus bounds cs -> entities_apart bounds cs ->
  forall nofs name wbook sbook vec, numbers nofs -> books wbook -> books sbook ->
  sort_result text_less (text_vec bounds cs) vec ->
  exists file, createTextIndex wbook sbook bounds vec nofs name = Done file /\
    (N.of_nat (length file) < 2 ^ 63 -> exists m, load_text_meta file = Done m).
Proof.
  intros C A nofs name wbook sbook vec [N1 N2] Bw Bs V.
  destruct (index_loads bounds cs C A vec V wbook sbook Bw Bs nofs name N1 N2) as [file [F1 F2]].
  exists file. split; auto. intros L. destruct (F2 L) as [m [M _]]. now exists m.
Qed.
Print Assumptions C42_index_created.

Theorem C42_sort_exists bounds cs : exists vec, sort_result text_less (text_vec bounds cs) vec.
Proof. eexists. apply sort_by_result. apply text_less_swo. Qed.

Section Index.
  Variables (bounds : list N) (cs : list context).
  Hypothesis C : corpus bounds cs.
  Hypothesis Apart : entities_apart bounds cs.
  Variables (nofs name file : list N) (m : text_meta).
  Hypothesis Nofs : numbers nofs.
  Hypothesis I : indexed bounds cs nofs name file m.
  Hypothesis Size : N.of_nat (length file) < 2 ^ 63.

  Lemma indexed_good : exists E, good bounds cs file m E /\
    m_stats m = N.of_nat (length E) :: N.of_nat (length (flat_map c_ents cs)) :: nofs /\ m_name m = name.
  Proof.
    destruct I as [wbook [sbook [vec [Bw [Bs [V [F L]]]]]]]. destruct Nofs as [N1 N2].
    destruct (index_loads bounds cs C Apart vec V wbook sbook Bw Bs nofs name N1 N2) as [file' [F1 F2]].
    assert (file' = file) by congruence. subst file'. destruct (F2 Size) as [m' [M1 [M2 [M3 M4]]]].
    assert (m' = m) by congruence. subst m'. eauto.
  Qed.

  (* The loaded metadata: the word blocks end with the boundaries, the entity blocks are those of
     the entities of the text, the numbers and the name are those that were stored. *)
  Theorem C42_metadata :
    m_words m = bounds /\ strictly_ascending (m_ents m) /\ (forall e, In e (m_ents m) <-> is_entity cs e) /\
    m_stats m = N.of_nat (length (m_ents m)) :: N.of_nat (length (flat_map c_ents cs)) :: nofs /\
    m_name m = name.
  Proof.
    destruct indexed_good as [E [G [G1 G2]]]. rewrite (g_words _ _ _ _ _ G), (g_ents _ _ _ _ _ G).
    split; auto. split; [apply (g_strict _ _ _ _ _ G)|]. split; [apply (g_in _ _ _ _ _ G)|auto].
  Qed.

  (* what is stored in a block *)
  Definition block_holds (b : block) (ps : list (N * N)) : Prop :=
    exists cids scores, read_contexts file (b_cl b) = Done cids /\ read_scores file (b_cl b) = Done scores /\
      length cids = length scores /\ Permutation (combine cids scores) ps.

  (* The block of a range of words of one block: it reaches from the word after a boundary to the
     next boundary, contains the range, and holds the postings of its words. *)
  Theorem C42_word_block lo hi : searchable bounds cs (Words lo hi) ->
    exists b, getBlockInfoByWordRange m lo hi = Done b /\
      b_first b <= lo /\ hi <= b_last b /\ In (b_last b) bounds /\
      (b_first b = 0 \/ In (b_first b - 1) bounds /\ 0 < b_first b) /\
      (forall x, In x bounds -> ~ (b_first b <= x < b_last b)) /\
      block_holds b (hits (Words (b_first b) (b_last b)) cs).
  Proof.
    intros H. destruct indexed_good as [E [G _]].
    destruct (term_block_ok bounds cs C file m E G (Words lo hi) ltac:(discriminate) H) as [b [body [rest [T [Ef Hh]]]]].
    cbn [term_block block_of] in *. destruct (searchable_words bounds cs C lo hi H) as [Hi [L1 L2]].
    destruct (word_block_bounds bounds cs C body b _ Hi Hh) as [F1 F2]. exists b. split; auto. rewrite F1, F2.
    split; auto. split; auto. split; [now apply nth_In|]. split; [|split].
    - destruct (find bounds lo) as [|i] eqn:Ei; cbn [lowest]; [now left|]. right. rewrite N.add_sub.
      split; [apply nth_In; lia|lia].
    - intros x Hx. apply In_nth with (d := 0) in Hx. destruct Hx as [k [Hk <-]]. intros Q.
      pose proof (proj2 (in_word_block bounds cs C (find bounds lo) (nth k bounds 0) Hi) ltac:(lia)) as Ek.
      rewrite find_nth in Ek; auto; [|apply (strict_bounds bounds cs C)]. subst k. lia.
    - set (i := find bounds lo) in *. pose proof (lowest_le bounds cs C i Hi) as Hle.
      assert (Fi : find bounds (lowest bounds i) = i) by (apply (in_word_block bounds cs C); auto; lia).
      assert (S' : searchable bounds cs (Words (lowest bounds i) (nth i bounds 0))).
      { split; auto. split; [apply nth_le_last; auto; apply (strict_bounds bounds cs C)|].
        intros x Hx. apply In_nth with (d := 0) in Hx. destruct Hx as [k [Hk <-]]. intros Q.
        pose proof (proj2 (in_word_block bounds cs C i (nth k bounds 0) Hi) ltac:(lia)) as Ek.
        rewrite find_nth in Ek; auto; [|apply (strict_bounds bounds cs C)]. subst k. lia. }
      rewrite <- (hits_classics bounds cs C (Words (lowest bounds i) (nth i bounds 0)) ltac:(discriminate) S'). cbn [block_of]. rewrite Fi.
      destruct Hh as [cl [en [B [_ [_ [_ [_ [P1 _]]]]]]]].
      pose proof B as [[_ [_ [_ L]]] [_ [_ [Hn [B2 _]]]]]. destruct (L Hn) as [_ L']. destruct (L' rest) as [R1 [R2 _]].
      rewrite <- Ef in *. exists (map p_cid cl), (map p_score cl). split; auto. split; auto.
      split; [now rewrite !map_length|]. rewrite zip2_maps.
      apply Permutation_map. rewrite <- (perm_filter _ _ _ P1). apply Permutation_refl'. symmetry.
      apply filter_all_true. intros p Hp. specialize (B2 p Hp). unfold range. cbn [term_range fst snd].
      rewrite F1, F2 in B2. lia.
  Qed.

  (* The block of an entity holds its postings. *)
  Theorem C42_entity_block e : is_entity cs e ->
    exists b, getBlockInfoByEntityId m e = Done b /\ b_first b = e /\ b_last b = e /\
      block_holds b (hits (Entity e) cs).
  Proof.
    intros H. destruct indexed_good as [E [G _]].
    destruct (term_block_ok bounds cs C file m E G (Entity e) ltac:(discriminate) H) as [b [body [rest [T [Ef Hh]]]]].
    cbn [term_block block_of] in *. destruct (entity_block_bounds bounds cs C body b e H Hh) as [F1 [F2 F3]].
    exists b. split; auto. split; auto. split; auto.
    rewrite <- (hits_classics bounds cs C (Entity e) ltac:(discriminate) H). cbn [block_of].
    destruct Hh as [cl [en [B [_ [_ [_ [_ [P1 _]]]]]]]].
    pose proof B as [[_ [_ [_ L]]] [_ [_ [Hn [B2 _]]]]]. destruct (L Hn) as [_ L']. destruct (L' rest) as [R1 [R2 _]].
    rewrite <- Ef in *. exists (map p_cid cl), (map p_score cl). split; auto. split; auto.
    split; [now rewrite !map_length|]. rewrite zip2_maps.
    apply Permutation_map. rewrite <- (perm_filter _ _ _ P1). apply Permutation_refl'. symmetry.
    apply filter_all_true. intros p Hp. unfold range. cbn [term_range fst snd]. rewrite (F3 cl P1 p Hp). lia.
  Qed.

  (* Whether an entity has a block, unless it is greater than all of them. *)
  Theorem C42_entity_exists e : (exists e', is_entity cs e' /\ e <= e') ->
    exists r, existsTextBlockForEntityId m e = Done r /\ (r = true <-> is_entity cs e).
  Proof.
    intros [e' [He' Le]]. destruct indexed_good as [E [G _]]. unfold existsTextBlockForEntityId.
    rewrite (g_ents _ _ _ _ _ G). destruct (find_spec E e (g_strict _ _ _ _ _ G)) as [F1 [F2 F3]].
    apply (g_in _ _ _ _ _ G) in He'. apply In_nth with (d := 0) in He'. destruct He' as [j [Hj En]].
    assert (Hf : (find E e < length E)%nat).
    { destruct (Nat.lt_ge_cases j (find E e)) as [L|L]; [|lia]. specialize (F2 j L). lia. }
    rewrite (nth_error_nth' E 0 Hf). eexists. split; [reflexivity|]. rewrite N.eqb_eq, <- (g_in _ _ _ _ _ G). split.
    - intros <-. now apply nth_In.
    - intros Hin. apply In_nth with (d := 0) in Hin. destruct Hin as [k [Hk <-]].
      rewrite find_nth; auto. apply (g_strict _ _ _ _ _ G).
  Qed.
  (* A greater one: the end of the list is dereferenced, also from a text search. *)
  Theorem C42_entity_overrun_refuted e : (forall e', is_entity cs e' -> e' < e) ->
    existsTextBlockForEntityId m e = Overrun /\ getWordPostingsForTerm file m (Entity e) = Overrun.
  Proof.
    intros H. destruct indexed_good as [E [G _]].
    assert (X : existsTextBlockForEntityId m e = Overrun).
    { unfold existsTextBlockForEntityId. rewrite (g_ents _ _ _ _ _ G).
      destruct (find_spec E e (g_strict _ _ _ _ _ G)) as [F1 [F2 F3]].
      assert (Ef : find E e = length E).
      { destruct (Nat.lt_ge_cases (find E e) (length E)) as [L|L]; [|lia].
        specialize (F3 _ (conj (le_n _) L)). specialize (H (nth (find E e) E 0)).
        rewrite <- (g_in _ _ _ _ _ G) in H. specialize (H (nth_In _ _ L)). lia. }
      rewrite Ef. rewrite (proj2 (nth_error_None E (length E)) (le_n _)). reflexivity. }
    split; auto. unfold getWordPostingsForTerm. now rewrite X.
  Qed.
  (* A range of words over a block boundary: the search throws. *)
  Theorem C42_spanning_blocks_refuted lo hi b : In b bounds -> lo <= b < hi ->
    getWordPostingsForTerm file m (Words lo hi) = Throw /\ getEntityPostingsForTerm file m (Words lo hi) = Throw.
  Proof.
    intros Hb Hr. destruct indexed_good as [E [G _]].
    assert (X : getBlockInfoByWordRange m lo hi = Throw).
    { unfold getBlockInfoByWordRange. rewrite (g_words _ _ _ _ _ G). replace (hi <? lo) with false by lia.
      pose proof (strict_bounds bounds cs C) as Hs. destruct (find_spec bounds lo Hs) as [F1 [F2 F3]].
      apply In_nth with (d := 0) in Hb. destruct Hb as [k [Hk <-]].
      assert (Lk : (find bounds lo <= k)%nat).
      { destruct (Nat.lt_ge_cases k (find bounds lo)) as [L|L]; auto. specialize (F2 _ L). lia. }
      replace (Nat.eqb (find bounds lo) (length bounds)) with false by (symmetry; apply Nat.eqb_neq; lia).
      assert (Lf : (find bounds lo < length bounds)%nat) by lia. rewrite (nth_error_nth' bounds 0 Lf).
      replace (nth (find bounds lo) bounds 0 <? hi) with true; auto.
      destruct (Nat.eq_dec (find bounds lo) k) as [->|Hne]; [symmetry; apply N.ltb_lt; lia|].
      pose proof (sorted_nth_le N.lt bounds Hs (find bounds lo) k ltac:(lia) Hk).
      symmetry; apply N.ltb_lt; lia. }
    unfold getWordPostingsForTerm, getEntityPostingsForTerm, term_block. rewrite X. auto.
  Qed.

  (* ---- C50: the postings of terms ---- *)

  (* The postings of a term are its occurrences, in the order of the contexts. *)
  Theorem C50_word_postings t : searchable bounds cs t ->
    exists res, getWordPostingsForTerm file m t = Done res /\ ascending (map fst res) /\
      Permutation res (hits t cs).
  Proof. destruct indexed_good as [E [G _]]. exact (word_postings bounds cs C file m E G t). Qed.
  Theorem C50_absent_entity e : ~ is_entity cs e -> (exists e', is_entity cs e' /\ e < e') ->
    getWordPostingsForTerm file m (Entity e) = Done [].
  Proof. destruct indexed_good as [E [G _]]. exact (word_postings_absent bounds cs file m E G e). Qed.

  (* The entities that occur with a term: all entities of the contexts it occurs in. *)
  Theorem C50_entity_postings t : searchable bounds cs t -> with_entities bounds cs t ->
    exists res, getEntityPostingsForTerm file m t = Done res /\ ascending (map p_cid res) /\
      Permutation res (cooccurring t cs).
  Proof. destruct indexed_good as [E [G _]]. exact (entity_postings bounds cs C file m E G t). Qed.
  (* If no context with a word of the block has an entity, the answer should be empty, but the
     search throws. *)
  Theorem C50_no_entities_refuted lo hi : searchable bounds cs (Words lo hi) ->
    ~ with_entities bounds cs (Words lo hi) ->
    cooccurring (Words lo hi) cs = [] /\ getEntityPostingsForTerm file m (Words lo hi) = Throw.
  Proof.
    intros H W. destruct indexed_good as [E [G _]]. split; [|apply (entity_postings_throw bounds cs C file m E G); auto; discriminate].
    destruct (cooccurring (Words lo hi) cs) as [|p l] eqn:Ec; auto. exfalso. apply W.
    assert (Hp : In p (cooccurring (Words lo hi) cs)) by (rewrite Ec; now left).
    apply perm_entity_in in Hp. destruct Hp as [c [Hc [_ He]]]. apply filter_In in Hc. destruct Hc as [Hc M].
    apply mentions_iff in M. destruct M as [[w s] M]. cbn [matches] in M. apply filter_In in M. cbn [fst] in M.
    exists c, w. split; auto. split; [intros Q; rewrite Q in He; exact He|].
    split; [apply in_map_iff; exists (w, s); tauto|]. destruct H as [H1 [H2 H3]]. intros b Hb. specialize (H3 b Hb). lia.
  Qed.

  (* Two terms: the entities of the contexts with both, with the entity's score. `use` is the term
     whose block is read for the entities. *)
  Theorem C50_two_terms t1 t2 use : (use < 2)%nat -> searchable bounds cs t1 -> searchable bounds cs t2 ->
    with_entities bounds cs (nth use [t1; t2] Unknown) ->
    exists res, getContextEntityScoreListsForWords file m use [t1; t2] = Done res /\ ascending (map p_cid res) /\
      Permutation res (flat_map entities_of (filter (fun c => mentions t1 c && mentions t2 c) cs)).
  Proof. destruct indexed_good as [E [G _]]. exact (two_terms bounds cs C file m E G t1 t2 use). Qed.

  (* Three terms and more: the entities of the contexts with all of them; the score is the sum of a
     score of each term and the score of the entity. *)
  Theorem C50_many_terms ts use : (2 < length ts)%nat -> (use < length ts)%nat -> Forall (searchable bounds cs) ts ->
    with_entities bounds cs (nth use ts Unknown) ->
    exists res, getContextEntityScoreListsForWords file m use ts = Done res /\ ascending (map p_cid res) /\
      Permutation (map fst res)
        (map fst (flat_map entities_of (filter (fun c => forallb (fun t => mentions t c) ts) cs))) /\
      forall p, In p res -> exists c s ss, In c cs /\ p_cid p = c_id c /\ In (p_eid p, s) (c_ents c) /\
        term_scores (remove_nth use ts) c ss /\ p_score p = score_sum (ss ++ [s]).
  Proof. destruct indexed_good as [E [G _]]. exact (many_terms bounds cs C file m E G ts use). Qed.

  (* The contexts with all of three or more terms. *)
  Theorem C50_many_words ts : (2 < length ts)%nat -> Forall (searchable bounds cs) ts ->
    exists res, getContextListForWords file m ts = Done res /\ strictly_ascending (map fst res) /\
      (forall x, In x (map fst res) <-> exists c, In c cs /\ c_id c = x /\ forallb (fun t => mentions t c) ts = true) /\
      forall x s, In (x, s) res -> exists c ss, In c cs /\ c_id c = x /\ term_scores ts c ss /\ s = score_sum ss.
  Proof. destruct indexed_good as [E [G _]]. exact (many_words bounds cs C file m E G ts). Qed.
  (* The contexts with one term: like C50_word_postings *)
  Theorem C50_one_word t : searchable bounds cs t ->
    exists res, getContextListForWords file m [t] = Done res /\ ascending (map fst res) /\ Permutation res (hits t cs).
  Proof. apply C50_word_postings. Qed.
End Index.
Print Assumptions C42_metadata.
Print Assumptions C42_word_block.
Print Assumptions C42_entity_block.
Print Assumptions C42_entity_exists.
Print Assumptions C42_entity_overrun_refuted.
Print Assumptions C42_spanning_blocks_refuted.
Print Assumptions C50_word_postings.
Print Assumptions C50_entity_postings.
Print Assumptions C50_no_entities_refuted.
Print Assumptions C50_two_terms.
Print Assumptions C50_many_terms.
Print Assumptions C50_many_words.

(* ---- an example ---- *)

Definition ex_bounds : list N := [2; 4].
Definition ex_contexts : list context :=
  [mk_context 1 [(0, 1); (1, 2); (3, 1)] [(10, 1); (12, 3)];
   mk_context 4 [(2, 1); (4, 5)] [(10, 2)];
   mk_context 6 [(0, 7); (1, 1); (3, 2)] []].
Definition ex_book (off : nat) (l : list N) : list N :=
  map fst (sort_by more_frequent (map (fun x => (x, frequency l x)) (nodup N.eq_dec l))).
Definition ex_vec (bounds : list N) (cs : list context) : list entry := sort_by text_less (text_vec bounds cs).
Lemma ex_book_ok : books ex_book.
Proof.
  intros off l. unfold codebook. eexists. eexists. split; [apply Permutation_refl|].
  split; [apply sort_by_result; apply more_frequent_swo|reflexivity].
Qed.
Lemma ex_vec_ok bounds cs : sort_result text_less (text_vec bounds cs) (ex_vec bounds cs).
Proof. apply sort_by_result. apply text_less_swo. Qed.

Example ex_corpus : corpus ex_bounds ex_contexts /\ entities_apart ex_bounds ex_contexts.
Proof.
  assert (W : forall w, is_word ex_contexts w <-> w <= 4).
  { intros w. split.
    - intros [c [Hc Hw]]. cbn in Hc. intuition subst; cbn in Hw; intuition subst; lia.
    - intros H. assert (Q : w = 0 \/ w = 1 \/ w = 2 \/ w = 3 \/ w = 4) by lia.
      unfold is_word. destruct Q as [Q|[Q|[Q|[Q|Q]]]]; rewrite Q;
        [exists (nth 0 ex_contexts (mk_context 0 [] []))|exists (nth 0 ex_contexts (mk_context 0 [] []))
        |exists (nth 1 ex_contexts (mk_context 0 [] []))|exists (nth 0 ex_contexts (mk_context 0 [] []))
        |exists (nth 1 ex_contexts (mk_context 0 [] []))]; cbn; intuition. }
  assert (Ent : forall e, is_entity ex_contexts e -> e = 10 \/ e = 12).
  { intros e [c [Hc He]]. cbn in Hc. intuition subst; cbn in He; intuition. }
  split.
  - split.
    + repeat constructor.
    + intros c Hc. cbn in Hc. intuition subst; cbn; lia.
    + intros c Hc. cbn in Hc. intuition subst; cbn; repeat (constructor; [cbn; intuition discriminate|]); constructor.
    + intros c Hc. cbn in Hc. intuition subst; cbn; repeat (constructor; [cbn; intuition discriminate|]); constructor.
    + intros c x Hc Hx. cbn in Hc. intuition subst; cbn in Hx; intuition subst; cbn; lia.
    + split; [discriminate|]. split; [repeat constructor|]. cbn. lia.
    + exact W.
    + intros e He. apply Ent in He. cbn [length ex_bounds]. lia.
    + vm_compute. reflexivity.
  - intros He. apply Ent in He. cbn in He. intuition discriminate.
Qed.
(* the whole way: write, load, search *)
Definition ex_search {A} (bounds : list N) (cs : list context) (q : list N -> text_meta -> result A) : result A :=
  rbind (createTextIndex ex_book ex_book bounds (ex_vec bounds cs) [3; 8; 3] [84]) (fun file =>
  rbind (load_text_meta file) (fun m => q file m)).
Example ex_word : ex_search ex_bounds ex_contexts (fun f m => getWordPostingsForTerm f m (Words 0 1)) =
  Done [(1, 1); (1, 2); (6, 7); (6, 1)].
Proof. vm_compute. reflexivity. Qed.
Example ex_entity : ex_search ex_bounds ex_contexts (fun f m => getWordPostingsForTerm f m (Entity 10)) =
  Done [(1, 1); (4, 2)].
Proof. vm_compute. reflexivity. Qed.
Example ex_cooccurring : ex_search ex_bounds ex_contexts (fun f m => getEntityPostingsForTerm f m (Words 3 3)) =
  Done [(1, 10, 1); (1, 12, 3)] /\
  ex_search ex_bounds ex_contexts (fun f m => getEntityPostingsForTerm f m (Words 3 4)) =
  Done [(1, 10, 1); (1, 12, 3); (4, 10, 2)].
Proof. vm_compute. split; reflexivity. Qed.
Example ex_two : ex_search ex_bounds ex_contexts
    (fun f m => getContextEntityScoreListsForWords f m 1 [Words 0 0; Entity 12]) =
  Done [(1, 10, 1); (1, 12, 3)].
Proof. vm_compute. reflexivity. Qed.
Example ex_three : ex_search ex_bounds ex_contexts
    (fun f m => getContextEntityScoreListsForWords f m 0 [Words 0 0; Words 1 1; Words 3 3]) =
  Done [(1, 10, 4); (1, 12, 6)].
Proof. vm_compute. reflexivity. Qed.
Example ex_three_words : ex_search ex_bounds ex_contexts
    (fun f m => getContextListForWords f m [Words 0 0; Words 1 1; Words 3 3]) =
  Done [(1, 4); (6, 10)].
Proof. vm_compute. reflexivity. Qed.
Example ex_searchable :
  searchable ex_bounds ex_contexts (Words 0 1) /\ with_entities ex_bounds ex_contexts (Words 0 1) /\
  searchable ex_bounds ex_contexts (Entity 12).
Proof.
  split; [split; [lia|]; split; [cbn; lia|]; intros b Hb; cbn in Hb; intuition subst; lia|]. split.
  - exists (nth 0 ex_contexts (mk_context 0 [] [])), 0. split; [now left|]. split; [discriminate|].
    split; [now left|]. intros b Hb. cbn in Hb. intuition subst; lia.
  - exists (nth 0 ex_contexts (mk_context 0 [] [])). split; [now left|]. cbn. auto.
Qed.

(* ---- what goes wrong ---- *)

(* If the smallest entity id is the number of words, its block is taken for a block of words. The
   entities are then not found. *)
Theorem C42_first_entity_refuted : exists bounds cs e m,
  corpus bounds cs /\ is_entity cs e /\
  indexed bounds cs [2; 2; 2] [] 
    (match createTextIndex ex_book ex_book bounds (ex_vec bounds cs) [2; 2; 2] [] with Done f => f | _ => [] end) m /\
  m_words m = [1; 2] /\ m_ents m = [9] /\ m_words m <> bounds /\
  getWordPostingsForTerm
    (match createTextIndex ex_book ex_book bounds (ex_vec bounds cs) [2; 2; 2] [] with Done f => f | _ => [] end)
    m (Entity e) = Done [] /\ hits (Entity e) cs <> [].
Proof.
  set (cs := [mk_context 1 [(0, 1); (1, 1)] [(2, 1); (9, 1)]]).
  destruct (load_text_meta (match createTextIndex ex_book ex_book [1] (ex_vec [1] cs) [2; 2; 2] [] with
    Done f => f | _ => [] end)) as [m| | |] eqn:L; [|vm_compute in L; discriminate L..].
  exists [1], cs, 2, m.
  assert (W : forall w, is_word cs w <-> w <= 1).
  { intros w. split.
    - intros [c [Hc Hw]]. cbn in Hc. intuition subst; cbn in Hw; intuition subst; lia.
    - intros H. assert (Q : w = 0 \/ w = 1) by lia.
      exists (mk_context 1 [(0, 1); (1, 1)] [(2, 1); (9, 1)]). split; [now left|]. cbn. intuition. }
  split; [|split; [|split]].
  - split.
    + repeat constructor.
    + intros c Hc. cbn in Hc. intuition subst; cbn; lia.
    + intros c Hc. cbn in Hc. intuition subst; cbn; repeat (constructor; [cbn; intuition discriminate|]); constructor.
    + intros c Hc. cbn in Hc. intuition subst; cbn; repeat (constructor; [cbn; intuition discriminate|]); constructor.
    + intros c x Hc Hx. cbn in Hc. intuition subst; cbn in Hx; intuition subst; cbn; lia.
    + split; [discriminate|]. split; [repeat constructor|]. cbn. lia.
    + exact W.
    + intros e [c [Hc He]]. cbn in Hc. intuition subst; cbn in He; cbn [length]; intuition subst; lia.
    + vm_compute. reflexivity.
  - exists (mk_context 1 [(0, 1); (1, 1)] [(2, 1); (9, 1)]). split; [now left|]. cbn. auto.
  - exists ex_book, ex_book, (ex_vec [1] cs). split; [apply ex_book_ok|]. split; [apply ex_book_ok|].
    split; [apply ex_vec_ok|]. split; [vm_compute; reflexivity|exact L].
  - vm_compute in L. injection L as <-. split; [reflexivity|]. split; [reflexivity|]. split; [discriminate|].
    split; [vm_compute; reflexivity|vm_compute; discriminate].
Qed.
Print Assumptions C42_first_entity_refuted.

(* An entity that is not in the text: the entities that occur with the next entity are returned. *)
Theorem C50_absent_entity_refuted :
  ex_search ex_bounds ex_contexts (fun f m => getEntityPostingsForTerm f m (Entity 11)) =
  Done [(1, 10, 1); (1, 12, 3)] /\ cooccurring (Entity 11) ex_contexts = [].
Proof. vm_compute. split; reflexivity. Qed.
(* A text without words in the first block cannot be indexed: the check for an empty posting list
   fails. Likewise an empty text. *)
Theorem C42_no_words_refuted : exists bounds cs,
  forall vec nofs name, sort_result text_less (text_vec bounds cs) vec ->
    createTextIndex ex_book ex_book bounds vec nofs name = Throw.
Proof.
  exists [1], [mk_context 1 [] [(7, 1)]]. intros vec nofs name [P _].
  assert (L : length vec = 2%nat) by (rewrite <- (Permutation_length P); reflexivity).
  destruct vec as [|x vec]; [discriminate L|].
  assert (Hx : In x (text_vec [1] [mk_context 1 [] [(7, 1)]])).
  { eapply Permutation_in; [apply Permutation_sym; exact P|now left]. }
  assert (B : t_block x = 8) by (vm_compute in Hx; intuition subst; reflexivity).
  unfold createTextIndex. cbn [index_loop]. rewrite B. reflexivity.
Qed.
(* Two words: the scores are wrong, or memory outside the vectors is read (see C04_two_words). *)
Theorem C50_two_words_refuted :
  ex_search ex_bounds ex_contexts (fun f m => getContextListForWords f m [Words 0 0; Words 4 4]) = Done [] /\
  ex_search ex_bounds ex_contexts (fun f m => getContextListForWords f m [Words 0 0; Words 1 1]) = Done [(1, 4); (6, 2)].
Proof. vm_compute. split; reflexivity. Qed.

Print Assumptions C50_unordered_lines_refuted.
Print Assumptions C42_sort_exists.
Print Assumptions C50_absent_entity_refuted.
Print Assumptions C42_no_words_refuted.
Print Assumptions C50_two_words_refuted.
