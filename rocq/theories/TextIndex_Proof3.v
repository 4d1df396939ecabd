(* Block numbers, the metadata on disk and what the loaded index refers to. *)
From Coq Require Import List NArith Arith Bool Lia Permutation Sorted ZifyN ZifyNat ZifyBool.
From Verif Require Import Base Bytes Std_Model Std_Proof ListAux Ops_Spec Fts_Model Fts_Spec Postings_Model
  Fts_Proof Fts_Proof7 TextIndex_Model TextIndex_Spec TextIndex_Proof TextIndex_Proof2.
Import ListNotations.
Open Scope N_scope.

(* ---- sorted lists ---- *)
Lemma sorted_nth_le (R : N -> N -> Prop) l : StronglySorted R l ->
  forall i j, (i < j)%nat -> (j < length l)%nat -> R (nth i l 0) (nth j l 0).
Proof.
  induction 1 as [|x l H1 IH H2]; intros i j Hi Hj; [cbn in Hj; lia|].
  destruct j as [|j]; [lia|]. cbn [length] in Hj. destruct i as [|i]; cbn [nth].
  - rewrite Forall_forall in H2. apply H2, nth_In. lia.
  - apply IH; lia.
Qed.
Lemma strictly_unique l : forall l', strictly_ascending l -> strictly_ascending l' ->
  (forall x, In x l <-> In x l') -> l = l'.
Proof.
  induction l as [|x l IH]; intros l' H H' E.
  - destruct l' as [|y l']; auto. exfalso. apply (E y). now left.
  - destruct l' as [|y l']; [exfalso; apply (E x); now left|].
    apply StronglySorted_inv in H. destruct H as [H1 H2].
    apply StronglySorted_inv in H'. destruct H' as [H1' H2'].
    rewrite Forall_forall in *.
    assert (x = y).
    { destruct (proj1 (E x) (or_introl eq_refl)) as [A|A]; auto.
      destruct (proj2 (E y) (or_introl eq_refl)) as [B|B]; auto.
      specialize (H2 y B). specialize (H2' x A). lia. }
    subst y. f_equal. apply IH; auto. intros z. split; intros Hz.
    + destruct (proj1 (E z) (or_intror Hz)) as [A|A]; auto. subst z. specialize (H2 x Hz). lia.
    + destruct (proj2 (E z) (or_intror Hz)) as [A|A]; auto. subst z. specialize (H2' x Hz). lia.
Qed.
Lemma distinct_strictly l : StronglySorted N.le l -> strictly_ascending (distinct l).
Proof.
  induction 1 as [|x l H1 IH H2]; cbn [distinct]; [constructor|]. constructor.
  - now apply sorted_filter.
  - rewrite Forall_forall in *. intros y Hy. apply filter_In in Hy. destruct Hy as [Hy Hn].
    apply (proj1 (distinct_in _ _)) in Hy. specialize (H2 y Hy). lia.
Qed.
Lemma seq_strictly n : forall a, strictly_ascending (map N.of_nat (seq a n)).
Proof.
  induction n as [|n IH]; intros a; cbn; constructor; [apply IH|].
  apply Forall_forall. intros x Hx. apply in_map_iff in Hx. destruct Hx as [i [<- Hi]].
  apply in_seq in Hi. lia.
Qed.
Lemma strictly_split l b : strictly_ascending l ->
  l = filter (fun x => x <? b) l ++ filter (fun x => b <=? x) l.
Proof.
  induction 1 as [|x l H1 IH H2]; [reflexivity|]. cbn [filter].
  destruct (x <? b) eqn:E; destruct (b <=? x) eqn:E'; try lia; cbn [app].
  - now f_equal.
  - rewrite (filter_all_false (fun x => x <? b)), filter_all_true; auto;
      intros a Ha; rewrite Forall_forall in H2; specialize (H2 a Ha); lia.
Qed.

(* ---- find ---- *)
Lemma find_spec l x : strictly_ascending l ->
  (find l x <= length l)%nat /\ (forall k, (k < find l x)%nat -> nth k l 0 < x) /\
  (forall k, (find l x <= k < length l)%nat -> x <= nth k l 0).
Proof.
  intros H. unfold find.
  destruct (lower_bound_spec (below l x) 0 (length l)) as [r [E [R1 [R2 R3]]]]; [lia| |].
  - unfold below. intros k k' _ Hk Hk' Hb. destruct (Nat.eq_dec k k') as [->|Hn]; auto.
    pose proof (sorted_nth_le _ _ H k k'). cbn beta in H0. lia.
  - rewrite E. split; [lia|]. split; [intros k Hk|intros k Hk].
    + specialize (R2 k). unfold below in R2. lia.
    + specialize (R3 k). unfold below in R3. lia.
Qed.
Lemma find_iff l x i : strictly_ascending l -> (i < length l)%nat ->
  find l x = i <-> x <= nth i l 0 /\ (i = 0%nat \/ nth (i - 1) l 0 < x).
Proof.
  intros H Hi. destruct (find_spec l x H) as [F1 [F2 F3]]. split.
  - intros E. split; [apply F3; lia|]. destruct i; auto. right. apply F2. lia.
  - intros [A1 A2]. destruct (lt_eq_lt_dec (find l x) i) as [[L|E]|L]; auto; exfalso.
    + destruct A2 as [A2|A2]; [lia|]. specialize (F3 (i - 1)%nat ltac:(lia)). lia.
    + specialize (F2 i L). lia.
Qed.
Lemma find_nth l i : strictly_ascending l -> (i < length l)%nat -> find l (nth i l 0) = i.
Proof.
  intros H Hi. apply find_iff; auto. split; [lia|]. destruct i; auto. right.
  apply (sorted_nth_le _ _ H); lia.
Qed.
Lemma last_nth (l : list N) : l <> [] -> last l 0 = nth (length l - 1) l 0.
Proof.
  intros H. destruct (exists_last H) as [l' [x ->]]. rewrite last_last, app_length. cbn [length].
  replace (length l' + 1 - 1)%nat with (length l') by lia. rewrite app_nth2, Nat.sub_diag by lia. reflexivity.
Qed.
Lemma nth_le_last l i : strictly_ascending l -> (i < length l)%nat -> nth i l 0 <= last l 0.
Proof.
  intros H Hi. rewrite last_nth by (destruct l; [cbn in Hi; lia|discriminate]).
  destruct (Nat.eq_dec i (length l - 1)) as [->|Hn]; [lia|].
  apply N.lt_le_incl. apply (sorted_nth_le _ _ H); lia.
Qed.
Lemma find_lt l x : strictly_ascending l -> l <> [] -> x <= last l 0 -> (find l x < length l)%nat.
Proof.
  intros H Hn Hx. destruct (find_spec l x H) as [F1 [F2 F3]].
  destruct (Nat.eq_dec (find l x) (length l)) as [E|E]; [|lia].
  rewrite last_nth in Hx by auto. specialize (F2 (length l - 1)%nat).
  assert (length l <> 0)%nat by (destruct l; [congruence|cbn; lia]). lia.
Qed.
Lemma word_block bounds w : getWordBlockId bounds w = N.of_nat (find bounds w).
Proof. unfold getWordBlockId, find. destruct (lower_bound _ _ _); reflexivity. Qed.

(* ---- the block numbers in the vector ---- *)
Section Corpus.
  Variables (bounds : list N) (cs : list context).
  Hypothesis C : corpus bounds cs.
  Let B := length bounds.

  Lemma strict_bounds : strictly_ascending bounds. Proof. apply C. Qed.
  Lemma B_pos : (0 < B)%nat.
  Proof. destruct (co_bounds _ _ C) as [H _]. unfold B. destruct bounds; [congruence|cbn; lia]. Qed.

  Lemma entity_block e : is_entity cs e -> getEntityBlockId bounds e = e + N.of_nat B.
  Proof. intros H. unfold getEntityBlockId, add64. apply N.mod_small. now apply (co_entities _ _ C). Qed.

  Lemma vec_entry l : In l (text_vec bounds cs) -> exists c, In c cs /\ t_cid l = c_id c /\
    In (t_word l, t_score l) (c_words c ++ c_ents c) /\ In (t_block l) (touchedBlocks bounds c).
  Proof.
    intros H. apply in_flat_map in H. destruct H as [c [Hc H]]. exists c. split; auto.
    unfold touchedBlocks. rewrite nodup_In, !in_app_iff.
    unfold addContextToVector in H. rewrite !in_app_iff in H. destruct H as [H|[H|H]].
    - apply in_map_iff in H. destruct H as [[w s] [<- H]]. cbn. split; auto. split; [auto|].
      left. apply in_map_iff. exists (w, s). auto.
    - apply in_map_iff in H. destruct H as [[w s] [<- H]]. cbn. split; auto. split; [auto|].
      right. apply in_map_iff. exists (w, s). auto.
    - apply in_flat_map in H. destruct H as [b [Hb H]]. apply in_map_iff in H. destruct H as [[w s] [<- H]].
      cbn. split; auto. split; [auto|]. unfold touchedBlocks in Hb.
      rewrite nodup_In, in_app_iff in Hb. exact Hb.
  Qed.
  Lemma touched_iff c b : In c cs -> In b (touchedBlocks bounds c) <->
    (exists w, In w (map fst (c_words c)) /\ b = N.of_nat (find bounds w)) \/
    (exists e, In e (map fst (c_ents c)) /\ b = e + N.of_nat B).
  Proof.
    intros Hc. unfold touchedBlocks. rewrite nodup_In, in_app_iff, !in_map_iff. split.
    - intros [[[w s] [E H]]|[[e s] [E H]]].
      + left. exists w. split; [apply in_map_iff; exists (w, s); auto|]. now rewrite <- word_block.
      + right. exists e. assert (In e (map fst (c_ents c))) by (apply in_map_iff; exists (e, s); auto).
        split; auto. rewrite <- entity_block; auto. exists c; auto.
    - intros [[w [H E]]|[e [H E]]]; apply in_map_iff in H; destruct H as [[x s] [E1 H]]; cbn in E1; subst x.
      + left. exists (w, s). cbn [fst]. rewrite word_block. auto.
      + right. exists (e, s). cbn [fst]. rewrite entity_block; auto. exists c. split; auto.
        apply in_map_iff. exists (e, s). auto.
  Qed.
  Lemma blocks_iff b : In b (map t_block (text_vec bounds cs)) <->
    b < N.of_nat B \/ exists e, is_entity cs e /\ b = e + N.of_nat B.
  Proof.
    split.
    - intros H. apply in_map_iff in H. destruct H as [l [<- H]].
      destruct (vec_entry l H) as [c [Hc [_ [_ Ht]]]]. apply (touched_iff c) in Ht; auto.
      destruct Ht as [[w [Hw ->]]|[e [He ->]]].
      + left. assert (w <= last bounds 0) by (apply (co_vocabulary _ _ C); exists c; auto).
        pose proof (find_lt bounds w strict_bounds (proj1 (co_bounds _ _ C)) H0). unfold B. lia.
      + right. exists e. split; auto. exists c; auto.
    - intros [Hb|[e [[c [Hc He]] ->]]].
      + set (i := N.to_nat b). assert (Hi : (i < length bounds)%nat) by (unfold i, B in *; lia).
        assert (W : is_word cs (nth i bounds 0)).
        { apply (co_vocabulary _ _ C). apply nth_le_last; auto. apply strict_bounds. }
        destruct W as [c [Hc Hw]]. apply in_map_iff in Hw. destruct Hw as [[w s] [E Hw]]. cbn in E.
        apply in_map_iff. exists (mk_entry (getWordBlockId bounds w) (c_id c) w s false). split.
        * cbn [t_block]. rewrite word_block, E, find_nth; auto. { unfold i. lia. } apply strict_bounds.
        * apply in_flat_map. exists c. split; auto. unfold addContextToVector. apply in_or_app. left.
          apply in_map_iff. exists (w, s). auto.
      + apply in_map_iff in He. destruct He as [[x s] [E He]]. cbn in E. subst x.
        apply in_map_iff. exists (mk_entry (getEntityBlockId bounds e) (c_id c) e s false). split.
        * cbn [t_block]. apply entity_block. exists c. split; auto. apply in_map_iff. exists (e, s). auto.
        * apply in_flat_map. exists c. split; auto. unfold addContextToVector. apply in_or_app. right.
          apply in_or_app. left. apply in_map_iff. exists (e, s). auto.
  Qed.

  Section Vec.
    Variable vec : list entry.
    Hypothesis V : sort_result text_less (text_vec bounds cs) vec.

    Lemma vec_sorted : StronglySorted text_le vec. Proof. apply V. Qed.
    Lemma vec_perm : Permutation (text_vec bounds cs) vec. Proof. apply V. Qed.
    Lemma vec_in l : In l vec <-> In l (text_vec bounds cs).
    Proof.
      split; apply Permutation_in; [apply Permutation_sym|]; apply vec_perm.
    Qed.
    Lemma vec_block b : In b (map t_block vec) <->
      b < N.of_nat B \/ exists e, is_entity cs e /\ b = e + N.of_nat B.
    Proof.
      rewrite <- blocks_iff. split; intros H; apply in_map_iff in H; destruct H as [l [<- H]]; apply in_map;
        now apply vec_in.
    Qed.

    Definition ids : list N := distinct (map t_block vec).
    Definition ents : list N := map (fun x => x - N.of_nat B) (filter (fun x => N.of_nat B <=? x) ids).
    Lemma ids_strict : strictly_ascending ids.
    Proof.
      apply distinct_strictly. pose proof vec_sorted as H.
      induction vec as [|x v IHv]; cbn [map]; [constructor|].
      apply StronglySorted_inv in H. destruct H as [H1 H2]. constructor.
      - clear V. revert H1. clear. induction v as [|x v IHv]; cbn [map]; [constructor|]. intros H.
        apply StronglySorted_inv in H. destruct H as [H1 H2]. constructor; auto.
        rewrite Forall_forall in *. intros y Hy. apply in_map_iff in Hy. destruct Hy as [z [<- Hz]].
        apply text_le_block. auto.
      - rewrite Forall_forall in *. intros y Hy. apply in_map_iff in Hy. destruct Hy as [z [<- Hz]].
        apply text_le_block. auto.
    Qed.
    Lemma ids_in b : In b ids <-> b < N.of_nat B \/ exists e, is_entity cs e /\ b = e + N.of_nat B.
    Proof. unfold ids. rewrite distinct_in. apply vec_block. Qed.
    Lemma ids_split : ids = map N.of_nat (seq 0 B) ++ map (fun e => e + N.of_nat B) ents.
    Proof.
      rewrite (strictly_split ids (N.of_nat B) ids_strict) at 1. f_equal.
      - apply strictly_unique.
        + apply sorted_filter. apply ids_strict.
        + apply seq_strictly.
        + intros x. rewrite filter_In, ids_in, in_map_iff. split.
          * intros [_ H]. exists (N.to_nat x). rewrite in_seq. lia.
          * intros [i [<- H]]. apply in_seq in H. lia.
      - unfold ents. rewrite map_map. rewrite <- (map_id (filter _ ids)) at 1. apply map_ext_in.
        intros x Hx. apply filter_In in Hx. lia.
    Qed.
    Lemma ents_in e : In e ents <-> is_entity cs e.
    Proof.
      unfold ents. rewrite in_map_iff. split.
      - intros [x [E H]]. apply filter_In in H. destruct H as [H1 H2]. apply ids_in in H1.
        destruct H1 as [H1|[e' [H1 E']]]; [lia|]. replace e with e' by lia. exact H1.
      - intros H. exists (e + N.of_nat B). split; [lia|]. apply filter_In. split; [|lia].
        apply ids_in. right. exists e. auto.
    Qed.
    Lemma ents_strict : strictly_ascending ents.
    Proof.
      unfold ents. pose proof (sorted_filter _ (fun x => N.of_nat B <=? x) _ ids_strict) as H.
      assert (Hb : Forall (fun x => N.of_nat B <= x) (filter (fun x => N.of_nat B <=? x) ids)).
      { apply Forall_forall. intros x Hx. apply filter_In in Hx. lia. }
      induction H as [|x l H1 IH H2]; cbn [map]; [constructor|]. inversion Hb; subst. constructor; [now apply IH|].
      rewrite Forall_forall in *. intros y Hy. apply in_map_iff in Hy. destruct Hy as [z [<- Hz]].
      specialize (H2 z Hz). specialize (H4 z Hz). lia.
    Qed.

    Lemma groups_ids : groups vec = map (fun b => (b, filter (in_block b) vec)) ids.
    Proof. reflexivity. Qed.

    Lemma vec_range l : In l vec -> t_cid l < 2 ^ 60 /\ t_word l < 2 ^ 64 /\ t_score l < 2 ^ 16.
    Proof.
      intros H. apply vec_in in H. destruct (vec_entry l H) as [c [Hc [E [Hw _]]]]. rewrite E.
      split; [now apply (co_cids _ _ C)|]. split.
      - apply in_app_or in Hw. destruct Hw as [Hw|Hw]; apply (in_map fst) in Hw; cbn [fst] in Hw.
        + assert (t_word l <= last bounds 0) by (apply (co_vocabulary _ _ C); exists c; auto).
          pose proof (proj2 (proj2 (co_bounds _ _ C))). lia.
        + assert (HE : is_entity cs (t_word l)) by (exists c; auto).
          pose proof (co_entities _ _ C _ HE). lia.
      - apply (co_scores _ _ C c _ Hc Hw).
    Qed.
    Lemma ids_classic b : In b ids -> exists l, In l vec /\ t_block l = b /\ t_ent l = false.
    Proof.
      intros H. unfold ids in H. apply (proj1 (distinct_in _ _)) in H. apply in_map_iff in H.
      destruct H as [l [E Hl]]. apply vec_in in Hl. subst b.
      destruct (vec_entry l Hl) as [c [Hc [_ [_ Ht]]]].
      unfold touchedBlocks in Ht. rewrite nodup_In, in_app_iff, !in_map_iff in Ht.
      destruct Ht as [[[w s] [E H]]|[[w s] [E H]]]; rewrite <- E; cbn [fst].
      - exists (mk_entry (getWordBlockId bounds w) (c_id c) w s false). split; auto.
        apply vec_in, in_flat_map. exists c. split; auto. unfold addContextToVector. apply in_or_app. left.
        apply in_map_iff. exists (w, s). auto.
      - exists (mk_entry (getEntityBlockId bounds w) (c_id c) w s false). split; auto.
        apply vec_in, in_flat_map. exists c. split; auto. unfold addContextToVector. apply in_or_app. right.
        apply in_or_app. left. apply in_map_iff. exists (w, s). auto.
    Qed.
    Lemma vec_length : N.of_nat (length vec) < 2 ^ 60.
    Proof. rewrite <- (Permutation_length vec_perm). apply (co_size _ _ C). Qed.
    Lemma groups_ok : Forall group_ok (groups vec).
    Proof.
      rewrite groups_ids. apply Forall_forall. intros g Hg. apply in_map_iff in Hg.
      destruct Hg as [b [<- Hb]]. apply group_ok_intro.
      - apply vec_sorted.
      - now apply ids_classic.
      - apply vec_range.
      - apply vec_length.
    Qed.

    (* ---- what a block holds ---- *)
    Definition holds (file : list N) (blk : block) (b : N) : Prop :=
      exists cl en, block_ok file blk cl en /\ ascending (map p_cid cl) /\ ascending (map p_cid en) /\
        N.of_nat (length cl) < 2 ^ 60 /\ N.of_nat (length en) < 2 ^ 60 /\
        Permutation cl (flat_map (context_classics bounds b) cs) /\
        Permutation en (flat_map entities_of (filter (fun c => existsb (N.eqb b) (touchedBlocks bounds c)) cs)).

    Lemma group_holds file blk b : In b ids ->
      block_ok file blk (classics (filter (in_block b) vec)) (entities (filter (in_block b) vec)) ->
      holds file blk b.
    Proof.
      intros Hb H. exists (classics (filter (in_block b) vec)), (entities (filter (in_block b) vec)).
      assert (G : group_ok (b, filter (in_block b) vec)).
      { pose proof groups_ok as G. rewrite groups_ids, Forall_forall in G. apply G.
        apply in_map_iff. exists b. auto. }
      destruct G as [_ [_ [[G1 [_ G2]] [G3 [_ G4]]]]].
      split; auto. split; auto. split; auto. split; auto. split; auto. split.
      - rewrite <- vec_classics. apply classics_perm, Permutation_sym, vec_perm.
      - rewrite <- vec_entities. apply entities_perm, Permutation_sym, vec_perm.
    Qed.

    Section Written.
      Variables wbook sbook : nat -> list N -> list N.
      Hypothesis wbook_ok : forall off l, codebook l (wbook off l).
      Hypothesis sbook_ok : forall off l, codebook l (sbook off l).

      Lemma total_length gs : total gs = N.of_nat (length (classics (flat_map snd gs))).
      Proof.
        induction gs as [|g gs IH]; [reflexivity|]. cbn [total flat_map]. rewrite IH.
        unfold classics. rewrite !map_length, filter_app, app_length. lia.
      Qed.
      Lemma ent_groups_lines : flat_map snd (ent_groups bounds (groups vec)) =
        filter (fun l => is_ent bounds (t_block l)) vec.
      Proof.
        rewrite (groups_concat vec vec_sorted) at 2. rewrite filter_flat_map.
        pose proof groups_ok as G. induction (groups vec) as [|[b ls] gs IH]; [reflexivity|].
        inversion G as [|? ? G1 G2]; subst. unfold ent_groups. cbn [filter fst flat_map snd].
        fold (ent_groups bounds gs). rewrite <- IH by auto. destruct G1 as [G1 _].
        rewrite Forall_forall in G1. destruct (is_ent bounds b) eqn:E; cbn [flat_map snd].
        - f_equal. symmetry. apply filter_all_true. intros l Hl. rewrite (G1 l Hl). exact E.
        - rewrite filter_all_false; [reflexivity|]. intros l Hl. rewrite (G1 l Hl). exact E.
      Qed.
      Lemma ent_groups_total : total (ent_groups bounds (groups vec)) = N.of_nat (length (flat_map c_ents cs)).
      Proof.
        rewrite total_length, ent_groups_lines. f_equal.
        assert (P : Permutation (classics (filter (fun l => is_ent bounds (t_block l)) vec))
                      (classics (filter (fun l => is_ent bounds (t_block l)) (text_vec bounds cs)))).
        { unfold classics. apply Permutation_map, perm_filter, perm_filter, Permutation_sym, vec_perm. }
        rewrite (Permutation_length P). unfold classics, text_vec. rewrite map_length, !filter_flat_map.
        assert (Hc : forall c, In c cs -> length (filter (fun l => negb (t_ent l))
                       (filter (fun l => is_ent bounds (t_block l)) (addContextToVector bounds c))) = length (c_ents c)).
        { intros c Hc. unfold addContextToVector. rewrite !filter_app, !filter_map', !app_length, !map_length.
          cbn [t_block t_ent negb]. rewrite (filter_all_false (fun a => is_ent bounds _)).
          2:{ intros [w s] Hw. cbn [fst]. unfold is_ent, isEntityBlockId. rewrite word_block.
              assert (w <= last bounds 0).
              { apply (co_vocabulary _ _ C). exists c. split; auto. apply in_map_iff. exists (w, s). auto. }
              pose proof (find_lt bounds w strict_bounds (proj1 (co_bounds _ _ C)) H). lia. }
          cbn [filter length Nat.add]. rewrite (filter_all_true (fun _ => true)) by auto.
          rewrite (filter_all_true (fun a => is_ent bounds _)).
          2:{ intros [e s] He. cbn [fst]. unfold is_ent, isEntityBlockId. rewrite entity_block; [unfold B; lia|].
              exists c. split; auto. apply in_map_iff. exists (e, s). auto. }
          rewrite !filter_flat_map.
          match goal with |- (_ + length ?x)%nat = _ => assert (E : x = []) end; [|rewrite E; cbn; lia].
          induction (touchedBlocks bounds c) as [|t ts IH]; cbn [flat_map]; auto. rewrite IH, app_nil_r.
          rewrite !filter_map'. cbn [t_ent negb]. rewrite filter_all_false by auto. reflexivity. }
        clear P. clear V. assert (Hs : forall c, In c cs -> In c cs) by auto. revert Hs. generalize cs at 1 3 4.
        intros l. induction l as [|c l IH]; intros Hs; [reflexivity|]. cbn [flat_map]. rewrite !app_length, IH.
        - rewrite Hc; auto. apply Hs. now left.
        - intros; apply Hs; now right.
      Qed.
      Lemma ent_groups_length : length (ent_groups bounds (groups vec)) = length ents.
      Proof.
        unfold ent_groups. rewrite groups_ids, filter_map'. cbn [fst].
        unfold ents. rewrite !map_length. reflexivity.
      Qed.

      Lemma index_written : exists file blks ne nec,
        index_loop wbook sbook bounds vec 0 (2 ^ 64 - 1) 0 [] [] (mk_written [] [] 0 0) =
          Done (mk_written file blks ne nec) /\
        Forall2 (holds file) blks ids /\
        ne = N.of_nat (length ents) /\
        nec = N.of_nat (length (flat_map c_ents cs)) /\
        match rev blks with [] => False | blk :: _ => l_end (b_ecl blk) = length file end.
      Proof.
        pose proof groups_ok as G. pose proof (groups_nodup vec) as D.
        pose proof ent_groups_total as T. pose proof ent_groups_length as L.
        pose proof (groups_concat vec vec_sorted) as Ec. pose proof groups_ids as GI.
        assert (H0 : exists r, ids = 0 :: r).
        { rewrite ids_split. pose proof B_pos. destruct B as [|k]; [lia|]. cbn. eauto. }
        destruct H0 as [r Er]. rewrite GI, Er in *. cbn [map] in *.
        set (gs := map (fun b => (b, filter (in_block b) vec)) r) in *.
        set (ls := filter (in_block 0) vec) in *.
        inversion G as [|? ? G1 G2]; subst.
        destruct (loop_groups wbook sbook bounds wbook_ok sbook_ok gs 0 ls (2 ^ 64 - 1) 0 (mk_written [] [] 0 0))
          as [bytes [blks [W [F E]]]]; auto.
        { destruct ls; auto. }
        cbn [flat_map snd] in Ec. rewrite <- Ec in W.
        cbn [o_file o_blocks o_ents o_ectxs app] in *.
        exists bytes, blks. eexists. eexists. split; [exact W|]. split; [|split; [|split]].
        - rewrite <- Er. subst gs ls. clear W T L E G G1 G2 D Ec GI.
          change ((0, filter (in_block 0) vec) :: map (fun b => (b, filter (in_block b) vec)) r) with
            (map (fun b => (b, filter (in_block b) vec)) (0 :: r)) in F. rewrite <- Er in F.
          assert (Hin : forall b, In b ids -> In b ids) by auto. revert blks F Hin. generalize ids at 1 2 4.
          intros l. induction l as [|b l IH]; intros blks F Hin; inversion F; subst; constructor.
          + apply group_holds; auto. apply Hin. now left.
          + apply IH; auto. intros; apply Hin; now right.
        - rewrite L. lia.
        - rewrite T. lia.
        - exact E.
      Qed.
    End Written.
  End Vec.
End Corpus.
