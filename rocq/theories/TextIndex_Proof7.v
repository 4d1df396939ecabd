(* The entities that occur with a term, and the queries with several terms. *)
From Coq Require Import List NArith Arith Bool Lia Permutation Sorted ZifyN ZifyNat ZifyBool.
From Verif Require Filter_Proof.
From Verif Require Import Base Bytes Std_Model Std_Proof ListAux Ops_Spec Fts_Model Fts_Spec Postings_Model
  Fts_Proof Fts_Proof7 Fts_Thm TextIndex_Model TextIndex_Spec TextIndex_Proof TextIndex_Proof2 TextIndex_Proof3
  TextIndex_Proof4 TextIndex_Proof5 TextIndex_Proof6.
Import ListNotations.
Open Scope N_scope.

Lemma cids_unique cs c c' : strictly_ascending (map c_id cs) -> In c cs -> In c' cs -> c_id c = c_id c' -> c = c'.
Proof.
  induction cs as [|x l IH]; intros H H1 H2 E; [contradiction H1|]. cbn [map] in H.
  apply StronglySorted_inv in H. destruct H as [H3 H4]. rewrite Forall_forall in H4.
  destruct H1 as [H1|H1], H2 as [H2|H2]; subst; auto.
  - specialize (H4 (c_id c') (in_map c_id _ _ H2)). lia.
  - specialize (H4 (c_id c) (in_map c_id _ _ H1)). lia.
Qed.
Lemma filter_entities (f : N -> bool) cs :
  filter (fun p => f (p_cid p)) (flat_map entities_of cs) = flat_map entities_of (filter (fun c => f (c_id c)) cs).
Proof.
  induction cs as [|c cs IH]; auto. cbn [flat_map filter]. rewrite filter_app, IH.
  destruct (f (c_id c)) eqn:Ef; cbn [flat_map].
  - f_equal. apply filter_all_true. intros p Hp. unfold entities_of in Hp. apply in_map_iff in Hp.
    destruct Hp as [e [<- _]]. exact Ef.
  - rewrite filter_all_false; auto. intros p Hp. unfold entities_of in Hp. apply in_map_iff in Hp.
    destruct Hp as [e [<- _]]. exact Ef.
Qed.
Lemma filter_ext_in {A} (p q : A -> bool) l : (forall a, In a l -> p a = q a) -> filter p l = filter q l.
Proof.
  induction l as [|a l IH]; intros H; auto. cbn [filter]. rewrite (H a) by now left.
  rewrite IH; auto. intros; apply H; now right.
Qed.
Lemma member_perm x l l' : Permutation l l' -> member x l = member x l'.
Proof.
  intros P. destruct (member x l) eqn:E1, (member x l') eqn:E2; auto.
  - apply member_in in E1. eapply Permutation_in in E1; [|exact P]. apply member_in in E1. congruence.
  - apply member_in in E2. eapply Permutation_in in E2; [|apply Permutation_sym; exact P]. apply member_in in E2. congruence.
Qed.
Lemma perm_entity_in p cs : In p (flat_map entities_of cs) <->
  exists c, In c cs /\ p_cid p = c_id c /\ In (p_eid p, p_score p) (c_ents c).
Proof.
  rewrite in_flat_map. unfold entities_of. split.
  - intros [c [Hc Hp]]. apply in_map_iff in Hp. destruct Hp as [[e s] [<- He]]. exists c. auto.
  - intros [c [Hc [E He]]]. exists c. split; auto. apply in_map_iff. exists (p_eid p, p_score p).
    destruct p as [[x e] s]. cbn in *. subst x. auto.
Qed.

Lemma in_combine_maps {A B} (l : list (A * B)) : combine (map fst l) (map snd l) = l.
Proof. induction l as [|[a b] l IH]; cbn; auto. now rewrite IH. Qed.

Section Query.
  Variables (bounds : list N) (cs : list context).
  Hypothesis C : corpus bounds cs.
  Variables (file : list N) (m : text_meta) (E : list N).
  Hypothesis G : good bounds cs file m E.

  Lemma same_block lo w : find bounds w = find bounds lo <-> forall b, In b bounds -> (b < lo <-> b < w).
  Proof.
    pose proof (strict_bounds bounds cs C) as Hs.
    destruct (find_spec bounds lo Hs) as [A1 [A2 A3]]. destruct (find_spec bounds w Hs) as [B1 [B2 B3]]. split.
    - intros Eq b Hb. apply In_nth with (d := 0) in Hb. destruct Hb as [k [Hk <-]].
      destruct (Nat.lt_ge_cases k (find bounds w)) as [L|L].
      + specialize (A2 k ltac:(lia)). specialize (B2 k L). lia.
      + specialize (A3 k ltac:(lia)). specialize (B3 k ltac:(lia)). lia.
    - intros H. destruct (Nat.lt_trichotomy (find bounds w) (find bounds lo)) as [L|[L|L]]; auto.
      + specialize (A2 _ L). specialize (B3 (find bounds w) ltac:(lia)).
        assert (Hn : (find bounds w < length bounds)%nat) by lia.
        specialize (H _ (nth_In bounds 0 Hn)). lia.
      + specialize (B2 _ L). specialize (A3 (find bounds lo) ltac:(lia)).
        assert (Hn : (find bounds lo < length bounds)%nat) by lia.
        specialize (H _ (nth_In bounds 0 Hn)). lia.
  Qed.
  Lemma with_entities_iff t : t <> Unknown -> searchable bounds cs t ->
    with_entities bounds cs t <-> has_entities bounds cs t.
  Proof.
    intros Hu H. unfold has_entities, touches. destruct t as [lo hi|e|]; [| |congruence]; cbn [with_entities block_of].
    - destruct (searchable_words bounds cs C lo hi H) as [Hi _]. split.
      + intros [c [w [Hc [He [Hw Hb]]]]]. exists c. split; auto. split; auto.
        apply existsb_exists. exists (N.of_nat (find bounds lo)). split; [|apply N.eqb_refl].
        apply (touched_iff bounds cs C c _ Hc). left. exists w. split; auto. f_equal. symmetry.
        now apply same_block.
      + intros [c [Hc [Ht He]]]. apply existsb_exists in Ht. destruct Ht as [b [Ht Eb]]. apply N.eqb_eq in Eb. subst b.
        apply (touched_iff bounds cs C c _ Hc) in Ht. destruct Ht as [[w [Hw Eq]]|[e [_ Eq]]]; [|lia].
        exists c, w. split; [exact Hc|]. split; [exact He|]. split; [exact Hw|]. apply Nat2N.inj in Eq. now apply same_block.
    - split; auto. intros _. cbn in H. destruct H as [c [Hc He]]. exists c. split; auto. split.
      + apply existsb_exists. eexists. split; [|apply N.eqb_refl]. apply (touched_iff bounds cs C c _ Hc).
        right. exists e. auto.
      + intros E0. rewrite E0 in He. contradiction He.
  Qed.

  Lemma hits_in t x s : In (x, s) (hits t cs) <-> exists c, In c cs /\ c_id c = x /\ In s (map snd (matches t c)).
  Proof.
    unfold hits. rewrite in_flat_map. split.
    - intros [c [Hc H]]. apply in_map_iff in H. destruct H as [w [Eq Hw]]. injection Eq as <- <-.
      exists c. repeat (split; auto). now apply in_map.
    - intros [c [Hc [<- H]]]. exists c. split; auto. apply in_map_iff in H. destruct H as [w [<- Hw]].
      apply in_map_iff. exists w. auto.
  Qed.
  Lemma hits_cids t x : In x (map fst (hits t cs)) <-> exists c, In c cs /\ c_id c = x /\ mentions t c = true.
  Proof.
    rewrite in_map_iff. split.
    - intros [[y s] [Eq H]]. cbn in Eq. subst y. apply hits_in in H. destruct H as [c [Hc [Ec H]]].
      exists c. repeat (split; auto). apply mentions_iff. apply in_map_iff in H. destruct H as [w [_ Hw]]. now exists w.
    - intros [c [Hc [Ec H]]]. apply mentions_iff in H. destruct H as [w Hw]. exists (x, snd w). split; auto.
      apply hits_in. exists c. repeat (split; auto). now apply in_map.
  Qed.
  (* the contexts among the postings of a term *)
  Definition postings_of (t : term) (ps : list (N * N)) : Prop :=
    ascending (map fst ps) /\ Permutation ps (hits t cs).
  Lemma postings_member t ps c : postings_of t ps -> In c cs -> member (c_id c) (map fst ps) = mentions t c.
  Proof.
    intros [_ P] Hc. rewrite (member_perm _ _ _ (Permutation_map fst P)).
    destruct (mentions t c) eqn:M.
    - apply member_in. apply hits_cids. exists c. auto.
    - destruct (member (c_id c) (map fst (hits t cs))) eqn:K; auto. apply member_in in K. apply hits_cids in K.
      destruct K as [c' [Hc' [Eq M']]]. apply (cids_unique cs) in Eq; auto; [subst; congruence|apply (co_contexts _ _ C)].
  Qed.

  Lemma entity_postings t : searchable bounds cs t -> with_entities bounds cs t ->
    exists res, getEntityPostingsForTerm file m t = Done res /\ ascending (map p_cid res) /\
      Permutation res (cooccurring t cs).
  Proof.
    intros H W. assert (Hu : t = Unknown \/ t <> Unknown) by (destruct t; auto; right; discriminate).
    destruct Hu as [->|Hu].
    - exists []. split; [reflexivity|]. split; [constructor|].
      replace (cooccurring Unknown cs) with (@nil posting); [constructor|].
      symmetry. unfold cooccurring. rewrite filter_all_false; auto.
    - apply with_entities_iff in W; auto.
      destruct (term_block_ok bounds cs C file m E G t Hu H) as [blk [body [rest [T [Ef Hh]]]]].
      pose proof Hh as [cl [en [B [A1 [A2 [_ [_ [P1 P2]]]]]]]].
      destruct (entity_list_ok bounds cs file t blk body rest cl en B Ef P2) as [R _]. specialize (R W).
      assert (K : exists res, rbind (term_block m t) (fun b =>
        if negb (hasMultipleWords (b_cl b)) || full_block b t then read_entity_list file b
        else
          rbind (getWordPostingsForTerm file m t) (fun matching =>
          rbind (read_entity_list file b) (fun block =>
            of_fts (intersect [] (map fst matching) block)))) = Done res /\ ascending (map p_cid res) /\
        Permutation res (cooccurring t cs)).
      { rewrite T. cbn [rbind]. rewrite R.
        destruct (negb (hasMultipleWords (b_cl blk)) || full_block blk t) eqn:D.
        - exists en. split; auto. split; auto.
          destruct (whole_block bounds cs C t blk body cl en Hu H B Hh P1) as [Q _].
          { apply orb_prop in D. destruct D as [D|D]; auto. left. now destruct (hasMultipleWords (b_cl blk)). }
          rewrite P2. unfold cooccurring. apply Permutation_refl'. f_equal. apply filter_ext_in.
          intros c Hc. change (existsb (N.eqb (block_of bounds t)) (touchedBlocks bounds c)) with (touches bounds t c).
          destruct (mentions t c) eqn:M.
          + now apply (mentions_touches bounds cs C).
          + destruct (touches bounds t c) eqn:Tc; auto. rewrite <- M. symmetry.
            now apply (touches_mentions bounds cs C).
        - destruct (word_postings bounds cs C file m E G t H) as [ps [Ep Hp]]. rewrite Ep. cbn [rbind].
          rewrite C04_intersect; [|apply Hp|exact A2]. cbn [of_fts].
          eexists. split; [reflexivity|]. split; [now apply ascending_filter|].
          rewrite (perm_filter _ _ _ P2). rewrite (filter_entities (fun x => member x (map fst ps))).
          unfold cooccurring. apply Permutation_refl'. f_equal.
          rewrite <- (filter_filter_sub (mentions t) (touches bounds t)).
          + apply filter_ext_in. intros c Hc. apply filter_In in Hc. apply postings_member; [exact Hp|tauto].
          + intros c Hc M. now apply (mentions_touches bounds cs C). }
      destruct t as [lo hi|e|]; [exact K|exact K|congruence].
  Qed.
  (* a block without entities *)
  Lemma entity_postings_throw t : t <> Unknown -> searchable bounds cs t -> ~ with_entities bounds cs t ->
    getEntityPostingsForTerm file m t = Throw.
  Proof.
    intros Hu H W. assert (W' : ~ has_entities bounds cs t) by (intros X; apply W; now apply with_entities_iff).
    destruct (term_block_ok bounds cs C file m E G t Hu H) as [blk [body [rest [T [Ef Hh]]]]].
    pose proof Hh as [cl [en [B [A1 [A2 [_ [_ [P1 P2]]]]]]]].
    destruct (entity_list_ok bounds cs file t blk body rest cl en B Ef P2) as [_ R]. specialize (R W').
    destruct (word_postings bounds cs C file m E G t H) as [ps [Ep _]].
    unfold getEntityPostingsForTerm. destruct t as [lo hi|e|]; [| |congruence]; rewrite T; cbn [rbind]; rewrite R, Ep;
      cbn [rbind]; now destruct (negb (hasMultipleWords (b_cl blk)) || full_block blk _).
  Qed.

  (* ---- several terms ---- *)
  Lemma all_postings ts : Forall (searchable bounds cs) ts ->
    exists pss, all_word_postings file m ts = Done pss /\ Forall2 postings_of ts pss.
  Proof.
    induction 1 as [|t ts H _ IH].
    - exists []. auto.
    - destruct (word_postings bounds cs C file m E G t H) as [ps [Ep Hp]]. destruct IH as [pss [E2 H2]].
      exists (ps :: pss). cbn [all_word_postings]. rewrite Ep. cbn [rbind]. rewrite E2. cbn [rbind]. auto.
  Qed.
  Lemma forallb_postings ts pss c : Forall2 postings_of ts pss -> In c cs ->
    forallb (fun l => member (c_id c) l) (map (map fst) pss) = forallb (fun t => mentions t c) ts.
  Proof.
    intros H Hc. induction H as [|t ps ts pss H _ IH]; auto. cbn [map forallb]. rewrite IH.
    now rewrite (postings_member t ps c).
  Qed.
  Lemma first_scores ts pss c : Forall2 postings_of ts pss -> In c cs -> forallb (fun t => mentions t c) ts = true ->
    term_scores ts c (map (first_score (c_id c)) (combine (map (map fst) pss) (map (map snd) pss))).
  Proof.
    intros H Hc. induction H as [|t ps ts pss H _ IH]; [intros _; constructor|]. cbn [forallb map combine].
    intros M. apply andb_prop in M. destruct M as [M1 M2]. constructor; [|now apply IH].
    unfold first_score, scores_of. cbn [fst snd]. rewrite in_combine_maps.
    pose proof (postings_member t ps c H Hc) as Q. rewrite M1 in Q. apply member_in in Q.
    apply in_map_iff in Q. destruct Q as [[x s] [Ex Hx]]. cbn in Ex. subst x.
    destruct (filter (fun p => fst p =? c_id c) ps) as [|[x s0] r] eqn:F.
    - exfalso. assert (In (c_id c, s) []) by (rewrite <- F; apply filter_In; cbn; split; auto; apply N.eqb_refl). auto.
    - cbn. assert (K : In (x, s0) (filter (fun p => fst p =? c_id c) ps)) by (rewrite F; now left).
      apply filter_In in K. destruct K as [K1 K2]. cbn in K2. apply N.eqb_eq in K2. subst x.
      destruct H as [_ P]. eapply Permutation_in in K1; [|exact P]. apply hits_in in K1.
      destruct K1 as [c' [Hc' [Eq K1]]]. apply (cids_unique cs) in Eq; auto; [now subst|apply (co_contexts _ _ C)].
  Qed.

  Lemma two_terms t1 t2 use : (use < 2)%nat -> searchable bounds cs t1 -> searchable bounds cs t2 ->
    with_entities bounds cs (nth use [t1; t2] Unknown) ->
    exists res, getContextEntityScoreListsForWords file m use [t1; t2] = Done res /\ ascending (map p_cid res) /\
      Permutation res (flat_map entities_of (filter (fun c => mentions t1 c && mentions t2 c) cs)).
  Proof.
    intros Hu H1 H2 W.
    assert (K : forall a b, searchable bounds cs a -> searchable bounds cs b -> with_entities bounds cs b ->
      exists res, rbind (getWordPostingsForTerm file m a) (fun w =>
        rbind (getEntityPostingsForTerm file m b) (fun e => of_fts (intersect [] (map fst w) e))) = Done res /\
        ascending (map p_cid res) /\
        Permutation res (flat_map entities_of (filter (fun c => mentions a c && mentions b c) cs))).
    { intros a b Ha Hb Wb. destruct (word_postings bounds cs C file m E G a Ha) as [ps [Ep Hp]].
      destruct (entity_postings b Hb Wb) as [en [Ee [A P]]]. rewrite Ep. cbn [rbind]. rewrite Ee. cbn [rbind].
      rewrite C04_intersect; [|apply Hp|exact A]. eexists. split; [reflexivity|]. split; [now apply ascending_filter|].
      rewrite (perm_filter _ _ _ P). unfold cooccurring. rewrite (filter_entities (fun x => member x (map fst ps))).
      apply Permutation_refl'. f_equal. rewrite Filter_Proof.filter_filter. apply filter_ext_in. intros c Hc.
      rewrite (postings_member a ps c Hp Hc). apply andb_comm. }
    destruct use as [|[|use]]; [| |lia]; cbn [nth] in W; cbn [getContextEntityScoreListsForWords nth Nat.sub].
    - destruct (K t2 t1 H2 H1 W) as [res [R1 [R2 R3]]]. exists res. split; auto. split; auto.
      rewrite R3. apply Permutation_refl'. f_equal. apply filter_ext_in. intros. apply andb_comm.
    - destruct (K t1 t2 H1 H2 W) as [res [R1 [R2 R3]]]. exists res. auto.
  Qed.

  Lemma remove_length {A} i (l : list A) : (i < length l)%nat -> length (remove_nth i l) = (length l - 1)%nat.
  Proof. intros H. unfold remove_nth. rewrite app_length, firstn_length, skipn_length. lia. Qed.
  Lemma remove_split {A} i (l : list A) d : (i < length l)%nat -> l = firstn i l ++ nth i l d :: skipn (S i) l.
  Proof. intros H. rewrite <- (skipn_nth_cons i l d H). now rewrite firstn_skipn. Qed.
  Lemma remove_forall {A} (f : A -> bool) i l d : (i < length l)%nat ->
    forallb f l = f (nth i l d) && forallb f (remove_nth i l).
  Proof.
    intros H. rewrite (remove_split i l d H) at 1. unfold remove_nth. rewrite !forallb_app. cbn [forallb].
    destruct (f (nth i l d)), (forallb f (firstn i l)); auto.
  Qed.

  Lemma many_terms ts use : (2 < length ts)%nat -> (use < length ts)%nat -> Forall (searchable bounds cs) ts ->
    with_entities bounds cs (nth use ts Unknown) ->
    exists res, getContextEntityScoreListsForWords file m use ts = Done res /\ ascending (map p_cid res) /\
      Permutation (map fst res)
        (map fst (flat_map entities_of (filter (fun c => forallb (fun t => mentions t c) ts) cs))) /\
      forall p, In p res -> exists c s ss, In c cs /\ p_cid p = c_id c /\ In (p_eid p, s) (c_ents c) /\
        term_scores (remove_nth use ts) c ss /\ p_score p = score_sum (ss ++ [s]).
  Proof.
    intros Hl Hu Hs W.
    assert (Hs' : Forall (searchable bounds cs) (remove_nth use ts)).
    { rewrite Forall_forall in *. intros t Ht. apply Hs. rewrite (remove_split use ts Unknown Hu).
      unfold remove_nth in Ht. apply in_app_iff in Ht. apply in_app_iff. destruct Ht; auto. right. now right. }
    destruct (all_postings _ Hs') as [pss [E1 F]].
    destruct (entity_postings (nth use ts Unknown)) as [en [E2 [A P]]]; auto.
    { rewrite Forall_forall in Hs. apply Hs. now apply nth_In. }
    assert (Eq : getContextEntityScoreListsForWords file m use ts =
      of_fts (intersectKWay [] (map (map fst) pss ++ [map p_cid en]) (map (map snd) pss ++ [map p_score en])
        (Some (map p_eid en)))).
    { destruct ts as [|t1 [|t2 [|t3 ts]]]; [cbn in Hl; lia..|].
      unfold getContextEntityScoreListsForWords. rewrite E1. cbn [rbind]. rewrite E2. reflexivity. }
    assert (Lp : length pss = (length ts - 1)%nat).
    { rewrite <- (forall2_length _ _ _ F). now apply remove_length. }
    rewrite Eq. rewrite C04_kway_entities.
    - change (combine (combine (map p_cid en) (map p_eid en)) (map p_score en)) with
        (zip3 (map p_cid en) (map p_eid en) (map p_score en)). rewrite zip3_maps. cbn [of_fts].
      eexists. split; [reflexivity|].
      set (keep := fun p : posting => forallb (fun l => member (p_cid p) l) (map (map fst) pss)).
      assert (Pk : Permutation (filter keep en)
        (flat_map entities_of (filter (fun c => forallb (fun t => mentions t c) ts) cs))).
      { rewrite (perm_filter _ _ _ P). unfold cooccurring, keep.
        rewrite (filter_entities (fun x => forallb (fun l => member x l) (map (map fst) pss))).
        apply Permutation_refl'. f_equal. rewrite Filter_Proof.filter_filter. apply filter_ext_in. intros c Hc.
        rewrite (remove_forall _ use ts Unknown Hu). now rewrite (forallb_postings _ _ c F Hc). }
      split; [|split].
      + rewrite map_map. cbn [p_cid fst]. fold (map p_cid). 
        change (fun x : posting => p_cid x) with p_cid. now apply ascending_filter.
      + rewrite map_map. cbn [fst]. rewrite <- (Permutation_map fst Pk). apply Permutation_refl'.
        apply map_ext. intros [[x e] s]. reflexivity.
      + intros p Hp. apply in_map_iff in Hp. destruct Hp as [q [<- Hq]].
        eapply Permutation_in in Hq; [|exact Pk]. apply perm_entity_in in Hq. destruct Hq as [c [Hc [Ec He]]].
        apply filter_In in Hc. destruct Hc as [Hc M]. exists c, (p_score q), (map (first_score (p_cid q)) (combine (map (map fst) pss) (map (map snd) pss))).
        split; auto. split; [exact Ec|]. split; [exact He|]. split; [|reflexivity]. rewrite Ec.
        apply first_scores; auto. rewrite (remove_forall _ use ts Unknown Hu) in M. apply andb_prop in M. tauto.
    - destruct pss; [cbn in Lp; lia|discriminate].
    - rewrite Forall_forall. intros l Hin. apply in_map_iff in Hin. destruct Hin as [ps [<- Hin]].
      apply In_nth_error in Hin. destruct Hin as [i Hi].
      clear -F Hi. revert i Hi. induction F as [|t ps' ts' pss' [H1 _] _ IH]; intros [|i] Hi; try discriminate Hi.
      + cbn in Hi. injection Hi as ->. exact H1.
      + exact (IH i Hi).
    - exact A.
    - now rewrite !map_length.
    - intros i Hi. rewrite map_length in Hi. rewrite (nth_indep _ [] (map snd (@nil (N * N)))) by now rewrite map_length.
      rewrite (nth_indep (map (map fst) pss) [] (map fst (@nil (N * N)))) by now rewrite map_length.
      now rewrite !map_nth, !map_length.
    - now rewrite !map_length.
    - now rewrite !map_length.
  Qed.

  Lemma many_words ts : (2 < length ts)%nat -> Forall (searchable bounds cs) ts ->
    exists res, getContextListForWords file m ts = Done res /\ strictly_ascending (map fst res) /\
      (forall x, In x (map fst res) <-> exists c, In c cs /\ c_id c = x /\ forallb (fun t => mentions t c) ts = true) /\
      forall x s, In (x, s) res -> exists c ss, In c cs /\ c_id c = x /\ term_scores ts c ss /\ s = score_sum ss.
  Proof.
    intros Hl Hs. destruct (all_postings _ Hs) as [pss [E1 F]]. pose proof (forall2_length _ _ _ F) as Lp.
    assert (Eq : getContextListForWords file m ts =
      rbind (of_fts (intersectKWay [] (map (map fst) pss) (map (map snd) pss) None)) (fun out =>
               Done (map (fun p => (p_cid p, p_score p)) out))).
    { destruct ts as [|t1 [|t2 [|t3 ts]]]; [cbn in Hl; lia..|].
      unfold getContextListForWords. rewrite E1. cbn [rbind].
      destruct pss as [|p1 [|p2 [|p3 pss]]]; [cbn in Lp; lia..|]. reflexivity. }
    destruct (C04_kway_words (map (map fst) pss) (map (map snd) pss)) as [out [E2 [A [M Sc]]]].
    - rewrite map_length. lia.
    - rewrite Forall_forall. intros l Hin. apply in_map_iff in Hin. destruct Hin as [ps [<- Hin]].
      apply In_nth_error in Hin. destruct Hin as [i Hi].
      clear -F Hi. revert i Hi. induction F as [|t ps' ts' pss' [H1 _] _ IH]; intros [|i] Hi; try discriminate Hi.
      + cbn in Hi. injection Hi as ->. exact H1.
      + exact (IH i Hi).
    - now rewrite !map_length.
    - intros i Hi. rewrite map_length in Hi. rewrite (nth_indep _ [] (map snd (@nil (N * N)))) by now rewrite map_length.
      rewrite (nth_indep (map (map fst) pss) [] (map fst (@nil (N * N)))) by now rewrite map_length.
      now rewrite !map_nth, !map_length.
    - assert (M' : forall x, In x (map p_cid out) <->
        exists c, In c cs /\ c_id c = x /\ forallb (fun t => mentions t c) ts = true).
      { intros x. rewrite M. split.
        - intros H. destruct F as [|t ps ts pss H1 F]; [cbn in Hl; lia|].
          assert (Hx : In x (map fst ps)) by (apply H; now left).
          destruct H1 as [H0 P]. assert (Hx' := Permutation_in x (Permutation_map fst P) Hx).
          apply hits_cids in Hx'. destruct Hx' as [c [Hc [Ec _]]]. exists c. split; auto. split; auto.
          assert (F' : Forall2 postings_of (t :: ts) (ps :: pss)) by (constructor; auto; split; auto).
          rewrite <- (forallb_postings _ _ c F' Hc). apply forallb_forall. intros l Hin. apply member_in.
          rewrite Ec. now apply H.
        - intros [c [Hc [Ec H]]] l Hin. rewrite <- (forallb_postings _ _ c F Hc) in H.
          rewrite forallb_forall in H. specialize (H l Hin). apply member_in in H. now rewrite <- Ec. }
      exists (map (fun p => (p_cid p, p_score p)) out). rewrite Eq, E2. cbn [of_fts rbind]. split; auto.
      assert (Em : map fst (map (fun p => (p_cid p, p_score p)) out) = map p_cid out) by now rewrite map_map.
      rewrite Em. split; [exact A|]. split; [exact M'|].
      intros x s Hin. apply in_map_iff in Hin. destruct Hin as [p [Eqp Hp]]. injection Eqp as <- <-.
      pose proof (proj1 (M' (p_cid p)) (in_map p_cid _ _ Hp)) as [c [Hc [Ec Ht]]].
      exists c, (map (first_score (c_id c)) (combine (map (map fst) pss) (map (map snd) pss))).
      split; auto. split; auto. split; [now apply first_scores|]. rewrite (Sc p Hp). now rewrite Ec.
  Qed.
End Query.
