(* Writing the text index: the blocks of the sorted postings. *)
From Coq Require Import List NArith Arith Bool Lia Permutation Sorted ZifyN ZifyNat ZifyBool.
From Verif Require Import Base Bytes Std_Model Std_Proof Ops_Spec Fts_Model Fts_Spec Postings_Model
  Postings_Proof Postings_Thm TextIndex_Model.
Import ListNotations.
Open Scope N_scope.

Definition post (l : entry) : posting := (t_cid l, t_word l, t_score l).
Definition classics (ls : list entry) : list posting := map post (filter (fun l => negb (t_ent l)) ls).
Definition entities (ls : list entry) : list posting := map post (filter t_ent ls).

Lemma Forall2_weaken {A B} (P Q : A -> B -> Prop) l l' : (forall a b, P a b -> Q a b) ->
  Forall2 P l l' -> Forall2 Q l l'.
Proof. intros H. induction 1; constructor; auto. Qed.

(* ---- one list ---- *)
Definition list_ok (file : list N) (m : list_meta) (ps : list posting) (skip : bool) : Prop :=
  l_count m = length ps /\
  (l_contexts m <= l_words m /\ l_words m <= l_scores m /\ l_scores m <= l_end m /\
   l_end m <= length file)%nat /\
  (ps = [] -> l_words m = l_contexts m /\ l_scores m = l_contexts m /\ l_end m = l_contexts m) /\
  (ps <> [] -> (0 < l_end m)%nat /\ forall post,
     read_contexts (file ++ post) m = Done (map p_cid ps) /\
     read_scores (file ++ post) m = Done (map p_score ps) /\
     (hasMultipleWords m = true -> read_word_ids (file ++ post) m = Done (map p_eid ps)) /\
     (hasMultipleWords m = false -> skip = true /\ forall p q, In p ps -> In q ps -> p_eid p = p_eid q)).

Lemma list_ok_app file m ps skip more : list_ok file m ps skip -> list_ok (file ++ more) m ps skip.
Proof.
  intros [H1 [H2 [H3 H4]]]. split; auto. split; [rewrite app_length; lia|]. split; auto.
  intros Hn. destruct (H4 Hn) as [H5 H6]. split; auto. intros post. rewrite <- app_assoc. apply H6.
Qed.

Lemma write_positions off ps skip wcb scb bytes m :
  writePostings off ps skip wcb scb = Some (bytes, m) ->
  l_count m = length ps /\ l_contexts m = off /\ l_end m = (off + length bytes)%nat /\
  (l_contexts m <= l_words m /\ l_words m <= l_scores m /\ l_scores m <= l_end m)%nat /\
  (ps = [] -> bytes = [] /\ l_words m = l_contexts m /\ l_scores m = l_contexts m /\ l_end m = l_contexts m).
Proof.
  unfold writePostings. destruct ps as [|p ps].
  - intros H. injection H as <- <-. cbn. repeat split; auto; lia.
  - destruct (writeList (gap_list _)) as [cl|]; [|intros H; discriminate H].
    destruct (writeList (map (code_of (code_map (2 ^ 64) wcb)) _)) as [wl|]; [|intros H; discriminate H].
    destruct (writeList _) as [sl|]; [|intros H; discriminate H].
    match goal with |- context [if ?c then ?x else ?y] => generalize (if c then x else y) end.
    intros wpart. generalize (writeCodebook 2 scb ++ sl). intros spart. cbv zeta.
    intros H. injection H as <- <-. cbn [l_count l_contexts l_words l_scores l_end].
    rewrite !app_length. split; [reflexivity|]. split; [reflexivity|]. split; [lia|]. split; [lia|].
    intros E; discriminate E.
Qed.

Section Books.
  Variables wbook sbook : nat -> list N -> list N.
  Variable bounds : list N.
  Hypothesis wbook_ok : forall off l, codebook l (wbook off l).
  Hypothesis sbook_ok : forall off l, codebook l (sbook off l).

  Definition storable_list (ps : list posting) : Prop :=
    ascending (map p_cid ps) /\
    Forall (fun p => p_cid p < 2 ^ 60 /\ p_eid p < 2 ^ 64 /\ p_score p < 2 ^ 16) ps /\
    N.of_nat (length ps) < 2 ^ 60.

  Lemma write_list_ok out ps skip : storable_list ps ->
    exists bytes m, write_list wbook sbook out ps skip = Done (out ++ bytes, m) /\
      list_ok (out ++ bytes) m ps skip /\ l_end m = length (out ++ bytes) /\
      (ps <> [] -> (0 < length bytes)%nat).
  Proof.
    intros [H1 [H2 H3]]. unfold write_list.
    destruct ps as [|p ps'].
    - exists [], (mk_list_meta 0 (length out) (length out) (length out) (length out)). cbn [writePostings].
      split; [reflexivity|]. rewrite app_nil_r. split; [|split; [reflexivity|intros E; now contradiction E]].
      split; [reflexivity|]. cbn. split; [lia|]. split; [auto|]. intros E; now contradiction E.
    - remember (p :: ps') as ps. assert (Hn : ps <> []) by (subst; discriminate).
      assert (R : forall post, _) by (exact (fun post => C03_round_trip ps skip _ _ out post Hn H1 H2 H3
        (wbook_ok (length out) (map p_eid ps)) (sbook_ok (length out) (map p_score ps)))).
      destruct (R []) as [bytes [m [W _]]]. rewrite W. exists bytes, m. split; [reflexivity|].
      assert (L : l_end m = length (out ++ bytes) /\ forall post,
         read_contexts (out ++ bytes ++ post) m = Done (map p_cid ps) /\
         read_scores (out ++ bytes ++ post) m = Done (map p_score ps) /\
         (hasMultipleWords m = true -> read_word_ids (out ++ bytes ++ post) m = Done (map p_eid ps)) /\
         (hasMultipleWords m = false -> skip = true /\ forall p q, In p ps -> In q ps -> p_eid p = p_eid q)).
      { split; [|intros post]; [destruct (R []) as [b' [m' [W' W'']]]|destruct (R post) as [b' [m' [W' W'']]]];
          rewrite W in W'; injection W' as <- <-; tauto. }
      destruct (write_positions _ _ _ _ _ _ _ W) as [P1 [P2 [P3 [P4 P5]]]].
      assert (Hb : (0 < length bytes)%nat).
      { destruct bytes; [|simpl; lia]. exfalso. destruct L as [_ L]. destruct (L []) as [L1 [L2 _]].
        unfold read_scores in L2. replace (l_end m - l_scores m)%nat with 0%nat in L2
          by (cbn [length] in P3; lia). cbn in L2. discriminate L2. }
      split; [|split; [tauto|auto]].
      split; [auto|]. split; [|split; [intros E; now rewrite E in Hn|]].
      + rewrite app_length. lia.
      + intros _. split; [lia|]. intros post. rewrite <- app_assoc. apply L.
  Qed.

  Definition block_ok (file : list N) (blk : block) (cl en : list posting) : Prop :=
    list_ok file (b_cl blk) cl true /\ list_ok file (b_ecl blk) en false /\
    (0 < l_end (b_ecl blk))%nat /\ cl <> [] /\
    (forall p, In p cl -> b_first blk <= p_eid p <= b_last blk) /\
    In (b_first blk) (map p_eid cl) /\ In (b_last blk) (map p_eid cl).
  Lemma block_ok_app file blk cl en more : block_ok file blk cl en -> block_ok (file ++ more) blk cl en.
  Proof. intros [H1 [H2 H3]]. split; [now apply list_ok_app|]. split; [now apply list_ok_app|auto]. Qed.

  Definition min_max (cl : list posting) (mn mx : N) : Prop :=
    (forall p, In p cl -> mn <= p_eid p <= mx) /\ In mn (map p_eid cl) /\ In mx (map p_eid cl).

  Lemma write_block_ok cur mn mx cl en w : cl <> [] -> storable_list cl -> storable_list en ->
    min_max cl mn mx ->
    exists bytes blk, write_block wbook sbook bounds cur mn mx cl en w =
      Done (mk_written (o_file w ++ bytes) (o_blocks w ++ [blk])
              (o_ents w + if isEntityBlockId bounds cur then 1 else 0)
              (o_ectxs w + if isEntityBlockId bounds cur then N.of_nat (length cl) else 0)) /\
      block_ok (o_file w ++ bytes) blk cl en /\ l_end (b_ecl blk) = length (o_file w ++ bytes) /\
      b_first blk = mn /\ b_last blk = mx.
  Proof.
    intros Hn Hc He Hm. unfold write_block.
    destruct (write_list_ok (o_file w) cl true Hc) as [b1 [m1 [W1 [L1 [E1 Z1]]]]].
    destruct (write_list_ok (o_file w ++ b1) en false He) as [b2 [m2 [W2 [L2 [E2 Z2]]]]].
    exists (b1 ++ b2), (mk_block mn mx m1 m2).
    destruct cl as [|p cl']; [now contradiction Hn|]. remember (p :: cl') as cl.
    rewrite W1. cbn [rbind]. rewrite W2. cbn [rbind].
    split; [|split; [|split; [|split]]].
    - rewrite app_assoc. f_equal. f_equal; destruct (isEntityBlockId bounds cur); lia.
    - rewrite app_assoc. split; [cbn; now apply list_ok_app|]. split; [auto|]. cbn [b_ecl b_first b_last].
      split; [rewrite E2, !app_length; specialize (Z1 Hn); lia|]. split; [auto|]. exact Hm.
    - cbn. now rewrite app_assoc.
    - reflexivity.
    - reflexivity.
  Qed.

  (* ---- the lines of one block ---- *)
  Definition min_step (m : N) (l : entry) : N :=
    if t_ent l then m else if t_word l <? m then t_word l else m.
  Definition max_step (m : N) (l : entry) : N :=
    if t_ent l then m else if m <? t_word l then t_word l else m.
  Lemma loop_lines ls : forall rest cur mn mx cl en w, Forall (fun l => t_block l = cur) ls ->
    index_loop wbook sbook bounds (ls ++ rest) cur mn mx cl en w =
    index_loop wbook sbook bounds rest cur (fold_left min_step ls mn) (fold_left max_step ls mx)
      (cl ++ classics ls) (en ++ entities ls) w.
  Proof.
    induction ls as [|l ls IH]; intros rest cur mn mx cl en w H.
    - unfold classics, entities. cbn. now rewrite !app_nil_r.
    - inversion H; subst. cbn [app index_loop]. rewrite N.eqb_refl.
      cbn [fold_left]. unfold min_step at 2, max_step at 2. unfold classics, entities. cbn [filter].
      destruct (t_ent l) eqn:E; cbn [negb map]; rewrite IH by auto; unfold classics, entities, post;
        now rewrite <- app_assoc.
  Qed.

  Lemma min_max_lines ls : forall cl mn mx, min_max cl mn mx ->
    min_max (cl ++ classics ls) (fold_left min_step ls mn) (fold_left max_step ls mx).
  Proof.
    induction ls as [|l ls IH]; intros cl mn mx H.
    - unfold classics. cbn. now rewrite app_nil_r.
    - cbn [fold_left]. unfold classics. cbn [filter]. unfold min_step at 2, max_step at 2.
      destruct (t_ent l); cbn [negb map]; [now apply IH|].
      change (post l :: map post (filter (fun l0 => negb (t_ent l0)) ls)) with ([post l] ++ classics ls).
      rewrite app_assoc. apply IH. destruct H as [H1 [H2 H3]].
      unfold min_max. rewrite map_app, !in_app_iff. cbn [map In].
      change (p_eid (post l)) with (t_word l).
      split; [|split].
      + intros p Hp. apply in_app_or in Hp. destruct Hp as [Hp|[Hp|[]]].
        * specialize (H1 p Hp). destruct (t_word l <? mn) eqn:A, (mx <? t_word l) eqn:B; lia.
        * subst p. change (p_eid (post l)) with (t_word l).
          destruct (t_word l <? mn) eqn:A, (mx <? t_word l) eqn:B; lia.
      + destruct (t_word l <? mn); auto.
      + destruct (mx <? t_word l); auto.
  Qed.
  Lemma min_max_first l : t_ent l = false -> t_word l < 2 ^ 64 ->
    min_max [post l] (min_step (2 ^ 64 - 1) l) (max_step 0 l) /\
    min_max [post l] (min_step (t_word l) l) (max_step (t_word l) l).
  Proof.
    intros E H. unfold min_step, max_step. rewrite E.
    replace (if t_word l <? 2 ^ 64 - 1 then t_word l else 2 ^ 64 - 1) with (t_word l)
      by (destruct (t_word l <? 2 ^ 64 - 1) eqn:A; lia).
    replace (if 0 <? t_word l then t_word l else 0) with (t_word l) by (destruct (0 <? t_word l) eqn:A; lia).
    rewrite N.ltb_irrefl.
    assert (M : min_max [post l] (t_word l) (t_word l)); [|auto].
    split; [|split; left; reflexivity]. intros p [<-|[]]. change (p_eid (post l)) with (t_word l). lia.
  Qed.

  (* ---- all blocks ---- *)
  Definition group_ok (g : N * list entry) : Prop :=
    let '(b, ls) := g in
    Forall (fun l => t_block l = b) ls /\
    match ls with [] => False | l :: _ => t_ent l = false end /\
    storable_list (classics ls) /\ storable_list (entities ls).

  Lemma group_classics b ls : group_ok (b, ls) -> classics ls <> [].
  Proof. intros [_ [H _]]. destruct ls; [tauto|]. unfold classics. cbn. rewrite H. discriminate. Qed.
  Lemma group_min_max b ls mn mx : group_ok (b, ls) ->
    match ls with
    | [] => True
    | l :: _ => (mn = 2 ^ 64 - 1 /\ mx = 0) \/ (mn = t_word l /\ mx = t_word l)
    end ->
    min_max (classics ls) (fold_left min_step ls mn) (fold_left max_step ls mx).
  Proof.
    intros [H1 [H2 [[_ [H3 _]] _]]] H. destruct ls as [|l ls]; [tauto|].
    assert (Hw : t_word l < 2 ^ 64).
    { unfold classics in H3. cbn in H3. rewrite H2 in H3. cbn in H3. inversion H3; subst.
      change (t_word l) with (p_eid (post l)). tauto. }
    destruct (min_max_first l H2 Hw) as [M1 M2].
    cbn [fold_left]. unfold classics. cbn [filter]. rewrite H2. cbn [negb map].
    change (post l :: map post (filter (fun l0 => negb (t_ent l0)) ls)) with ([post l] ++ classics ls).
    apply min_max_lines. destruct H as [[-> ->]|[-> ->]]; auto.
  Qed.

  Definition is_ent (b : N) : bool := isEntityBlockId bounds b.
  Definition ent_groups (gs : list (N * list entry)) := filter (fun g => is_ent (fst g)) gs.
  Fixpoint total (gs : list (N * list entry)) : N :=
    match gs with [] => 0 | g :: gs' => N.of_nat (length (classics (snd g))) + total gs' end.

  Lemma loop_groups gs : forall b ls mn mx w, group_ok (b, ls) -> Forall group_ok gs ->
    NoDup (b :: map fst gs) ->
    match ls with
    | [] => True
    | l :: _ => (mn = 2 ^ 64 - 1 /\ mx = 0) \/ (mn = t_word l /\ mx = t_word l)
    end ->
    exists bytes blks, index_loop wbook sbook bounds (ls ++ flat_map snd gs) b mn mx [] [] w =
      Done (mk_written (o_file w ++ bytes) (o_blocks w ++ blks)
              (o_ents w + N.of_nat (length (ent_groups ((b, ls) :: gs))))
              (o_ectxs w + total (ent_groups ((b, ls) :: gs)))) /\
      Forall2 (fun blk g => block_ok (o_file w ++ bytes) blk (classics (snd g)) (entities (snd g)))
        blks ((b, ls) :: gs) /\
      match rev blks with [] => False | blk :: _ => l_end (b_ecl blk) = length (o_file w ++ bytes) end.
  Proof.
    induction gs as [|[b' ls'] gs IH]; intros b ls mn mx w Hg Hgs Hd Hi.
    - cbn [flat_map]. rewrite loop_lines by apply Hg. cbn [index_loop app].
      destruct (write_block_ok b (fold_left min_step ls mn) (fold_left max_step ls mx)
                  (classics ls) (entities ls) w) as [bytes [blk [W [B [E _]]]]].
      + eapply group_classics; eauto.
      + apply Hg.
      + apply Hg.
      + eapply group_min_max; eauto.
      + exists bytes, [blk]. rewrite W. split; [|split; [|exact E]].
        * unfold ent_groups. cbn [filter fst]. unfold is_ent. destruct (isEntityBlockId bounds b);
            cbn [length total snd]; f_equal; f_equal; lia.
        * constructor; [exact B|constructor].
    - cbn [flat_map snd]. rewrite loop_lines by apply Hg. cbn [app].
      inversion Hgs as [|? ? Hg' Hgs']; subst. inversion Hd as [|? ? Hd1 Hd2]; subst.
      pose proof Hg' as [G1 [G2 _]]. destruct ls' as [|l' ls']; [tauto|].
      destruct (write_block_ok b (fold_left min_step ls mn) (fold_left max_step ls mx)
                  (classics ls) (entities ls) w) as [bytes [blk [W [B [E _]]]]].
      { eapply group_classics; eauto. } { apply Hg. } { apply Hg. } { eapply group_min_max; eauto. }
      match type of W with _ = Done ?x => set (w1 := x) in * end.
      destruct (IH b' (l' :: ls') (t_word l') (t_word l') w1 Hg' Hgs' Hd2 (or_intror (conj eq_refl eq_refl)))
        as [bytes' [blks [W' [B' E']]]].
      exists (bytes ++ bytes'), (blk :: blks).
      assert (Eb : t_block l' = b') by (inversion G1; auto).
      split; [|split].
      + cbn [app index_loop].
        replace (t_block l' =? b) with false
          by (symmetry; apply N.eqb_neq; rewrite Eb; intros ->; apply Hd1; now left).
        rewrite W. cbn [rbind]. cbn [app index_loop] in W'. rewrite Eb in *. rewrite N.eqb_refl in W'.
        cbn [app]. rewrite W'. unfold w1. cbn [o_file o_blocks o_ents o_ectxs].
        rewrite <- !app_assoc. cbn [app]. f_equal.
        assert (forall g gs, ent_groups (g :: gs) = (if is_ent (fst g) then [g] else []) ++ ent_groups gs) as EG
          by (intros g0 gs0; unfold ent_groups; cbn [filter]; now destruct (is_ent (fst g0))).
        rewrite (EG (b, ls)). cbn [fst]. unfold is_ent. destruct (isEntityBlockId bounds b);
          cbn [app length total snd]; f_equal; lia.
      + constructor.
        * rewrite app_assoc. now apply block_ok_app.
        * eapply Forall2_weaken; [|exact B']. cbn beta. intros k g. unfold w1. cbn [o_file].
          now rewrite <- app_assoc.
      + cbn [rev]. destruct (rev blks) as [|z zs]; [tauto|]. cbn [app]. rewrite E'.
        unfold w1. cbn [o_file]. now rewrite <- app_assoc.
  Qed.
End Books.
