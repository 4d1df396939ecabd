(* The whole first pass. *)
From Coq Require Import List NArith Arith Bool Lia Sorted Permutation ZifyN ZifyNat ZifyBool.
From Verif Require Import ListAux Bytes Table_Spec Lex_Proof Std_Model Ops_Spec Ops_Proof Strings_Model Collate_Model Collate_Spec Collate_Proof Collate_Thm
  Prefix_Proof Vocab_Model Vocab_Proof Merge_Model Merge_Spec Merge_Proof Merge_Proof2 Merge_Proof3 Merge_Proof4 Merge_Proof5.
Import ListNotations.
Open Scope N_scope.

Lemma pre_swo {A} (cmp : A -> A -> comparison) : pre cmp -> strict_weak_order (fun a b => less (cmp a b)).
Proof.
  intros P. pose proof P as (R & S & T). constructor.
  - intros x. now rewrite R.
  - intros x y z H1 H2. apply less_iff in H1, H2. apply less_iff. apply (pre_lt_trans cmp x y z P); auto. congruence.
  - intros x y z H1 H2. destruct (less (cmp x z)) eqn:E; auto. apply less_iff in E. exfalso.
    assert (H : cmp y z = Lt).
    { apply (pre_below cmp y x z P); auto. rewrite S. intros G. destruct (cmp x y); cbn in G; discriminate. }
    rewrite H in H2. discriminate.
Qed.
Lemma identical_swo loc : strict_weak_order (identicalPred loc).
Proof.
  unfold identicalPred, before_transformed.
  apply (pre_swo (fun a b : word * N => compare_split strcmp (extractAndTransformComparable loc (fst a) IDENTICAL) (extractAndTransformComparable loc (fst b) IDENTICAL) TOTAL)).
  apply (pre_image (fun a : word * N => extractAndTransformComparable loc (fst a) IDENTICAL) (fun x y => compare_split strcmp x y TOTAL)).
  apply pre_compare_split. unfold strcmp. apply (pre_image c_str). apply pre_lex.
Qed.

Lemma map_triples_ok m (R S : N -> word -> Prop) : (forall id w, R id w -> exists id', lookup N.eqb m id = Some id' /\ S id' w) ->
  forall ts exp, Forall2 (triple_rel R) ts exp -> exists ts', map_triples m ts = Ok ts' /\ Forall2 (triple_rel S) ts' exp.
Proof.
  intros H ts exp F. induction F as [|[[s p] o] t ts exp (A & B & C) F (ts' & E & F')].
  - exists []. split; [reflexivity | constructor].
  - destruct (H _ _ A) as (s' & A1 & A2), (H _ _ B) as (p' & B1 & B2), (H _ _ C) as (o' & C1 & C2). cbn [fst snd] in *.
    exists ((s', p', o') :: ts'). cbn [map_triples map_triple]. rewrite A1, B1, C1. cbn [bind]. rewrite E. cbn [bind].
    split; [reflexivity|]. constructor; [|exact F']. repeat split; assumption.
Qed.
Lemma combine_map {A B C} (f : A -> B) (ids : list C) : forall l, combine (map f l) ids = map (fun p => (f (fst p), snd p)) (combine l ids).
Proof. induction ids as [|i ids IH]; intros [|a l]; cbn; auto. now f_equal. Qed.
Lemma map_fst_combine {A B} (l : list A) : forall (m : list B), length l = length m -> map fst (combine l m) = l.
Proof. induction l; intros [|b m] E; cbn in *; try lia; auto. f_equal. apply IHl. lia. Qed.

Record part_done (loc : icu) (numMaps : nat) (lts : list (nat * (word * @triple word))) (els : list (word * N)) (ts : list (@triple N)) : Prop :=
  { p_order : in_order (fun a b => before loc a b TOTAL) (map fst els);
    p_ids : StronglySorted (fun x y : word * N => snd x < snd y) els;
    p_triples : Forall2 (triple_rel (item_rel els)) ts (flat_map with_language (map snd lts));
    p_words : forall w, In w (map fst els) <-> In w (langtag_predicate :: flat_map expected_words (map snd lts));
    p_small : Forall (fun e : word * N => snd e <= N.of_nat (numMaps + 6 * length lts)) els;
    p_count : (length els <= numMaps + 6 * length lts)%nat }.

Section Part.
  Variable loc : icu.
  Hypothesis OK : icu_ok loc.
  Variable numMaps : nat.
  Variable L : N.
  Hypothesis NP : (0 < numMaps)%nat.
  Hypothesis LP : 0 < L.
  Hypothesis RG : N.of_nat numMaps * 100 * L <= 2 ^ 64.
  Variable ws : list word.
  Hypothesis FW : faithful loc ws.
  Hypothesis NE : Forall (fun w => w <> []) ws.

  Lemma init_items : flat_map items (init_maps numMaps L) <> [] /\ (length (flat_map items (init_maps numMaps L)) = numMaps)%nat /\
    forall x, In x (flat_map items (init_maps numMaps L)) -> fst x = langtag_predicate.
  Proof.
    unfold init_maps. split; [|split].
    - destruct numMaps; [lia|]. discriminate.
    - generalize 0%nat. induction numMaps as [|n IH]; intros k; [reflexivity|]. cbn [seq map flat_map]. rewrite app_length.
      destruct n; [reflexivity|]. rewrite IH; [reflexivity|lia|]. lia.
    - intros x X. apply in_flat_map in X as (m & M & X). apply in_map_iff in M as (j & <- & _). cbn in X. destruct X as [<-|[]]. reflexivity.
  Qed.
  Lemma part_ok lts r : N.of_nat (length lts) <= L -> Forall (fun x => (fst x < numMaps)%nat) lts ->
    incl (langtag_predicate :: flat_map expected_words (map snd lts)) ws ->
    part_result loc numMaps L lts r -> exists els ts, r = Ok (els, ts) /\ part_done loc numMaps lts els ts.
  Proof.
    intros LL FJ IW. unfold part_result.
    assert (IL : length (init_maps numMaps L) = numMaps) by (unfold init_maps; now rewrite map_length, seq_length).
    destruct (part_triples_ok L lts (init_maps numMaps L) 1) as (ts & maps' & E1 & E2 & E3 & E4 & E5 & E6 & E7).
    - now apply init_maps_ok.
    - now rewrite IL.
    - lia.
    - now rewrite IL.
    - rewrite E1. intros (sorted & [P S] & ->).
      pose proof (maps_ids L _ maps' E3 ltac:(lia)) as ND.
      destruct init_items as (I1 & I2 & I3).
      assert (WIN : forall x, In x sorted -> In (fst x) (langtag_predicate :: flat_map expected_words (map snd lts))).
      { intros x X. apply (Permutation_in _ (Permutation_sym P)) in X. apply E6 in X as [X|X]; [left; symmetry; now apply I3 | now right]. }
      assert (SNE : Forall (fun e : word * N => fst e <> []) sorted).
      { apply Forall_forall. intros x X. rewrite Forall_forall in NE. apply NE. apply IW. now apply WIN. }
      assert (SND : NoDup (map snd sorted)) by (eapply Permutation_NoDup; [apply Permutation_map, P | exact ND]).
      destruct (mapping_ok sorted SNE SND) as (ids & M1 & M2 & M3 & M4).
      unfold partial_vocabulary. rewrite M1. cbn [bind fst snd].
      set (els' := combine (map fst sorted) ids) in *.
      assert (HE : forall e, In e els' <-> In e (std_unique (fun a b => snd a =? snd b) els')).
      { clear - M3. destruct els' as [|e els']; [reflexivity|]. intros x. cbn [std_unique]. exact (proj1 (proj2 (unique_ok els' e M3)) x). }
      assert (HU : StronglySorted (fun x y : word * N => snd x < snd y) (std_unique (fun a b => snd a =? snd b) els')).
      { clear - M3. destruct els' as [|e els']; [constructor|]. cbn [std_unique]. exact (proj1 (unique_ok els' e M3)). }
      assert (HR : forall R, StronglySorted R els' -> StronglySorted R (std_unique (fun a b => snd a =? snd b) els')).
      { clear - M3. destruct els' as [|e els']; [constructor|]. cbn [std_unique]. exact (proj1 (proj2 (proj2 (unique_ok els' e M3)))). }
      assert (HL : forall u, u = std_unique (fun a b => snd a =? snd b) els' -> (length u <= length els')%nat).
      { clear - M3. intros u ->. destruct els' as [|e els']; [reflexivity|]. cbn [std_unique length]. apply le_n_S. exact (proj2 (proj2 (proj2 (unique_ok els' e M3)))). }
      specialize (HL _ eq_refl). set (u := std_unique (fun a b => snd a =? snd b) els') in *.
      destruct (map_triples_ok (combine (map snd sorted) ids) (item_rel (flat_map items maps')) (item_rel u)) with (ts := ts) (exp := flat_map with_language (map snd lts))
        as (ts' & T1 & T2); auto.
      { intros id w X. unfold item_rel in X. apply (Permutation_in _ P) in X. apply In_nth_error in X as [k K].
        assert (KL : (k < length sorted)%nat) by (apply nth_error_Some; congruence).
        destruct (nth_error ids k) as [i|] eqn:KI; [|apply nth_error_None in KI; lia].
        assert (CN : nth_error (combine sorted ids) k = Some ((w, id), i)).
        { clear - K KI. revert k ids K KI. induction sorted as [|s sorted IH]; intros [|k] [|j ids] K KI; cbn in *; try discriminate; [congruence|]. auto. }
        exists i. split.
        - apply combine_in_lookup; [exact SND|]. rewrite combine_map. apply in_map_iff. exists ((w, id), i). split; [reflexivity | eapply nth_error_In, CN].
        - unfold item_rel. apply HE. unfold els'. rewrite combine_map. apply in_map_iff. exists ((w, id), i). split; [reflexivity | eapply nth_error_In, CN]. }
      rewrite T1. cbn [bind]. exists u, ts'. split; [reflexivity|].
      assert (LE : length els' = length sorted) by (unfold els'; rewrite combine_length, map_length; lia).
      assert (LS : (length sorted <= numMaps + 6 * length lts)%nat) by (rewrite <- (Permutation_length P); lia).
      assert (FE : map fst els' = map fst sorted) by (unfold els'; apply map_fst_combine; rewrite map_length; lia).
      constructor; auto.
      + assert (X : StronglySorted (fun x y : word * N => before loc (fst y) (fst x) TOTAL = false) u).
        { apply HR. apply (sorted_map fst (fun x y => before loc y x TOTAL = false)). rewrite FE.
          assert (G : forall l, (forall x, In x l -> In (fst x) ws) -> StronglySorted (fun x y => identicalPred loc y x = false) l ->
            StronglySorted (fun x y => before loc y x TOTAL = false) (map fst l)).
          { clear - OK FW. induction l as [|a l IH]; intros I S; [constructor|]. apply StronglySorted_inv in S as [S F]. cbn [map]. constructor.
            - apply IH; auto. intros x X. apply I. now right.
            - rewrite Forall_map. rewrite Forall_forall in *. intros x X. eapply identical_before; eauto; [|apply I; now left]. apply I. now right. }
          apply G; [|exact S]. intros x X. apply IW. now apply WIN. }
        clear - X. unfold in_order. induction X as [|a l X IH F]; cbn [map]; constructor; auto. now rewrite Forall_map.
      + intros w. split.
        * intros X. apply in_map_iff in X as (e & <- & X). apply HE in X. assert (Y : In (fst e) (map fst sorted)) by (rewrite <- FE; now apply in_map).
          apply in_map_iff in Y as (y & <- & Y). now apply WIN.
        * intros X. assert (In w (map fst els')) as Y.
          { rewrite FE. destruct X as [<-|X].
            - destruct (flat_map items (init_maps numMaps L)) as [|x l] eqn:EI; [contradiction|].
              assert (fst x = langtag_predicate) as <- by (apply I3; now left). apply in_map. apply (Permutation_in _ P). apply E5. now left.
            - apply in_flat_map in X as (lt & LT & X). unfold expected_words in X. apply in_flat_map in X as (t & TT & X).
              assert (In t (flat_map with_language (map snd lts))) as TI by (apply in_flat_map; now exists lt).
              clear - E4 TI X P. induction E4 as [|i t0 ts exp (A & B & C) F IH]; [destruct TI|]. destruct TI as [->|TI]; [|now apply IH].
              unfold words_of in X. unfold item_rel in *. cbn [In] in X. destruct X as [<-|[<-|[<-|[]]]]; [exact (in_map fst _ _ (Permutation_in _ P A)) | exact (in_map fst _ _ (Permutation_in _ P B)) | exact (in_map fst _ _ (Permutation_in _ P C))]. }
          apply in_map_iff in Y as (e & <- & Y). apply in_map. now apply HE.
      + apply Forall_forall. intros [v i] X. apply HE in X. unfold els' in X. apply in_combine_r in X. rewrite Forall_forall in M4. apply M4 in X. cbn [snd]. lia.
      + lia.
  Qed.
  Lemma part_exists lts : N.of_nat (length lts) <= L -> Forall (fun x => (fst x < numMaps)%nat) lts ->
    exists r, part_result loc numMaps L lts r.
  Proof.
    intros LL FJ. unfold part_result.
    assert (IL : length (init_maps numMaps L) = numMaps) by (unfold init_maps; now rewrite map_length, seq_length).
    destruct (part_triples_ok L lts (init_maps numMaps L) 1) as (ts & maps' & E1 & _).
    - now apply init_maps_ok.
    - now rewrite IL.
    - lia.
    - now rewrite IL.
    - rewrite E1. eexists. exists (sort_by (identicalPred loc) (flat_map items maps')). split; [apply sort_by_result, identical_swo | reflexivity].
  Qed.
End Part.
