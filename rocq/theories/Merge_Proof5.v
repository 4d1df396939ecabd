(* A part of the input: its vocabulary and its triples. *)
From Coq Require Import List NArith Arith Bool Lia Sorted Permutation ZifyN ZifyNat ZifyBool.
From Verif Require Import ListAux Bytes Table_Spec Lex_Proof Std_Model Ops_Spec Strings_Model Collate_Model Collate_Spec Collate_Proof Collate_Thm
  Prefix_Proof Vocab_Model Vocab_Proof Merge_Model Merge_Spec Merge_Proof Merge_Proof2 Merge_Proof3 Merge_Proof4.
Import ListNotations.
Open Scope N_scope.

(* ---- ids of a part ---- *)
Definition id_order (a b : word * N) : Prop := snd a <= snd b /\ (snd a = snd b -> fst a = fst b).
Lemma mapping_loop_ok els : forall lastWord next res, Forall (fun e => fst e <> []) els -> NoDup (map fst res ++ map snd els) ->
  exists ids, mapping_loop false lastWord next res els = Ok (res ++ combine (map snd els) ids, combine (map fst els) ids) /\
    length ids = length els /\ StronglySorted id_order (combine (map fst els) ids) /\
    Forall (fun e => next <= snd e /\ (snd e = next -> fst e = lastWord)) (combine (map fst els) ids) /\
    Forall (fun i => i <= next + N.of_nat (length els)) ids.
Proof.
  induction els as [|[w id] els IH]; intros lastWord next res NE ND.
  - exists []. cbn. rewrite app_nil_r. repeat split; constructor.
  - inversion NE as [|? ? NW NE']; subst. cbn [fst] in NW. cbn [mapping_loop map fst snd negb andb].
    set (next' := if negb (word_eqb lastWord w) then next + 1 else next). set (last' := if negb (word_eqb lastWord w) then w else lastWord).
    assert (LW : last' = w) by (unfold last'; destruct (word_eqb lastWord w) eqn:E; cbn; [now apply word_eqb_eq in E | reflexivity]).
    assert (NX : next <= next' <= next + 1 /\ (next' = next -> lastWord = w)).
    { unfold next'. destruct (word_eqb lastWord w) eqn:E; cbn; split; try lia. intros _. now apply word_eqb_eq. }
    destruct (existsb (fun p => fst p =? id) res) eqn:EX.
    { exfalso. apply existsb_exists in EX as (p & P & Q). apply N.eqb_eq in Q. cbn [map snd] in ND.
      apply NoDup_remove_2 in ND. apply ND. apply in_or_app. left. rewrite <- Q. now apply in_map. }
    destruct (IH last' next' (res ++ [(id, next')])) as (ids & E1 & E2 & E3 & E4 & E5); auto.
    { rewrite map_app. cbn [map fst snd] in *. now rewrite <- app_assoc. }
    exists (next' :: ids). rewrite E1. cbn [bind fst snd combine length]. split; [now rewrite <- app_assoc|]. split; [now rewrite E2|].
    split; [|split].
    + constructor; [exact E3|]. eapply Forall_impl; [|exact E4]. cbn. intros e [A B]. split; [exact A|]. cbn. intros C. rewrite B by auto. now symmetry.
    + constructor; [cbn; split; [lia|]; intros; symmetry; now apply NX|].
      rewrite Forall_forall in *. intros e Ie. destruct (E4 e Ie) as [A B]. split; [lia|]. intros C. rewrite B by lia. rewrite LW. symmetry. apply NX. lia.
    + constructor; [lia|]. eapply Forall_impl; [|exact E5]. cbn. intros. lia.
Qed.
Lemma mapping_ok els : Forall (fun e => fst e <> []) els -> NoDup (map snd els) ->
  exists ids, createInternalMapping els = Ok (combine (map snd els) ids, combine (map fst els) ids) /\
    length ids = length els /\ StronglySorted id_order (combine (map fst els) ids) /\ Forall (fun i => i <= N.of_nat (length els)) ids.
Proof.
  intros NE ND. destruct els as [|[w id] els].
  - exists []. repeat split; constructor.
  - inversion NE; subst. cbn [map snd] in ND. inversion ND; subst.
    destruct (mapping_loop_ok els [] 0 [(id, 0)]) as (ids & E1 & E2 & E3 & E4 & E5); auto.
    unfold createInternalMapping. cbn [mapping_loop negb andb existsb app]. rewrite E1. cbn [bind fst snd].
    exists (0 :: ids). cbn [map fst snd combine app length]. split; [reflexivity|]. split; [now rewrite E2|]. split.
    + constructor; [exact E3|]. rewrite Forall_forall in *. intros e Ie. destruct (E4 e Ie) as [A B]. split; cbn [fst snd]; [lia|].
      intros C. exfalso. assert (fst e = []) by (apply B; lia). destruct e as [v i]. apply in_combine_l in Ie.
      cbn [fst] in *. subst v. apply in_map_iff in Ie as (x & X & Y). apply (H2 x Y). exact X.
    + constructor; [lia|]. eapply Forall_impl; [|exact E5]. cbn. intros. lia.
Qed.
Lemma combine_in_lookup (keys : list N) : forall (ids : list N) k v, NoDup keys -> In (k, v) (combine keys ids) -> lookup N.eqb (combine keys ids) k = Some v.
Proof.
  induction keys as [|a keys IH]; intros [|i ids] k v ND I; cbn in I; try contradiction. inversion ND; subst. unfold lookup. cbn [combine find fst].
  destruct (N.eqb_spec a k) as [->|N].
  - destruct I as [[= ->]|I]; [reflexivity|]. exfalso. apply H1. eapply in_combine_l, I.
  - destruct I as [[= -> _]|I]; [congruence|]. exact (IH ids k v H2 I).
Qed.

(* ---- only the first of equal words is kept ---- *)
Definition same_id (a b : word * N) : bool := snd a =? snd b.
Lemma unique_ok l : forall a, StronglySorted id_order (a :: l) ->
  StronglySorted (fun x y => snd x < snd y) (a :: unique_by same_id a l) /\
  (forall e, In e (a :: l) <-> In e (a :: unique_by same_id a l)) /\
  (forall R, StronglySorted R (a :: l) -> StronglySorted R (a :: unique_by same_id a l)) /\
  (length (unique_by same_id a l) <= length l)%nat.
Proof.
  induction l as [|b l IH]; intros a S.
  - repeat split; auto; repeat constructor.
  - pose proof S as S0. apply StronglySorted_inv in S0 as [S1 F1]. inversion F1 as [|? ? [B1 B2] F2]; subst. cbn [unique_by].
    destruct (same_id a b) eqn:E; unfold same_id in E; [apply N.eqb_eq in E | apply N.eqb_neq in E].
    + assert (b = a) by (destruct a, b; cbn in *; f_equal; [symmetry; auto | congruence]). subst b.
      destruct (IH a S1) as (I1 & I2 & I3 & I4). split; [exact I1|]. split; [|split].
      * intros e. rewrite <- I2. cbn. tauto.
      * intros R SR. apply I3. apply StronglySorted_inv in SR. apply SR.
      * cbn. lia.
    + destruct (IH b S1) as (I1 & I2 & I3 & I4). split; [|split; [|split]].
      * constructor; [exact I1|]. rewrite Forall_forall. intros e Ie. apply I2 in Ie.
        destruct Ie as [<-|Ie]; [lia|]. apply StronglySorted_inv in S1 as [_ S1]. rewrite Forall_forall in S1. destruct (S1 e Ie). lia.
      * intros e. cbn [In]. cbn [In] in I2. rewrite <- I2. tauto.
      * intros R SR. apply StronglySorted_inv in SR as [SR1 SR2]. constructor; [now apply I3|]. rewrite Forall_forall in *.
        intros e Ie. apply SR2. now apply I2.
      * cbn. lia.
Qed.

(* ---- the order in which a part is sorted ---- *)
Lemma identical_iff loc a b : icu_ok loc -> identicalPred loc a b = true <->
  first_char (extractComparable (fst a)) < first_char (extractComparable (fst b)) \/
  first_char (extractComparable (fst a)) = first_char (extractComparable (fst b)) /\
  (icu_compare loc Identical (inner (extractComparable (fst a))) (inner (extractComparable (fst b))) = Lt \/
   icu_compare loc Identical (inner (extractComparable (fst a))) (inner (extractComparable (fst b))) = Eq /\
   lex_cmp (langtag (extractComparable (fst a))) (langtag (extractComparable (fst b))) = Lt).
Proof.
  intros OK. unfold identicalPred, before_transformed. rewrite less_iff. unfold compare_split, extractAndTransformComparable, transform. cbn [first_char inner langtag is_total].
  rewrite !or_else_lt. rewrite strcmp_keys by (exact OK || reflexivity). unfold locale_compare. cbn [collator].
  rewrite N.compare_lt_iff, N.compare_eq_iff.
  assert (K : icu_compare loc Identical (inner (extractComparable (fst a))) (inner (extractComparable (fst b))) = Eq ->
    lex_cmp (getSortKey loc (inner (extractComparable (fst a))) IDENTICAL) (getSortKey loc (inner (extractComparable (fst b))) IDENTICAL) = Eq).
  { unfold getSortKey. cbn [collator is_total]. rewrite !app_nil_r, <- (ok_keys loc OK). auto. }
  split.
  - intros [A|(A & [B|(B & [C|(C & D)])])]; auto. exfalso. rewrite K in D by exact B. discriminate.
  - tauto.
Qed.
Lemma before_iff loc a b : before loc a b TOTAL = true <->
  first_char (extractComparable a) < first_char (extractComparable b) \/
  first_char (extractComparable a) = first_char (extractComparable b) /\
  (icu_compare loc Identical (inner (extractComparable a)) (inner (extractComparable b)) = Lt \/
   icu_compare loc Identical (inner (extractComparable a)) (inner (extractComparable b)) = Eq /\
   (lex_cmp (langtag (extractComparable a)) (langtag (extractComparable b)) = Lt \/
    lex_cmp (langtag (extractComparable a)) (langtag (extractComparable b)) = Eq /\
    lex_cmp (inner (extractComparable a)) (inner (extractComparable b)) = Lt)).
Proof.
  unfold before. rewrite less_iff. unfold compare, compare_split, locale_compare. cbn [is_total collator].
  rewrite !or_else_lt. rewrite N.compare_lt_iff, N.compare_eq_iff. reflexivity.
Qed.
Lemma faithful_eq loc ws a b : faithful loc ws -> In a ws -> In b ws ->
  first_char (extractComparable a) = first_char (extractComparable b) ->
  icu_compare loc Identical (inner (extractComparable a)) (inner (extractComparable b)) = Eq ->
  lex_cmp (langtag (extractComparable a)) (langtag (extractComparable b)) = Eq -> a = b.
Proof.
  intros F A B E1 E2 E3. apply lex_cmp_eq in E3. eapply F; [exact A|exact B|apply split_parts| |exact E2].
  rewrite E1, E3. apply split_parts.
Qed.
Lemma first_char_eq w : first_char (extractComparable w) = first_byte w.
Proof.
  unfold extractComparable, first_byte. destruct w as [|c r]; [reflexivity|]. cbn [hd].
  destruct (_ || _); [|reflexivity]. destruct (findLiteralEnd _ _) as [[e|]|]; reflexivity.
Qed.
Lemma before_order loc ws : icu_ok loc -> faithful loc ws -> word_order (fun a b => before loc a b TOTAL) ws.
Proof.
  intros OK F. destruct (C52_sortable loc TOTAL OK) as [S1 S2 S3]. constructor; auto.
  - intros a b A B AB BA. destruct (compare loc a b TOTAL) eqn:C.
    + unfold compare, compare_split in C. rewrite !or_else_eq in C. cbn [is_total] in C. rewrite or_else_eq in C.
      destruct C as (C1 & C2 & C3 & C4). eapply faithful_eq; eauto. now apply N.compare_eq_iff.
    + unfold before in AB. rewrite C in AB. discriminate.
    + pose proof (pc_antisym _ (C52_preorder loc TOTAL OK) a b) as D. cbn in D. rewrite C in D. unfold before in BA. rewrite D in BA. discriminate.
  - intros a b L. apply before_iff. left. now rewrite !first_char_eq.
Qed.
Lemma identical_before loc ws a b : icu_ok loc -> faithful loc ws -> In (fst a) ws -> In (fst b) ws ->
  identicalPred loc a b = false -> before loc (fst a) (fst b) TOTAL = false.
Proof.
  intros OK F A B I. destruct (before loc (fst a) (fst b) TOTAL) eqn:E; [|reflexivity]. exfalso.
  pose proof E as E0. apply before_iff in E as [H|(H1 & [H|(H2 & [H|(H3 & H4)])])].
  1-3: (assert (identicalPred loc a b = true) by (apply identical_iff; tauto); congruence).
  assert (fst a = fst b) as EQ by (eapply faithful_eq; eauto). rewrite EQ in E0. destruct (C52_sortable loc TOTAL OK) as [S1 _ _]. rewrite S1 in E0. discriminate.
Qed.
