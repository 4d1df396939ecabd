(* Proofs about MultiJoin_Model.v. *)
From Coq Require Import List NArith Arith Lia Bool Sorted Permutation Morphisms.
From Coq Require Import ZifyBool ZifyN ZifyNat.
From Verif Require Import Base Std_Model Std_Proof Table_Spec Lex_Proof MultiJoin_Model.
Import ListNotations.
Open Scope N_scope.

Lemma compare_rows_spec jcs ra rb :
  compare_rows jcs ra rb = lex_cmp (cols (map fst jcs) ra) (cols (map snd jcs) rb).
Proof.
  induction jcs as [|[c d] jcs IH]; simpl; auto.
  unfold cols in *. cbn [map lex_cmp]. rewrite <- IH. clear IH.
  destruct (N.compare_spec (col c ra) (col d rb)).
  - rewrite H, N.ltb_irrefl. auto.
  - replace (col c ra <? col d rb) with true by lia. auto.
  - replace (col c ra <? col d rb) with false by lia.
    replace (col d rb <? col c ra) with true by lia. auto.
Qed.

Lemma agree_iff jcs ra rb :
  agree jcs ra rb = true <-> cols (map fst jcs) ra = cols (map snd jcs) rb.
Proof.
  induction jcs as [|[c d] jcs IH]; simpl; [intuition|].
  unfold agree in *. simpl. rewrite andb_true_iff, N.eqb_eq, IH. split.
  - intros [H1 H2]. unfold cols in *. congruence.
  - intros H. injection H. auto.
Qed.

Lemma agree_false jcs ra rb :
  agree jcs ra rb = false <-> cols (map fst jcs) ra <> cols (map snd jcs) rb.
Proof. rewrite <- agree_iff. destruct (agree jcs ra rb); intuition congruence. Qed.

Lemma rows_match_agree jcs ra rb : rows_match jcs ra rb = agree jcs ra rb.
Proof.
  induction jcs as [|[c d] jcs IH]; simpl; auto. unfold agree in *. simpl.
  destruct (col c ra =? col d rb); simpl; auto.
Qed.

Lemma take_while_ext {A} (p q : A -> bool) l : (forall x, p x = q x) -> take_while p l = take_while q l.
Proof. intros H. induction l; simpl; auto. now rewrite H, IHl. Qed.
Lemma drop_while_ext {A} (p q : A -> bool) l : (forall x, p x = q x) -> drop_while p l = drop_while q l.
Proof. intros H. induction l; simpl; auto. now rewrite H, IHl. Qed.

Section Merge.
Context (jcs : list (nat * nat)).
Notation M := (agree jcs).
Notation ka := (cols (map fst jcs)).
Notation kb := (cols (map snd jcs)).

Lemma lt_no_match ra rb : lex_lt (ka ra) (kb rb) -> M ra rb = false.
Proof. intros H. apply agree_false. intros E. rewrite E in H. now apply lex_lt_irrefl in H. Qed.
Lemma gt_no_match ra rb : lex_lt (kb rb) (ka ra) -> M ra rb = false.
Proof. intros H. apply agree_false. intros E. rewrite E in H. now apply lex_lt_irrefl in H. Qed.

(* in a sorted table the partners of a row form a run *)
Lemma filter_match_run ra sb :
  ksorted kb sb -> (forall rb, In rb sb -> lex_le (ka ra) (kb rb)) ->
  filter (M ra) sb = take_while (M ra) sb /\
  (forall rb, In rb (drop_while (M ra) sb) -> lex_lt (ka ra) (kb rb)).
Proof.
  induction sb as [|rb sb IH]; intros Hs Hle; simpl; [tauto|].
  destruct (M ra rb) eqn:E.
  - destruct IH as [IH1 IH2].
    + now apply ksorted_tail in Hs.
    + intros; apply Hle; right; auto.
    + split; [now rewrite IH1|auto].
  - assert (Hlt : forall r, In r (rb :: sb) -> lex_lt (ka ra) (kb r)).
    { intros r Hr. eapply lex_lt_le_trans; [|eapply ksorted_head; eauto].
      assert (lex_le (ka ra) (kb rb)) as H by (apply Hle; now left).
      apply lex_le_cases in H. destruct H; auto. apply agree_false in E. contradiction. }
    split; auto. apply filter_none_iff. intros r Hr. apply lt_no_match, Hlt. now right.
Qed.

Section Emit.
Context (eA eB : row -> table) (both : row -> row -> row).

Definition J1 (sa sb : table) : table :=
  flat_map (fun ra => match filter (M ra) sb with [] => eA ra | ms => map (both ra) ms end) sa.
Definition J2 (sa sb : table) : table :=
  flat_map (fun rb => if existsb (fun ra => M ra rb) sa then [] else eB rb) sb.
Definition J (sa sb : table) : table := J1 sa sb ++ J2 sa sb.

Lemma J1_app p sa sb : J1 (p ++ sa) sb = J1 p sb ++ J1 sa sb.
Proof. apply flat_map_app. Qed.

Lemma J1_skip_b sa q sb : (forall ra rb, In ra sa -> In rb q -> M ra rb = false) ->
  J1 sa (q ++ sb) = J1 sa sb.
Proof.
  intros H. apply flat_map_ext_In. intros ra Hra. rewrite filter_app.
  rewrite (filter_none_iff (M ra) q); auto.
Qed.

Lemma J2_skip_a p sa sb : (forall ra rb, In ra p -> In rb sb -> M ra rb = false) ->
  J2 (p ++ sa) sb = J2 sa sb.
Proof.
  intros H. apply flat_map_ext_In. intros rb Hrb. rewrite existsb_app.
  replace (existsb (fun ra => M ra rb) p) with false; auto.
  symmetry. apply existsb_false_iff. auto.
Qed.

Lemma J_skip_a p sa sb : (forall ra rb, In ra p -> In rb sb -> M ra rb = false) ->
  J (p ++ sa) sb = flat_map eA p ++ J sa sb.
Proof.
  intros H. unfold J. rewrite J1_app, J2_skip_a, app_assoc by auto. f_equal. f_equal.
  apply flat_map_ext_In. intros ra Hra. rewrite filter_none_iff; auto.
Qed.

Lemma J2_app sa q sb : J2 sa (q ++ sb) = J2 sa q ++ J2 sa sb.
Proof. apply flat_map_app. Qed.

Lemma J2_unmatched sa q : (forall ra rb, In ra sa -> In rb q -> M ra rb = false) ->
  J2 sa q = flat_map eB q.
Proof.
  intros H. apply flat_map_ext_In. intros rb Hrb.
  replace (existsb (fun ra => M ra rb) sa) with false; auto.
  symmetry. apply existsb_false_iff. auto.
Qed.

Lemma J_nil_l sb : J [] sb = flat_map eB sb.
Proof. reflexivity. Qed.
Lemma J_nil_r sa : J sa [] = flat_map eA sa.
Proof. unfold J, J1, J2. simpl. now rewrite app_nil_r. Qed.

(* the cross-product loop *)
Lemma cross_loop_spec sa : forall ra rb sb,
  hd_error sa = Some ra -> M ra rb = true ->
  ksorted ka sa -> ksorted kb (rb :: sb) ->
  let '(out, sa', sb') := cross_loop jcs both sa (rb :: sb) in
  J sa (rb :: sb) = out ++ J sa' sb' /\
  exists p q, p <> [] /\ sa = p ++ sa' /\ rb :: sb = q ++ sb'.
Proof.
  induction sa as [|ra0 sa IH]; intros ra rb sb Hhd HM Hsa Hsb; [discriminate|].
  simpl in Hhd. injection Hhd; intros; subst ra0. clear Hhd.
  assert (Hkey : ka ra = kb rb) by now apply agree_iff.
  assert (Hge : forall r, In r (rb :: sb) -> lex_le (ka ra) (kb r)).
  { intros r Hr. rewrite Hkey. eapply ksorted_head; eauto. }
  destruct (filter_match_run ra (rb :: sb) Hsb Hge) as [Hfil Hrest].
  cbn [take_while drop_while] in Hfil, Hrest. rewrite HM in Hfil, Hrest.
  cbn [cross_loop].
  rewrite (take_while_ext (rows_match jcs ra) (M ra)) by apply rows_match_agree.
  rewrite (drop_while_ext (rows_match jcs ra) (M ra)) by apply rows_match_agree.
  set (run := rb :: take_while (M ra) sb) in *.
  set (rest := drop_while (M ra) sb) in *.
  assert (Hdec : rb :: sb = run ++ rest) by (unfold run, rest; simpl; now rewrite take_drop_while).
  assert (Hrun : forall r, In r run -> M ra r = true).
  { intros r [<-|Hr]; auto. pose proof (take_while_all (M ra) sb) as H.
    rewrite Forall_forall in H. auto. }
  assert (Hrun2 : forall l, J2 (ra :: l) run = []).
  { intros l. apply flat_map_nil. intros r Hr. simpl. now rewrite Hrun. }
  assert (HJ1 : forall l, J1 (ra :: l) (rb :: sb) = map (both ra) run ++ J1 l (rb :: sb)).
  { intros l. unfold J1. cbn [flat_map]. rewrite Hfil. reflexivity. }
  assert (HJ2 : forall l, J2 (ra :: l) (rb :: sb) = J2 l rest).
  { intros l. rewrite Hdec, J2_app, Hrun2.
    change (ra :: l) with ([ra] ++ l). rewrite J2_skip_a; auto.
    intros x y [<-|[]] Hy. now apply lt_no_match, Hrest. }
  assert (Hskip : forall l, (forall x, In x l -> lex_lt (ka ra) (ka x)) ->
                   J1 l (rb :: sb) = J1 l rest).
  { intros l Hl. rewrite Hdec. apply J1_skip_b. intros x y Hx Hy.
    apply gt_no_match. assert (ka ra = kb y) as <- by (now apply agree_iff, Hrun). auto. }
  destruct sa as [|ra' sa].
  - split.
    + unfold J. rewrite HJ1, HJ2. simpl. now rewrite app_nil_r.
    + exists [ra], run. split; [discriminate|]. split; auto.
  - rewrite rows_match_agree. destruct (M ra' rb) eqn:E.
    + specialize (IH ra' rb sb eq_refl E (ksorted_tail _ _ _ Hsa) Hsb).
      destruct (cross_loop jcs both (ra' :: sa) (rb :: sb)) as [[out' sa''] sb''].
      destruct IH as (IHJ & p & q & Hp & Hpe & Hqe). split.
      * rewrite <- app_assoc, <- IHJ. unfold J. rewrite HJ1, <- app_assoc. f_equal. f_equal.
        apply flat_map_ext_In. intros r Hr. simpl.
        assert (ka ra = ka ra') as Hk.
        { apply agree_iff in E. congruence. }
        assert (M ra r = M ra' r) as ->.
        { destruct (M ra r) eqn:E1, (M ra' r) eqn:E2; auto.
          - apply agree_iff in E1. apply agree_false in E2. congruence.
          - apply agree_iff in E2. apply agree_false in E1. congruence. }
        destruct (M ra' r); reflexivity.
      * exists (ra :: p), q. split; [discriminate|]. split; [simpl; congruence|auto].
    + split.
      * unfold J. rewrite HJ1, HJ2, <- app_assoc. f_equal. f_equal. apply Hskip.
        intros x Hx. eapply lex_lt_le_trans; [|eapply ksorted_head; [exact (ksorted_tail _ _ _ Hsa)|exact Hx]].
        assert (lex_le (ka ra) (ka ra')) as Hle.
        { eapply ksorted_head; [exact Hsa|]. right. now left. }
        apply lex_le_cases in Hle. destruct Hle as [Hle|Hle]; auto.
        apply agree_false in E. congruence.
      * exists [ra], run. split; [discriminate|]. split; auto.
Qed.

Context (R : table -> table -> Prop) {HR : Equivalence R} {HRapp : Proper (R ==> R ==> R) (@app row)}.
Context (Rswap : forall rb l, R (l ++ eB rb) (eB rb ++ l)).

Lemma Rswap_all q l : R (l ++ flat_map eB q) (flat_map eB q ++ l).
Proof.
  revert l; induction q as [|rb q IH]; intros l; simpl.
  - rewrite app_nil_r. reflexivity.
  - rewrite app_assoc. rewrite (Rswap rb l). rewrite <- !app_assoc. now rewrite (IH l).
Qed.

Lemma J_skip_b sa q sb : (forall ra rb, In ra sa -> In rb q -> M ra rb = false) ->
  R (J sa (q ++ sb)) (flat_map eB q ++ J sa sb).
Proof.
  intros H. unfold J. rewrite J1_skip_b, J2_app, J2_unmatched by auto.
  rewrite !app_assoc. now rewrite (Rswap_all q (J1 sa sb)).
Qed.

Context (aOptional bOptional : bool) (a_empty b_empty : row -> row).
Context (HeA : forall r, eA r = if bOptional then [b_empty r] else []).
Context (HeB : forall r, eB r = if aOptional then [a_empty r] else []).

Lemma emit_a_spec l : (if bOptional then map b_empty l else []) = flat_map eA l.
Proof.
  induction l as [|x l IH]; simpl; [now destruct bOptional|].
  rewrite HeA, <- IH. now destruct bOptional.
Qed.
Lemma emit_b_spec l : (if aOptional then map a_empty l else []) = flat_map eB l.
Proof.
  induction l as [|x l IH]; simpl; [now destruct aOptional|].
  rewrite HeB, <- IH. now destruct aOptional.
Qed.

Lemma first_col_lt (c0 d0 : nat) jcs' ra rb :
  jcs = (c0, d0) :: jcs' -> col c0 ra < col d0 rb -> lex_lt (ka ra) (kb rb).
Proof.
  intros -> H. unfold lex_lt. simpl. apply N.compare_lt_iff in H. now rewrite H.
Qed.
Lemma first_col_gt (c0 d0 : nat) jcs' ra rb :
  jcs = (c0, d0) :: jcs' -> col d0 rb < col c0 ra -> lex_lt (kb rb) (ka ra).
Proof.
  intros -> H. unfold lex_lt. simpl. apply N.compare_lt_iff in H. now rewrite H.
Qed.

Lemma optional_loop_spec c0 d0 jcs' : jcs = (c0, d0) :: jcs' -> forall fuel sa sb,
  ksorted ka sa -> ksorted kb sb -> (length sa + length sb < fuel)%nat ->
  exists t, optional_loop fuel jcs aOptional bOptional a_empty b_empty both sa sb = Some t /\
    R t (J sa sb).
Proof.
  intros Hjcs. induction fuel as [|fuel IH]; intros sa sb Hsa Hsb Hf; [lia|].
  cbn [optional_loop]. unfold optional_finish.
  assert (hd (0%nat, 0%nat) jcs = (c0, d0)) as -> by now rewrite Hjcs.
  destruct sa as [|a0 sa0].
  { eexists. split; [reflexivity|]. rewrite !emit_a_spec, !emit_b_spec, J_nil_l. cbn [flat_map]. now rewrite app_nil_r. }
  destruct sb as [|b0 sb0].
  { eexists. split; [reflexivity|]. rewrite !emit_a_spec, !emit_b_spec, J_nil_r. reflexivity. }
  set (SA := a0 :: sa0) in *. set (SB := b0 :: sb0) in *.
  set (below_a := fun r => col c0 r <? col d0 b0).
  pose proof (take_drop_while below_a SA) as HtdA.
  pose proof (drop_while_head below_a SA) as HhA.
  assert (HsA : forall ra rb, In ra (take_while below_a SA) -> In rb SB -> M ra rb = false).
  { intros ra rb Hra Hrb. apply lt_no_match.
    eapply lex_lt_le_trans; [|eapply ksorted_head; [exact Hsb|exact Hrb]].
    eapply first_col_lt; [exact Hjcs|]. pose proof (take_while_all below_a SA) as H.
    rewrite Forall_forall in H. specialize (H _ Hra). unfold below_a in H. lia. }
  assert (HJA : J SA SB = flat_map eA (take_while below_a SA) ++ J (drop_while below_a SA) SB).
  { rewrite <- HtdA at 1. now apply J_skip_a. }
  destruct (drop_while below_a SA) as [|ra1 sa1'] eqn:EA.
  { eexists. split; [reflexivity|]. rewrite HJA, !emit_a_spec, !emit_b_spec, J_nil_l. cbn [flat_map]. now rewrite app_nil_r. }
  specialize (HhA _ _ eq_refl).
  set (SA1 := ra1 :: sa1') in *.
  assert (Hsa1 : ksorted ka SA1) by (eapply ksorted_app_r; rewrite HtdA; exact Hsa).
  set (below_b := fun r => col d0 r <? col c0 ra1).
  pose proof (take_drop_while below_b SB) as HtdB.
  pose proof (drop_while_head below_b SB) as HhB.
  assert (HsB : forall ra rb, In ra SA1 -> In rb (take_while below_b SB) -> M ra rb = false).
  { intros ra rb Hra Hrb. apply gt_no_match.
    eapply lex_lt_le_trans; [|eapply ksorted_head; [exact Hsa1|exact Hra]].
    eapply first_col_gt; [exact Hjcs|]. pose proof (take_while_all below_b SB) as H.
    rewrite Forall_forall in H. specialize (H _ Hrb). unfold below_b in H. lia. }
  assert (HJB : R (J SA1 SB) (flat_map eB (take_while below_b SB) ++ J SA1 (drop_while below_b SB))).
  { rewrite <- HtdB at 1. now apply J_skip_b. }
  destruct (drop_while below_b SB) as [|rb1 sb1'] eqn:EB.
  { eexists. split; [reflexivity|]. rewrite HJA, HJB, !emit_a_spec, !emit_b_spec, J_nil_r. reflexivity. }
  specialize (HhB _ _ eq_refl).
  set (SB1 := rb1 :: sb1') in *.
  assert (Hsb1 : ksorted kb SB1) by (eapply ksorted_app_r; rewrite HtdB; exact Hsb).
  set (step := match compare_rows jcs ra1 rb1 with
               | Eq => cross_loop jcs both SA1 SB1
               | Lt => (if bOptional then map b_empty [ra1] else [], sa1', SB1)
               | Gt => (if aOptional then map a_empty [rb1] else [], SA1, sb1')
               end).
  assert (Hstep : let '(out3, sa2, sb2) := step in
            R (J SA1 SB1) (out3 ++ J sa2 sb2) /\ ksorted ka sa2 /\ ksorted kb sb2 /\
            (length sa2 + length sb2 < length SA1 + length SB1)%nat).
  { unfold step. rewrite compare_rows_spec.
    destruct (lex_cmp (ka ra1) (kb rb1)) eqn:E.
    - apply lex_cmp_eq, agree_iff in E.
      pose proof (cross_loop_spec SA1 ra1 rb1 sb1' eq_refl E Hsa1 Hsb1) as HC.
      fold SB1 in HC. destruct (cross_loop jcs both SA1 SB1) as [[o s1] s2].
      destruct HC as (HC & p & q & Hp & Hpe & Hqe).
      split; [rewrite HC; reflexivity|]. split; [|split].
      + eapply ksorted_app_r. rewrite <- Hpe. exact Hsa1.
      + eapply ksorted_app_r. rewrite <- Hqe. exact Hsb1.
      + rewrite Hpe, Hqe, !app_length. destruct p; [congruence|]. simpl. lia.
    - split; [|split; [|split]].
      + change SA1 with ([ra1] ++ sa1'). rewrite J_skip_a; [rewrite emit_a_spec; reflexivity|].
        intros x y [<-|[]] Hy. apply lt_no_match.
        eapply lex_lt_le_trans; [exact E|]. eapply ksorted_head; [exact Hsb1|exact Hy].
      + eapply ksorted_tail; exact Hsa1.
      + exact Hsb1.
      + unfold SA1. simpl. lia.
    - apply lex_gt_lt in E. split; [|split; [|split]].
      + change SB1 with ([rb1] ++ sb1'). rewrite J_skip_b; [rewrite emit_b_spec; reflexivity|].
        intros x y Hx [<-|[]]. apply gt_no_match.
        eapply lex_lt_le_trans; [exact E|]. eapply ksorted_head; [exact Hsa1|exact Hx].
      + exact Hsa1.
      + eapply ksorted_tail; exact Hsb1.
      + unfold SB1. simpl. lia. }
  destruct step as [[out3 sa2] sb2]. destruct Hstep as (HJ & Hsa2 & Hsb2 & Hlen).
  destruct (IH sa2 sb2 Hsa2 Hsb2) as (t & Ht & HRt).
  { apply (f_equal (@length row)) in HtdA, HtdB. rewrite app_length in HtdA, HtdB. lia. }
  rewrite Ht. eexists. split; [reflexivity|].
  rewrite !emit_a_spec, !emit_b_spec, HJA, HJB, HJ, HRt. now rewrite !app_assoc.
Qed.
End Emit.

(* MultiColumnJoin is the same loop without optional sides. *)
Lemma multi_loop_optional both a_empty b_empty fuel : forall sa sb,
  multi_loop fuel jcs both sa sb =
  optional_loop fuel jcs false false a_empty b_empty both sa sb.
Proof.
  induction fuel as [|fuel IH]; intros sa sb; auto.
  cbn [multi_loop optional_loop]. unfold optional_finish.
  destruct (hd (0%nat, 0%nat) jcs) as [c0 d0].
  destruct sa as [|a0 sa0]; auto. destruct sb as [|b0 sb0]; auto.
  destruct (drop_while _ (a0 :: sa0)) as [|ra1 sa1]; auto.
  destruct (drop_while _ (b0 :: sb0)) as [|rb1 sb1]; auto.
  destruct (compare_rows jcs ra1 rb1); try (rewrite <- IH; reflexivity).
  destruct (cross_loop jcs both (ra1 :: sa1) (rb1 :: sb1)) as [[o s1] s2].
  rewrite <- IH. reflexivity.
Qed.

(* ---- Minus ---- *)
Definition T (sa sb : table) : table := table_minus sa sb jcs.

Lemma T_nil_r sa : T sa [] = sa.
Proof. unfold T, table_minus. simpl. induction sa; simpl; congruence. Qed.

Lemma T_skip_a p sa sb : (forall ra rb, In ra p -> In rb sb -> M ra rb = false) ->
  T (p ++ sa) sb = p ++ T sa sb.
Proof.
  intros H. unfold T, table_minus. rewrite filter_app. f_equal.
  induction p as [|x p IH]; simpl; auto.
  replace (existsb (M x) sb) with false.
  - simpl. rewrite IH; auto. intros; apply H; simpl; auto.
  - symmetry. apply existsb_false_iff. intros; apply H; simpl; auto.
Qed.

Lemma T_skip_b sa q sb : (forall ra rb, In ra sa -> In rb q -> M ra rb = false) ->
  T sa (q ++ sb) = T sa sb.
Proof.
  intros H. unfold T, table_minus. apply filter_ext_In. intros x Hx. rewrite existsb_app.
  replace (existsb (M x) q) with false; auto. symmetry. apply existsb_false_iff. auto.
Qed.

Lemma T_drop ra sa sb rb : In rb sb -> M ra rb = true -> T (ra :: sa) sb = T sa sb.
Proof.
  intros Hin HM. unfold T, table_minus. simpl.
  replace (existsb (M ra) sb) with true; auto. symmetry. apply existsb_exists. eauto.
Qed.

Lemma compare_skip_first c0 d0 jcs' ra rb : jcs = (c0, d0) :: jcs' -> col d0 rb = col c0 ra ->
  is_row_eq_skip_first jcs ra rb = lex_cmp (ka ra) (kb rb).
Proof.
  intros -> E. unfold is_row_eq_skip_first. simpl tl. rewrite compare_rows_spec. simpl.
  rewrite E, N.compare_refl. reflexivity.
Qed.

Lemma minus_equal_spec c0 d0 jcs' : jcs = (c0, d0) :: jcs' -> forall fuel sa sb,
  sa <> [] -> sb <> [] -> ksorted ka sa -> ksorted kb sb -> (length sa + length sb < fuel)%nat ->
  exists out sa' sb' f, minus_equal_loop fuel jcs sa sb = Some (out, sa', sb', f) /\
    T sa sb = out ++ T sa' sb' /\
    (exists p q, sa = p ++ sa' /\ sb = q ++ sb' /\
       (forall ra rb, hd_error sa = Some ra -> hd_error sb = Some rb ->
          col d0 rb = col c0 ra -> (0 < length p + length q)%nat)) /\
    (f = true -> sa' = [] \/ sb' = []).
Proof.
  intros Hjcs. induction fuel as [|fuel IH]; intros sa sb Ha Hb Hsa Hsb Hf; [lia|].
  cbn [minus_equal_loop].
  assert (hd (0%nat, 0%nat) jcs = (c0, d0)) as -> by now rewrite Hjcs.
  destruct sa as [|ra sa]; [congruence|]. destruct sb as [|rb sb]; [congruence|].
  destruct (col d0 rb =? col c0 ra) eqn:E0.
  2: { exists [], (ra :: sa), (rb :: sb), false. split; [reflexivity|].
       split; [reflexivity|]. split; [|discriminate]. exists [], [].
       split; [reflexivity|]. split; [reflexivity|]. simpl. intros x y Hx Hy.
       injection Hx; injection Hy; intros; subst. lia. }
  rewrite (compare_skip_first c0 d0 jcs') by (auto; lia).
  match goal with |- context [match ?m with pair _ _ => _ end] =>
    match m with context [lex_cmp] => set (step := m) end end.
  assert (Hstep : let '(out, sa1, sb1) := step in
            T (ra :: sa) (rb :: sb) = out ++ T sa1 sb1 /\ ksorted ka sa1 /\ ksorted kb sb1 /\
            (exists p q, ra :: sa = p ++ sa1 /\ rb :: sb = q ++ sb1 /\
               length p + length q = 1)%nat).
  { unfold step. destruct (lex_cmp (ka ra) (kb rb)) eqn:E.
    - split; [|split; [|split]].
      + apply (T_drop ra sa (rb :: sb) rb); [now left|]. now apply agree_iff, lex_cmp_eq.
      + eapply ksorted_tail; eauto.
      + auto.
      + exists [ra], []. auto.
    - split; [|split; [|split]].
      + apply (T_skip_a [ra]). intros x y [<-|[]] Hy. apply lt_no_match.
        eapply lex_lt_le_trans; [exact E|]. eapply ksorted_head; eauto.
      + eapply ksorted_tail; eauto.
      + auto.
      + exists [ra], []. auto.
    - apply lex_gt_lt in E. split; [|split; [|split]].
      + apply (T_skip_b (ra :: sa) [rb] sb). intros x y Hx [<-|[]]. apply gt_no_match.
        eapply lex_lt_le_trans; [exact E|]. eapply ksorted_head; eauto.
      + auto.
      + eapply ksorted_tail; eauto.
      + exists [], [rb]. auto. }
  destruct step as [[out sa1] sb1].
  destruct Hstep as (HT & Hsa1 & Hsb1 & p & q & Hp & Hq & Hpq).
  assert (Hlen : (S (length sa1 + length sb1) = length (ra :: sa) + length (rb :: sb))%nat).
  { rewrite Hp, Hq, !app_length. lia. }
  destruct sa1 as [|x sa1].
  { exists out, [], sb1, true. split; [reflexivity|]. split; [exact HT|].
    split; [|auto]. exists p, q. split; auto. split; auto. intros; lia. }
  destruct sb1 as [|y sb1].
  { exists out, (x :: sa1), [], true. split; [reflexivity|]. split; [exact HT|].
    split; [|auto]. exists p, q. split; auto. split; auto. intros; lia. }
  destruct (IH (x :: sa1) (y :: sb1)) as (o & sa2 & sb2 & f & He & HT2 & (p2 & q2 & Hp2 & Hq2 & _) & Hf2);
    auto; try discriminate; try lia.
  rewrite He. exists (out ++ o), sa2, sb2, f. split; [reflexivity|].
  split; [now rewrite HT, HT2, app_assoc|]. split; auto.
  exists (p ++ p2), (q ++ q2). rewrite <- !app_assoc, <- Hp2, <- Hq2. split; auto. split; auto.
  intros. rewrite !app_length. lia.
Qed.

Lemma minus_loop_spec c0 d0 jcs' : jcs = (c0, d0) :: jcs' -> forall fuel sa sb,
  ksorted ka sa -> ksorted kb sb -> (length sa + length sb < fuel)%nat ->
  minus_loop fuel jcs sa sb = Some (T sa sb).
Proof.
  intros Hjcs. induction fuel as [|fuel IH]; intros sa sb Hsa Hsb Hf; [lia|].
  cbn [minus_loop].
  assert (hd (0%nat, 0%nat) jcs = (c0, d0)) as -> by now rewrite Hjcs.
  destruct sa as [|a0 sa0]; [reflexivity|].
  destruct sb as [|b0 sb0]; [now rewrite T_nil_r|].
  set (SA := a0 :: sa0) in *. set (SB := b0 :: sb0) in *.
  set (below_a := fun r => col c0 r <? col d0 b0).
  pose proof (take_drop_while below_a SA) as HtdA.
  pose proof (drop_while_head below_a SA) as HhA.
  assert (HJA : T SA SB = take_while below_a SA ++ T (drop_while below_a SA) SB).
  { rewrite <- HtdA at 1. apply T_skip_a. intros ra rb Hra Hrb. apply lt_no_match.
    eapply lex_lt_le_trans; [|eapply ksorted_head; [exact Hsb|exact Hrb]].
    eapply first_col_lt; [exact Hjcs|]. pose proof (take_while_all below_a SA) as H.
    rewrite Forall_forall in H. specialize (H _ Hra). unfold below_a in H. lia. }
  destruct (drop_while below_a SA) as [|ra1 sa1'] eqn:EA.
  { rewrite HJA. simpl. now rewrite app_nil_r. }
  specialize (HhA _ _ eq_refl).
  set (SA1 := ra1 :: sa1') in *.
  assert (Hsa1 : ksorted ka SA1) by (eapply ksorted_app_r; rewrite HtdA; exact Hsa).
  set (below_b := fun r => col d0 r <? col c0 ra1).
  pose proof (take_drop_while below_b SB) as HtdB.
  pose proof (drop_while_head below_b SB) as HhB.
  assert (HJB : T SA1 SB = T SA1 (drop_while below_b SB)).
  { rewrite <- HtdB at 1. apply T_skip_b. intros ra rb Hra Hrb. apply gt_no_match.
    eapply lex_lt_le_trans; [|eapply ksorted_head; [exact Hsa1|exact Hra]].
    eapply first_col_gt; [exact Hjcs|]. pose proof (take_while_all below_b SB) as H.
    rewrite Forall_forall in H. specialize (H _ Hrb). unfold below_b in H. lia. }
  destruct (drop_while below_b SB) as [|rb1 sb1'] eqn:EB.
  { rewrite HJA, HJB, T_nil_r. reflexivity. }
  specialize (HhB _ _ eq_refl).
  set (SB1 := rb1 :: sb1') in *.
  assert (Hsb1 : ksorted kb SB1) by (eapply ksorted_app_r; rewrite HtdB; exact Hsb).
  assert (HlA : (length SA1 <= length SA)%nat).
  { apply (f_equal (@length row)) in HtdA. rewrite app_length in HtdA. lia. }
  assert (HlB : (length SB1 <= length SB)%nat).
  { apply (f_equal (@length row)) in HtdB. rewrite app_length in HtdB. lia. }
  destruct (minus_equal_spec c0 d0 jcs' Hjcs (S (length SA + length SB)) SA1 SB1)
    as (out & sa2 & sb2 & f & He & HT & (p & q & Hp & Hq & Hprog) & Hf2);
    auto; try discriminate; try lia.
  rewrite He. destruct f.
  - rewrite HJA, HJB, HT. destruct (Hf2 eq_refl) as [->| ->]; [reflexivity|].
    now rewrite T_nil_r.
  - rewrite IH.
    + cbn [option_map]. now rewrite HJA, HJB, HT.
    + eapply ksorted_app_r. rewrite <- Hp. exact Hsa1.
    + eapply ksorted_app_r. rewrite <- Hq. exact Hsb1.
    + assert (L1 : length SA1 = (length p + length sa2)%nat) by (rewrite Hp; apply app_length).
      assert (L2 : length SB1 = (length q + length sb2)%nat) by (rewrite Hq; apply app_length).
      destruct (N.eq_dec (col d0 rb1) (col c0 ra1)) as [Eq|Ne].
      * specialize (Hprog ra1 rb1 eq_refl eq_refl Eq). lia.
      * apply (f_equal (@length row)) in HtdA, HtdB. rewrite app_length in HtdA, HtdB.
        destruct (below_a a0) eqn:C.
        -- assert (take_while below_a SA <> []) by (unfold SA; simpl; rewrite C; discriminate).
           destruct (take_while below_a SA) as [|r l]; [congruence|]. change (length (r :: l)) with (S (length l)) in HtdA. lia.
        -- assert (a0 = ra1) as -> by (unfold SA in EA; simpl in EA; rewrite C in EA; unfold SA1 in *; congruence).
           assert (take_while below_b SB <> []).
           { unfold SB. simpl. destruct (below_b b0) eqn:C2; [discriminate|].
             unfold SB in EB. simpl in EB. rewrite C2 in EB. injection EB; intros; subst.
             unfold below_a, below_b in *. lia. }
           destruct (take_while below_b SB) as [|r l]; [congruence|].
           change (length (r :: l)) with (S (length l)) in HtdB. lia.
Qed.
End Merge.
