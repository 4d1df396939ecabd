(* Engine.h filter, and the top-level statements about MultiJoin_Model.v. *)
From Coq Require Import List NArith Arith Lia Bool Sorted Permutation Morphisms.
From Coq Require Import ZifyBool ZifyN ZifyNat.
From Verif Require Import Base Std_Model Std_Proof Table_Spec Lex_Proof MultiJoin_Model MultiJoin_Proof.
Import ListNotations.
Open Scope N_scope.

Section Filter.
Context (fc1 fc2 : nat).
Let jcs := [(fc1, 0%nat); (fc2, 1%nat)].
Notation M := (agree jcs).
Notation ka := (cols (map fst jcs)).
Notation kb := (cols (map snd jcs)).

Definition Semi (sa sb : table) : table := filter (fun ra => existsb (M ra) sb) sa.

Lemma Semi_skip_a p sa sb : (forall ra rb, In ra p -> In rb sb -> M ra rb = false) ->
  Semi (p ++ sa) sb = Semi sa sb.
Proof.
  intros H. unfold Semi. rewrite filter_app. rewrite (filter_none_iff _ p); auto.
  intros x Hx. apply existsb_false_iff. auto.
Qed.
Lemma Semi_skip_b sa q sb : (forall ra rb, In ra sa -> In rb q -> M ra rb = false) ->
  Semi sa (q ++ sb) = Semi sa sb.
Proof.
  intros H. unfold Semi. apply filter_ext_In. intros x Hx. rewrite existsb_app.
  replace (existsb (M x) q) with false; auto. symmetry. apply existsb_false_iff. auto.
Qed.
Lemma Semi_keep ra sa sb rb : In rb sb -> M ra rb = true -> Semi (ra :: sa) sb = ra :: Semi sa sb.
Proof.
  intros Hin HM. unfold Semi. simpl.
  replace (existsb (M ra) sb) with true; auto. symmetry. apply existsb_exists. eauto.
Qed.
Lemma Semi_nil_r sa : Semi sa [] = [].
Proof. unfold Semi. now apply filter_none_iff. Qed.

Lemma lex2 a b c d : lex_cmp [a; b] [c; d] =
  if a =? c then if b =? d then Eq else if b <? d then Lt else Gt
  else if a <? c then Lt else Gt.
Proof.
  simpl. destruct (N.compare_spec a c), (N.compare_spec b d);
    repeat match goal with |- context [?x =? ?y] => destruct (N.eqb_spec x y) | |- context [?x <? ?y] => destruct (N.ltb_spec x y) end; try lia; auto.
Qed.

Lemma filter_equal_spec : forall fuel sa sb,
  sa <> [] -> sb <> [] -> ksorted ka sa -> ksorted kb sb -> (length sa + length sb < fuel)%nat ->
  exists out sa' sb', filter_equal_loop fuel fc1 fc2 sa sb = Some (out, sa', sb') /\
    Semi sa sb = out ++ Semi sa' sb' /\
    (exists p q, sa = p ++ sa' /\ sb = q ++ sb' /\
       (forall ra rb, hd_error sa = Some ra -> hd_error sb = Some rb ->
          col fc1 ra = col 0 rb -> (0 < length p + length q)%nat)).
Proof.
  induction fuel as [|fuel IH]; intros sa sb Ha Hb Hsa Hsb Hf; [lia|].
  cbn [filter_equal_loop].
  destruct sa as [|ra sa]; [congruence|]. destruct sb as [|rb sb]; [congruence|].
  destruct (col fc1 ra =? col 0 rb) eqn:E0.
  2: { exists [], (ra :: sa), (rb :: sb). split; [reflexivity|].
       split; [reflexivity|]. exists [], [].
       split; [reflexivity|]. split; [reflexivity|]. simpl. intros x y Hx Hy.
       injection Hx; injection Hy; intros; subst. lia. }
  match goal with |- context [match ?m with pair _ _ => _ end] =>
    match m with context [col fc2 ra =? col 1 rb] => set (step := m) end end.
  assert (Hstep : let '(out, sa1, sb1) := step in
            Semi (ra :: sa) (rb :: sb) = out ++ Semi sa1 sb1 /\ ksorted ka sa1 /\ ksorted kb sb1 /\
            (exists p q, ra :: sa = p ++ sa1 /\ rb :: sb = q ++ sb1 /\
               length p + length q = 1)%nat).
  { unfold step. destruct (lex_cmp (ka ra) (kb rb)) eqn:E; pose proof E as E';
      unfold jcs, cols in E; cbn [map fst snd] in E; rewrite lex2, E0 in E.
    - destruct (col fc2 ra =? col 1 rb); [|destruct (col fc2 ra <? col 1 rb); discriminate].
      split; [|split; [|split]].
      + apply (Semi_keep ra sa (rb :: sb) rb); [now left|]. now apply agree_iff, lex_cmp_eq.
      + eapply ksorted_tail; eauto.
      + auto.
      + exists [ra], []. auto.
    - destruct (col fc2 ra =? col 1 rb); [discriminate|]. destruct (col fc2 ra <? col 1 rb); [|discriminate].
      split; [|split; [|split]].
      + apply (Semi_skip_a [ra]). intros x y [<-|[]] Hy. apply lt_no_match.
        eapply lex_lt_le_trans; [exact E'|]. eapply ksorted_head; eauto.
      + eapply ksorted_tail; eauto.
      + auto.
      + exists [ra], []. auto.
    - destruct (col fc2 ra =? col 1 rb); [discriminate|]. destruct (col fc2 ra <? col 1 rb); [discriminate|].
      apply lex_gt_lt in E'. split; [|split; [|split]].
      + apply (Semi_skip_b (ra :: sa) [rb] sb). intros x y Hx [<-|[]]. apply gt_no_match.
        eapply lex_lt_le_trans; [exact E'|]. eapply ksorted_head; eauto.
      + auto.
      + eapply ksorted_tail; eauto.
      + exists [], [rb]. auto. }
  destruct step as [[out sa1] sb1].
  destruct Hstep as (HT & Hsa1 & Hsb1 & p & q & Hp & Hq & Hpq).
  assert (Hlen : (S (length sa1 + length sb1) = length (ra :: sa) + length (rb :: sb))%nat).
  { rewrite Hp, Hq, !app_length. lia. }
  destruct sa1 as [|x sa1].
  { exists out, [], sb1. split; [reflexivity|]. split; [exact HT|].
    exists p, q. split; auto. split; auto. intros; lia. }
  destruct sb1 as [|y sb1].
  { exists out, (x :: sa1), []. split; [reflexivity|]. split; [exact HT|].
    exists p, q. split; auto. split; auto. intros; lia. }
  destruct (IH (x :: sa1) (y :: sb1)) as (o & sa2 & sb2 & He & HT2 & (p2 & q2 & Hp2 & Hq2 & _));
    auto; try discriminate; try lia.
  rewrite He. exists (out ++ o), sa2, sb2. split; [reflexivity|].
  split; [now rewrite HT, HT2, app_assoc|].
  exists (p ++ p2), (q ++ q2). rewrite <- !app_assoc, <- Hp2, <- Hq2. split; auto. split; auto.
  intros. rewrite !app_length. lia.
Qed.

Lemma filter_loop_spec : forall fuel sa sb,
  ksorted ka sa -> ksorted kb sb -> (length sa + length sb < fuel)%nat ->
  filter_loop fuel fc1 fc2 sa sb = Some (Semi sa sb).
Proof.
  assert (Hjcs : jcs = (fc1, 0%nat) :: [(fc2, 1%nat)]) by reflexivity.
  induction fuel as [|fuel IH]; intros sa sb Hsa Hsb Hf; [lia|].
  cbn [filter_loop].
  destruct sa as [|a0 sa0]; [reflexivity|].
  destruct sb as [|b0 sb0]; [now rewrite Semi_nil_r|].
  set (SA := a0 :: sa0) in *. set (SB := b0 :: sb0) in *.
  set (below_a := fun r => col fc1 r <? col 0 b0).
  pose proof (take_drop_while below_a SA) as HtdA.
  pose proof (drop_while_head below_a SA) as HhA.
  assert (HJA : Semi SA SB = Semi (drop_while below_a SA) SB).
  { rewrite <- HtdA at 1. apply Semi_skip_a. intros ra rb Hra Hrb. apply lt_no_match.
    eapply lex_lt_le_trans; [|eapply ksorted_head; [exact Hsb|exact Hrb]].
    eapply first_col_lt; [exact Hjcs|]. pose proof (take_while_all below_a SA) as H.
    rewrite Forall_forall in H. specialize (H _ Hra). unfold below_a in H. lia. }
  destruct (drop_while below_a SA) as [|ra1 sa1'] eqn:EA.
  { now rewrite HJA. }
  specialize (HhA _ _ eq_refl).
  set (SA1 := ra1 :: sa1') in *.
  assert (Hsa1 : ksorted ka SA1) by (eapply ksorted_app_r; rewrite HtdA; exact Hsa).
  set (below_b := fun r => col 0 r <? col fc1 ra1).
  pose proof (take_drop_while below_b SB) as HtdB.
  pose proof (drop_while_head below_b SB) as HhB.
  assert (HJB : Semi SA1 SB = Semi SA1 (drop_while below_b SB)).
  { rewrite <- HtdB at 1. apply Semi_skip_b. intros ra rb Hra Hrb. apply gt_no_match.
    eapply lex_lt_le_trans; [|eapply ksorted_head; [exact Hsa1|exact Hra]].
    eapply first_col_gt; [exact Hjcs|]. pose proof (take_while_all below_b SB) as H.
    rewrite Forall_forall in H. specialize (H _ Hrb). unfold below_b in H. lia. }
  destruct (drop_while below_b SB) as [|rb1 sb1'] eqn:EB.
  { now rewrite HJA, HJB, Semi_nil_r. }
  specialize (HhB _ _ eq_refl).
  set (SB1 := rb1 :: sb1') in *.
  assert (Hsb1 : ksorted kb SB1) by (eapply ksorted_app_r; rewrite HtdB; exact Hsb).
  assert (HlA : (length SA1 <= length SA)%nat).
  { apply (f_equal (@length row)) in HtdA. rewrite app_length in HtdA. lia. }
  assert (HlB : (length SB1 <= length SB)%nat).
  { apply (f_equal (@length row)) in HtdB. rewrite app_length in HtdB. lia. }
  destruct (filter_equal_spec (S (length SA + length SB)) SA1 SB1)
    as (out & sa2 & sb2 & He & HT & (p & q & Hp & Hq & Hprog));
    auto; try discriminate; try lia.
  rewrite He, IH.
  - cbn [option_map]. now rewrite HJA, HJB, HT.
  - eapply ksorted_app_r. rewrite <- Hp. exact Hsa1.
  - eapply ksorted_app_r. rewrite <- Hq. exact Hsb1.
  - assert (L1 : length SA1 = (length p + length sa2)%nat) by (rewrite Hp; apply app_length).
    assert (L2 : length SB1 = (length q + length sb2)%nat) by (rewrite Hq; apply app_length).
    destruct (N.eq_dec (col fc1 ra1) (col 0 rb1)) as [Eq|Ne].
    + specialize (Hprog ra1 rb1 eq_refl eq_refl Eq). lia.
    + apply (f_equal (@length row)) in HtdA, HtdB. rewrite app_length in HtdA, HtdB.
      destruct (below_a a0) eqn:C.
      * assert (take_while below_a SA <> []) by (unfold SA; simpl; rewrite C; discriminate).
        destruct (take_while below_a SA) as [|r l]; [congruence|].
        change (length (r :: l)) with (S (length l)) in HtdA. lia.
      * assert (a0 = ra1) as -> by (unfold SA in EA; simpl in EA; rewrite C in EA; unfold SA1 in *; congruence).
        assert (take_while below_b SB <> []).
        { unfold SB. simpl. destruct (below_b b0) eqn:C2; [discriminate|].
          unfold SB in EB. simpl in EB. rewrite C2 in EB. injection EB; intros; subst.
          unfold below_a, below_b in *. lia. }
        destruct (take_while below_b SB) as [|r l]; [congruence|].
        change (length (r :: l)) with (S (length l)) in HtdB. lia.
Qed.
End Filter.

Lemma engine_filter_spec v fc1 fc2 f :
  sorted_lex [fc1; fc2] v -> sorted_lex [0%nat; 1%nat] f ->
  engine_filter v fc1 fc2 f =
    Some (filter (fun r => existsb (agree [(fc1, 0%nat); (fc2, 1%nat)] r) f) v).
Proof.
  intros Hv Hf. apply sorted_lex_ksorted in Hv, Hf. unfold engine_filter.
  destruct v as [|v0 v]; [reflexivity|]. destruct f as [|f0 f].
  { rewrite filter_none_iff; auto. }
  rewrite filter_loop_spec; auto.
Qed.

Lemma compute_minus_spec a b jcs : jcs <> [] ->
  sorted_lex (map fst jcs) a -> sorted_lex (map snd jcs) b ->
  compute_minus a b jcs = Some (table_minus a b jcs).
Proof.
  intros Hj Ha Hb. apply sorted_lex_ksorted in Ha, Hb. unfold compute_minus.
  destruct a as [|a0 a]; [reflexivity|]. destruct b as [|b0 b].
  { pose proof (T_nil_r jcs (a0 :: a)) as HT. unfold T in HT. now rewrite HT. }
  destruct jcs as [|[c d] jcs]; [congruence|].
  rewrite (minus_loop_spec ((c, d) :: jcs) c d jcs); auto.
Qed.

(* ---- rows of the results ---- *)
Lemma bitmap_testbit cs m c : bitmap cs = Some m -> N.testbit m (N.of_nat c) = existsb (Nat.eqb c) cs.
Proof.
  unfold bitmap. destruct forallb; [|discriminate]. intros H.
  match type of H with Some ?x = _ => assert (m = x) as -> by congruence end. clear H.
  rewrite <- (orb_false_l (existsb _ cs)). rewrite <- (N.bits_0 (N.of_nat c)).
  generalize 0 as z. induction cs as [|x cs IH]; intros z; cbn [fold_left existsb]; [now rewrite orb_false_r|].
  rewrite IH, N.lor_spec, orb_assoc. f_equal. f_equal.
  rewrite N.shiftl_1_l. destruct (Nat.eqb_spec c x).
  - subst. apply N.pow2_bits_true.
  - apply N.pow2_bits_false. lia.
Qed.

Lemma bit_unset_testbit m c : bit_unset m c = negb (N.testbit m (N.of_nat c)).
Proof.
  unfold bit_unset. rewrite N.shiftl_1_l.
  destruct (N.testbit m (N.of_nat c)) eqn:E; simpl.
  - apply N.eqb_neq. intros H. assert (N.testbit (N.land m (2 ^ N.of_nat c)) (N.of_nat c) = true).
    { now rewrite N.land_spec, E, N.pow2_bits_true. }
    rewrite H, N.bits_0 in H0. discriminate.
  - apply N.eqb_eq. apply N.bits_inj. intros i. rewrite N.land_spec, N.bits_0.
    rewrite N.pow2_bits_eqb. destruct (N.eqb_spec (N.of_nat c) i).
    + subst. now rewrite E.
    + apply andb_false_r.
Qed.

Lemma rest_of_b_spec cs m wb rb : bitmap cs = Some m -> length rb = wb ->
  rest_of_b wb m rb = drop_cols cs rb.
Proof.
  intros Hm Hl. unfold rest_of_b, drop_cols. rewrite Hl. f_equal. apply filter_ext.
  intros c. now rewrite bit_unset_testbit, (bitmap_testbit cs m c Hm).
Qed.

Lemma bitmap_defined cs : (forall c, In c cs -> c < 32)%nat -> exists m, bitmap cs = Some m.
Proof.
  intros H. unfold bitmap. replace (forallb _ cs) with true; [eauto|].
  symmetry. apply forallb_forall. intros c Hc. apply Nat.ltb_lt. auto.
Qed.

Lemma a_to_b_spec jcs c : NoDup (map fst jcs) ->
  forall p, find (fun p => Nat.eqb (fst p) c) jcs = Some p -> a_to_b jcs c = snd p.
Proof.
  unfold a_to_b. generalize 0%nat as z. induction jcs as [|[x y] jcs IH]; intros z Hnd p Hf; simpl in *; [discriminate|].
  inversion Hnd as [|? ? Hni Hnd']; subst.
  destruct (Nat.eqb_spec x c).
  - injection Hf; intros <-. subst x. simpl. clear -Hni.
    revert y. induction jcs as [|[x' y'] jcs IH]; intros y; simpl; auto.
    simpl in Hni. destruct (Nat.eqb_spec x' c); [exfalso; apply Hni; auto|]. apply IH. tauto.
  - auto.
Qed.

Lemma row_a_empty_spec wa wb m_a m_b jcs rb :
  bitmap (map fst jcs) = Some m_a -> bitmap (map snd jcs) = Some m_b ->
  NoDup (map fst jcs) -> length rb = wb ->
  row_a_empty wa wb m_a m_b jcs rb = right_only_row wa jcs rb.
Proof.
  intros Ha Hb Hnd Hl. unfold row_a_empty, right_only_row.
  rewrite (rest_of_b_spec _ _ _ _ Hb Hl). f_equal. apply map_ext. intros c.
  rewrite bit_unset_testbit, (bitmap_testbit _ _ c Ha).
  destruct (find (fun p => Nat.eqb (fst p) c) jcs) as [p|] eqn:E.
  - rewrite (a_to_b_spec jcs c Hnd p E).
    replace (existsb (Nat.eqb c) (map fst jcs)) with true; auto. symmetry.
    apply existsb_exists. apply find_some in E. destruct E as [Hin He].
    exists (fst p). split; [now apply in_map|]. rewrite Nat.eqb_sym. auto.
  - replace (existsb (Nat.eqb c) (map fst jcs)) with false; auto. symmetry.
    apply existsb_false_iff. intros x Hx. apply in_map_iff in Hx. destruct Hx as (p & <- & Hp).
    rewrite Nat.eqb_sym. apply (find_none _ _ E p Hp).
Qed.

Definition widths (w : nat) (t : table) : Prop := forall r, In r t -> length r = w.

Lemma J_ext jcs eA eA' eB eB' both both' a b :
  (forall r, In r a -> eA r = eA' r) -> (forall r, In r b -> eB r = eB' r) ->
  (forall r s, In r a -> In s b -> both r s = both' r s) ->
  J jcs eA eB both a b = J jcs eA' eB' both' a b.
Proof.
  intros H1 H2 H3. unfold J, J1, J2. f_equal; apply flat_map_ext_In.
  - intros ra Hra.
    assert (forall s, In s (filter (agree jcs ra) b) -> both ra s = both' ra s).
    { intros s Hs. apply filter_In in Hs. apply H3; tauto. }
    destruct (filter (agree jcs ra) b); auto. now apply map_ext_in.
  - intros rb Hrb. destruct existsb; auto.
Qed.

Lemma small_forallb n m : (n <= 32 -> m <= 32 ->
  forallb (fun c => Nat.ltb c 32) (seq 0 n ++ seq 0 m) = true)%nat.
Proof.
  intros. apply forallb_forall. intros c Hc. apply in_app_or in Hc.
  apply Nat.ltb_lt. rewrite !in_seq in Hc. lia.
Qed.

Definition emA (wb : nat) (jcs : list (nat * nat)) (bOpt : bool) (ra : row) : table :=
  if bOpt then [ra ++ repeat UNBOUND (wb - length jcs)] else [].
Definition emB (wa : nat) (jcs : list (nat * nat)) (aOpt : bool) (rb : row) : table :=
  if aOpt then [right_only_row wa jcs rb] else [].
Definition comb (jcs : list (nat * nat)) (ra rb : row) : row := ra ++ drop_cols (map snd jcs) rb.

Section Optional.
Context (wa wb : nat) (jcs : list (nat * nat)).
Context (Hwa : (wa <= 32)%nat) (Hwb : (wb <= 32)%nat).
Context (Hja : forall c, In c (map fst jcs) -> (c < wa)%nat).
Context (Hjb : forall c, In c (map snd jcs) -> (c < wb)%nat).
Context (Hnd1 : NoDup (map fst jcs)) (Hnd2 : NoDup (map snd jcs)) (Hne : jcs <> []).

Lemma jcs_le_wb : (length jcs <= wb)%nat.
Proof.
  rewrite <- (map_length snd jcs), <- (seq_length wb 0). apply NoDup_incl_length; auto.
  intros c Hc. apply in_seq. specialize (Hjb c Hc). lia.
Qed.

Lemma optional_join_spec (R : table -> table -> Prop) {HR : Equivalence R}
  {HRapp : Proper (R ==> R ==> R) (@app row)} (aOpt bOpt : bool) (a b : table) :
  (forall rb l, R (l ++ (if aOpt then [rb] else [] : table)) ((if aOpt then [rb] else [] : table) ++ l)) ->
  widths wa a -> widths wb b ->
  sorted_lex (map fst jcs) a -> sorted_lex (map snd jcs) b ->
  exists t, optional_join wa wb a b aOpt bOpt jcs = Some t /\
    R t (J jcs (emA wb jcs bOpt) (emB wa jcs aOpt) (comb jcs) a b).
Proof.
  intros Rswap Ha Hb Hsa Hsb. apply sorted_lex_ksorted in Hsa, Hsb.
  destruct (bitmap_defined (map fst jcs)) as [m_a Hma]; [intros c Hc; specialize (Hja c Hc); lia|].
  destruct (bitmap_defined (map snd jcs)) as [m_b Hmb]; [intros c Hc; specialize (Hjb c Hc); lia|].
  pose proof jcs_le_wb as Hlen.
  set (wres := (wa + wb - length jcs)%nat).
  assert (Hbe : forall r, row_b_empty wa wres r = r ++ repeat UNBOUND (wb - length jcs)).
  { intros r. unfold row_b_empty. f_equal. f_equal. unfold wres. lia. }
  assert (Hae : forall r, In r b -> row_a_empty wa wb m_a m_b jcs r = right_only_row wa jcs r).
  { intros r Hr. apply row_a_empty_spec; auto. }
  assert (Hboth : forall r s, In s b -> row_both wb m_b r s = comb jcs r s).
  { intros r s Hs. unfold row_both, comb. f_equal. apply rest_of_b_spec; auto. }
  pose proof (small_forallb wa wb Hwa Hwb) as Hsmall.
  set (eB' := fun rb : row => if aOpt then [row_a_empty wa wb m_a m_b jcs rb] else [] : table).
  set (eA' := fun ra : row => if bOpt then [row_b_empty wa wres ra] else [] : table).
  assert (HJ : J jcs eA' eB' (row_both wb m_b) a b = J jcs (emA wb jcs bOpt) (emB wa jcs aOpt) (comb jcs) a b).
  { apply J_ext.
    - intros r _. unfold eA', emA. destruct bOpt; auto. now rewrite Hbe.
    - intros r Hr. unfold eB', emB. destruct aOpt; auto. now rewrite Hae.
    - auto. }
  rewrite <- HJ. unfold optional_join. rewrite Hma, Hmb, Hsmall. fold wres.
  destruct a as [|a0 a], b as [|b0 b].
  - exists []. split; [reflexivity|]. reflexivity.
  - rewrite J_nil_l. unfold eB'. destruct aOpt.
    + eexists. split; [reflexivity|].
      replace (flat_map _ _) with (map (row_a_empty wa wb m_a m_b jcs) (b0 :: b)); [reflexivity|].
      clear. induction (b0 :: b); simpl; congruence.
    + exists []. split; [reflexivity|]. rewrite flat_map_nil; auto. reflexivity.
  - rewrite J_nil_r. unfold eA'. destruct bOpt.
    + destruct aOpt; (eexists; split; [reflexivity|]);
      (replace (flat_map _ _) with (map (row_b_empty wa wres) (a0 :: a)); [reflexivity|];
       clear; induction (a0 :: a); simpl; congruence).
    + destruct aOpt; exists []; (split; [reflexivity|]); rewrite flat_map_nil; auto; reflexivity.
  - assert (exists c d j', jcs = (c, d) :: j') as (c & d & j' & Hj).
    { clear -Hne. destruct jcs as [|[c d] j']; [congruence|eauto]. }
    assert (HH : exists t, optional_loop (S (length (a0 :: a) + length (b0 :: b))) jcs aOpt bOpt
              (row_a_empty wa wb m_a m_b jcs) (row_b_empty wa wres) (row_both wb m_b) (a0 :: a) (b0 :: b) = Some t
              /\ R t (J jcs eA' eB' (row_both wb m_b) (a0 :: a) (b0 :: b))).
    { eapply optional_loop_spec; eauto. }
    destruct aOpt, bOpt; exact HH.
Qed.

Lemma left_outer_join_spec a b :
  widths wa a -> widths wb b ->
  sorted_lex (map fst jcs) a -> sorted_lex (map snd jcs) b ->
  optional_join wa wb a b false true jcs = Some (left_outer_join a b jcs (wb - length jcs)).
Proof.
  intros. destruct (optional_join_spec eq false true a b) as (t & Ht & HR); auto.
  { intros. now rewrite app_nil_r. }
  rewrite Ht, HR. unfold J, J2, emB. rewrite (flat_map_nil _ b); [|intros; now destruct existsb].
  rewrite app_nil_r. reflexivity.
Qed.

Lemma J2_map aOpt a b : J2 jcs (emB wa jcs aOpt) a b =
  if aOpt then map (right_only_row wa jcs) (unmatched_right a b jcs) else [].
Proof.
  unfold J2, emB, unmatched_right. destruct aOpt.
  - induction b as [|b0 b IH]; simpl; auto. rewrite IH. now destruct existsb.
  - apply flat_map_nil. intros. now destruct existsb.
Qed.

Lemma outer_join_spec aOpt bOpt a b :
  widths wa a -> widths wb b ->
  sorted_lex (map fst jcs) a -> sorted_lex (map snd jcs) b ->
  exists t, optional_join wa wb a b aOpt bOpt jcs = Some t /\
    Permutation t ((if bOpt then left_outer_join a b jcs (wb - length jcs) else multi_join a b jcs)
                   ++ (if aOpt then map (right_only_row wa jcs) (unmatched_right a b jcs) else [])).
Proof.
  intros. destruct (optional_join_spec (@Permutation row) aOpt bOpt a b) as (t & Ht & HR); auto.
  { intros. apply Permutation_app_comm. }
  exists t. split; auto. rewrite HR. unfold J. rewrite J2_map. apply Permutation_app_tail.
  unfold J1, emA. destruct bOpt; [reflexivity|]. unfold multi_join.
  erewrite flat_map_ext_In; [reflexivity|]. intros ra _. simpl. now destruct filter.
Qed.
End Optional.

Lemma multi_column_join_spec wb jcs a b :
  (wb <= 32)%nat -> (forall c, In c (map snd jcs) -> (c < wb)%nat) -> jcs <> [] ->
  widths wb b ->
  sorted_lex (map fst jcs) a -> sorted_lex (map snd jcs) b ->
  multi_column_join wb a b jcs = Some (multi_join a b jcs).
Proof.
  intros Hwb Hjb Hne Hb Hsa Hsb. apply sorted_lex_ksorted in Hsa, Hsb.
  destruct (bitmap_defined (map snd jcs)) as [m_b Hmb]; [intros c Hc; specialize (Hjb c Hc); lia|].
  unfold multi_column_join. rewrite Hmb.
  replace (forallb _ (seq 0 wb)) with true by (symmetry; apply (small_forallb 0 wb); lia).
  destruct a as [|a0 a]; [reflexivity|].
  destruct b as [|b0 b].
  { f_equal. unfold multi_join. symmetry. apply flat_map_nil. reflexivity. }
  rewrite (multi_loop_optional jcs (row_both wb m_b) (fun r => r) (fun r => r)).
  destruct jcs as [|[c d] j'] eqn:Hj; [congruence|]. rewrite <- Hj in *.
  destruct (optional_loop_spec jcs (fun _ => []) (fun _ => []) (row_both wb m_b) eq
    ltac:(intros; now rewrite app_nil_r) false false (fun r => r) (fun r => r)
    ltac:(reflexivity) ltac:(reflexivity) c d j' Hj
    (S (length (a0 :: a) + length (b0 :: b))) (a0 :: a) (b0 :: b)) as (t & Ht & HR); auto.
  rewrite Ht, HR. f_equal.
  rewrite (J_ext jcs _ (fun _ => []) _ (fun _ => []) _ (comb jcs)); auto.
  - unfold J, J2. rewrite (flat_map_nil _ (b0 :: b)); [|intros; now destruct existsb].
    rewrite app_nil_r. unfold J1, multi_join. apply flat_map_ext_In. intros ra _.
    now destruct filter.
  - intros r s _ Hs. unfold row_both, comb. f_equal. apply rest_of_b_spec; auto.
Qed.

(* ---- sortedness of the results on the left join columns ---- *)
Lemma cols_app cs r s : (forall c, In c cs -> c < length r)%nat -> cols cs (r ++ s) = cols cs r.
Proof.
  intros H. apply map_ext_in. intros c Hc. unfold col. now apply app_nth1, H.
Qed.

Lemma flat_map_ksorted (k k' : row -> list N) f (t : table) : ksorted k t ->
  (forall r s, In r t -> In s (f r) -> k' s = k r) -> ksorted k' (flat_map f t).
Proof.
  induction t as [|r t IH]; intros Hs H; simpl; [constructor|].
  apply ksorted_app.
  - assert (Hf : forall s, In s (f r) -> k' s = k r) by (intros; apply H; simpl; auto).
    clear -Hf. induction (f r) as [|x l IHl]; [constructor|].
    constructor; [apply IHl; intros; apply Hf; now right|].
    apply Forall_forall. intros y Hy. rewrite !Hf by (simpl; auto). apply lex_le_refl.
  - apply IH; [now apply ksorted_tail in Hs|]. intros; eapply H; simpl; eauto.
  - intros x y Hx Hy. apply in_flat_map in Hy. destruct Hy as (r' & Hr' & Hy).
    rewrite (H r x) by (simpl; auto). rewrite (H r' y) by (simpl; auto).
    eapply ksorted_head; [exact Hs|]. now right.
Qed.

Ltac inv_some H :=
  match type of H with Some ?x = Some ?y => let E := fresh in assert (E : y = x) by congruence;
    rewrite E; clear H E end.

Section OptionalSorted.
Context (jcs : list (nat * nat)).
Notation M := (agree jcs).
Notation ka := (cols (map fst jcs)).
Notation kb := (cols (map snd jcs)).
Context (aOptional bOptional : bool) (a_empty b_empty : row -> row) (both : row -> row -> row).
Context (PA PB : row -> Prop).
Context (Kb : forall ra, PA ra -> ka (b_empty ra) = ka ra).
Context (Ka : forall rb, PB rb -> ka (a_empty rb) = kb rb).
Context (Kboth : forall ra rb, PA ra -> PB rb -> ka (both ra rb) = ka ra).

Lemma map_ksorted (f k : row -> list N) (g : row -> row) t :
  ksorted k t -> (forall r, In r t -> f (g r) = k r) -> ksorted f (map g t).
Proof.
  intros Hs H. replace (map g t) with (flat_map (fun r => [g r]) t).
  - eapply flat_map_ksorted; [exact Hs|]. intros r s Hr [<-|[]]. auto.
  - clear. induction t; simpl; congruence.
Qed.

Lemma const_ksorted (f : row -> list N) x t : (forall r, In r t -> f r = x) -> ksorted f t.
Proof.
  intros H. induction t as [|r t IH]; constructor; [apply IH; intros; apply H; now right|].
  apply Forall_forall. intros y Hy. rewrite !H by (simpl; auto). apply lex_le_refl.
Qed.

Lemma cross_loop_keys sa : forall rb sb ra,
  hd_error sa = Some ra -> M ra rb = true -> Forall PA sa -> Forall PB (rb :: sb) ->
  let '(out, sa', sb') := cross_loop jcs both sa (rb :: sb) in
  forall r, In r out -> ka r = kb rb.
Proof.
  induction sa as [|ra0 sa IH]; intros rb sb ra Hhd HM HA HB; [discriminate|].
  simpl in Hhd. injection Hhd; intros; subst ra0. clear Hhd.
  assert (Hkey : ka ra = kb rb) by now apply agree_iff.
  inversion HA as [|? ? HA1 HA2]; subst. pose proof HB as HBall. rewrite Forall_forall in HBall.
  assert (Hout : forall r, In r (map (both ra) (rb :: take_while (rows_match jcs ra) sb)) -> ka r = kb rb).
  { intros r Hr. apply in_map_iff in Hr. destruct Hr as (s & <- & Hs).
    rewrite Kboth; auto. apply HBall. destruct Hs as [<-|Hs]; [now left|right].
    rewrite <- (take_drop_while (rows_match jcs ra) sb). apply in_or_app. now left. }
  cbn [cross_loop]. destruct sa as [|ra' sa]; [exact Hout|].
  rewrite rows_match_agree. destruct (M ra' rb) eqn:E; [|exact Hout].
  specialize (IH rb sb ra' eq_refl E HA2 HB).
  destruct (cross_loop jcs both (ra' :: sa) (rb :: sb)) as [[o s1] s2].
  intros r Hr. apply in_app_or in Hr. destruct Hr; auto.
Qed.

Let eA := fun r : row => if bOptional then [b_empty r] else [] : table.
Let eB := fun r : row => if aOptional then [a_empty r] else [] : table.

Lemma J_keys sa sb r : Forall PA sa -> Forall PB sb -> In r (J jcs eA eB both sa sb) ->
  (exists ra, In ra sa /\ ka r = ka ra) \/ (exists rb, In rb sb /\ ka r = kb rb).
Proof.
  rewrite !Forall_forall. intros HA HB Hr. apply in_app_or in Hr. destruct Hr as [Hr|Hr];
    apply in_flat_map in Hr; destruct Hr as (x & Hx & Hr).
  - left. exists x. split; auto.
    assert (HF : forall s, In s (filter (M x) sb) -> PB s).
    { intros s Hs. apply filter_In in Hs. apply HB; tauto. }
    destruct (filter (M x) sb) as [|y l].
    + unfold eA in Hr. destruct bOptional; [|destruct Hr]. destruct Hr as [<-|[]]. auto.
    + apply in_map_iff in Hr. destruct Hr as (s & <- & Hs). auto.
  - right. exists x. split; auto. destruct existsb; [destruct Hr|].
    unfold eB in Hr. destruct aOptional; [|destruct Hr]. destruct Hr as [<-|[]]. auto.
Qed.

Lemma Forall_suffix {A} (P : A -> Prop) p l s : Forall P l -> l = p ++ s -> Forall P s.
Proof. intros H ->. now apply Forall_app in H. Qed.

Lemma emit_keys (bo : bool) (f : row -> row) (k : row -> list N) (P : row -> Prop) l :
  (forall r, P r -> ka (f r) = k r) -> Forall P l -> ksorted k l ->
  ksorted ka (if bo then map f l else []) /\
  (forall r, In r (if bo then map f l else []) -> exists x, In x l /\ ka r = k x).
Proof.
  rewrite Forall_forall. intros H HP Hs. destruct bo; [|split; [constructor|intros ? []]].
  split.
  - eapply map_ksorted; eauto.
  - intros r Hr. apply in_map_iff in Hr. destruct Hr as (x & <- & Hx). eauto.
Qed.

Lemma optional_loop_sorted c0 d0 jcs' : jcs = (c0, d0) :: jcs' -> forall fuel sa sb t,
  ksorted ka sa -> ksorted kb sb -> Forall PA sa -> Forall PB sb ->
  (length sa + length sb < fuel)%nat ->
  optional_loop fuel jcs aOptional bOptional a_empty b_empty both sa sb = Some t ->
  ksorted ka t.
Proof.
  intros Hjcs. induction fuel as [|fuel IH]; intros sa sb t Hsa Hsb HPA HPB Hf; [lia|].
  cbn [optional_loop]. unfold optional_finish.
  assert (hd (0%nat, 0%nat) jcs = (c0, d0)) as -> by now rewrite Hjcs.
  destruct sa as [|a0 sa0].
  { intros H. inv_some H.
    replace (if bOptional then map b_empty [] else []) with (@nil row) by now destruct bOptional.
    rewrite app_nil_r. eapply emit_keys with (k := kb); eauto. }
  destruct sb as [|b0 sb0].
  { intros H. inv_some H.
    replace (if aOptional then map a_empty [] else []) with (@nil row) by now destruct aOptional.
    eapply emit_keys with (k := ka); eauto. }
  set (SA := a0 :: sa0) in *. set (SB := b0 :: sb0) in *.
  set (below_a := fun r => col c0 r <? col d0 b0).
  pose proof (take_drop_while below_a SA) as HtdA.
  assert (HltA : forall ra rb, In ra (take_while below_a SA) -> In rb SB -> lex_le (ka ra) (kb rb)).
  { intros ra rb Hra Hrb. apply lex_lt_le.
    eapply lex_lt_le_trans; [|eapply ksorted_head; [exact Hsb|exact Hrb]].
    eapply first_col_lt; [exact Hjcs|]. pose proof (take_while_all below_a SA) as H.
    rewrite Forall_forall in H. specialize (H _ Hra). unfold below_a in H. lia. }
  rewrite <- HtdA in Hsa, HPA. apply ksorted_app_inv in Hsa. destruct Hsa as (HtA & Hsa1 & HleA).
  apply Forall_app in HPA. destruct HPA as [HPA0 HPA1].
  destruct (emit_keys bOptional b_empty ka PA _ Kb HPA0 HtA) as [Ho1 Hk1].
  set (out1 := if bOptional then map b_empty (take_while below_a SA) else []) in *.
  destruct (drop_while below_a SA) as [|ra1 sa1'] eqn:EA.
  { intros H. inv_some H.
    replace (if bOptional then map b_empty [] else []) with (@nil row) by now destruct bOptional.
    rewrite app_nil_r.
    destruct (emit_keys aOptional a_empty kb PB SB Ka HPB Hsb) as [Ho2 Hk2].
    apply ksorted_app; auto. intros r s Hr Hs.
    apply Hk1 in Hr. apply Hk2 in Hs. destruct Hr as (x & Hx & ->), Hs as (y & Hy & ->). auto. }
  set (SA1 := ra1 :: sa1') in *.
  set (below_b := fun r => col d0 r <? col c0 ra1).
  pose proof (take_drop_while below_b SB) as HtdB.
  assert (HltB : forall ra rb, In ra SA1 -> In rb (take_while below_b SB) -> lex_le (kb rb) (ka ra)).
  { intros ra rb Hra Hrb. apply lex_lt_le.
    eapply lex_lt_le_trans; [|eapply ksorted_head; [exact Hsa1|exact Hra]].
    eapply first_col_gt; [exact Hjcs|]. pose proof (take_while_all below_b SB) as H.
    rewrite Forall_forall in H. specialize (H _ Hrb). unfold below_b in H. lia. }
  assert (Hin1 : forall r, In r (take_while below_b SB) -> In r SB).
  { intros r Hr. rewrite <- HtdB. apply in_or_app. auto. }
  assert (Hin2 : forall r, In r (drop_while below_b SB) -> In r SB).
  { intros r Hr. rewrite <- HtdB. apply in_or_app. auto. }
  rewrite <- HtdB in Hsb, HPB. apply ksorted_app_inv in Hsb. destruct Hsb as (HtB & Hsb1 & HleB).
  apply Forall_app in HPB. destruct HPB as [HPB0 HPB1].
  destruct (emit_keys aOptional a_empty kb PB _ Ka HPB0 HtB) as [Ho2 Hk2].
  set (out2 := if aOptional then map a_empty (take_while below_b SB) else []) in *.
  (* whatever is emitted later stems from the remaining rows *)
  assert (Hglue : forall rest, ksorted ka rest ->
     (forall r, In r rest -> (exists ra, In ra SA1 /\ ka r = ka ra) \/
                             (exists rb, In rb (drop_while below_b SB) /\ ka r = kb rb)) ->
     ksorted ka (out1 ++ out2 ++ rest)).
  { intros rest Hrest Hkr. apply ksorted_app; auto.
    - apply ksorted_app; auto. intros r s Hr Hs. apply Hk2 in Hr. destruct Hr as (x & Hx & ->).
      destruct (Hkr _ Hs) as [(y & Hy & ->)|(y & Hy & ->)]; auto.
    - intros r s Hr Hs. apply Hk1 in Hr. destruct Hr as (x & Hx & ->).
      apply in_app_or in Hs. destruct Hs as [Hs|Hs].
      + apply Hk2 in Hs. destruct Hs as (y & Hy & ->). auto.
      + destruct (Hkr _ Hs) as [(y & Hy & ->)|(y & Hy & ->)]; auto. }
  destruct (drop_while below_b SB) as [|rb1 sb1'] eqn:EB.
  { intros H. inv_some H.
    replace (if aOptional then map a_empty [] else []) with (@nil row) by now destruct aOptional.
    cbn [app].
    destruct (emit_keys bOptional b_empty ka PA SA1 Kb HPA1 Hsa1) as [Ho3 Hk3].
    apply Hglue; auto. }
  set (SB1 := rb1 :: sb1') in *.
  match goal with |- context [match ?m with pair _ _ => _ end] =>
    match m with context [compare_rows] => set (step := m) end end.
  assert (Hstep : let '(out3, sa2, sb2) := step in
            ksorted ka out3 /\
            (forall r, In r out3 -> ka r = ka ra1 \/ ka r = kb rb1) /\
            (forall r s, In r out3 -> In s sa2 -> lex_le (ka r) (ka s)) /\
            (forall r s, In r out3 -> In s sb2 -> lex_le (ka r) (kb s)) /\
            (exists p q, SA1 = p ++ sa2 /\ SB1 = q ++ sb2 /\ (0 < length p + length q)%nat)).
  { unfold step. rewrite compare_rows_spec.
    assert (HinA : In ra1 SA1) by now left. assert (HinB : In rb1 SB1) by now left.
    destruct (lex_cmp (ka ra1) (kb rb1)) eqn:E.
    - apply lex_cmp_eq in E. assert (EM : M ra1 rb1 = true) by now apply agree_iff.
      pose proof (cross_loop_spec jcs eA eB both SA1 ra1 rb1 sb1' eq_refl EM Hsa1 Hsb1) as HC.
      pose proof (cross_loop_keys SA1 rb1 sb1' ra1 eq_refl EM HPA1 HPB1) as HK.
      fold SB1 in HC, HK. destruct (cross_loop jcs both SA1 SB1) as [[o s1] s2].
      destruct HC as (_ & p & q & Hp & Hpe & Hqe).
      split; [eapply const_ksorted; exact HK|]. split; [intros r Hr; right; auto|].
      split; [|split].
      + intros r s Hr Hs. rewrite (HK r Hr), <- E.
        eapply ksorted_head; [exact Hsa1|]. change (In s SA1). rewrite Hpe. apply in_or_app. now right.
      + intros r s Hr Hs. rewrite (HK r Hr).
        eapply ksorted_head; [exact Hsb1|]. change (In s SB1). rewrite Hqe. apply in_or_app. now right.
      + exists p, q. split; auto. split; auto. destruct p; [congruence|]. simpl. lia.
    - pose proof (Forall_inv HPA1) as HP1.
      assert (HK : forall r, In r (if bOptional then map b_empty [ra1] else []) -> ka r = ka ra1).
      { destruct bOptional; [|intros ? []]. intros r [<-|[]]. auto. }
      split; [eapply const_ksorted; exact HK|]. split; [intros r Hr; left; auto|].
      split; [|split].
      + intros r s Hr Hs. rewrite (HK r Hr). eapply ksorted_head; [exact Hsa1|]. now right.
      + intros r s Hr Hs. rewrite (HK r Hr). eapply lex_le_trans; [apply lex_lt_le; exact E|].
        eapply ksorted_head; [exact Hsb1|auto].
      + exists [ra1], []. split; auto.
    - apply lex_gt_lt in E. pose proof (Forall_inv HPB1) as HP1.
      assert (HK : forall r, In r (if aOptional then map a_empty [rb1] else []) -> ka r = kb rb1).
      { destruct aOptional; [|intros ? []]. intros r [<-|[]]. auto. }
      split; [eapply const_ksorted; exact HK|]. split; [intros r Hr; right; auto|].
      split; [|split].
      + intros r s Hr Hs. rewrite (HK r Hr). eapply lex_le_trans; [apply lex_lt_le; exact E|].
        eapply ksorted_head; [exact Hsa1|auto].
      + intros r s Hr Hs. rewrite (HK r Hr). eapply ksorted_head; [exact Hsb1|]. now right.
      + exists [], [rb1]. split; auto. }
  destruct step as [[out3 sa2] sb2].
  destruct Hstep as (Ho3 & Hk3 & Hle1 & Hle2 & p & q & Hp & Hq & Hpq).
  assert (Hsa2 : ksorted ka sa2) by (eapply ksorted_app_r; rewrite <- Hp; exact Hsa1).
  assert (Hsb2 : ksorted kb sb2) by (eapply ksorted_app_r; rewrite <- Hq; exact Hsb1).
  assert (HPA2 : Forall PA sa2) by (eapply Forall_suffix; [exact HPA1|exact Hp]).
  assert (HPB2 : Forall PB sb2) by (eapply Forall_suffix; [exact HPB1|exact Hq]).
  assert (Hfuel : (length sa2 + length sb2 < fuel)%nat).
  { apply (f_equal (@length row)) in HtdA, HtdB, Hp, Hq. rewrite app_length in *. lia. }
  destruct (optional_loop_spec jcs eA eB both (@Permutation row)
    ltac:(intros; apply Permutation_app_comm) aOptional bOptional a_empty b_empty
    ltac:(reflexivity) ltac:(reflexivity) c0 d0 jcs' Hjcs fuel sa2 sb2 Hsa2 Hsb2 Hfuel)
    as (t' & Ht' & HPerm).
  rewrite Ht'. cbn [option_map]. intros H. inv_some H.
  assert (Hkt : forall r, In r t' -> (exists ra, In ra sa2 /\ ka r = ka ra) \/
                                     (exists rb, In rb sb2 /\ ka r = kb rb)).
  { intros r Hr. apply (J_keys sa2 sb2); auto. eapply Permutation_in; eauto. }
  assert (HI1 : forall r, In r sa2 -> In r SA1) by (intros; rewrite Hp; apply in_or_app; auto).
  assert (HI2 : forall r, In r sb2 -> In r SB1) by (intros; rewrite Hq; apply in_or_app; auto).
  apply Hglue.
  - apply ksorted_app; auto.
    + eapply IH; [| | | | |exact Ht']; auto.
    + intros r s Hr Hs. destruct (Hkt _ Hs) as [(y & Hy & ->)|(y & Hy & ->)]; auto.
  - intros r Hr. apply in_app_or in Hr. destruct Hr as [Hr|Hr].
    + destruct (Hk3 _ Hr) as [->| ->]; [left; exists ra1|right; exists rb1]; split; auto; now left.
    + destruct (Hkt _ Hr) as [(y & Hy & ->)|(y & Hy & ->)]; [left|right]; exists y; auto.
Qed.
End OptionalSorted.

Lemma cols_right_only wa wb jcs rb : NoDup (map fst jcs) ->
  (forall c, In c (map fst jcs) -> (c < wa)%nat) -> length rb = wb ->
  cols (map fst jcs) (right_only_row wa jcs rb) = cols (map snd jcs) rb.
Proof.
  intros Hnd Hlt Hl. unfold right_only_row.
  rewrite cols_app by (intros c Hc; rewrite map_length, seq_length; auto).
  unfold cols. rewrite !map_map. apply map_ext_in. intros [c d] Hin. cbn [fst snd].
  unfold col at 1.
  set (g := fun c0 => match find (fun p => Nat.eqb (fst p) c0) jcs with
                      | Some p => col (snd p) rb | None => UNBOUND end).
  assert (Hc : (c < wa)%nat) by (apply Hlt; apply (in_map fst) in Hin; exact Hin).
  rewrite (nth_indep _ 0 (g 0%nat)) by now rewrite map_length, seq_length.
  rewrite map_nth, seq_nth by auto. cbn [Nat.add]. unfold g.
  replace (find (fun p => Nat.eqb (fst p) c) jcs) with (Some (c, d)); auto.
  clear -Hnd Hin. induction jcs as [|[x y] jcs IH]; [destruct Hin|].
  inversion Hnd as [|? ? Hn1 Hn2]; subst. simpl. destruct (Nat.eqb_spec x c).
  - subst x. destruct Hin as [E|Hin]; [congruence|].
    exfalso. apply Hn1. apply (in_map fst) in Hin. exact Hin.
  - destruct Hin as [E|Hin]; [congruence|]. auto.
Qed.

Lemma optional_join_sorted wa wb jcs aOpt bOpt a b t :
  (wa <= 32)%nat -> (wb <= 32)%nat ->
  (forall c, In c (map fst jcs) -> (c < wa)%nat) ->
  (forall c, In c (map snd jcs) -> (c < wb)%nat) ->
  NoDup (map fst jcs) -> NoDup (map snd jcs) -> jcs <> [] ->
  widths wa a -> widths wb b ->
  sorted_lex (map fst jcs) a -> sorted_lex (map snd jcs) b ->
  optional_join wa wb a b aOpt bOpt jcs = Some t -> sorted_lex (map fst jcs) t.
Proof.
  intros Hwa Hwb Hja Hjb Hnd1 Hnd2 Hne Ha Hb Hsa Hsb Ht.
  apply sorted_lex_ksorted in Hsa, Hsb. apply ksorted_sorted_lex.
  destruct (bitmap_defined (map fst jcs)) as [m_a Hma]; [intros c Hc; specialize (Hja c Hc); lia|].
  destruct (bitmap_defined (map snd jcs)) as [m_b Hmb]; [intros c Hc; specialize (Hjb c Hc); lia|].
  unfold optional_join in Ht. rewrite Hma, Hmb, (small_forallb wa wb Hwa Hwb) in Ht.
  set (wres := (wa + wb - length jcs)%nat) in *.
  set (PA := fun r : row => length r = wa). set (PB := fun r : row => length r = wb).
  assert (HPA : Forall PA a) by (apply Forall_forall; exact Ha).
  assert (HPB : Forall PB b) by (apply Forall_forall; exact Hb).
  assert (Kb : forall r, PA r -> cols (map fst jcs) (row_b_empty wa wres r) = cols (map fst jcs) r).
  { intros r Hr. apply cols_app. intros c Hc. unfold PA in Hr. rewrite Hr. auto. }
  assert (Ka : forall r, PB r -> cols (map fst jcs) (row_a_empty wa wb m_a m_b jcs r) = cols (map snd jcs) r).
  { intros r Hr. rewrite row_a_empty_spec by auto. eapply cols_right_only; eauto. }
  assert (Kboth : forall r s, PA r -> PB s -> cols (map fst jcs) (row_both wb m_b r s) = cols (map fst jcs) r).
  { intros r s Hr _. apply cols_app. intros c Hc. unfold PA in Hr. rewrite Hr. auto. }
  destruct (emit_keys jcs true (row_b_empty wa wres) _ PA a Kb HPA Hsa) as [HA _].
  destruct (emit_keys jcs true (row_a_empty wa wb m_a m_b jcs) _ PB b Ka HPB Hsb) as [HB _].
  destruct a as [|a0 a].
  { destruct b as [|b0 b]; [|destruct aOpt]; inv_some Ht; auto; constructor. }
  destruct b as [|b0 b].
  { destruct aOpt, bOpt; inv_some Ht; auto; constructor. }
  assert (exists c d j', jcs = (c, d) :: j') as (c & d & j' & Hj).
  { clear -Hne. destruct jcs as [|[c d] j']; [congruence|eauto]. }
  eapply (optional_loop_sorted jcs aOpt bOpt (row_a_empty wa wb m_a m_b jcs)
    (row_b_empty wa wres) (row_both wb m_b) PA PB Kb Ka Kboth c d j' Hj
    (S (length (a0 :: a) + length (b0 :: b))) (a0 :: a) (b0 :: b)); auto.
Qed.

Lemma multi_join_sorted wa jcs a b : (forall c, In c (map fst jcs) -> (c < wa)%nat) ->
  widths wa a -> sorted_lex (map fst jcs) a -> sorted_lex (map fst jcs) (multi_join a b jcs).
Proof.
  intros Hja Ha Hs. apply ksorted_sorted_lex. apply sorted_lex_ksorted in Hs.
  eapply flat_map_ksorted; [exact Hs|]. intros r s Hr Hin.
  apply in_map_iff in Hin. destruct Hin as (x & <- & _). apply cols_app.
  intros c Hc. rewrite (Ha r Hr). auto.
Qed.

Lemma width_widths w t : width w t -> widths w t.
Proof. unfold width, widths. now rewrite Forall_forall. Qed.

Lemma join_columns_fst wa wb jcs : join_columns_ok wa wb jcs -> forall c, In c (map fst jcs) -> (c < wa)%nat.
Proof.
  intros (_ & _ & _ & H) c Hc. apply in_map_iff in Hc. destruct Hc as (p & <- & Hp).
  rewrite Forall_forall in H. now apply H.
Qed.
Lemma join_columns_snd wa wb jcs : join_columns_ok wa wb jcs -> forall c, In c (map snd jcs) -> (c < wb)%nat.
Proof.
  intros (_ & _ & _ & H) c Hc. apply in_map_iff in Hc. destruct Hc as (p & <- & Hp).
  rewrite Forall_forall in H. now apply H.
Qed.

(* a relation of two columns without duplicates has at most one partner for each row *)
Lemma two_col_semi_is_join l r c1 c2 : width 2 r -> NoDup r ->
  multi_join l r [(c1, 0%nat); (c2, 1%nat)] =
  filter (fun x => existsb (agree [(c1, 0%nat); (c2, 1%nat)] x) r) l.
Proof.
  intros Hw Hnd. unfold multi_join. induction l as [|x l IH]; [reflexivity|].
  cbn [flat_map filter]. rewrite IH. clear IH.
  set (j := [(c1, 0%nat); (c2, 1%nat)]).
  assert (Hone : filter (agree j x) r = if existsb (agree j x) r then [[col c1 x; col c2 x]] else []).
  { assert (Heq : forall y, In y r -> agree j x y = true -> y = [col c1 x; col c2 x]).
    { intros y Hy Ha. unfold width in Hw. rewrite Forall_forall in Hw. specialize (Hw y Hy).
      destruct y as [|y1 [|y2 [|]]]; try discriminate.
      unfold agree, j in Ha. simpl in Ha. unfold col in *. simpl in Ha.
      repeat rewrite andb_true_iff in Ha. rewrite !N.eqb_eq in Ha. destruct Ha as (-> & -> & _). reflexivity. }
    clear Hw. induction r as [|y r IH]; [reflexivity|]. inversion Hnd as [|? ? Hni Hnd']; subst.
    cbn [filter existsb]. destruct (agree j x y) eqn:E.
    - cbn [orb]. rewrite (Heq y) by (auto; now left). f_equal.
      apply filter_none_iff. intros z Hz. destruct (agree j x z) eqn:Ez; auto.
      exfalso. apply Hni. rewrite (Heq y), <- (Heq z); auto; [now right|now left].
    - cbn [orb]. apply IH; auto. intros; apply Heq; auto. now right. }
  rewrite Hone. destruct (existsb (agree j x) r); auto. simpl.
  unfold drop_cols. simpl. now rewrite app_nil_r.
Qed.
