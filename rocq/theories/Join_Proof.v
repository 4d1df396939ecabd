(* Proofs about Join_Model.v. *)
From Coq Require Import List NArith Arith Lia Bool Sorted Permutation.
From Coq Require Import ZifyBool ZifyN ZifyNat.
From Verif Require Import Base Std_Model Std_Proof Table_Spec Join_Model.
Import ListNotations.
Open Scope N_scope.

Definition ssorted (c : nat) (t : table) : Prop :=
  StronglySorted (fun r s => col c r <= col c s) t.

Lemma sorted_ssorted c t : sorted_on c t -> ssorted c t.
Proof. apply Sorted_StronglySorted. intros x y z; lia. Qed.

Lemma ssorted_sorted c t : ssorted c t -> sorted_on c t.
Proof. apply StronglySorted_Sorted. Qed.

Lemma ssorted_app_inv c p t : ssorted c (p ++ t) ->
  ssorted c p /\ ssorted c t /\ Forall (fun r => Forall (fun s => col c r <= col c s) t) p.
Proof.
  induction p as [|r p IH]; simpl; intros H.
  - split; [constructor|]. split; auto.
  - inversion H; subst. destruct (IH H2) as (A & B & C).
    rewrite Forall_app in H3. destruct H3. repeat split; auto; constructor; auto.
Qed.

Lemma ssorted_app_r c p t : ssorted c (p ++ t) -> ssorted c t.
Proof. intros H. apply ssorted_app_inv in H. tauto. Qed.

Lemma ssorted_skipn c n t : ssorted c t -> ssorted c (skipn n t).
Proof. intros H. apply (ssorted_app_r c (firstn n t)). now rewrite firstn_skipn. Qed.

Lemma ssorted_app c p t : ssorted c p -> ssorted c t ->
  Forall (fun r => Forall (fun s => col c r <= col c s) t) p -> ssorted c (p ++ t).
Proof.
  induction p as [|r p IH]; simpl; intros Hp Ht Hf; auto.
  inversion Hp; subst. inversion Hf; subst. constructor; auto.
  - apply IH; auto.
  - rewrite Forall_app; auto.
Qed.

Lemma result_row_spec jc2 ra rb : result_row jc2 ra rb = ra ++ drop_col jc2 rb.
Proof. unfold result_row, drop_col. now rewrite Nat.add_1_r. Qed.

Section Join.
Context (jc1 jc2 : nat).
Notation ka := (col jc1).
Notation kb := (col jc2).
Notation njoin sa sb := (relational_join sa jc1 sb jc2).
(* every key of p is smaller than every key of s *)
Definition keys_lt (c : nat) (p : table) (d : nat) (s : table) : Prop :=
  Forall (fun r => Forall (fun s => col c r < col d s) s) p.

Lemma njoin_cons ra sa sb :
  njoin (ra :: sa) sb =
  map (fun rb => ra ++ drop_col jc2 rb) (filter (fun rb => ka ra =? kb rb) sb) ++ njoin sa sb.
Proof. reflexivity. Qed.

Lemma njoin_nil_r sa : njoin sa [] = [].
Proof. induction sa; simpl; auto. Qed.

Lemma filter_none {A} (f : A -> bool) l : Forall (fun x => f x = false) l -> filter f l = [].
Proof. induction 1; simpl; auto. now rewrite H. Qed.

Lemma filter_all {A} (f : A -> bool) l : Forall (fun x => f x = true) l -> filter f l = l.
Proof. induction 1; simpl; auto. rewrite H. congruence. Qed.

Lemma njoin_drop_b sa p sb :
  Forall (fun rb => Forall (fun ra => ka ra <> kb rb) sa) p ->
  njoin sa (p ++ sb) = njoin sa sb.
Proof.
  induction sa as [|ra sa IH]; intros H; [reflexivity|].
  rewrite !njoin_cons, IH.
  - rewrite filter_app, filter_none; auto.
    eapply Forall_impl; [|exact H]. simpl. intros a Ha. inversion Ha; subst. lia.
  - eapply Forall_impl; [|exact H]. simpl. intros a Ha. now inversion Ha.
Qed.

Lemma njoin_drop_a p sa sb :
  Forall (fun ra => Forall (fun rb => ka ra <> kb rb) sb) p ->
  njoin (p ++ sa) sb = njoin sa sb.
Proof.
  induction 1 as [|ra p H Hp IH]; auto.
  rewrite <- app_comm_cons, njoin_cons, IH, filter_none; auto.
  eapply Forall_impl; [|exact H]. simpl. lia.
Qed.

Lemma njoin_app_a p sa sb : njoin (p ++ sa) sb = njoin p sb ++ njoin sa sb.
Proof. apply flat_map_app. Qed.

Lemma keys_lt_drop_b p sa sb : keys_lt jc2 p jc1 sa -> njoin sa (p ++ sb) = njoin sa sb.
Proof.
  intros H. apply njoin_drop_b. eapply Forall_impl; [|exact H]. simpl.
  intros a Ha. eapply Forall_impl; [|exact Ha]. simpl. lia.
Qed.

Lemma keys_lt_drop_a p sa sb : keys_lt jc1 p jc2 sb -> njoin (p ++ sa) sb = njoin sa sb.
Proof.
  intros H. apply njoin_drop_a. eapply Forall_impl; [|exact H]. simpl.
  intros a Ha. eapply Forall_impl; [|exact Ha]. simpl. lia.
Qed.

Lemma filter_run ra sb :
  ssorted jc2 sb -> Forall (fun rb => ka ra <= kb rb) sb ->
  filter (fun rb => ka ra =? kb rb) sb = take_while (fun rb => ka ra =? kb rb) sb.
Proof.
  induction sb as [|rb sb IH]; intros Hs Hf; auto. simpl.
  inversion Hs; subst. inversion Hf; subst.
  destruct (ka ra =? kb rb) eqn:E.
  - f_equal. now apply IH.
  - apply filter_none. eapply Forall_impl; [|exact H2]. simpl. lia.
Qed.

Lemma drop_run_gt ra sb :
  ssorted jc2 sb -> Forall (fun rb => ka ra <= kb rb) sb ->
  Forall (fun rb => ka ra < kb rb) (drop_while (fun rb => ka ra =? kb rb) sb).
Proof.
  induction sb as [|rb sb IH]; intros Hs Hf; simpl; auto.
  inversion Hs; subst. inversion Hf; subst.
  destruct (ka ra =? kb rb) eqn:E; auto.
  constructor; [lia|]. eapply Forall_impl; [|exact H2]. simpl. lia.
Qed.

Definition match_post (sa sb : table) (r : loop_result) : Prop :=
  match r with
  | UB => False
  | Finish out => out = njoin sa sb
  | Cont sa' sb' out =>
      out ++ njoin sa' sb' = njoin sa sb /\
      exists p q, sa = p ++ sa' /\ sb = q ++ sb' /\
        keys_lt jc2 q jc1 sa' /\ keys_lt jc1 p jc2 sb' /\ keys_lt jc2 q jc2 sb' /\
        (exists ra sa1 rb sb1, sa' = ra :: sa1 /\ sb' = rb :: sb1 /\ ka ra <> kb rb) /\
        ((forall ra rb, hd_error sa = Some ra -> hd_error sb = Some rb -> ka ra = kb rb) ->
         p <> [])
  end.

Lemma match_loop_spec sa : forall sb,
  sa <> [] -> sb <> [] -> ssorted jc1 sa -> ssorted jc2 sb ->
  match_post sa sb (match_loop jc1 jc2 sa sb).
Proof.
  induction sa as [|ra sa IH]; intros sb Ha Hb Hsa Hsb; [congruence|].
  destruct sb as [|rb sb]; [congruence|]. cbn [match_loop].
  destruct (ka ra =? kb rb) eqn:E.
  2: { simpl. split; auto. exists [], []. simpl. split; auto. split; auto.
       split; [constructor|]. split; [constructor|]. split; [constructor|]. split.
       - exists ra, sa, rb, sb. repeat split; auto. lia.
       - intros H. specialize (H ra rb eq_refl eq_refl). lia. }
  set (f := fun r => ka ra =? kb r).
  set (SB := rb :: sb) in *.
  assert (Hge : Forall (fun r => ka ra <= kb r) SB).
  { inversion Hsb; subst. constructor; [lia|]. eapply Forall_impl; [|exact H2]. simpl. lia. }
  assert (Hout : map (result_row jc2 ra) (take_while f SB) =
                 map (fun r => ra ++ drop_col jc2 r) (filter (fun r => ka ra =? kb r) SB)).
  { rewrite (filter_run ra SB Hsb Hge). apply map_ext. apply result_row_spec. }
  rewrite Hout. clear Hout.
  set (out := map _ _).
  assert (Hrest : Forall (fun r => ka ra < kb r) (drop_while f SB))
    by exact (drop_run_gt ra SB Hsb Hge).
  pose proof (take_drop_while f SB) as Htd.
  destruct sa as [|ra' sa].
  { cbn [match_post]. rewrite njoin_cons. simpl. now rewrite app_nil_r. }
  inversion Hsa as [|? ? Hsa' Hle]; subst.
  destruct (ka ra' =? kb rb) eqn:E'.
  - specialize (IH SB ltac:(congruence) Hb Hsa' Hsb).
    destruct (match_loop jc1 jc2 (ra' :: sa) SB) as [o|sa' sb' o|]; cbn [match_post emit] in IH |- *; auto.
    + rewrite IH. now rewrite (njoin_cons ra (ra' :: sa)).
    + destruct IH as (IH1 & p & q & Hp & Hq & Hk1 & Hk2 & Hk3 & Hheads & Hprog).
      split.
      * rewrite <- app_assoc, IH1. now rewrite (njoin_cons ra (ra' :: sa)).
      * exists (ra :: p), q. split; [simpl; congruence|]. split; [auto|]. split; [auto|].
        split; [|split; [auto|split; [auto|discriminate]]].
        constructor; auto.
        assert (p <> []) as Hp0.
        { apply Hprog. intros x y Hx Hy. injection Hx; injection Hy; intros; subst. lia. }
        destruct p as [|p0 p]; [congruence|]. inversion Hk2; subst.
        simpl in Hp. injection Hp; intros; subst.
        eapply Forall_impl; [|exact H1]. simpl. lia.
  - assert (Hdrop : njoin (ra' :: sa) SB = njoin (ra' :: sa) (drop_while f SB)).
    { rewrite <- Htd at 1. apply njoin_drop_b.
      pose proof (take_while_all f SB) as HT.
      eapply Forall_impl; [|exact HT]. unfold f. simpl. intros r Hr.
      inversion Hle as [|? ? Hle1 Hle2]; subst. inversion Hsa' as [|? ? Hs1 Hs2]; subst.
      constructor; [lia|]. eapply Forall_impl; [|exact Hs2]. simpl. lia. }
    destruct (drop_while f SB) as [|rb' sbr] eqn:Ed.
    + cbn [match_post]. rewrite njoin_cons, Hdrop, njoin_nil_r. now rewrite app_nil_r.
    + assert (Hsbr : ssorted jc2 (rb' :: sbr)).
      { apply (ssorted_app_r _ (take_while f SB)). now rewrite Htd. }
      specialize (IH (rb' :: sbr) ltac:(congruence) ltac:(congruence) Hsa' Hsbr).
      destruct (match_loop jc1 jc2 (ra' :: sa) (rb' :: sbr)) as [o|sa' sb' o|];
        cbn [match_post emit] in IH |- *; auto.
      * rewrite IH. rewrite (njoin_cons ra (ra' :: sa)), Hdrop. reflexivity.
      * destruct IH as (IH1 & p & q & Hp & Hq & Hk1 & Hk2 & Hk3 & Hheads & Hprog).
        split.
        -- rewrite <- app_assoc, IH1. rewrite (njoin_cons ra (ra' :: sa)), Hdrop. reflexivity.
        -- exists (ra :: p), (take_while f SB ++ q).
           split; [simpl; congruence|].
           split; [rewrite <- app_assoc, <- Hq; symmetry; exact Htd|].
           split; [|split; [|split; [|split; [auto|discriminate]]]].
           ++ apply Forall_app. split; auto.
              pose proof (take_while_all f SB) as HT.
              eapply Forall_impl; [|exact HT]. unfold f. simpl. intros r Hr.
              assert (Hx : Forall (fun s => kb r < ka s) (ra' :: sa)).
              { inversion Hle as [|? ? Hle1 Hle2]; subst.
                inversion Hsa' as [|? ? Hs1 Hs2]; subst.
                constructor; [lia|]. eapply Forall_impl; [|exact Hs2]. simpl. lia. }
              rewrite Hp in Hx. apply Forall_app in Hx. tauto.
           ++ constructor; auto. rewrite Hq in Hrest. apply Forall_app in Hrest. tauto.
           ++ apply Forall_app. split; auto.
              eapply Forall_impl; [|apply take_while_all]. unfold f. simpl. intros r Hr.
              rewrite Hq in Hrest. apply Forall_app in Hrest. destruct Hrest as [_ Hrest].
              eapply Forall_impl; [|exact Hrest]. simpl. lia.
Qed.

Lemma drop_lt_a sa rb sb :
  ssorted jc2 (rb :: sb) ->
  njoin (drop_while (fun r => ka r <? kb rb) sa) (rb :: sb) = njoin sa (rb :: sb) /\
  keys_lt jc1 (take_while (fun r => ka r <? kb rb) sa) jc2 (rb :: sb).
Proof.
  intros Hs.
  assert (keys_lt jc1 (take_while (fun r => ka r <? kb rb) sa) jc2 (rb :: sb)) as H.
  { eapply Forall_impl; [|apply take_while_all]. simpl. intros r Hr.
    inversion Hs; subst. constructor; [lia|]. eapply Forall_impl; [|exact H2]. simpl. lia. }
  split; auto.
  rewrite <- (take_drop_while (fun r => ka r <? kb rb) sa) at 2.
  now rewrite keys_lt_drop_a.
Qed.

Lemma drop_lt_b ra sa sb :
  ssorted jc1 (ra :: sa) ->
  njoin (ra :: sa) (drop_while (fun r => kb r <? ka ra) sb) = njoin (ra :: sa) sb /\
  keys_lt jc2 (take_while (fun r => kb r <? ka ra) sb) jc1 (ra :: sa).
Proof.
  intros Hs.
  assert (keys_lt jc2 (take_while (fun r => kb r <? ka ra) sb) jc1 (ra :: sa)) as H.
  { eapply Forall_impl; [|apply take_while_all]. simpl. intros r Hr.
    inversion Hs; subst. constructor; [lia|]. eapply Forall_impl; [|exact H2]. simpl. lia. }
  split; auto.
  rewrite <- (take_drop_while (fun r => kb r <? ka ra) sb) at 2.
  now rewrite keys_lt_drop_b.
Qed.

Lemma zipper_spec fuel : forall sa sb,
  ssorted jc1 sa -> ssorted jc2 sb -> (length sa + length sb < fuel)%nat ->
  zipper fuel jc1 jc2 sa sb = Some (njoin sa sb).
Proof.
  induction fuel as [|fuel IH]; intros sa sb Hsa Hsb Hf; [lia|].
  cbn [zipper].
  destruct sa as [|a0 sa0]; [reflexivity|].
  destruct sb as [|b0 sb0]; [now rewrite njoin_nil_r|].
  destruct (drop_lt_a (a0 :: sa0) b0 sb0 Hsb) as [HA _].
  pose proof (take_drop_while (fun r => ka r <? kb b0) (a0 :: sa0)) as HtdA.
  pose proof (drop_while_head (fun r => ka r <? kb b0) (a0 :: sa0)) as HhA.
  destruct (drop_while (fun r => ka r <? kb b0) (a0 :: sa0)) as [|ra sa1] eqn:EA.
  { rewrite <- HA. reflexivity. }
  specialize (HhA ra sa1 eq_refl).
  assert (Hsa1 : ssorted jc1 (ra :: sa1))
    by (eapply ssorted_app_r; rewrite HtdA; exact Hsa).
  destruct (drop_lt_b ra sa1 (b0 :: sb0) Hsa1) as [HB _].
  pose proof (take_drop_while (fun r => kb r <? ka ra) (b0 :: sb0)) as HtdB.
  pose proof (drop_while_head (fun r => kb r <? ka ra) (b0 :: sb0)) as HhB.
  destruct (drop_while (fun r => kb r <? ka ra) (b0 :: sb0)) as [|rb sb1] eqn:EB.
  { rewrite <- HA, <- HB, njoin_nil_r. reflexivity. }
  specialize (HhB rb sb1 eq_refl).
  assert (Hsb1 : ssorted jc2 (rb :: sb1))
    by (eapply ssorted_app_r; rewrite HtdB; exact Hsb).
  pose proof (match_loop_spec (ra :: sa1) (rb :: sb1) ltac:(congruence) ltac:(congruence)
                Hsa1 Hsb1) as HM.
  destruct (match_loop jc1 jc2 (ra :: sa1) (rb :: sb1)) as [out|sa2 sb2 out|]; cbn [match_post] in HM.
  - now rewrite HM, HB, HA.
  - destruct HM as (HM & p & q & Hp & Hq & _ & _ & _ & (r1 & ? & r2 & ? & E1 & E2 & Hne) & Hprog).
    rewrite IH.
    + cbn [option_map]. now rewrite HM, HB, HA.
    + eapply ssorted_app_r. rewrite <- Hp. exact Hsa1.
    + eapply ssorted_app_r. rewrite <- Hq. exact Hsb1.
    + apply (f_equal (@length row)) in HtdA, HtdB.
      rewrite app_length in HtdA, HtdB.
      assert (length (ra :: sa1) = length p + length sa2)%nat as L1
        by (rewrite Hp; apply app_length).
      assert (length (rb :: sb1) = length q + length sb2)%nat as L2
        by (rewrite Hq; apply app_length).
      destruct (N.eq_dec (ka ra) (kb rb)) as [Eq|Ne].
      * assert (p <> []) by (apply Hprog; simpl; intros; congruence).
        destruct p; [congruence|]. simpl in *. lia.
      * destruct (ka a0 <? kb b0) eqn:C.
        -- assert (take_while (fun r => ka r <? kb b0) (a0 :: sa0) <> [])
             by (simpl; rewrite C; discriminate).
           destruct (take_while _ (a0 :: sa0)); [congruence|]. simpl in *. lia.
        -- assert (a0 = ra) as -> by (simpl in EA; rewrite C in EA; congruence).
           assert (take_while (fun r => kb r <? ka ra) (b0 :: sb0) <> []).
           { simpl. destruct (kb b0 <? ka ra) eqn:C2; [discriminate|].
             simpl in EB. rewrite C2 in EB. injection EB; intros; subst. lia. }
           destruct (take_while _ (b0 :: sb0)); [congruence|]. simpl in *. lia.
  - contradiction.
Qed.

End Join.

(* ---- galloping ---- *)

Lemma key_at_some t c i r : nth_error t i = Some r -> key_at t c i = Some (col c r).
Proof. intros H. unfold key_at. now rewrite H. Qed.

Lemma key_at_lt t c i : (i < length t)%nat -> exists y, key_at t c i = Some y.
Proof.
  intros H. destruct (nth_error t i) eqn:E; [eexists; eapply key_at_some; eauto|].
  apply nth_error_None in E. lia.
Qed.

Lemma key_at_bound t c i y : key_at t c i = Some y -> (i < length t)%nat.
Proof.
  unfold key_at. intros H. apply nth_error_Some. intros E. rewrite E in H. discriminate.
Qed.

Lemma key_at_mono t c i k x y : ssorted c t -> (i <= k)%nat ->
  key_at t c i = Some x -> key_at t c k = Some y -> x <= y.
Proof.
  intros H. revert i k x y. induction H as [|r t Hs IH Hf]; intros i k x y Hik Hi Hk.
  - unfold key_at in Hi. destruct i; discriminate.
  - destruct i, k.
    + unfold key_at in *. simpl in *. injection Hi; injection Hk; intros; subst; lia.
    + unfold key_at in *. simpl in *. destruct (nth_error t k) eqn:E; [|discriminate].
      apply nth_error_In in E. rewrite Forall_forall in Hf. specialize (Hf _ E).
      simpl in *. injection Hi; injection Hk; intros; subst; lia.
    + lia.
    + apply (IH i k); auto; lia.
Qed.

(* all keys before position n are smaller than x *)
Definition before_lt (t : table) (c n : nat) (x : N) : Prop :=
  forall k y, (k < n)%nat -> key_at t c k = Some y -> y < x.

Lemma before_lt_Forall t c n x : before_lt t c n x <-> Forall (fun r => col c r < x) (firstn n t).
Proof.
  revert n; induction t as [|r t IH]; intros n.
  - rewrite firstn_nil. split; intros; [constructor|].
    intros k y _ Hk. unfold key_at in Hk. destruct k; discriminate.
  - destruct n; simpl.
    + split; intros; [constructor|]. intros k y Hk. lia.
    + split.
      * intros H. constructor.
        -- apply (H 0%nat); [lia|reflexivity].
        -- apply IH. intros k y Hk Hy. apply (H (S k)); [lia|exact Hy].
      * intros H. inversion H; subst. apply IH in H3.
        intros [|k] y Hk Hy.
        -- unfold key_at in Hy; simpl in Hy. congruence.
        -- apply (H3 k); [lia|exact Hy].
Qed.

Lemma gallop_spec t c x : ssorted c t ->
  forall fuel pos last step,
  (pos < length t)%nat -> (1 <= step)%nat -> (length t - pos < fuel)%nat ->
  match gallop fuel t c x pos last step with
  | None => False
  | Some None => before_lt t c (length t) x
  | Some (Some (pos', last')) =>
      (pos <= pos' < length t)%nat /\
      (exists y, key_at t c pos' = Some y /\ x <= y) /\
      ((pos' = pos /\ last' = last) \/
       ((pos <= last' < pos')%nat /\ before_lt t c (S last') x))
  end.
Proof.
  intros Hs. induction fuel as [|fuel IH]; intros pos last step Hpos Hstep Hf; [lia|].
  cbn [gallop].
  destruct (key_at_lt t c pos Hpos) as [y Hy]. rewrite Hy.
  destruct (y <? x) eqn:E.
  2: { split; [lia|]. split; [exists y; split; auto; lia|]. left; auto. }
  assert (Hb : before_lt t c (S pos) x).
  { intros k z Hk Hz. pose proof (key_at_mono t c k pos z y Hs ltac:(lia) Hz Hy). lia. }
  destruct (Nat.leb (length t) (pos + step)) eqn:El.
  - destruct (key_at_lt t c (length t - 1)) as [y2 Hy2]; [lia|]. rewrite Hy2.
    destruct (y2 <? x) eqn:E2.
    + intros k z Hk Hz.
      pose proof (key_at_mono t c k (length t - 1) z y2 Hs ltac:(lia) Hz Hy2). lia.
    + assert (length t - 1 <> pos)%nat.
      { intros Heq. rewrite Heq in Hy2. assert (y2 = y) by congruence. lia. }
      specialize (IH (length t - 1)%nat pos (step * 2)%nat).
      destruct fuel as [|fuel']; [lia|].
      cbn [gallop] in IH |- *. rewrite Hy2 in IH |- *. rewrite E2 in IH |- *.
      split; [lia|]. split; [exists y2; split; auto; lia|]. right. split; [lia|]. auto.
  - specialize (IH (pos + step)%nat pos (step * 2)%nat ltac:(lia) ltac:(lia) ltac:(lia)).
    destruct (gallop fuel t c x (pos + step) pos (step * 2)) as [[[p' l']|]|]; auto.
    destruct IH as (H1 & H2 & H3).
    split; [lia|]. split; auto. right.
    destruct H3 as [[-> ->]|[H3 H4]]; split; auto; lia.
Qed.

Lemma block_begin_spec t c x : ssorted c t -> forall pos,
  key_at t c pos = Some x ->
  let r := block_begin t c x pos in
  (r <= pos)%nat /\ key_at t c r = Some x /\ before_lt t c r x.
Proof.
  intros Hs pos; induction pos as [|p IH]; intros Hk.
  - simpl. split; auto. split; auto. intros k; lia.
  - cbn [block_begin].
    assert (p < length t)%nat by (apply key_at_bound in Hk; lia).
    destruct (key_at_lt t c p H) as [y Hy]. rewrite Hy.
    destruct (y =? x) eqn:E.
    + assert (y = x) by lia. subst. destruct (IH Hy) as (A & B & C). repeat split; auto; lia.
    + split; auto. split; auto. intros k z Hkp Hz.
      pose proof (key_at_mono t c p (S p) y x Hs ltac:(lia) Hy Hk).
      pose proof (key_at_mono t c k p z y Hs ltac:(lia) Hz Hy). lia.
Qed.

Lemma settle_spec t c x pos last y :
  ssorted c t -> key_at t c pos = Some y -> x <= y -> (last <= pos)%nat ->
  before_lt t c last x ->
  exists r z, settle t c x pos last = Some r /\ (r <= pos)%nat /\
    key_at t c r = Some z /\ x <= z /\ before_lt t c r x.
Proof.
  intros Hs Hk Hle Hl Hb. unfold settle. rewrite Hk.
  destruct (y =? x) eqn:E.
  - assert (y = x) by lia. subst.
    destruct (block_begin_spec t c x Hs pos Hk) as (A & B & C).
    eexists _, x. split; [reflexivity|]. repeat split; auto; lia.
  - replace (x <? y) with true by lia.
    destruct (lower_bound_spec (below_in t c x) last pos Hl) as (r & Hr & H1 & H2 & H3).
    { intros k k' Hk1 Hk2 Hk3. unfold below_in.
      assert (k' < length t)%nat by (apply key_at_bound in Hk; lia).
      destruct (key_at_lt t c k' H) as [y' Hy'].
      destruct (key_at_lt t c k ltac:(lia)) as [y'' Hy'']. rewrite Hy', Hy''.
      pose proof (key_at_mono t c k k' y'' y' Hs Hk2 Hy'' Hy'). lia. }
    assert (Hb' : before_lt t c r x).
    { intros k z Hkr Hz. destruct (le_lt_dec last k).
      - specialize (H2 k ltac:(lia)). unfold below_in in H2. rewrite Hz in H2. lia.
      - apply (Hb k); auto. }
    destruct (Nat.eq_dec r pos) as [->|Hne].
    + eexists pos, y. split; [exact Hr|]. repeat split; auto.
    + specialize (H3 r ltac:(lia)). unfold below_in in H3.
      assert (r < length t)%nat by (apply key_at_bound in Hk; lia).
      destruct (key_at_lt t c r H) as [z Hz]. rewrite Hz in H3.
      eexists r, z. split; [exact Hr|]. repeat split; auto; lia.
Qed.

Lemma skipn_key t c i y : key_at t c i = Some y ->
  exists r s, skipn i t = r :: s /\ col c r = y.
Proof.
  intros H. assert (i < length t)%nat by (eapply key_at_bound; eauto).
  destruct (skipn i t) as [|r s] eqn:E.
  - apply (f_equal (@length row)) in E. rewrite skipn_length in E. simpl in E. lia.
  - exists r, s. split; auto. unfold key_at in H.
    rewrite <- (firstn_skipn i t), E, nth_error_app2 in H; rewrite firstn_length in *; [|lia].
    replace (i - Nat.min i (length t))%nat with 0%nat in H by lia. simpl in H. congruence.
Qed.

Lemma suffix_skipn {A} (t p q : list A) : t = p ++ q -> skipn (length t - length q) t = q.
Proof.
  intros ->. rewrite app_length. replace (length p + length q - length q)%nat with (length p) by lia.
  apply skipn_length_app.
Qed.

Section Gallop.
Context (jc1 jc2 : nat).
Notation ka := (col jc1).
Notation kb := (col jc2).
Notation njoin sa sb := (relational_join sa jc1 sb jc2).

Lemma keys_lt_app c p1 p2 d s : keys_lt c p1 d s -> keys_lt c p2 d s -> keys_lt c (p1 ++ p2) d s.
Proof. intros. apply Forall_app. auto. Qed.

Lemma keys_lt_sub c p d s s' : keys_lt c p d (s ++ s') -> keys_lt c p d s'.
Proof.
  intros H. eapply Forall_impl; [|exact H]. simpl. intros r Hr. apply Forall_app in Hr. tauto.
Qed.

Lemma keys_lt_head c p d s0 s : ssorted d (s0 :: s) ->
  Forall (fun r => col c r < col d s0) p -> keys_lt c p d (s0 :: s).
Proof.
  intros Hs H. inversion Hs; subst. eapply Forall_impl; [|exact H]. simpl. intros r Hr.
  constructor; auto. eapply Forall_impl; [|exact H3]. simpl. lia.
Qed.

Lemma keys_lt_head_inv c p d s0 s : keys_lt c p d (s0 :: s) ->
  Forall (fun r => col c r < col d s0) p.
Proof. intros H. eapply Forall_impl; [|exact H]. simpl. intros r Hr. now inversion Hr. Qed.

Lemma gallop_right_spec l2 : ssorted jc2 l2 ->
  forall fuel sa j,
  ssorted jc1 sa -> keys_lt jc2 (firstn j l2) jc1 sa ->
  (length sa + (length l2 - j) < fuel)%nat ->
  gallop_right fuel jc1 jc2 l2 sa j = Some (njoin sa l2).
Proof.
  intros Hl2. induction fuel as [|fuel IH]; intros sa j Hsa Hk Hf; [lia|].
  cbn [gallop_right].
  destruct sa as [|a0 sa0]; [reflexivity|].
  destruct (Nat.leb (length l2) j) eqn:El.
  { rewrite firstn_all2 in Hk by lia.
    rewrite <- (app_nil_r l2), keys_lt_drop_b by auto. now rewrite njoin_nil_r. }
  destruct (key_at_lt l2 jc2 j ltac:(lia)) as [y Hy]. rewrite Hy.
  destruct (skipn_key _ _ _ _ Hy) as (rb & sb & Hsk & Hkb). subst y.
  assert (Hsb : ssorted jc2 (rb :: sb)) by (rewrite <- Hsk; now apply ssorted_skipn).
  destruct (drop_lt_a jc1 jc2 (a0 :: sa0) rb sb Hsb) as [HA _].
  pose proof (take_drop_while (fun r => ka r <? kb rb) (a0 :: sa0)) as HtdA.
  pose proof (drop_while_head (fun r => ka r <? kb rb) (a0 :: sa0)) as HhA.
  assert (HB : njoin (a0 :: sa0) l2 = njoin (a0 :: sa0) (rb :: sb)).
  { rewrite <- (firstn_skipn j l2) at 1. rewrite keys_lt_drop_b by auto. now rewrite Hsk. }
  rewrite HB, <- HA. clear HB.
  destruct (drop_while (fun r => ka r <? kb rb) (a0 :: sa0)) as [|ra sa1] eqn:EA;
    [reflexivity|].
  specialize (HhA ra sa1 eq_refl).
  assert (Hsa1 : ssorted jc1 (ra :: sa1))
    by (eapply ssorted_app_r; rewrite HtdA; exact Hsa).
  assert (Hk1 : keys_lt jc2 (firstn j l2) jc1 (ra :: sa1)).
  { rewrite <- HtdA in Hk. eapply keys_lt_sub; eauto. }
  assert (HB : njoin (ra :: sa1) (rb :: sb) = njoin (ra :: sa1) l2).
  { rewrite <- (firstn_skipn j l2). rewrite keys_lt_drop_b by auto. now rewrite Hsk. }
  rewrite HB. clear HB.
  pose proof (gallop_spec l2 jc2 (ka ra) Hl2 (S (length l2)) j j 1 ltac:(lia) ltac:(lia)
                ltac:(lia)) as HG.
  destruct (gallop (S (length l2)) l2 jc2 (ka ra) j j 1) as [[[j1 last]|]|]; [| |contradiction].
  2: { rewrite before_lt_Forall, firstn_all in HG.
       rewrite <- (app_nil_r l2), keys_lt_drop_b by now apply keys_lt_head.
       now rewrite njoin_nil_r. }
  destruct HG as (Hj1 & (y & Hy1 & Hle) & Hlast).
  assert (Hbj : before_lt l2 jc2 j (ka ra))
    by (apply before_lt_Forall; eapply keys_lt_head_inv; eauto).
  destruct (settle_spec l2 jc2 (ka ra) j1 last y Hl2 Hy1 Hle) as (j2 & z & Hset & Hj2 & Hz & Hxz & Hbz).
  { lia. }
  { destruct Hlast as [[-> ->]|[? Hb]]; auto. intros k w Hkw. apply Hb. lia. }
  rewrite Hset.
  destruct (skipn_key _ _ _ _ Hz) as (rb2 & sb2 & Hsk2 & Hkb2).
  assert (Hk2 : keys_lt jc2 (firstn j2 l2) jc1 (ra :: sa1))
    by (apply keys_lt_head; auto; now apply before_lt_Forall).
  assert (HB : njoin (ra :: sa1) l2 = njoin (ra :: sa1) (rb2 :: sb2)).
  { rewrite <- (firstn_skipn j2 l2) at 1. rewrite keys_lt_drop_b by auto. now rewrite Hsk2. }
  rewrite HB. clear HB. rewrite Hsk2.
  assert (Hsb2 : ssorted jc2 (rb2 :: sb2)) by (rewrite <- Hsk2; now apply ssorted_skipn).
  pose proof (match_loop_spec jc1 jc2 (ra :: sa1) (rb2 :: sb2) ltac:(congruence)
                ltac:(congruence) Hsa1 Hsb2) as HM.
  destruct (match_loop jc1 jc2 (ra :: sa1) (rb2 :: sb2)) as [out|sa3 sb3 out|]; cbn [match_post] in HM;
    [now rewrite HM| |contradiction].
  destruct HM as (HM & p & q & Hp & Hq & Hkq & Hkp & Hkqq & (r1 & ? & r2 & ? & E1 & E2 & Hne) & Hprog).
  assert (Hdec : l2 = (firstn j2 l2 ++ q) ++ sb3)
    by (rewrite <- app_assoc, <- Hq, <- Hsk2; symmetry; apply firstn_skipn).
  assert (Hk3 : keys_lt jc2 (firstn j2 l2 ++ q) jc1 sa3).
  { apply keys_lt_app; auto. rewrite Hp in Hk2. eapply keys_lt_sub; eauto. }
  set (P2 := firstn j2 l2 ++ q) in *.
  assert (Hlen2 : length l2 = (length P2 + length sb3)%nat)
    by (rewrite Hdec at 1; apply app_length).
  rewrite IH.
  - cbn [option_map]. rewrite <- HM. f_equal. f_equal.
    rewrite Hdec at 1. apply keys_lt_drop_b. exact Hk3.
  - eapply ssorted_app_r. rewrite <- Hp. exact Hsa1.
  - rewrite Hlen2, Nat.add_sub. rewrite Hdec at 1. rewrite firstn_length_app. exact Hk3.
  - apply (f_equal (@length row)) in HtdA. rewrite app_length in HtdA.
    assert (length (ra :: sa1) = length p + length sa3)%nat as L1
      by (rewrite Hp; apply app_length).
    assert (Hjj : (j <= j2)%nat).
    { destruct (le_lt_dec j j2); auto. exfalso.
      specialize (Hbj j2 z ltac:(lia) Hz). lia. }
    assert (length (firstn j2 l2) = j2) by (rewrite firstn_length; lia).
    unfold P2 in Hlen2. rewrite app_length in Hlen2.
    destruct (N.eq_dec (ka ra) (kb rb2)) as [Eq|Ne].
    + assert (p <> []) by (apply Hprog; simpl; intros; congruence).
      destruct p; [congruence|]. simpl in *. lia.
    + destruct (Nat.eq_dec j2 j) as [->|].
      * rewrite Hsk in Hsk2. assert (rb2 = rb) by congruence. subst rb2.
        destruct (ka a0 <? kb rb) eqn:C.
        -- assert (take_while (fun r => ka r <? kb rb) (a0 :: sa0) <> [])
             by (simpl; rewrite C; discriminate).
           destruct (take_while _ (a0 :: sa0)); [congruence|]. simpl in *. lia.
        -- exfalso. assert (a0 = ra) as -> by (simpl in EA; rewrite C in EA; congruence). lia.
      * simpl in *. lia.
Qed.

(* Hypothesis under which line 650 does no harm: at every key of the smaller table there are
   at least as many rows below it in the larger table as in the smaller one. *)
Definition count_below (c : nat) (t : table) (x : N) : nat :=
  length (filter (fun r => col c r <? x) t).

Lemma count_below_prefix c p s x :
  Forall (fun r => col c r < x) p -> Forall (fun r => x <= col c r) s ->
  count_below c (p ++ s) x = length p.
Proof.
  intros Hp Hs. unfold count_below. rewrite filter_app, app_length.
  rewrite filter_all, (filter_none _ s); simpl; [lia| |].
  - eapply Forall_impl; [|exact Hs]. simpl. lia.
  - eapply Forall_impl; [|exact Hp]. simpl. lia.
Qed.

Lemma count_below_le c p s x :
  Forall (fun r => x <= col c r) s -> (count_below c (p ++ s) x <= length p)%nat.
Proof.
  intros Hs. unfold count_below. rewrite filter_app, app_length.
  rewrite (filter_none _ s); simpl.
  - rewrite Nat.add_0_r. induction p; simpl; auto. destruct (_ <? _); simpl; lia.
  - eapply Forall_impl; [|exact Hs]. simpl. lia.
Qed.

Lemma firstn_before_Forall c l j rb sb :
  ssorted c l -> skipn j l = rb :: sb ->
  Forall (fun r => col c r <= col c rb) (firstn j l).
Proof.
  intros Hs Hsk. rewrite <- (firstn_skipn j l) in Hs. apply ssorted_app_inv in Hs.
  destruct Hs as (_ & _ & H). rewrite Hsk in H. eapply Forall_impl; [|exact H].
  simpl. intros r Hr. now inversion Hr.
Qed.

Lemma gallop_left_spec l1 l2 : ssorted jc1 l1 -> ssorted jc2 l2 ->
  (forall rb, In rb l2 ->
     (count_below jc2 l2 (kb rb) <= count_below jc1 l1 (kb rb))%nat) ->
  forall fuel i j,
  keys_lt jc2 (firstn j l2) jc1 (skipn i l1) -> keys_lt jc1 (firstn i l1) jc2 (skipn j l2) ->
  (* the cursor j stands on the first row with its key *)
  keys_lt jc2 (firstn j l2) jc2 (skipn j l2) ->
  (length l1 - i + (length l2 - j) < fuel)%nat ->
  gallop_left fuel jc1 jc2 l1 l2 i j = Some (njoin (skipn i l1) (skipn j l2)).
Proof.
  intros Hl1 Hl2 Hcount. induction fuel as [|fuel IH]; intros i j Hk Hk' Hfirst Hf; [lia|].
  cbn [gallop_left].
  destruct (Nat.leb (length l1) i) eqn:Ei.
  { rewrite (skipn_all2 l1) by lia. reflexivity. }
  destruct (Nat.leb (length l2) j) eqn:Ej.
  { rewrite (skipn_all2 l2) by lia. now rewrite njoin_nil_r. }
  cbn [orb].
  destruct (key_at_lt l2 jc2 j ltac:(lia)) as [x Hx]. rewrite Hx.
  destruct (skipn_key _ _ _ _ Hx) as (rb & sb & Hsk & Hkb). subst x.
  assert (Hsb : ssorted jc2 (rb :: sb)) by (rewrite <- Hsk; now apply ssorted_skipn).
  pose proof (gallop_spec l1 jc1 (kb rb) Hl1 (S (length l1)) i j 1 ltac:(lia) ltac:(lia)
                ltac:(lia)) as HG.
  destruct (gallop (S (length l1)) l1 jc1 (kb rb) i j 1) as [[[i1 last]|]|]; [| |contradiction].
  2: { rewrite before_lt_Forall, firstn_all in HG.
       rewrite Hsk. rewrite <- (app_nil_r (skipn i l1)), keys_lt_drop_a; auto.
       apply keys_lt_head; auto. now apply Forall_skipn. }
  destruct HG as (Hi1 & (y & Hy1 & Hle) & Hlast).
  assert (Hbi : before_lt l1 jc1 i (kb rb)).
  { rewrite Hsk in Hk'. apply before_lt_Forall. eapply keys_lt_head_inv; eauto. }
  assert (Hmin : (last <= i1)%nat /\ before_lt l1 jc1 last (kb rb)).
  { destruct Hlast as [[-> ->]|[? Hb]].
    - assert (j <= i)%nat.
      { pose proof (Hcount rb) as HC.
        rewrite <- (firstn_skipn j l2), Hsk in HC at 1 2.
        rewrite (count_below_prefix jc2 (firstn j l2) (rb :: sb)) in HC.
        - rewrite <- (firstn_skipn i l1) in HC.
          assert (Forall (fun r => kb rb <= ka r) (skipn i l1)) as Hge.
          { destruct (skipn_key _ _ _ _ Hy1) as (r & s & Hr & Hr').
            rewrite Hr. assert (ssorted jc1 (r :: s)) by (rewrite <- Hr; now apply ssorted_skipn).
            inversion H; subst. constructor; auto.
            eapply Forall_impl; [|exact H3]. simpl. lia. }
          pose proof (count_below_le jc1 (firstn i l1) (skipn i l1) (kb rb) Hge) as HL.
          rewrite !firstn_length in *.
          assert (In rb (firstn j l2 ++ rb :: sb)) as Hin
            by (apply in_or_app; right; left; auto).
          specialize (HC Hin). lia.
        - rewrite Hsk in Hfirst. eapply keys_lt_head_inv; eauto.
        - inversion Hsb; subst. constructor; [lia|]. exact H2. }
      split; auto. intros k w Hkw. apply Hbi. lia.
    - split; [lia|]. intros k w Hkw. apply Hb. lia. }
  destruct Hmin as [Hl Hbl].
  destruct (settle_spec l1 jc1 (kb rb) i1 last y Hl1 Hy1 Hle Hl Hbl)
    as (i2 & z & Hset & Hi2 & Hz & Hxz & Hbz).
  rewrite Hset, Hz.
  destruct (skipn_key _ _ _ _ Hz) as (ra & sa & Hska & Hka). subst z.
  assert (Hsa : ssorted jc1 (ra :: sa)) by (rewrite <- Hska; now apply ssorted_skipn).
  assert (Hii : (i <= i2)%nat).
  { destruct (le_lt_dec i i2); auto. exfalso.
    specialize (Hbi i2 _ ltac:(lia) Hz). lia. }
  assert (Hdec1 : skipn i l1 = firstn (i2 - i) (skipn i l1) ++ (ra :: sa)).
  { rewrite <- Hska. replace i2 with (i + (i2 - i))%nat at 2 by lia.
    rewrite <- skipn_skipn'. symmetry. apply firstn_skipn. }
  assert (HJ : njoin (skipn i l1) (skipn j l2) = njoin (ra :: sa) (skipn j l2)).
  { rewrite Hdec1, Hsk, keys_lt_drop_a; auto. apply keys_lt_head; auto.
    apply before_lt_Forall in Hbz.
    replace i2 with (i + (i2 - i))%nat in Hbz by lia.
    assert (Forall (fun r => ka r < kb rb) (skipn i (firstn (i + (i2 - i)) l1))) as HF
      by now apply Forall_skipn.
    rewrite skipn_firstn_comm in HF.
    replace (i + (i2 - i) - i)%nat with (i2 - i)%nat in HF by lia. exact HF. }
  rewrite HJ. clear HJ.
  destruct (drop_lt_b jc1 jc2 ra sa (skipn j l2) Hsa) as [HB HkB].
  rewrite <- HB.
  pose proof (take_drop_while (fun r => kb r <? ka ra) (skipn j l2)) as Htd.
  destruct (drop_while (fun r => kb r <? ka ra) (skipn j l2)) as [|rb1 sb1] eqn:ED.
  { now rewrite njoin_nil_r. }
  assert (Hsb1 : ssorted jc2 (rb1 :: sb1))
    by (eapply ssorted_app_r; rewrite Htd, Hsk; exact Hsb).
  rewrite Hska.
  pose proof (match_loop_spec jc1 jc2 (ra :: sa) (rb1 :: sb1) ltac:(congruence)
                ltac:(congruence) Hsa Hsb1) as HM.
  destruct (match_loop jc1 jc2 (ra :: sa) (rb1 :: sb1)) as [out|sa3 sb3 out|]; cbn [match_post] in HM;
    [now rewrite HM| |contradiction].
  destruct HM as (HM & p & q & Hp & Hq & Hkq & Hkp & Hkqq & (r1 & s1 & r2 & s2 & E1 & E2 & Hne) & Hprog).
  assert (Hdec2 : l2 = ((firstn j l2 ++ take_while (fun r => kb r <? ka ra) (skipn j l2)) ++ q) ++ sb3).
  { rewrite <- !app_assoc, <- Hq, Htd. symmetry. apply firstn_skipn. }
  assert (Hdec3 : l1 = (firstn i2 l1 ++ p) ++ sa3).
  { rewrite <- app_assoc, <- Hp, <- Hska. symmetry. apply firstn_skipn. }
  set (P2 := (firstn j l2 ++ take_while (fun r => kb r <? ka ra) (skipn j l2)) ++ q) in *.
  set (P1 := firstn i2 l1 ++ p) in *.
  assert (Hlen2 : length l2 = (length P2 + length sb3)%nat)
    by (rewrite Hdec2 at 1; apply app_length).
  assert (Hlen1 : length l1 = (length P1 + length sa3)%nat)
    by (rewrite Hdec3 at 1; apply app_length).
  assert (S1 : skipn (length P1) l1 = sa3) by (rewrite Hdec3 at 1; apply skipn_length_app).
  assert (S2 : skipn (length P2) l2 = sb3) by (rewrite Hdec2 at 1; apply skipn_length_app).
  assert (F1 : firstn (length P1) l1 = P1) by (rewrite Hdec3 at 1; apply firstn_length_app).
  assert (F2 : firstn (length P2) l2 = P2) by (rewrite Hdec2 at 1; apply firstn_length_app).
  replace (length l1 - length sa3)%nat with (length P1) by lia.
  replace (length l2 - length sb3)%nat with (length P2) by lia.
  assert (HkP2 : keys_lt jc2 P2 jc1 sa3).
  { unfold P2. apply keys_lt_app; auto. rewrite Hp in HkB.
    apply keys_lt_app; [|eapply keys_lt_sub; exact HkB].
    rewrite Hdec1, Hp in Hk. rewrite app_assoc in Hk. eapply keys_lt_sub; eauto. }
  assert (HkP1 : keys_lt jc1 P1 jc2 sb3).
  { unfold P1. apply keys_lt_app; auto.
    assert (keys_lt jc1 (firstn i2 l1) jc2 (rb :: sb)) as HX
      by (apply keys_lt_head; auto; now apply before_lt_Forall).
    rewrite <- Hsk, <- Htd, Hq, app_assoc in HX. eapply keys_lt_sub; eauto. }
  rewrite IH.
  - rewrite S1, S2. cbn [option_map]. now rewrite <- HM.
  - now rewrite F2, S1.
  - now rewrite F1, S2.
  - rewrite S2, F2. unfold P2. apply keys_lt_app; auto. apply keys_lt_app.
    + rewrite <- Htd, Hq, app_assoc in Hfirst. eapply keys_lt_sub; eauto.
    + pose proof (drop_while_head _ _ _ _ ED) as Hhd. simpl in Hhd.
      assert (keys_lt jc2 (take_while (fun r => kb r <? ka ra) (skipn j l2)) jc2 (rb1 :: sb1)) as HX.
      { apply keys_lt_head; auto. eapply Forall_impl; [|apply take_while_all]. simpl. lia. }
      rewrite Hq in HX. eapply keys_lt_sub; eauto.
  - assert (length P1 = i2 + length p)%nat as LP1.
    { unfold P1. rewrite app_length, firstn_length.
      apply key_at_bound in Hz. lia. }
    set (tw := take_while (fun r => kb r <? ka ra) (skipn j l2)) in *.
    assert (length P2 = j + length tw + length q)%nat as LP2.
    { unfold P2. rewrite !app_length, firstn_length. lia. }
    destruct (N.eq_dec (ka ra) (kb rb1)) as [Eq|Ne].
    + assert (p <> []) by (apply Hprog; simpl; intros; congruence).
      destruct p; [congruence|]. simpl in LP1. lia.
    + destruct (Nat.eq_dec i2 i) as [->|]; [|lia].
      destruct (N.eq_dec (ka ra) (kb rb)) as [Eq2|Ne2].
      * exfalso. rewrite Hsk in ED. rewrite drop_while_id in ED by lia. congruence.
      * assert (tw <> []).
        { unfold tw. rewrite Hsk. simpl. replace (kb rb <? ka ra) with true by lia. discriminate. }
        destruct tw; [congruence|]. simpl in LP2. lia.
Qed.
End Gallop.

Lemma join_spec_partial a jc1 b jc2 :
  sorted_on jc1 a -> sorted_on jc2 b ->
  (N.of_nat (length a) / N.of_nat (length b) <= GALLOP_THRESHOLD \/
   forall rb, In rb b ->
     (count_below jc2 b (col jc2 rb) <= count_below jc1 a (col jc2 rb))%nat) ->
  join a jc1 b jc2 = Some (relational_join a jc1 b jc2).
Proof.
  intros Ha Hb Hc. apply sorted_ssorted in Ha, Hb. unfold join.
  destruct a as [|a0 a1]; [reflexivity|].
  destruct b as [|b0 b1]; [now rewrite njoin_nil_r|].
  set (a := a0 :: a1) in *. set (b := b0 :: b1) in *. cbv zeta.
  destruct (_ <? N.of_nat (length a) / N.of_nat (length b)) eqn:E1.
  - destruct Hc as [Hc|Hc]; [lia|].
    rewrite (gallop_left_spec jc1 jc2 a b); auto; try solve [constructor]; lia.
  - destruct (_ <? N.of_nat (length b) / N.of_nat (length a)) eqn:E2.
    + apply gallop_right_spec; auto; try solve [constructor]; lia.
    + apply zipper_spec; auto.
Qed.

Lemma relational_join_In a jc1 b jc2 r :
  In r (relational_join a jc1 b jc2) <->
  exists ra rb, In ra a /\ In rb b /\ col jc1 ra = col jc2 rb /\ r = ra ++ drop_col jc2 rb.
Proof.
  unfold relational_join. rewrite in_flat_map. split.
  - intros (ra & Hra & H). apply in_map_iff in H. destruct H as (rb & <- & H).
    apply filter_In in H. exists ra, rb. intuition lia.
  - intros (ra & rb & Hra & Hrb & E & ->). exists ra. split; auto.
    apply in_map_iff. exists rb. split; auto. apply filter_In. split; auto. lia.
Qed.

Lemma relational_join_sorted a jc1 b jc2 w :
  width w a -> (jc1 < w)%nat -> ssorted jc1 a -> ssorted jc1 (relational_join a jc1 b jc2).
Proof.
  intros Hw Hc Hs. induction a as [|ra a IH]; [constructor|].
  inversion Hw as [|? ? Hwr Hwa]; subst. inversion Hs as [|? ? Hsa Hsl]; subst.
  change (relational_join (ra :: a) jc1 b jc2) with
    (map (fun rb => ra ++ drop_col jc2 rb) (filter (fun rb => col jc1 ra =? col jc2 rb) b)
       ++ relational_join a jc1 b jc2).
  assert (Hcol : forall x, col jc1 (ra ++ x) = col jc1 ra)
    by (intros; unfold col; now rewrite app_nth1).
  apply ssorted_app.
  - clear -Hcol. induction (filter _ b) as [|x l IHl]; simpl; constructor; auto.
    apply Forall_forall. intros y Hy. apply in_map_iff in Hy. destruct Hy as (z & <- & _).
    rewrite !Hcol. lia.
  - apply IH; auto.
  - apply Forall_forall. intros x Hx. apply in_map_iff in Hx. destruct Hx as (z & <- & _).
    apply Forall_forall. intros y Hy. apply relational_join_In in Hy.
    destruct Hy as (ra' & rb' & Hin & _ & _ & ->). rewrite Hcol.
    unfold width in Hwa. rewrite Forall_forall in Hwa, Hsl.
    specialize (Hwa _ Hin). specialize (Hsl _ Hin).
    unfold col at 2. rewrite app_nth1 by lia. exact Hsl.
Qed.

(* ---- joins with a full scan ---- *)

Lemma flat_map_same_key {B} (f : N -> row -> list B) c current group :
  Forall (fun r => col c r = current) group ->
  flat_map (fun r => f current r) group = flat_map (fun r => f (col c r) r) group.
Proof. induction 1 as [|r g Hr Hg IH]; simpl; auto. now rewrite IH, Hr. Qed.

Lemma full_scan_loop_right scan c ndr : forall current group,
  Forall (fun r => col c r = current) group ->
  full_scan_loop (fun id g => cross_product g (scan id)) c current group ndr =
  flat_map (fun r => map (fun s => r ++ s) (scan (col c r))) (group ++ ndr).
Proof.
  induction ndr as [|r ndr IH]; intros current group Hg; cbn [full_scan_loop].
  - rewrite app_nil_r. exact (flat_map_same_key (fun k r => map (fun s => r ++ s) (scan k)) c current group Hg).
  - destruct (col c r =? current) eqn:E.
    + rewrite IH by (apply Forall_app; split; auto; constructor; auto; lia).
      now rewrite <- app_assoc.
    + rewrite IH by (constructor; auto). rewrite (flat_map_app _ group). f_equal.
      exact (flat_map_same_key (fun k r => map (fun s => r ++ s) (scan k)) c current group Hg).
Qed.

Lemma cross_product_nil_r l : cross_product l [] = [].
Proof. unfold cross_product. induction l; simpl; auto. Qed.

Lemma cross_product_cons_r l r rs :
  Permutation (cross_product l (r :: rs)) (map (fun s => s ++ r) l ++ cross_product l rs).
Proof.
  unfold cross_product. induction l as [|x l IH]; simpl; auto.
  apply perm_skip. rewrite IH. rewrite !app_assoc.
  apply Permutation_app_tail, Permutation_app_comm.
Qed.

Lemma cross_product_left_perm l rs :
  Permutation (cross_product l rs) (flat_map (fun r => map (fun s => s ++ r) l) rs).
Proof.
  induction rs as [|r rs IH]; simpl.
  - now rewrite cross_product_nil_r.
  - rewrite cross_product_cons_r. now rewrite IH.
Qed.



Lemma full_scan_loop_left scan c ndr : forall current group,
  Forall (fun r => col c r = current) group ->
  Permutation (full_scan_loop (fun id g => cross_product (scan id) g) c current group ndr)
    (flat_map (fun r => map (fun s => s ++ r) (scan (col c r))) (group ++ ndr)).
Proof.
  induction ndr as [|r ndr IH]; intros current group Hg; cbn [full_scan_loop].
  - rewrite app_nil_r, cross_product_left_perm.
    now rewrite (flat_map_same_key (fun k r => map (fun s => s ++ r) (scan k)) c).
  - destruct (col c r =? current) eqn:E.
    + rewrite IH by (apply Forall_app; split; auto; constructor; auto; lia).
      now rewrite <- app_assoc.
    + rewrite IH by (constructor; auto). rewrite (flat_map_app _ group).
      apply Permutation_app; [|reflexivity].
      rewrite cross_product_left_perm.
      now rewrite (flat_map_same_key (fun k r => map (fun s => s ++ r) (scan k)) c).
Qed.

Lemma full_scan_right_spec scan ndr lc :
  full_scan_right scan ndr lc =
  flat_map (fun r => map (fun s => r ++ s) (scan (col lc r))) ndr.
Proof. destruct ndr; [reflexivity|]. apply full_scan_loop_right. constructor. Qed.

Lemma full_scan_left_spec scan ndr rc :
  Permutation (full_scan_left scan ndr rc)
    (flat_map (fun r => map (fun s => s ++ r) (scan (col rc r))) ndr).
Proof. destruct ndr; [reflexivity|]. apply full_scan_loop_left. constructor. Qed.

(* the output for the rows of a sorted table is sorted on the join column *)
Lemma cross_product_In l rs x :
  In x (cross_product l rs) <-> exists a b, In a l /\ In b rs /\ x = a ++ b.
Proof.
  unfold cross_product. rewrite in_flat_map. split.
  - intros (a & Ha & H). apply in_map_iff in H. destruct H as (b & <- & Hb). eauto.
  - intros (a & b & Ha & Hb & ->). exists a. split; auto. apply in_map_iff. eauto.
Qed.

Lemma const_ssorted c t v : Forall (fun r => col c r = v) t -> ssorted c t.
Proof.
  induction t as [|r t IH]; intros H; constructor; inversion H; subst.
  - now apply IH.
  - eapply Forall_impl; [|exact H3]. simpl. lia.
Qed.

Lemma full_scan_left_In scan c ndr : forall current group x,
  In x (full_scan_loop (fun id g => cross_product (scan id) g) c current group ndr) ->
  exists id s r, In s (scan id) /\ In r (group ++ ndr) /\ x = s ++ r.
Proof.
  induction ndr as [|r ndr IH]; intros current group x; cbn [full_scan_loop].
  - intros H. apply cross_product_In in H. destruct H as (a & b & ? & ? & ->).
    exists current, a, b. rewrite app_nil_r. auto.
  - destruct (col c r =? current).
    + intros H. apply IH in H. now rewrite <- app_assoc in H.
    + rewrite in_app_iff. intros [H|H].
      * apply cross_product_In in H. destruct H as (a & b & ? & ? & ->).
        exists current, a, b. rewrite in_app_iff. auto.
      * apply IH in H. destruct H as (id & s & r' & ? & Hin & ->).
        exists id, s, r'. rewrite in_app_iff. simpl in Hin |- *. tauto.
Qed.

Lemma full_scan_loop_left_sorted scan c w ndr :
  (forall id, width w (scan id)) ->
  forall current group,
  Forall (fun r => col c r = current) group ->
  ssorted c ndr -> Forall (fun r => current <= col c r) ndr ->
  ssorted (w + c) (full_scan_loop (fun id g => cross_product (scan id) g) c current group ndr).
Proof.
  intros Hw.
  assert (Hcol : forall id s r, In s (scan id) -> col (w + c) (s ++ r) = col c r).
  { intros id s r Hs. specialize (Hw id). unfold width in Hw. rewrite Forall_forall in Hw.
    specialize (Hw _ Hs). unfold col. rewrite app_nth2 by lia. f_equal. lia. }
  assert (Hcp : forall id g v, Forall (fun r => col c r = v) g ->
                  Forall (fun r => col (w + c) r = v) (cross_product (scan id) g)).
  { intros id g v Hg. apply Forall_forall. intros x Hx. apply cross_product_In in Hx.
    destruct Hx as (a & b & Ha & Hb & ->). rewrite (Hcol id) by auto.
    rewrite Forall_forall in Hg. auto. }
  induction ndr as [|r ndr IH]; intros current group Hg Hs Hle; cbn [full_scan_loop].
  - eapply const_ssorted. apply Hcp. eassumption.
  - inversion Hs as [|? ? Hs1 Hs2]; subst. inversion Hle as [|? ? Hle1 Hle2]; subst.
    destruct (col c r =? current) eqn:E.
    + apply IH; auto. apply Forall_app. split; auto. constructor; auto. lia.
    + apply ssorted_app.
      * eapply const_ssorted. apply Hcp. eassumption.
      * apply IH; auto.
      * pose proof (Hcp current group current Hg) as HC.
        eapply Forall_impl; [|exact HC]. simpl. intros x Hx.
        apply Forall_forall. intros y Hy. apply full_scan_left_In in Hy.
        destruct Hy as (id & s & r' & Hs' & Hin & ->). rewrite (Hcol id) by auto.
        simpl in Hin. destruct Hin as [<-|Hin]; [lia|].
        rewrite Forall_forall in Hle2. specialize (Hle2 _ Hin). lia.
Qed.

Lemma full_scan_left_sorted scan ndr rc w :
  (forall id, width w (scan id)) -> ssorted rc ndr ->
  ssorted (w + rc) (full_scan_left scan ndr rc).
Proof.
  intros Hw Hs. destruct ndr as [|r ndr]; [constructor|].
  apply full_scan_loop_left_sorted; auto. inversion Hs; subst. constructor; auto; lia.
Qed.

Lemma relational_join_full_scan ndr lc f :
  flat_map (fun r => map (fun s => r ++ s)
     (map (drop_col 0) (filter (fun s => col 0 s =? col lc r) f))) ndr
  = relational_join ndr lc f 0.
Proof.
  unfold relational_join. apply flat_map_ext. intros r.
  rewrite map_map. f_equal. apply filter_ext. intros; lia.
Qed.
