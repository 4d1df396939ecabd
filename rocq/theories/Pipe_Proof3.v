(* What the sequential pipeline delivers; progress and termination. *)
From Coq Require Import List Arith Bool Lia.
From Verif Require Import ListAux Pipe_Model Pipe_Spec Pipe_Proof Pipe_Proof2.
Import ListNotations.

Section Pipe.
  Context {V C S : Type}.
  Variable next : C -> made V C.
  Notation transformer := (S -> V -> option (V * S)).
  Variable bs : nat.
  Hypothesis BS : 0 < bs.
  Notation pipe := (pipe V C S).
  Notation step := (step V C S next bs).
  Notation pickupBatch := (pickupBatch V C S bs).
  Notation produce := (@produce V C S next bs).
  Notation produces := (@produces V C S next bs).
  Notation gather := (@gather V C next).
  Notation seqpipe := (@seqpipe V C S).
  Notation yields := (yields next).

  Lemma yields_app c l1 c1 l2 c2 : yields c l1 c1 -> yields c1 l2 c2 -> yields c (l1 ++ l2) c2.
  Proof. induction 1; intros H2; cbn; [exact H2|]. econstructor; eauto. Qed.
  Lemma gather_spec i : forall acc c,
    match gather i acc c with
    | Some (b, c') => exists more c2, yields c more c2 /\ content b = acc ++ more /\
        if isPipelineGood b then length more = i /\ c2 = c' else next c2 = End c' /\ length more < i
    | None => exists more c2, yields c more c2 /\ next c2 = Raise /\ length more < i
    end.
  Proof.
    induction i as [|i IH]; intros acc c; cbn [Pipe_Proof.gather].
    - exists [], c. split; [constructor|]. cbn. split; [now rewrite app_nil_r|]. auto.
    - destruct (next c) as [v c1|c1|] eqn:E.
      + specialize (IH (acc ++ [v]) c1). destruct (gather i (acc ++ [v]) c1) as [[b c']|].
        * destruct IH as (more & c2 & Y & CT & G). exists (v :: more), c2. split; [econstructor; eauto|]. split; [rewrite CT, <- app_assoc; reflexivity|].
          cbn [length]. destruct (isPipelineGood b); destruct G; split; auto; lia.
        * destruct IH as (more & c2 & Y & R & L). exists (v :: more), c2. split; [econstructor; eauto|]. cbn [length]. split; [exact R|lia].
      + exists [], c. split; [constructor|]. split; [cbn; now rewrite app_nil_r|]. cbn. split; [exact E|lia].
      + exists [], c. split; [constructor|]. cbn. split; [exact E|lia].
  Qed.

  Lemma responsible_shift n (fs : list transformer) k i : k mod bs = 0 -> responsible bs n fs (k + i) = responsible bs n fs (0 + i).
  Proof.
    intros K. unfold responsible, part. destruct (n =? length fs); [|reflexivity].
    replace ((k + i) mod bs) with ((0 + i) mod bs); [reflexivity|]. rewrite (Nat.add_mod k i) by lia. rewrite K. cbn [Nat.add]. now rewrite Nat.mod_mod by lia.
  Qed.
  Lemma mod_next k : k mod bs = 0 -> (k + bs) mod bs = 0.
  Proof. intros K. replace (k + bs) with (k + 1 * bs) by lia. rewrite Nat.mod_add by lia. exact K. Qed.
  Lemma contents_length q taken q1 : produces q taken q1 -> allgood taken -> length (contents taken) = length taken * bs.
  Proof.
    induction 1 as [q|q b q1 l q2 P H IH]; intros G; [reflexivity|]. inversion G; subst. unfold contents in *. cbn [map concat length]. rewrite app_length, IH by assumption.
    rewrite (produce_good next bs BS q b q1 P) by assumption. lia.
  Qed.
  Lemma stage_produces taken : forall q n fs ss q1, produces (SS q n fs ss) taken q1 -> allgood taken -> forall k, k mod bs = 0 ->
    exists taken' q1' ss1, q1 = SS q1' n fs ss1 /\ produces q taken' q1' /\ allgood taken' /\ length taken' = length taken /\
      transformed (responsible bs n fs) fs ss k (contents taken') = Some (contents taken, ss1).
  Proof.
    induction taken as [|b taken IH]; intros q n fs ss q1 H G k K; inversion H; subst.
    - exists [], q, ss. split; [reflexivity|]. split; [constructor|]. split; [constructor|]. split; reflexivity.
    - match goal with P : Pipe_Proof.produce _ _ _ = Some _ |- _ => rename P into P0 end. inversion G; subst. cbn [Pipe_Proof.produce] in P0.
      destruct (produce q) as [[b' q']|] eqn:PQ; [|discriminate]. destruct (transformed _ fs ss 0 (content b')) as [[r ss']|] eqn:T; cbn in P0; [|discriminate].
      injection P0 as <- <-. cbn [isPipelineGood] in *.
      match goal with H : Pipe_Proof2.produces _ _ (SS q' n fs ss') _ _ |- _ => destruct (IH q' n fs ss' q1 H) with (k := k + bs) as (taken' & q1' & ss1 & E & PR & AG & L & TR); [assumption|now apply mod_next|] end.
      exists (b' :: taken'), q1', ss1. split; [exact E|]. split; [econstructor; eauto|]. split; [constructor; auto|]. split; [cbn; lia|].
      unfold contents in *. cbn [map concat content]. rewrite transformed_app.
      rewrite (transformed_shift _ (responsible bs n fs) fs (content b') ss k 0) by (intros i I; now apply responsible_shift). rewrite T.
      rewrite (produce_good next bs BS q b' q' PQ) by assumption. rewrite TR. reflexivity.
  Qed.

  Lemma through_app (ts1 : stages V S) : forall ts2 (l : list V), through bs (ts1 ++ ts2) l = match through bs ts1 l with Some r => through bs ts2 r | None => None end.
  Proof. induction ts1 as [|[[n fs] ss] ts1 IH]; intros ts2 l; cbn [app through]; [reflexivity|]. destruct (transformed _ fs ss 0 l) as [[r ss']|]; auto. Qed.
  Lemma through_length (ts : stages V S) : forall (l r : list V), through bs ts l = Some r -> length r = length l.
  Proof.
    induction ts as [|[[n fs] ss] ts IH]; intros l r H; cbn [through] in H; [congruence|]. destruct (transformed _ fs ss 0 l) as [[r' ss']|] eqn:T; [|discriminate].
    apply transformed_length in T as [T _]. apply IH in H. lia.
  Qed.
  Lemma seqsetup_app (ts1 : stages V S) : forall q ts2, seqsetup q (ts1 ++ ts2) = @seqsetup V C S (seqsetup q ts1) ts2.
  Proof. induction ts1 as [|[[n fs] ss] ts1 IH]; intros q ts2; cbn [app seqsetup]; auto. Qed.
  Lemma seq_mod n : (n * bs) mod bs = 0.
  Proof. apply Nat.mod_mul. lia. Qed.

  Lemma sequential c ts : forall taken q1, produces (seqsetup (SB c) ts) taken q1 -> allgood taken ->
    exists l c1, yields c l c1 /\ length l = length taken * bs /\ through bs ts l = Some (contents taken) /\
      match produce q1 with
      | Some (b, q2) => exists more c2, yields c1 more c2 /\ through bs ts (l ++ more) = Some (contents taken ++ content b) /\
          if isPipelineGood b then c2 = screator q2 else next c2 = End (screator q2)
      | None => exists more c2, yields c1 more c2 /\ length more <= bs /\ (next c2 = Raise \/ through bs ts (l ++ more) = None)
      end.
  Proof.
    induction ts as [|[[n fs] ss] ts IH] using rev_ind; intros taken q1 P G.
    - cbn [seqsetup through] in *.
      assert (H : exists c1, yields c (contents taken) c1 /\ q1 = SB c1).
      { remember (SB c) as q eqn:Q. revert c Q G. induction P as [q|q b q1 l q2 E P IH]; intros c Q G; subst.
        - exists c. split; [constructor|reflexivity].
        - cbn [Pipe_Proof.produce] in E. pose proof (gather_spec bs [] c) as GS. destruct (gather bs [] c) as [[b0 c0]|]; cbn in E; [|discriminate]. injection E as <- <-.
          inversion G; subst. destruct GS as (more & c2 & Y & CT & GD). rewrite H1 in GD. destruct GD as [L ->].
          destruct (IH c0 eq_refl H2) as (c1 & Y1 & ->). exists c1. split; [|reflexivity]. unfold contents. cbn [map concat]. rewrite CT. cbn [app]. now apply yields_app with c0. }
      destruct H as (c1 & Y & ->). exists (contents taken), c1. split; [exact Y|]. split; [now apply (contents_length (SB c) taken (SB c1))|]. split; [reflexivity|].
      cbn [Pipe_Proof.produce]. pose proof (gather_spec bs [] c1) as GS. destruct (gather bs [] c1) as [[b0 c0]|]; cbn [option_map fst snd screator].
      + destruct GS as (more & c2 & Y2 & CT & GD). exists more, c2. split; [exact Y2|]. rewrite CT. split; [reflexivity|]. destruct (isPipelineGood b0); apply GD.
      + destruct GS as (more & c2 & Y2 & R & L). exists more, c2. split; [exact Y2|]. split; [lia|]. now left.
    - rewrite seqsetup_app in P. cbn [seqsetup] in P. destruct (stage_produces taken _ n fs ss q1 P G 0) as (taken' & q1' & ss1 & -> & P' & G' & L' & T); [now apply Nat.mod_0_l; lia|].
      destruct (IH taken' q1' P' G') as (l & c1 & Y & LL & TH & REST). exists l, c1. split; [exact Y|]. split; [lia|].
      split; [rewrite through_app, TH; cbn [through]; now rewrite T|]. cbn [Pipe_Proof.produce]. destruct (produce q1') as [[b q2]|] eqn:PB.
      + destruct REST as (more & c2 & Y2 & TH2 & GD).
        assert (T2 : transformed (responsible bs n fs) fs ss 0 (contents taken' ++ content b) = match transformed (responsible bs n fs) fs ss1 0 (content b) with Some (r2, s2) => Some (contents taken ++ r2, s2) | None => None end).
        { rewrite transformed_app, T. cbn [Nat.add].
          rewrite (transformed_shift _ (responsible bs n fs) fs (content b) ss1 _ 0) by (intros i I; apply responsible_shift; rewrite (contents_length _ _ _ P' G'); apply seq_mod). reflexivity. }
        destruct (transformed (responsible bs n fs) fs ss1 0 (content b)) as [[r ss2]|]; cbn [option_map fst snd isPipelineGood content screator].
        * exists more, c2. split; [exact Y2|]. split; [|exact GD]. rewrite through_app, TH2. cbn [through]. now rewrite T2.
        * exists more, c2. split; [exact Y2|]. split.
          -- apply through_length in TH2. pose proof (through_length _ _ _ TH) as TL. rewrite !app_length in TH2. rewrite (contents_length _ _ _ P' G') in *.
             assert (length (content b) = length more) by lia.
             pose proof (produce_length next bs _ _ _ PB). lia.
          -- right. rewrite through_app, TH2. cbn [through]. now rewrite T2.
      + destruct REST as (more & c2 & Y2 & LM & R). exists more, c2. split; [exact Y2|]. split; [exact LM|]. destruct R as [R|R]; [now left|]. right. rewrite through_app, R. reflexivity.
  Qed.
End Pipe.
