(* Progress and termination. *)
From Coq Require Import List Arith Bool Lia Wf_nat.
From Verif Require Import ListAux Pipe_Model Pipe_Spec Pipe_Proof Pipe_Proof2 Pipe_Proof3.
Import ListNotations.

Section Pipe.
  Context {V C S : Type}.
  Variable next : C -> made V C.
  Notation transformer := (S -> V -> option (V * S)).
  Variable bs : nat.
  Notation pipe := (pipe V C S).
  Notation step := (step V C S next bs).
  Notation pickupBatch := (pickupBatch V C S bs).
  Notation internal := (internal V C S next bs).

  (* ---- every sequence of internal steps ends ---- *)
  Fixpoint depth (p : pipe) : nat := match p with Batcher _ _ _ _ _ => 0 | Stage _ _ _ q _ _ _ _ => Datatypes.S (depth q) end.
  Lemma pickup_depth p r p' : pickupBatch p = Some (r, p') -> depth p' = depth p.
  Proof.
    intros H. destruct p as [c f|p0 n0 fs0 ss0 f]; [destruct f as [i acc|[x|]|] | destruct f as [|g ws|[x|]|]]; cbn in H; try discriminate; injection H; intros; subst; reflexivity.
  Qed.
  Lemma step_depth p p' : step p p' -> depth p' = depth p.
  Proof. induction 1; cbn; auto; f_equal; eauto using pickup_depth. Qed.
  Notation back := (fun y x => step x y).
  Definition amount (ws : list (worker V)) : nat := fold_right (fun w n => length (todo V w) + n) 0 ws.
  Lemma amount_set ws : forall j w w', nth_error ws j = Some w -> length (todo V w') < length (todo V w) -> amount (set_nth j w' ws) < amount ws.
  Proof.
    induction ws as [|x ws IH]; intros [|j] w w' H L; cbn in *; try discriminate.
    - injection H as ->. lia.
    - specialize (IH j w w' H L). unfold amount in IH. lia.
  Qed.
  Lemma batcher_acc c f : Acc back (Batcher V C S c f).
  Proof.
    assert (RD : forall c r, Acc back (Batcher V C S c (BReady V r))) by (intros c1 r; constructor; intros y H; inversion H).
    destruct f as [i acc|r|]; [|apply RD|constructor; intros y H; inversion H].
    revert c acc. induction i as [|i IH]; intros c acc; constructor; intros y H; inversion H; subst; auto.
  Qed.
  Lemma pipe_acc d : forall p, depth p = d -> Acc back p.
  Proof.
    induction d as [|d IH]; intros p D; destruct p as [c f|p n fs ss f]; try discriminate; [apply batcher_acc|]. cbn in D. injection D as D.
    assert (RD : forall p ss r, depth p = d -> Acc back (Stage V C S p n fs ss (SReady V r))).
    { intros p1 ss1 r D1. pose proof (IH p1 D1) as A. revert D1. induction A as [p1 _ IHA]. intros D1. constructor. intros y H. inversion H; subst.
      apply IHA; [assumption|]. rewrite (step_depth p1 p'); auto. }
    assert (WK : forall k p ss g ws, depth p = d -> amount ws < k -> Acc back (Stage V C S p n fs ss (SWorking V g ws))).
    { induction k as [|k IHk]; intros p1 ss1 g ws D1 AM; [lia|]. pose proof (IH p1 D1) as A. revert D1. induction A as [p1 _ IHA]. intros D1. constructor. intros y H. inversion H; subst.
      - apply IHA; [assumption|]. rewrite (step_depth p1 p'); auto.
      - apply IHk; [exact D1|]. match goal with X : nth_error ws j = Some (Worker V (?v :: ?t) (Some ?d1)) |- amount (set_nth j ?w' ws) < _ => pose proof (amount_set ws j _ w' X) as AS end.
        cbn [todo length] in AS. specialize (AS ltac:(lia)). lia.
      - apply IHk; [exact D1|]. match goal with X : nth_error ws j = Some (Worker V (?v :: ?t) (Some ?d1)) |- amount (set_nth j ?w' ws) < _ => pose proof (amount_set ws j _ w' X) as AS end.
        cbn [todo length] in AS. specialize (AS ltac:(lia)). lia.
      - now apply RD. }
    destruct f as [|g ws|r|].
    - pose proof (IH p D) as A. revert D. induction A as [p _ IHA]. intros D. constructor. intros y H. inversion H; subst.
      + apply IHA; [assumption|]. rewrite (step_depth p p'); auto.
      + eapply WK; [|apply Nat.lt_succ_diag_r]. match goal with P : Pipe_Model.pickupBatch _ _ _ _ _ = _ |- _ => rewrite (pickup_depth _ _ _ P) end. reflexivity.
      + apply RD. match goal with P : Pipe_Model.pickupBatch _ _ _ _ _ = _ |- _ => rewrite (pickup_depth _ _ _ P) end. reflexivity.
    - apply WK with (Datatypes.S (amount ws)); [exact D|apply Nat.lt_succ_diag_r].
    - now apply RD.
    - pose proof (IH p D) as A. revert D. induction A as [p _ IHA]. intros D. constructor. intros y H. inversion H; subst.
      apply IHA; [assumption|]. rewrite (step_depth p p'); auto.
  Qed.
  Lemma internal_acc x : Acc (fun y x => internal x y) x.
  Proof.
    assert (G : forall p f b n g, f <> EWaiting V -> Acc (fun y x => internal x y) (Extractor V C S p f b n g)).
    { intros p f b n g F. pose proof (pipe_acc (depth p) p eq_refl) as A. induction A as [p _ IHA]. constructor. intros y H. inversion H; subst; [now apply IHA | contradiction]. }
    destruct x as [p f b n g]. destruct f as [|r|]; [|apply G; discriminate|apply G; discriminate].
    pose proof (pipe_acc (depth p) p eq_refl) as A. induction A as [p _ IHA]. constructor. intros y H. inversion H; subst; [now apply IHA|]. apply G. discriminate.
  Qed.

  (* ---- nobody waits forever ---- *)
  Fixpoint alive (p : pipe) : Prop :=
    match p with
    | Batcher _ _ _ _ f => f <> BInvalid V
    | Stage _ _ _ q n fs ss f =>
        stage_ok (n, fs, ss) /\
        match f with
        | SWaiting _ => alive q
        | SWorking _ _ ws => alive q /\ length ws = n /\ Forall (fun w => done V w = None -> todo V w = []) ws
        | SReady _ (Some _) => alive q
        | SReady _ None => True
        | SInvalid _ => False
        end
    end.
  Lemma pickup_alive p b p' : alive p -> pickupBatch p = Some (Some b, p') -> alive p'.
  Proof.
    intros A H. destruct p as [c f|p n fs ss f]; [destruct f as [i acc|[x|]|] | destruct f as [|g ws|[x|]|]]; cbn in H; try discriminate; injection H as <- <-; cbn in *; auto. discriminate.
  Qed.
  Lemma Forall_set {A} (P : A -> Prop) l : forall i x, Forall P l -> P x -> Forall P (set_nth i x l).
  Proof. induction l as [|y l IH]; intros [|i] x F X; cbn; auto; inversion F; subst; constructor; auto. Qed.
  Lemma ok_set n (fs : list transformer) ss i s : stage_ok (n, fs, ss) -> stage_ok (n, fs, set_nth i s ss).
  Proof. intros (A & B & D). split; [exact A|]. rewrite set_nth_length. auto. Qed.
  Lemma step_alive p p' : step p p' -> alive p -> alive p'.
  Proof.
    induction 1 as [c v c' i acc E|c c' i acc E|c i acc E|c acc|p p' n fs ss f H IH|p p' n fs ss b H|p p' n fs ss H
      |p n fs ss good ws j v t d f s v' s' X F G E|p n fs ss good ws j v t d f s X F G E|p n fs ss good ws D]; cbn [alive]; intros A; try discriminate.
    - destruct A as [OK A]. split; [exact OK|]. destruct f as [|g ws|[b|]|]; auto. destruct A as (A1 & A2 & A3). auto.
    - destruct A as [OK A]. split; [exact OK|]. split; [now apply (pickup_alive p b)|]. split; [unfold start; now rewrite map_length, seq_length|].
      apply Forall_forall. intros w W. unfold start in W. apply in_map_iff in W as (i & <- & _). cbn. discriminate.
    - destruct A as [OK A]. auto.
    - destruct A as [OK (A1 & A2 & A3)]. split; [now apply ok_set|]. split; [exact A1|]. split; [now rewrite set_nth_length|]. apply Forall_set; [exact A3|]. cbn. discriminate.
    - destruct A as [OK (A1 & A2 & A3)]. split; [exact OK|]. split; [exact A1|]. split; [now rewrite set_nth_length|]. apply Forall_set; [exact A3|]. reflexivity.
    - destruct A as [OK (A1 & A2 & A3)]. split; [exact OK|]. destruct (merged V ws); cbn; auto.
  Qed.
  Lemma progress p : alive p -> pickupBatch p = None -> exists p', step p p'.
  Proof.
    induction p as [c f|p IH n fs ss f]; cbn [alive]; intros A P.
    - destruct f as [i acc|[b|]|]; try discriminate; [|contradiction]. destruct i as [|i]; [eexists; apply b_full|].
      destruct (next c) as [v c'|c'|] eqn:E; eexists; [eapply b_value|eapply b_end|eapply b_raise]; exact E.
    - destruct A as [OK A]. destruct f as [|g ws|[b|]|]; try discriminate; [| |contradiction].
      + destruct (pickupBatch p) as [[[b|] p']|] eqn:PK.
        * eexists. eapply s_start. exact PK.
        * eexists. eapply s_fail. exact PK.
        * destruct (IH A eq_refl) as (p' & H). eexists. apply s_inner. exact H.
      + destruct A as (A & L & W).
        assert (D : Forall (fun w => todo V w = []) ws \/ exists j w, nth_error ws j = Some w /\ todo V w <> []).
        { clear L W P. induction ws as [|w ws IHw]; [left; constructor|]. destruct (todo V w) as [|v t] eqn:E; [|right; exists 0, w; split; [reflexivity|congruence]].
          destruct IHw as [F|(j & w' & H1 & H2)]; [left; constructor; auto|]. right. exists (Datatypes.S j), w'. auto. }
        destruct D as [D|(j & w & X & NE)]; [eexists; now apply s_finish|].
        destruct w as [[|v t] [d|]]; [contradiction|contradiction| |].
        * assert (J : j < n) by (rewrite <- L; apply nth_error_Some; congruence).
          pose proof (tof_lt n fs ss j OK J) as T. destruct OK as (_ & LS & _).
          destruct (nth_error fs (transformer_of V S n fs j)) as [f|] eqn:F; [|apply nth_error_None in F; lia].
          destruct (nth_error ss (transformer_of V S n fs j)) as [s|] eqn:G; [|apply nth_error_None in G; lia].
          destruct (f s v) as [[v' s']|] eqn:E; eexists; [eapply s_call|eapply s_raise]; eauto.
        * rewrite Forall_forall in W. specialize (W _ (nth_error_In _ _ X) eq_refl). discriminate.
  Qed.
  Lemma setup_alive ts : Forall stage_ok ts -> forall p, alive p -> alive (setupParallelPipelineRecursive V C S p ts).
  Proof. induction 1 as [|[[n fs] ss] ts OK H IH]; intros p A; cbn [setupParallelPipelineRecursive]; [exact A|]. apply IH. cbn [alive]. auto. Qed.
  Definition xalive (x : extractor V C S) : Prop := fut V C S x = EInvalid V \/ fut V C S x = EReady V None \/ alive (pipeline V C S x).
  Lemma internal_alive x y : internal x y -> xalive x -> xalive y.
  Proof.
    intros H A. unfold xalive in *. destruct H as [p p' f b n g ST|p p' r b n g PK]; cbn [fut pipeline] in *.
    - destruct A as [A|[A|A]]; auto. right. right. eapply step_alive; eauto.
    - destruct A as [A|[A|A]]; try discriminate. destruct r as [b'|]; [|auto]. right. right. eapply pickup_alive; eauto.
  Qed.
  Lemma call_alive x e y : getNextValue V C S x = Some (e, y) -> xalive x -> xalive y.
  Proof.
    intros G A. unfold getNextValue in G. destruct x as [p f b n g]. cbn [fut pipeline buffer bufferPosition isPipelineValid] in *. unfold xalive in *. cbn [fut pipeline] in A.
    assert (DL : forall p f b n g e y, deliver V C S (Extractor V C S p f b n g) = (e, y) -> pipeline V C S y = p /\ fut V C S y = f).
    { intros p1 f1 b1 n1 g1 e1 y1 H. unfold deliver in H. cbn in H. destruct (nth_error b1 n1); injection H as <- <-; auto. }
    destruct ((length b =? n) && g).
    - destruct f as [|[b'|]|]; try discriminate.
      + injection G as G. apply DL in G as [G1 G2]. rewrite G1, G2. destruct A as [A|[A|A]]; try discriminate. auto.
      + injection G as <- <-. cbn. auto.
      + injection G as <- <-. cbn. auto.
    - injection G as G. apply DL in G as [G1 G2]. rewrite G1, G2. exact A.
  Qed.
  Lemma execution_alive c ts tr y : Forall stage_ok ts -> execution V C S next bs (setupParallelPipeline V C S bs c ts) tr y -> xalive y.
  Proof.
    intros OK E. remember (setupParallelPipeline V C S bs c ts) as x eqn:X. induction E as [x|x tr y z E IH I|x tr y e z E IH G]; subst.
    - right. right. cbn [pipeline setupParallelPipeline]. apply setup_alive; [exact OK|]. cbn. discriminate.
    - eapply internal_alive; eauto.
    - eapply call_alive; eauto.
  Qed.
  Lemma waiting_progress x : xalive x -> getNextValue V C S x = None -> exists y, internal x y.
  Proof.
    intros A G. destruct x as [p f b n g]. unfold getNextValue in G. cbn [fut pipeline buffer bufferPosition isPipelineValid] in *. destruct ((length b =? n) && g); [|discriminate].
    destruct f as [|[b'|]|]; try discriminate. unfold xalive in A. cbn in A. destruct A as [A|[A|A]]; try discriminate.
    destruct (pickupBatch p) as [[r p']|] eqn:PK; [eexists; eapply i_take; exact PK|]. destruct (progress p A PK) as (p' & H). eexists. apply i_pipe. exact H.
  Qed.
End Pipe.
