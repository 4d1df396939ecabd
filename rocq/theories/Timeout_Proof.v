(* Proofs for C80. *)
From Coq Require Import List NArith ZArith Bool Lia.
From Verif Require Import Table_Spec Timeout_Spec Timeout_Model.
Import ListNotations.
Local Open Scope Z_scope.

Lemma op_ind' (P : op -> Prop) :
  (forall k t cs b, (forall c, In (Some c) cs -> P c) -> P (Op k t cs b)) -> forall o, P o.
Proof.
  intros H. fix IH 1. intros [k t cs b]. apply H.
  induction cs as [|[c|] cs IHcs]; intros x Hx; cbn in Hx.
  - destruct Hx.
  - destruct Hx as [E|Hx]; [injection E as <-; apply IH|now apply IHcs].
  - destruct Hx as [E|Hx]; [discriminate|now apply IHcs].
Qed.

(* o' is the operation o or below it *)
Inductive sub : op -> op -> Prop :=
| sub_here o : sub o o
| sub_below o' c k t cs b : In (Some c) cs -> sub o' c -> sub o' (Op k t cs b).

(* e is the expected time of a sort in the computation b *)
Inductive expects (e : Z) : body -> Prop :=
| expects_here k : expects e (Estimate e k)
| expects_get i k t : expects e (k t) -> expects e (Get i k)
| expects_check k : expects e k -> expects e (Check k)
| expects_later e' k : expects e k -> expects e (Estimate e' k).

Section Generic.
Variable clock : nat -> tv.
Variable env : nat -> N -> lookup.
Variable j : nat.
Variable I : state -> Prop.
Variables Late Fine : state -> Prop.
Variable Exp : Z -> state -> Prop.
Hypothesis Hasked : forall s a, I s -> I (St (s_clock s) a (s_timers s)).
Hypothesis Hout : forall s s' out, I s -> timed_out clock j s = (s', out) -> I s' /\ if out then Late s' else Fine s'.
Hypothesis Hrem : forall s s' res, I s -> remaining clock j s = (s', res) -> I s' /\ forall e, res * 3 < e -> Exp e s'.

Definition good (o : op) (s s' : state) (x : outcome) : Prop :=
  match x with
  | Val t => value o = Some t /\ (env (s_asked s) (op_key o) = Compute -> Fine s')
  | Aborted TimeLimit => Late s'
  | Aborted SortExpected => exists o' e, sub o' o /\ expects e (op_body o') /\ Exp e s'
  | Aborted OtherError => value o = None
  | Aborted OtherQuery => exists o' n, sub o' o /\ env n (op_key o') = Failed
  | Undefined => value o = None
  end.

Lemma run_good cs (ne : forall c s s' x, In (Some c) cs -> I s -> getResult clock env c s = (s', x) -> I s' /\ good c s s' x) :
  forall b s s' x, I s -> run clock (map (option_map (getResult clock env)) cs) j b s = (s', x) ->
  I s' /\
  match x with
  | Val t => value_run (map (option_map value) cs) b = Some t
  | Aborted TimeLimit => Late s'
  | Aborted SortExpected => (exists e, expects e b /\ Exp e s') \/ exists c o' e, In (Some c) cs /\ sub o' c /\ expects e (op_body o') /\ Exp e s'
  | Aborted OtherError => value_run (map (option_map value) cs) b = None
  | Aborted OtherQuery => exists c o' n, In (Some c) cs /\ sub o' c /\ env n (op_key o') = Failed
  | Undefined => value_run (map (option_map value) cs) b = None
  end.
Proof.
  induction b as [t| |i k IH|k IH|e k IH]; intros s s' x Hs E; cbn [run value_run] in *.
  - injection E as <- <-. auto.
  - injection E as <- <-. auto.
  - rewrite nth_error_map in E |- *. destruct (nth_error cs i) as [[c|]|] eqn:N; cbn [option_map] in E |- *.
    2,3: injection E as <- <-; auto.
    assert (Hc : In (Some c) cs) by (eapply nth_error_In; eauto).
    destruct (getResult clock env c s) as [s1 y] eqn:G. destruct (ne c s s1 y Hc Hs G) as [I1 G1].
    destruct y as [t|c0|].
    + destruct G1 as [V _]. rewrite V. specialize (IH t s1 s' x I1 E) as [I2 R]. split; auto.
      destruct x as [u|[| | |]|]; auto. destruct R as [(e & A & B)|R]; [left; exists e; split; [econstructor; eauto|auto]|now right].
    + injection E as <- <-. split; auto. destruct c0; cbn in G1.
      * auto.
      * destruct G1 as (o' & e & A & B & C). right. exists c, o', e. auto.
      * now rewrite G1.
      * destruct G1 as (o' & n & A & B). exists c, o', n. auto.
    + injection E as <- <-. cbn in G1. split; auto. now rewrite G1.
  - destruct (timed_out clock j s) as [s1 out] eqn:T. destruct (Hout s s1 out Hs T) as [I1 O1]. destruct out.
    + injection E as <- <-. auto.
    + specialize (IH s1 s' x I1 E) as [I2 R]. split; auto. destruct x as [u|[| | |]|]; auto.
      destruct R as [(e & A & B)|R]; [left; exists e; split; [now constructor|auto]|now right].
  - destruct (remaining clock j s) as [s1 res] eqn:T. destruct (Hrem s s1 res Hs T) as [I1 O1].
    destruct (Z.ltb_spec (res * 3) e).
    + injection E as <- <-. split; auto. left. exists e. split; [constructor|auto].
    + specialize (IH s1 s' x I1 E) as [I2 R]. split; auto. destruct x as [u|[| | |]|]; auto.
      destruct R as [(e' & A & B)|R]; [left; exists e'; split; [now constructor|auto]|now right].
Qed.

Lemma getResult_good : forall o, (forall o', sub o' o -> op_timer o' = j) ->
  (forall o' n t, sub o' o -> env n (op_key o') = Present t -> value o' = Some t) ->
  forall s s' x, I s -> getResult clock env o s = (s', x) -> I s' /\ good o s s' x.
Proof.
  induction o as [k t cs b IH] using op_ind'. intros U S s s' x Hs E. cbn [getResult] in E.
  assert (t = j) as -> by exact (U _ (sub_here _)).
  assert (H1 : I (St (s_clock s) (Datatypes.S (s_asked s)) (s_timers s))) by auto.
  destruct (env (s_asked s) k) as [u| |] eqn:L.
  - injection E as <- <-. split; auto. cbn. split; [|congruence]. exact (S _ _ _ (sub_here _) L).
  - injection E as <- <-. split; auto. cbn. eexists _, _. split; [apply sub_here|exact L].
  - destruct (timed_out clock j _) as [s2 out] eqn:T. destruct (Hout _ _ _ H1 T) as [I2 O2]. destruct out; [injection E as <- <-; auto|].
    destruct (run clock _ j b s2) as [s3 y] eqn:R. apply run_good in R as [I3 R]; auto.
    2: { intros c s0 s0' x0 Hc Hs0 E0. apply IH; auto; intros.
         - apply U. eapply sub_below; eauto.
         - eapply S; eauto. eapply sub_below; eauto. }
    destruct y as [u|c|].
    + destruct (timed_out clock j s3) as [s4 out4] eqn:T4. destruct (Hout _ _ _ I3 T4) as [I4 O4].
      destruct out4; injection E as <- <-; split; auto. cbn. auto.
    + injection E as <- <-. split; auto. destruct c; cbn; auto.
      * destruct R as [(e & A & B)|(c & o' & e & A & B & C & D)].
        -- exists (Op k j cs b), e. split; [constructor|auto].
        -- exists o', e. split; [eapply sub_below; eauto|auto].
      * destruct R as (c & o' & n & A & B & C). exists o', n. split; [eapply sub_below; eauto|auto].
    + injection E as <- <-. auto.
Qed.
End Generic.

(* the timers *)
Lemma set_sub tm : forall o o', sub o' (recursivelySetTimeoutTimer tm o) -> exists o'', sub o'' o /\ o' = recursivelySetTimeoutTimer tm o''.
Proof.
  induction o as [k t cs b IH] using op_ind'. intros o' H. remember (recursivelySetTimeoutTimer tm (Op k t cs b)) as z eqn:Z.
  destruct H as [o|o' c k' t' cs' b' Hc H].
  - exists (Op k t cs b). split; [constructor|auto].
  - cbn in Z. injection Z as -> -> -> ->. apply in_map_iff in Hc as ([d|] & E & Hd); [|discriminate]. cbn in E. injection E as <-.
    destruct (IH d Hd _ H) as (o'' & A & B). exists o''. split; [eapply sub_below; eauto|auto].
Qed.
Lemma sub_set tm : forall o o', sub o' o -> sub (recursivelySetTimeoutTimer tm o') (recursivelySetTimeoutTimer tm o).
Proof.
  intros o o' H. induction H as [o|o' c k t cs b Hc H IH]; [constructor|]. cbn. eapply sub_below; eauto.
  apply in_map_iff. exists (Some c). auto.
Qed.
Lemma value_set tm : forall o, value (recursivelySetTimeoutTimer tm o) = value o.
Proof.
  induction o as [k t cs b IH] using op_ind'. cbn. f_equal. rewrite map_map. apply map_ext_in. intros [c|] Hc; cbn; auto.
  f_equal. auto.
Qed.
Lemma key_set tm o : op_key (recursivelySetTimeoutTimer tm o) = op_key o.
Proof. now destruct o. Qed.
Lemma body_set tm o : op_body (recursivelySetTimeoutTimer tm o) = op_body o.
Proof. now destruct o. Qed.

(* a timer with a limit that was started with reading n0 *)
Section Limited.
Variable clock : nat -> tv.
Variables (n0 n1 : nat) (l : Z).
Notation now i := (us (clock i)).
Hypothesis Hmono : not_backwards (fun i => now i).
Hypothesis Hn : (n0 < n1)%nat.

(* `lost`: the time between the readings of the checks *)
Fixpoint lost (m : nat) : Z :=
  match m with O => 0 | S m' => lost m' + elapsed (fun i => now i) (n1 + 2 * m') (n1 + 2 * m' + 1) end.
Lemma lost_nonneg m : 0 <= lost m.
Proof.
  induction m as [|m IH]; cbn -[Nat.mul]; [lia|]. assert (now (n1 + 2 * m) <= now (n1 + 2 * m + 1)) by (apply Hmono; lia). unfold elapsed. lia.
Qed.

Definition Inv (s : state) : Prop :=
  exists m, s_clock s = (n1 + 2 * m)%nat /\ let t := s_timers s 0%nat in
    running t = true /\ limit t = Some l /\ us (tstart t) - usecs t = now n0 + lost m.
Definition LateL (s : state) : Prop := exists n, (n < s_clock s)%nat /\ l < elapsed (fun i => now i) n0 n.
Definition FineL (s : state) : Prop :=
  exists m, s_clock s = (n1 + 2 * S m)%nat /\ elapsed (fun i => now i) n0 (n1 + 2 * m) - lost m <= l.
Definition ExpL (e : Z) (s : state) : Prop :=
  exists n, (n < s_clock s)%nat /\ 3 * (l - elapsed (fun i => now i) n0 n) < e /\ 0 < e.

Lemma us_stop (t : timer) k : running t = true -> usecs (stop (clock k) t) = usecs t + (now k - us (tstart t)).
Proof. intros R. unfold stop. rewrite R. cbn [usecs]. unfold us. lia. Qed.

Lemma tick (t : timer) a b : running t = true -> let t' := cont (clock b) (stop (clock a) t) in
  running t' = true /\ limit t' = limit t /\ usecs t' = usecs t + (now a - us (tstart t)) /\ tstart t' = clock b.
Proof. intros R. cbn zeta. rewrite <- (us_stop t a R). repeat split. Qed.
Lemma inv_tick s m : s_clock s = (n1 + 2 * m)%nat -> running (s_timers s 0%nat) = true -> limit (s_timers s 0%nat) = Some l ->
  us (tstart (s_timers s 0%nat)) - usecs (s_timers s 0%nat) = now n0 + lost m ->
  Inv (set_timers s (S (S (s_clock s))) 0 (cont (clock (S (s_clock s))) (stop (clock (s_clock s)) (s_timers s 0%nat)))).
Proof.
  intros C R L E. destruct (tick (s_timers s 0%nat) (s_clock s) (S (s_clock s)) R) as (T1 & T2 & T3 & T4).
  exists (S m). cbn [s_clock set_timers s_timers Nat.eqb]. split; [lia|]. split; [exact T1|]. split; [now rewrite T2|].
  rewrite T3, T4, C. cbn [lost]. unfold elapsed. replace (S (n1 + 2 * m)) with (n1 + 2 * m + 1)%nat by lia. rewrite C in *. lia.
Qed.

Lemma out_ok s s' out : Inv s -> timed_out clock 0 s = (s', out) -> Inv s' /\ if out then LateL s' else FineL s'.
Proof.
  intros (m & C & R & L & E) T. unfold timed_out, hasTimedOut in T. rewrite L, R in T. cbn zeta in T. rewrite (us_stop _ (s_clock s) R) in T.
  set (u := usecs (s_timers s 0%nat) + (now (s_clock s) - us (tstart (s_timers s 0%nat)))) in *. apply pair_equal_spec in T as [<- <-]. split.
  - now apply (inv_tick s m).
  - assert (P := lost_nonneg m). destruct (Z.ltb_spec l u); unfold u in *; clear u.
    + exists (s_clock s). cbn [s_clock set_timers]. split; [lia|]. unfold elapsed. lia.
    + exists m. cbn [s_clock set_timers]. split; [lia|]. unfold elapsed. rewrite <- C. lia.
Qed.
Lemma rem_ok s s' res : Inv s -> remaining clock 0 s = (s', res) -> Inv s' /\ forall e, res * 3 < e -> ExpL e s'.
Proof.
  intros (m & C & R & L & E) T. unfold remaining, remainingMicroseconds in T. rewrite L, R in T. cbn zeta in T. rewrite (us_stop _ (s_clock s) R) in T.
  set (u := usecs (s_timers s 0%nat) + (now (s_clock s) - us (tstart (s_timers s 0%nat)))) in *. apply pair_equal_spec in T as [<- <-]. split.
  - now apply (inv_tick s m).
  - intros e. assert (P := lost_nonneg m). intros H. exists (s_clock s). cbn [s_clock set_timers].
    split; [lia|]. unfold elapsed. destruct (Z.ltb_spec l u); unfold u in *; clear u; lia.
Qed.
Lemma asked_ok s a : Inv s -> Inv (St (s_clock s) a (s_timers s)).
Proof. intros (m & H). exists m. exact H. Qed.
End Limited.

(* a timer without a limit *)
Definition InvU (s : state) : Prop := limit (s_timers s 0%nat) = None.
Lemma out_u clock s s' out : InvU s -> timed_out clock 0 s = (s', out) -> InvU s' /\ if out then False else True.
Proof.
  intros L T. unfold InvU, timed_out, hasTimedOut in *. rewrite L in T. injection T as <- <-. cbn. auto.
Qed.
Lemma rem_u clock s s' res : InvU s -> remaining clock 0 s = (s', res) -> InvU s' /\ forall e, res * 3 < e -> (2 ^ 63 - 1) * 3 < e.
Proof.
  intros L T. unfold InvU, remaining, remainingMicroseconds in *. rewrite L in T. injection T as <- <-. cbn [s_timers set_timers Nat.eqb]. auto.
Qed.
