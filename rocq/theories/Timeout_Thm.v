(* Property C80: time limits of queries. *)
From Coq Require Import List NArith ZArith Bool Lia.
From Verif Require Import Table_Spec Timeout_Spec Timeout_Model Timeout_Proof Timeout_Proof2.
Import ListNotations.
Local Open Scope Z_scope.

(* Every operation of a plan gets the timer of the query; keys, computations and results stay as they are. *)
Theorem C80_shared tm o : (forall o', sub o' (recursivelySetTimeoutTimer tm o) -> op_timer o' = tm) /\
  (forall o', sub o' o -> exists o'', sub o'' (recursivelySetTimeoutTimer tm o) /\ op_key o'' = op_key o' /\ op_body o'' = op_body o') /\
  value (recursivelySetTimeoutTimer tm o) = value o.
Proof.
  split; [|split].
  - intros o' H. apply set_sub in H as ([k t cs b] & _ & ->). reflexivity.
  - intros o' H. exists (recursivelySetTimeoutTimer tm o'). split; [now apply sub_set|]. split; [apply key_set|apply body_set].
  - apply value_set.
Qed.

Section Queries.
Variable clock : nat -> tv.
Variable env : nat -> N -> lookup.
Variable o : op.
Variables n0 planning asked : nat.
Notation time := (fun i => us (clock i)).
(* results from the cache or from other queries are those of the operations with their keys (C22, C23, C38) *)
Hypothesis Henv : forall o' n t, sub o' o -> env n (op_key o') = Present t -> value o' = Some t.

Lemma env_set : forall o' n t, sub o' (recursivelySetTimeoutTimer 0 o) -> env n (op_key o') = Present t -> value o' = Some t.
Proof using Henv.
  intros o' n t H E. apply set_sub in H as (o'' & S & ->). rewrite value_set. rewrite key_set in E. eauto.
Qed.

(* A query with a limit of l microseconds, started at reading n0 of the clock. Its result is that of its computation
   without any limit; if it was not in the cache, the last look at the clock (reading n1 + 2m) was at most l after the
   start, not counting the time the m looks before took themselves (d is a bound for one). If it is aborted because of the
   limit, more than l has elapsed; if because of a sort, one that was expected to take more than three times the
   remaining time; otherwise because its computation fails, or because another query failed that it waited for. *)
Theorem C80_limit l d s' x : not_backwards time ->
  (forall i, elapsed time (S n0 + planning + 2 * i) (S n0 + planning + 2 * i + 1) <= d) ->
  answer clock env (fromMicroseconds l) n0 planning asked o = (s', x) ->
  match x with
  | Val t => value o = Some t /\
      (env asked (op_key o) = Compute ->
       exists m, s_clock s' = (S n0 + planning + 2 * m + 2)%nat /\ elapsed time n0 (S n0 + planning + 2 * m) <= l + Z.of_nat m * d)
  | Aborted TimeLimit => exists n, (n < s_clock s')%nat /\ l < elapsed time n0 n
  | Aborted SortExpected => exists o' e n, sub o' o /\ expects e (op_body o') /\ (n < s_clock s')%nat /\ 3 * (l - elapsed time n0 n) < e
  | Aborted OtherError => value o = None
  | Aborted OtherQuery => exists o' n, sub o' o /\ env n (op_key o') = Failed
  | Undefined => value o = None
  end.
Proof using Henv.
  intros M D E. unfold answer in E. set (n1 := (S n0 + planning)%nat) in *.
  assert (Hn : (n0 < n1)%nat) by (unfold n1; lia).
  assert (I0 : Inv clock n0 n1 l (St n1 asked (fun j => if Nat.eqb j 0 then start (clock n0) (fromMicroseconds l) else unlimited))).
  { exists 0%nat. cbn. split; [lia|]. split; [reflexivity|]. split; [reflexivity|]. lia. }
  destruct (C80_shared 0 o) as (SH & _ & SV).
  destruct (getResult_good clock env 0 (Inv clock n0 n1 l) (LateL clock n0 l) (FineL clock n0 n1 l) (ExpL clock n0 l)
    (asked_ok clock n0 n1 l) (out_ok clock n0 n1 l M Hn) (rem_ok clock n0 n1 l M Hn) _ SH env_set _ _ _ I0 E) as [I1 G].
  unfold good in G. rewrite SV, key_set in G. cbn [s_asked] in G. destruct x as [t|[| | |]|]; auto.
  - destruct G as [V F]. split; auto. intros C. destruct (F C) as (m & A & B). exists m. split; [lia|].
    assert (L : lost clock n1 m <= Z.of_nat m * d).
    { clear - D. induction m as [|m IH]; [cbn; lia|]. cbn [lost]. specialize (D m). rewrite Nat2Z.inj_succ. nia. }
    lia.
  - destruct G as (o' & e & S & X & n & N & P & _). apply set_sub in S as (o'' & S & ->). rewrite body_set in X. exists o'', e, n. auto.
  - destruct G as (o' & n & S & X). apply set_sub in S as (o'' & S & ->). rewrite key_set in X. exists o'', n. auto.
Qed.

(* A query without a limit is never aborted for its time, and has the result of its computation, unless that fails or
   another query fails that it waited for. (A sort that is expected to take 876,000 years is not done.) *)
Theorem C80_unlimited s' x : answer clock env unlimited n0 planning asked o = (s', x) ->
  (forall o' e, sub o' o -> expects e (op_body o') -> e <= 3 * (2 ^ 63 - 1)) ->
  (forall o' n, sub o' o -> env n (op_key o') <> Failed) ->
  forall t, x = Val t <-> value o = Some t.
Proof using Henv.
  intros E HE HF t. unfold answer in E.
  assert (I0 : InvU (St (S n0 + planning) asked (fun j => if Nat.eqb j 0 then start (clock n0) unlimited else unlimited))) by reflexivity.
  destruct (C80_shared 0 o) as (SH & _ & SV).
  destruct (getResult_good clock env 0 InvU (fun _ => False) (fun _ => True) (fun e _ => (2 ^ 63 - 1) * 3 < e)
    (fun s a H => H) (out_u clock) (rem_u clock) _ SH env_set _ _ _ I0 E) as [I1 G].
  unfold good in G. rewrite SV in G. destruct x as [u|[| | |]|].
  - destruct G as [V _]. rewrite V. split; congruence.
  - easy.
  - destruct G as (o' & e & S & X & P). apply set_sub in S as (o'' & S & ->). rewrite body_set in X. specialize (HE _ _ S X). lia.
  - rewrite G. split; discriminate.
  - destruct G as (o' & n & S & X). apply set_sub in S as (o'' & S & ->). rewrite key_set in X. elim (HF _ _ S X).
  - rewrite G. split; discriminate.
Qed.
End Queries.

(* An operation that counts its work looks at the timer before each n units of work are done without a look, and not
   earlier (for portions of at most 2^64 - n). *)
Theorem C80_calls n increments : (0 < n <= 2 ^ 64)%N -> (forall x, In x increments -> (x <= 2 ^ 64 - n)%N) ->
  prompt n (after_n_calls n 0 increments).
Proof. intros H S. now apply calls_prompt. Qed.

(* A limit that is given in seconds is that limit, if it is below 2^63 microseconds. *)
Theorem C80_seconds_partial l : - 2 ^ 63 <= l < 2 ^ 63 -> fromSeconds (Some l) = Some (fromMicroseconds l).
Proof.
  intros H. unfold fromSeconds. destruct (Z.leb_spec (- 2 ^ 63) l); [|lia]. destruct (Z.ltb_spec l (2 ^ 63)); [reflexivity|lia].
Qed.

(* A query with a larger time limit (in seconds, timeout=1e13) leads to undefined behaviour (with x86 it is aborted at
   once: the conversion gives a negative limit). *)
Theorem C80_seconds_refuted : ~ (forall l, 0 <= l -> fromSeconds (Some l) = Some (fromMicroseconds l)).
Proof. intros H. specialize (H (2 ^ 63)). cbv in H. discriminate H. discriminate. Qed.

(* a sort of a scan *)
Definition ex_scan := Op 1 7 [] (Check (Return [[5%N]; [3%N]])).
Definition ex_sort := Op 2 8 [Some ex_scan; None] (Get 0 (fun t => Estimate 100 (Return (rev t)))).
Definition ex_none : nat -> N -> lookup := fun _ _ => Compute.
(* a clock that takes 10 microseconds for each reading *)
Definition ex_clock (i : nat) : tv := (Z.of_nat i / 100000, Z.of_nat i mod 100000 * 10).

Example C80_example :
  not_backwards (fun i => us (ex_clock i)) /\
  (forall i, elapsed (fun i => us (ex_clock i)) (S 0 + 4 + 2 * i) (S 0 + 4 + 2 * i + 1) <= 10) /\
  (forall o' n t, sub o' ex_sort -> ex_none n (op_key o') = Present t -> value o' = Some t) /\
  snd (answer ex_clock ex_none (fromMicroseconds 200) 0 4 0 ex_sort) = Val [[3%N]; [5%N]] /\
  snd (answer ex_clock ex_none (fromMicroseconds 100) 0 4 0 ex_sort) = Aborted SortExpected /\
  snd (answer ex_clock ex_none (fromMicroseconds 65) 0 4 0 ex_sort) = Aborted TimeLimit /\
  snd (answer ex_clock ex_none unlimited 0 4 0 ex_sort) = Val [[3%N]; [5%N]] /\
  after_n_calls 5 0 [2; 2; 2; 1; 7]%N = [(2, false); (2, false); (2, true); (1, false); (7, true)]%N.
Proof.
  assert (E : forall i, us (ex_clock i) = 10 * Z.of_nat i).
  { intros i. unfold us, ex_clock. cbn [fst snd]. assert (D := Z.div_mod (Z.of_nat i) 100000). lia. }
  split; [intros a b H; rewrite !E; lia|]. split; [intros i; unfold elapsed; rewrite !E; lia|]. split; [discriminate|].
  repeat split; vm_compute; reflexivity.
Qed.

(* A query without a time limit is aborted if another query fails that computes a result it waits for, for example
   because of the time limit of that other query. *)
Theorem C80_other_query_refuted : ~ (forall clock env o n0 planning asked t,
  (forall o' n t, sub o' o -> env n (op_key o') = Present t -> value o' = Some t) ->
  value o = Some t -> snd (answer clock env unlimited n0 planning asked o) = Val t).
Proof.
  intros H. specialize (H ex_clock (fun _ k => if N.eqb k 1 then Failed else Compute) ex_sort 0%nat 0%nat 0%nat [[3%N]; [5%N]]).
  cbn in H. discriminate H; [|reflexivity]. intros o' n t _. now destruct (N.eqb _ _).
Qed.

(* C80: a stopwatch shows the time since its last start, without the times between a stop and the next continuation,
   whatever it showed before. *)
Theorem C80_stopwatch t a b c d :
  usecs (stop b (start a t)) = us b - us a /\
  usecs (stop d (cont c (stop b (start a t)))) = (us b - us a) + (us d - us c) /\
  limit (stop b (start a t)) = limit t.
Proof. unfold us, stop, start, cont. cbn [usecs running tstart limit at_mark]. split; [lia|split; [lia|reflexivity]]. Qed.
Example C80_stopwatch_example : usecs (stop (7, 5) (start (5, 999999) (T 12345 6 (1, 2) true None))) = 1000006.
Proof. reflexivity. Qed.
Print Assumptions C80_stopwatch.
Print Assumptions C80_shared.
Print Assumptions C80_limit.
Print Assumptions C80_unlimited.
Print Assumptions C80_calls.
Print Assumptions C80_seconds_partial.
Print Assumptions C80_seconds_refuted.
Print Assumptions C80_other_query_refuted.
Print Assumptions C80_example.
