(* Property C24: the memory limit. Statements are about every reachable state, for any number of threads and
   any interleaving of their steps. *)
From Coq Require Import List NArith Arith Lia Bool.
From Coq Require Import ZifyBool ZifyN ZifyNat.
From Verif Require Import Cache_Model Cache_Proof ConcCache_Proof Alloc_Model.
Import ListNotations.
Open Scope N_scope.

(* ---------- vocabulary ---------- *)
Definition sum {A} (f : A -> N) (l : list A) : N := fold_right (fun a n => f a + n) 0 l.

(* threads inside the section protected by the lock *)
Definition inside (p : tpc) : bool :=
  match p with
  | A_read _ | A_write _ _ | A_unlock _ | A_throw _ _ | D_read _ | D_write _ _ | D_unlock _ | F_read
  | F_unlock _ => true
  | _ => false
  end.
(* memory a thread is about to get (already subtracted) or has given back (not yet added) *)
Definition in_flight (p : tpc) : N :=
  match p with
  | A_unlock b | A_alloc b | D_free b | D_read b | D_write b _ => amount b
  | _ => 0
  end.

(* ---------- proofs ---------- *)
Definition local_ok (free : N) (p : tpc) : Prop :=
  match p with
  | A_write b f => f = free /\ amount b <= f
  | A_throw b f => f = free /\ f < amount b
  | D_write _ f | F_unlock f => f = free
  | _ => True
  end.

Definition one (p : tpc) : N := if inside p then 1 else 0.

Record inv (limit : N) (s : state) : Prop := {
  i_lock : sum one (s_threads s) = if s_flag s then 1 else 0;
  i_local : forall i p, nth_error (s_threads s) i = Some p -> local_ok (s_free s) p;
  i_sum : s_free s + sum amount (s_live s) + sum in_flight (s_threads s) + s_lost s = limit;
  i_live : Forall (fun b => bytes b < W64) (s_live s) }.

Lemma sum_app {A} (f : A -> N) l1 l2 : sum f (l1 ++ l2) = sum f l1 + sum f l2.
Proof. induction l1; simpl; lia. Qed.

Lemma sum_set (f : tpc -> N) l i a b : nth_error l i = Some a ->
  sum f (set_nth i b l) + f a = sum f l + f b.
Proof.
  revert i; induction l as [|c l IH]; intros [|i] H; try discriminate; unfold set_nth in *; simpl in *.
  - injection H as ->. lia.
  - specialize (IH _ H). lia.
Qed.

Lemma sum_in (f : tpc -> N) l i a : nth_error l i = Some a -> f a <= sum f l.
Proof.
  revert i; induction l as [|c l IH]; intros [|i] H; try discriminate; simpl in *.
  - injection H as ->. lia.
  - specialize (IH _ H). lia.
Qed.

Lemma sum_two (f : tpc -> N) l i j a b : nth_error l i = Some a -> nth_error l j = Some b -> i <> j ->
  f a + f b <= sum f l.
Proof.
  revert i j; induction l as [|c l IH]; intros [|i] [|j] H1 H2 Hn; try discriminate; simpl in *; try congruence.
  - injection H1 as ->. pose proof (sum_in f _ _ _ H2). lia.
  - injection H2 as ->. pose proof (sum_in f _ _ _ H1). lia.
  - assert (i <> j) by congruence. specialize (IH _ _ H1 H2 H). lia.
Qed.

Lemma local_outside free free' p : inside p = false -> local_ok free p -> local_ok free' p.
Proof. destruct p; simpl; auto; discriminate. Qed.

(* the lock is exclusive *)
Lemma exclusive limit s i j p q : inv limit s -> nth_error (s_threads s) i = Some p ->
  nth_error (s_threads s) j = Some q -> inside p = true -> inside q = true -> i = j.
Proof.
  intros I Hi Hj Hp Hq. destruct (Nat.eq_dec i j) as [|Hn]; auto. exfalso.
  pose proof (sum_two one _ _ _ _ _ Hi Hj Hn) as H. pose proof (i_lock _ _ I) as L.
  assert (E1 : one p = 1) by (unfold one; now rewrite Hp). assert (E2 : one q = 1) by (unfold one; now rewrite Hq).
  destruct (s_flag s); lia.
Qed.

Lemma locked limit s i p : inv limit s -> nth_error (s_threads s) i = Some p -> inside p = true -> s_flag s = true.
Proof.
  intros I Hi Hp. pose proof (sum_in one _ _ _ Hi) as H. pose proof (i_lock _ _ I) as L.
  assert (E1 : one p = 1) by (unfold one; now rewrite Hp). destruct (s_flag s); auto; lia.
Qed.

Section Proofs.
  Variable limit : N.
  Hypothesis limit_small : limit < W64.

  (* thread i goes from p to q, with the lock, the counter, the memory and the losses as given *)
  Lemma inv_move s i p q (flag : bool) (free : N) (live : list block) (lost : N) :
    inv limit s -> nth_error (s_threads s) i = Some p ->
    (if flag then 1 else 0) + one p = (if s_flag s then 1 else 0) + one q ->
    local_ok free q -> (free = s_free s \/ inside p = true) ->
    free + sum amount live + in_flight q + lost = s_free s + sum amount (s_live s) + in_flight p + s_lost s ->
    Forall (fun b => bytes b < W64) live ->
    inv limit {| s_flag := flag; s_free := free; s_live := live; s_threads := goes s i q; s_lost := lost |}.
  Proof.
    intros I Hi Hl Hq Hf Hs Hlive.
    pose proof (sum_set one _ _ _ q Hi) as S1. pose proof (sum_set in_flight _ _ _ q Hi) as S2.
    pose proof (i_lock _ _ I). pose proof (i_sum _ _ I).
    constructor; simpl; unfold goes.
    - destruct flag, (s_flag s); lia.
    - intros j r Hj. rewrite nth_error_set in Hj by (eapply nth_error_lt; eauto).
      destruct (Nat.eqb_spec j i) as [->|Hn]; [injection Hj as <-; exact Hq|].
      destruct Hf as [->|Hp]; [exact (i_local _ _ I _ _ Hj)|].
      apply local_outside with (s_free s); [|exact (i_local _ _ I _ _ Hj)].
      destruct (inside r) eqn:Er; auto. elim Hn. eapply exclusive; eauto.
    - lia.
    - exact Hlive.
  Qed.

  Lemma inv_step s e s' : inv limit s -> step s e s' -> inv limit s'.
  Proof.
    intros I H. pose proof (i_live _ _ I) as Hlive. pose proof (i_sum _ _ I) as Hsum.
    assert (Hfree : s_free s < W64) by lia.
    destruct H as [s i b Hi|s i b Hi Hf|s i b Hi Hf|s i b Hi Hf|s i b f Hi|s i b Hi|s i b f Hi|s i b Hi Hb|s i b Hi
      |s i l1 b l2 Hi Hl|s i b Hi Hf|s i b Hi|s i b f Hi|s i b Hi|s i Hi|s i Hi Hf|s i Hi|s i f Hi];
      pose proof (i_local _ _ I _ _ Hi) as Hloc; cbn [local_ok] in Hloc;
      pose proof (sum_in in_flight _ _ _ Hi) as Hin; cbn [in_flight] in Hin;
      try (pose proof (locked _ _ _ _ I Hi eq_refl) as Hlk);
      (eapply inv_move; [exact I|exact Hi|..]); try exact Hlive; cbn [local_ok inside in_flight];
      unfold one; cbn [inside]; rewrite ?Hlk, ?Hf; auto; try lia.
    - destruct Hloc as [-> Hle]. unfold sub64. rewrite (N.mod_small (amount b)) by lia.
      destruct (N.eq_dec (amount b) 0) as [E|E].
      + rewrite E, N.sub_0_r. rewrite <- N.add_mod_idemp_r by discriminate. rewrite N.mod_same by discriminate.
        rewrite N.add_0_r, N.mod_small by lia. lia.
      + replace (s_free s + (W64 - amount b)) with ((s_free s - amount b) + 1 * W64) by lia.
        rewrite N.mod_add by discriminate. rewrite N.mod_small by lia. lia.
    - cbn [sum fold_right]. fold (sum amount (s_live s)). lia.
    - rewrite Hl. rewrite !sum_app. simpl. fold (sum amount l2). lia.
    - rewrite Hl in Hlive. rewrite Forall_app in *. destruct Hlive as [H1 H2]. inversion H2. auto.
    - subst f. unfold add64. rewrite N.mod_small by lia. lia.
  Qed.

  Lemma inv_reach n s tr : reach limit n s tr -> inv limit s.
  Proof.
    induction 1 as [|s tr e s' R IH S]; [|eauto using inv_step].
    assert (Hz : forall f : tpc -> N, f Idle = 0 -> sum f (repeat Idle n) = 0).
    { intros f Hf. induction n; simpl; [reflexivity|]. rewrite IHn. lia. }
    constructor; simpl; auto.
    - intros i p Hi. apply nth_error_In, repeat_spec in Hi. subst p. exact I.
    - rewrite Hz by reflexivity. lia.
  Qed.

  Lemma live_bytes l : Forall (fun b => bytes b < W64) l -> sum amount l = sum bytes l.
  Proof.
    induction 1 as [|b l Hb Hl IH]; simpl; auto. rewrite IH. f_equal. unfold amount, bytes in *.
    now rewrite N.mod_small.
  Qed.

  (* ---------- C24 ---------- *)

  (* only one thread at a time is inside the locked section *)
  Theorem C24_exclusive n s tr i j p q :
    reach limit n s tr -> nth_error (s_threads s) i = Some p -> nth_error (s_threads s) j = Some q ->
    inside p = true -> inside q = true -> i = j.
  Proof. intros R. apply exclusive with limit. eapply inv_reach; eauto. Qed.

  (* limit = what is left + live memory + what threads are just getting or giving back
     (+ what was subtracted for allocations that failed afterwards) *)
  Theorem C24_accounted n s tr :
    reach limit n s tr ->
    s_free s + sum bytes (s_live s) + sum in_flight (s_threads s) + s_lost s = limit.
  Proof.
    intros R. pose proof (inv_reach _ _ _ R) as I. pose proof (i_sum _ _ I).
    rewrite <- (live_bytes _ (i_live _ _ I)). exact H.
  Qed.

  (* the memory handed out never exceeds the limit *)
  Theorem C24_never_exceeded n s tr : reach limit n s tr -> sum bytes (s_live s) <= limit.
  Proof. intros R. pose proof (C24_accounted _ _ _ R). lia. Qed.

  (* an allocation is refused exactly if it does not fit: the decision is taken in the locked section *)
  Theorem C24_refused n s tr i b p f s' e :
    reach limit n s tr -> nth_error (s_threads s) i = Some (A_read b) -> bytes b < W64 ->
    step s (i, e) s' -> nth_error (s_threads s') i = Some p ->
    (p = A_throw b f -> limit < sum bytes (s_live s) + sum in_flight (s_threads s) + s_lost s + bytes b) /\
    (p = A_write b f -> sum bytes (s_live s) + sum in_flight (s_threads s) + s_lost s + bytes b <= limit) /\
    (exists f, p = A_throw b f \/ p = A_write b f).
  Proof.
    intros R Hi Hb S Hp. pose proof (C24_accounted _ _ _ R) as A.
    assert (Hamt : amount b = bytes b) by (unfold amount; now rewrite N.mod_small).
    assert (L : (i < length (s_threads s))%nat) by (eapply nth_error_lt; eauto).
    remember (i, e) as ie eqn:E. destruct S; injection E as -> <-; try congruence.
    - assert (b0 = b) by congruence. subst b0. simpl in Hp. unfold goes in Hp.
      rewrite nth_error_set, Nat.eqb_refl in Hp by exact L. injection Hp as <-.
      repeat split; intros; try discriminate; [lia|eauto].
    - assert (b0 = b) by congruence. subst b0. simpl in Hp. unfold goes in Hp.
      rewrite nth_error_set, Nat.eqb_refl in Hp by exact L. injection Hp as <-.
      repeat split; intros; try discriminate; [lia|eauto].
  Qed.

  (* what numFreeBytes tells was the value at the moment of reading: it equals the counter while the lock
     is held *)
  Theorem C24_num_free n s tr i f :
    reach limit n s tr -> nth_error (s_threads s) i = Some (F_unlock f) -> f = s_free s.
  Proof. intros R Hi. exact (i_local _ _ (inv_reach _ _ _ R) _ _ Hi). Qed.

  (* everything is returned: when nothing is allocated and no thread is active, and no allocation failed after
     it was granted, the whole limit is available *)
  Theorem C24_all_returned n s tr :
    reach limit n s tr -> s_live s = [] -> Forall (fun p => p = Idle) (s_threads s) ->
    (forall i b, ~ In (i, BadAlloc b) tr) -> s_free s = limit.
  Proof.
    intros R Hl Hidle Hno. pose proof (C24_accounted _ _ _ R) as A. rewrite Hl in A. simpl in A.
    assert (Hz : sum in_flight (s_threads s) = 0).
    { clear A. induction Hidle as [|p l Hp Hl' IH]; simpl; auto. subst p. rewrite IH. reflexivity. }
    assert (Hlost : s_lost s = 0).
    { clear A Hl Hidle Hz. induction R as [|s tr [i e] s' R IH S]; [reflexivity|].
      assert (H0 : s_lost s = 0). { apply IH. intros j b Hin. apply (Hno j b). apply in_or_app. auto. }
      remember (i, e) as ie eqn:E. destruct S; simpl; auto; injection E as -> <-.
      exfalso. eapply Hno. apply in_or_app. right. left. reflexivity. }
    lia.
  Qed.
End Proofs.
Print Assumptions C24_exclusive.
Print Assumptions C24_accounted.
Print Assumptions C24_never_exceeded.
Print Assumptions C24_refused.
Print Assumptions C24_num_free.
Print Assumptions C24_all_returned.

(* ---------- examples: two threads, limit 100 ---------- *)
Ltac mv H t :=
  let H' := fresh in
  eassert (H' : reach _ _ _ _) by (eapply R_step; [exact H|eapply t; (reflexivity || (vm_compute; congruence))]);
  clear H; rename H' into H; cbn in H.
Ltac alloc_to_lock H i b := mv H (fun s => T_allocate s i b); mv H (fun s => T_a_lock s i b).
Ltac alloc_rest H i b f :=
  mv H (fun s => T_a_read s i b); mv H (fun s => T_a_write s i b f); mv H (fun s => T_a_unlock s i b).

(* thread 0 gets 5 x 8 bytes; thread 1 is refused 10 x 8 bytes *)
Example C24_ex_refused :
  exists s tr, reach 100 2 s tr /\ sum bytes (s_live s) = 40 /\ s_free s = 60 /\ In (1%nat, Refused (10, 8)) tr /\
               In (0%nat, Granted (5, 8)) tr.
Proof.
  pose proof (R_init 100 2) as H. cbn in H.
  alloc_to_lock H 0%nat (5, 8). alloc_rest H 0%nat (5, 8) 100.
  mv H (fun s => T_a_alloc s 0%nat (5, 8)).
  alloc_to_lock H 1%nat (10, 8).
  mv H (fun s => T_a_read_throw s 1%nat (10, 8)).
  mv H (fun s => T_a_throw s 1%nat (10, 8) 60).
  eexists _, _. split; [exact H|]. vm_compute. repeat split; tauto.
Qed.

(* a state meeting the hypotheses of C24_refused: thread 1 holds the lock while thread 0 waits for it *)
Example C24_ex_contended :
  exists s tr, reach 100 2 s tr /\ nth_error (s_threads s) 1 = Some (A_read (10, 8)) /\
               nth_error (s_threads s) 0 = Some (A_lock (5, 8)) /\ s_flag s = true.
Proof.
  pose proof (R_init 100 2) as H. cbn in H.
  mv H (fun s => T_allocate s 0%nat (5, 8)). alloc_to_lock H 1%nat (10, 8).
  eexists _, _. split; [exact H|]. repeat split.
Qed.

(* memory allocated by thread 0 is given back by thread 1; then everything is available again *)
Example C24_ex_returned :
  exists s tr, reach 100 2 s tr /\ s_live s = [] /\ Forall (fun p => p = Idle) (s_threads s) /\
               (forall i b, ~ In (i, BadAlloc b) tr) /\ In (0%nat, Granted (5, 8)) tr.
Proof.
  pose proof (R_init 100 2) as H. cbn in H.
  alloc_to_lock H 0%nat (5, 8). alloc_rest H 0%nat (5, 8) 100.
  mv H (fun s => T_a_alloc s 0%nat (5, 8)).
  mv H (fun s => T_deallocate s 1%nat [] (5, 8) []).
  mv H (fun s => T_d_lock s 1%nat (5, 8)).
  mv H (fun s => T_d_read s 1%nat (5, 8)).
  mv H (fun s => T_d_write s 1%nat (5, 8) 60).
  mv H (fun s => T_d_unlock s 1%nat (5, 8)).
  eexists _, _. split; [exact H|]. split; [reflexivity|]. split; [repeat constructor|]. split.
  - vm_compute. intros i b Hin. repeat (destruct Hin as [Hin|Hin]; [discriminate|]). exact Hin.
  - vm_compute. tauto.
Qed.

(* Finding: allocate subtracts before it asks std::allocator (AllocatorWithLimit.h:143-145). If that throws,
   nothing is added back: with nothing allocated and nobody active, part of the limit is gone for good. *)
Theorem C24_failed_allocation_leaks_refuted :
  exists s tr, reach 100 1 s tr /\ s_live s = [] /\ Forall (fun p => p = Idle) (s_threads s) /\ s_free s <> 100.
Proof.
  pose proof (R_init 100 1) as H. cbn in H.
  alloc_to_lock H 0%nat (5, 8). alloc_rest H 0%nat (5, 8) 100.
  mv H (fun s => T_a_fail s 0%nat (5, 8)).
  eexists _, _. split; [exact H|]. vm_compute. repeat split; auto; discriminate.
Qed.

(* Finding: n * sizeof(T) wraps, so a request for more than 2^64 bytes passes the check of the limit; only
   std::allocator refuses it, with bad_alloc or bad_array_new_length instead of the exception for the limit *)
Theorem C24_wrapping_request_refuted :
  exists s tr b, reach 100 1 s tr /\ 100 < bytes b /\ nth_error (s_threads s) 0 = Some (A_alloc b).
Proof.
  pose proof (R_init 100 1) as H. cbn in H.
  alloc_to_lock H 0%nat (2305843009213693953, 8). alloc_rest H 0%nat (2305843009213693953, 8) 100.
  eexists _, _, _. split; [exact H|]. vm_compute. repeat split; auto.
Qed.
Print Assumptions C24_failed_allocation_leaks_refuted.
Print Assumptions C24_wrapping_request_refuted.
