(* Properties C22 and C23: the concurrent cache. Statements are about every reachable state [s] of the
   system with its history of events [tr] ([reach]), for any number of calls, keys and interleavings. *)
From Coq Require Import List NArith Arith Lia Permutation Bool.
From Coq Require Import ZifyBool ZifyN ZifyNat.
From Verif Require Import Cache_Spec Cache_Model Cache_Proof ConcCache_Model ConcCache_Proof ConcCache_Proof2.
Import ListNotations.
Open Scope N_scope.

Section Theorems.
  Variable size : N -> N.
  Variables maxSize maxSingle maxNum : N.
  Notation reach := (reach size maxSize maxSingle maxNum).
  Notation step := (step size maxSize maxSingle).

  (* ---------- C22 ---------- *)

  (* at most one running computation per key *)
  Theorem C22_single_computation s tr i j c d r r' :
    reach s tr -> call_at s i c -> call_at s j d ->
    ca_pc c = Computing r -> ca_pc d = Computing r' -> ca_key c = ca_key d -> i = j.
  Proof.
    intros R Hi Hj Hc Hd E. destruct (inv_reach _ _ _ _ _ _ R) as [I _].
    destruct (key_owner s i c r j d r' I Hi Hj) as [H _]; auto; [now rewrite Hc|now rewrite Hd].
  Qed.

  (* a computation is only started for a key that is neither cached nor being computed *)
  Theorem C22_starts_only_if_missing s tr i c rid s' :
    reach s tr -> call_at s i c -> step s (i, EReg rid) s' ->
    get (ca_key c) (l_pins (s_cache s)) = None /\ get (ca_key c) (l_ents (s_cache s)) = None /\
    forall j d r, call_at s j d -> ca_pc d = Computing r -> ca_key d <> ca_key c.
  Proof.
    intros R Hi S. destruct (inv_reach _ _ _ _ _ _ R) as [I _].
    destruct (step_cases _ _ _ _ _ _ _ I S) as [(k & p & parent & Z & _)|(c' & p & X)]; [discriminate|].
    pose proof (x_at _ _ _ _ _ _ _ _ X) as Hi'. assert (c' = c) by congruence. subst c'.
    destruct (x_ok _ _ _ _ _ _ _ _ X) as (_ & Hg & [A1 A2]). split; auto. split; auto.
    intros j d r Hj Hd E. destruct (v_inm _ I j d r Hj) as [q Hq]; [now rewrite Hd|]. congruence.
  Qed.

  (* a returned value is the value of a successful computation for the key asked for *)
  Theorem C22_value s tr i c v b :
    reach s tr -> call_at s i c -> ca_pc c = Returned v b ->
    exists j d rid, In (j, EOk rid v) tr /\ call_at s j d /\ ca_key d = ca_key c.
  Proof.
    intros R Hi Hp. destruct (inv_reach _ _ _ _ _ _ R) as [_ T].
    destruct (t_ret _ _ T _ _ _ _ Hi Hp) as (j & rid & H & d & Hd & Hk). exists j, d, rid. auto.
  Qed.

  (* so if the computations are deterministic, everybody gets the result belonging to their key *)
  Corollary C22_same_value f s tr i c v b :
    reach s tr ->
    (forall j d rid w, In (j, EOk rid w) tr -> call_at s j d -> w = f (ca_key d)) ->
    call_at s i c -> ca_pc c = Returned v b -> v = f (ca_key c).
  Proof.
    intros R Hf Hi Hp. destruct (C22_value _ _ _ _ _ _ R Hi Hp) as (j & d & rid & H1 & H2 & H3).
    rewrite <- H3. eauto.
  Qed.

  (* all who share one computation get the same answer *)
  Theorem C22_waiters_agree s tr i c rid j v :
    reach s tr -> call_at s i c -> ca_pc c = Waiting rid -> In (j, EOk rid v) tr ->
    forall s' w, step s (i, EGot rid w) s' -> w = v /\ call_at s' i (at_pc c (Returned v false)).
  Proof.
    intros R Hi Hp Hok s' w S. destruct (inv_reach _ _ _ _ _ _ R) as [I T].
    destruct (step_cases _ _ _ _ _ _ _ I S) as [(k & p & parent & Z & _)|(c' & p & X)]; [discriminate|].
    pose proof (x_at _ _ _ _ _ _ _ _ X) as Hi'. assert (c' = c) by congruence. subst c'.
    pose proof (x_ok _ _ _ _ _ _ _ _ X) as A. pose proof (x_pc _ _ _ _ _ _ _ _ X) as P.
    cbn in A. destruct (t_fin _ _ T _ _ A) as (j' & q & Hm).
    destruct (t_move _ _ T _ _ _ _ Hm) as [Hok' _].
    assert (Huniq : v = w) by (eapply ok_once; eauto). subst w. split; [reflexivity|].
    rewrite Hp in P. inversion P. subst. eapply calls_same; eauto.
  Qed.

  (* whoever waits for a computation in progress waits for a call which is running (not waiting itself) for
     the same key *)
  Theorem C22_waits_for_running s tr i c rid :
    reach s tr -> call_at s i c -> ca_pc c = Waiting rid ->
    exists st, nth_error (s_rips s) rid = Some st /\
      (st = InProgress ->
       exists j d, call_at s j d /\ ca_key d = ca_key c /\ final d = false /\ (forall r, ca_pc d <> Waiting r) /\
                   j <> i /\ owns (ca_pc d) rid).
  Proof.
    intros R Hi Hp. destruct (inv_reach _ _ _ _ _ _ R) as [I T].
    pose proof (v_wait _ I _ _ _ Hi Hp) as L. apply nth_error_Some in L.
    destruct (nth_error (s_rips s) rid) as [st|] eqn:E; [|congruence]. exists st. split; auto. intros ->.
    destruct (v_running _ I _ E) as (j & d & Hj & Ho). exists j, d.
    split; [exact Hj|]. destruct (t_wait _ _ T _ _ _ Hi Hp) as (j' & H1 & d' & H2 & H3).
    pose proof (t_own _ _ T _ _ _ Hj Ho) as H4. assert (j = j') by (eapply (t_once _ _ T); eauto). subst j'.
    split; [congruence|]. unfold final. split; [destruct (ca_pc d); simpl in Ho; tauto|].
    split; [intros r Z; rewrite Z in Ho; exact Ho|]. split; [|exact Ho].
    intros ->. assert (d = c) by congruence. subst d. rewrite Hp in Ho. exact Ho.
  Qed.

  (* once the computation has ended, a waiting caller can go on *)
  Theorem C22_no_lost_waiter s tr i c rid :
    reach s tr -> call_at s i c -> ca_pc c = Waiting rid ->
    (forall j d, call_at s j d -> ~ owns (ca_pc d) rid) ->
    exists e s', step s (i, e) s' /\ ((exists v, e = EGot rid v) \/ e = EGotErr rid).
  Proof.
    intros R Hi Hp Hno. destruct (C22_waits_for_running _ _ _ _ _ R Hi Hp) as (st & E & Hst).
    destruct st as [|v|].
    - destruct (Hst eq_refl) as (j & d & Hj & _ & _ & _ & _ & Ho). elim (Hno _ _ Hj Ho).
    - eexists _, _. split; [eapply St_got; eauto|]. eauto.
    - eexists _, _. split; [eapply St_got_error; eauto|]. auto.
  Qed.

  (* no deadlock: if sub-results are always for smaller keys (in some order) than the result they are needed
     for, some call can make a step unless all have ended *)
  Definition nested (rank : N -> nat) (s : state) : Prop :=
    forall i c j d, call_at s i c -> ca_parent c = Some j -> call_at s j d ->
      (rank (ca_key c) < rank (ca_key d))%nat.

  Lemma all_final_or i l : (forall j d, nth_error l j = Some d -> ca_parent d = Some i -> final d = true) \/
    exists j d, nth_error l j = Some d /\ ca_parent d = Some i /\ final d = false.
  Proof.
    induction l as [|a l IH].
    - left. intros [|j] d H; discriminate.
    - destruct IH as [IH|(j & d & H1 & H2)]; [|right; exists (S j), d; auto].
      destruct (ca_parent a) as [q|] eqn:Ep.
      + destruct (Nat.eq_dec q i) as [->|Hn].
        * destruct (final a) eqn:Ef; [|right; exists 0%nat, a; auto].
          left. intros [|j] d H H'; simpl in H; [congruence|eauto].
        * left. intros [|j] d H H'; simpl in H; [congruence|eauto].
      + left. intros [|j] d H H'; simpl in H; [congruence|eauto].
  Qed.

  Theorem C22_no_deadlock rank s tr i c :
    reach s tr -> nested rank s -> call_at s i c -> final c = false ->
    exists j e s', step s (j, e) s' /\ e <> ESpawn.
  Proof.
    intros R N. destruct (inv_reach _ _ _ _ _ _ R) as [I T].
    remember (rank (ca_key c)) as n eqn:En. revert i c En.
    induction n as [n IH] using lt_wf_ind. intros i c En Hi Hf.
    (* running calls *)
    assert (Hrun : forall j d rid, call_at s j d -> ca_key d = ca_key c -> owns (ca_pc d) rid ->
              exists j e s', step s (j, e) s' /\ e <> ESpawn).
    { intros j d rid Hj Hk Ho. destruct (ca_pc d) as [|r|r v|r v|r|r|r| | | |] eqn:Hd; simpl in Ho; try contradiction;
        subst r.
      - destruct (all_final_or j (s_calls s)) as [Hall|(j' & d' & Hj' & Hp' & Hf')].
        + exists j. eexists _, _. split; [eapply St_compute with (v := 0); eauto|discriminate].
        + eapply (IH (rank (ca_key d'))); try eassumption; try reflexivity.
          rewrite En, <- Hk. eapply N; eauto.
      - destruct (v_inm _ I j d rid Hj) as [q Hq]; [now rewrite Hd|].
        destruct (insert_total size maxSize maxSingle (s_cache s) q (ca_key d) v) as (b & r & now & Hc).
        pose proof (v_nocache _ I _ _ Hq) as Habs.
        assert (Hr : (r = Value v \/ r = Null) \/ (r = Duplicate \/ r = TooBig)).
        { destruct q; inversion Hc; auto. }
        destruct Hr as [Hr|Hr]; exists j; eexists _, _.
        + split; [eapply St_move; eauto|discriminate].
        + split; [eapply St_move_throws; eauto|discriminate].
      - exists j. eexists _, _. split; [eapply St_finish; eauto|discriminate].
        eapply (v_own _ I); eauto. now rewrite Hd.
      - exists j. eexists _, _. split; [eapply St_erase; eauto|discriminate].
      - exists j. eexists _, _. split; [eapply St_abort; eauto|discriminate].
        eapply (v_own _ I); eauto. now rewrite Hd. }
    destruct (ca_pc c) as [|r|r v|r v|r|r|r| | | |] eqn:Hp; unfold final in Hf; rewrite Hp in Hf; try discriminate;
      try (apply (Hrun i c r); auto; rewrite Hp; reflexivity).
    - (* Start *)
      destruct (contains_total size maxSize maxSingle (s_cache s) (ca_pinned c) (ca_key c))
        as [(b & v & now & c2 & H1 & H2)|H1].
      + exists i. eexists _, _. split; [eapply St_hit; eauto|discriminate].
      + destruct (get (ca_key c) (s_inprog s)) as [[q rid]|] eqn:Hg; exists i; eexists _, _.
        * split; [eapply St_join; eauto|discriminate].
        * split; [eapply St_register; eauto|discriminate].
    - (* Waiting *)
      destruct (C22_waits_for_running _ _ _ _ _ R Hi Hp) as (st & E & Hst). destruct st as [|v|].
      + destruct (Hst eq_refl) as (j & d & Hj & Hk & _ & _ & _ & Ho). eauto.
      + exists i. eexists _, _. split; [eapply St_got; eauto|discriminate].
      + exists i. eexists _, _. split; [eapply St_got_error; eauto|discriminate].
  Qed.

  (* and only finitely many steps are possible without a new call *)
  Definition to_go (c : call) : nat :=
    match ca_pc c with
    | Start => 6 | Computing _ => 5 | Computed _ _ => 4 | Failing _ => 3 | Moved _ _ => 2
    | Aborting _ => 2 | Waiting _ => 1 | _ => 0
    end%nat.
  Definition work (s : state) : nat := fold_right (fun c n => (to_go c + n)%nat) 0%nat (s_calls s).

  Lemma work_set (l : list call) i c c' : nth_error l i = Some c -> (to_go c' < to_go c)%nat ->
    (fold_right (fun c n => (to_go c + n)%nat) 0%nat (set_nth i c' l) <
     fold_right (fun c n => (to_go c + n)%nat) 0%nat l)%nat.
  Proof.
    revert i. induction l as [|a l IH]; intros [|i] H L; try discriminate; unfold set_nth in *; simpl in *.
    - injection H as ->. lia.
    - specialize (IH i H L). lia.
  Qed.

  Theorem C22_progress s tr i e s' :
    reach s tr -> step s (i, e) s' -> e <> ESpawn -> (work s' < work s)%nat.
  Proof.
    intros R S Hn. destruct (inv_reach _ _ _ _ _ _ R) as [I _].
    destruct (step_cases _ _ _ _ _ _ _ I S) as [(k & p & parent & Z & _)|(c & p & X)]; [contradiction|].
    unfold work. rewrite (x_calls _ _ _ _ _ _ _ _ X).
    apply work_set with c; [apply (x_at _ _ _ _ _ _ _ _ X)|].
    pose proof (x_pc _ _ _ _ _ _ _ _ X) as P. unfold to_go. cbn [at_pc ca_pc].
    inversion P; lia.
  Qed.

  (* together: after at most [work s] steps of the calls already made, all have returned or thrown *)
  Inductive runs : state -> nat -> state -> Prop :=
  | runs_nil s : runs s 0 s
  | runs_step s n s1 i e s2 : runs s n s1 -> step s1 (i, e) s2 -> e <> ESpawn -> runs s (S n) s2.

  Lemma runs_reach s tr n s' : reach s tr -> runs s n s' -> exists tr', reach s' tr' /\ (work s' + n <= work s)%nat.
  Proof.
    intros R H. induction H as [s|s n s1 i e s2 H IH S Hn].
    - exists tr. split; auto. lia.
    - destruct (IH R) as (tr1 & R1 & L). exists (tr1 ++ [(i, e)]). split; [econstructor; eauto|].
      pose proof (C22_progress _ _ _ _ _ R1 S Hn). lia.
  Qed.

  Lemma nested_step rank s tr i e s' :
    reach s tr -> step s (i, e) s' -> e <> ESpawn -> nested rank s -> nested rank s'.
  Proof.
    intros R S Hn N. destruct (inv_reach _ _ _ _ _ _ R) as [I _].
    destruct (step_cases _ _ _ _ _ _ _ I S) as [(k & p & parent & Z & _)|(c & p & X)]; [contradiction|].
    assert (H : forall j d', call_at s' j d' -> exists d, call_at s j d /\ ca_key d = ca_key d' /\ ca_parent d = ca_parent d').
    { intros j d' Hj. destruct (calls_after _ _ _ _ _ _ _ _ X _ _ Hj) as [[-> ->]|[_ Hj']].
      - exists c. split; [apply (x_at _ _ _ _ _ _ _ _ X)|]. auto.
      - eauto. }
    intros j d j' d' Hj Hp Hj'. destruct (H _ _ Hj) as (a & Ha & <- & Hpa). destruct (H _ _ Hj') as (a' & Ha' & <- & _).
    eapply N; eauto. congruence.
  Qed.

  Theorem C22_everybody_answered rank s tr n s' :
    reach s tr -> nested rank s -> runs s n s' ->
    (n <= work s)%nat /\
    ((forall j e s2, step s' (j, e) s2 -> e = ESpawn) ->
     forall i c, call_at s' i c ->
       (exists v b, ca_pc c = Returned v b) \/ ca_pc c = Threw \/ ca_pc c = ThrewWaited).
  Proof.
    intros R N H. destruct (runs_reach _ _ _ _ R H) as (tr' & R' & L). split; [lia|].
    assert (N' : nested rank s').
    { clear L R'. induction H as [s|s n s1 i e s2 H IH S Hn]; auto.
      destruct (runs_reach _ _ _ _ R H) as (tr1 & R1 & _). eapply nested_step; eauto. }
    intros Hstuck i c Hi. destruct (final c) eqn:Hf.
    - destruct (inv_reach _ _ _ _ _ _ R') as [I _]. pose proof (v_ok _ I _ _ Hi).
      unfold final in Hf. destruct (ca_pc c); try discriminate; eauto. congruence.
    - destruct (C22_no_deadlock _ _ _ _ _ R' N' Hi Hf) as (j & e & s2 & S & Hn). elim Hn. eauto.
  Qed.

  (* ---------- C23 ---------- *)

  (* whoever joined a computation that fails does not get a value: they still wait, or have got an error *)
  Theorem C23_waiters_error s tr i c j rid :
    reach s tr -> call_at s i c -> In (i, EJoin rid) tr ->
    In (j, EFail rid) tr \/ In (j, EMoveFail rid) tr ->
    ca_pc c = Waiting rid \/ ca_pc c = ThrewWaited.
  Proof.
    intros R Hi Hj Hf. destruct (inv_reach _ _ _ _ _ _ R) as [I T].
    destruct (join_reach _ _ _ _ _ _ R _ _ Hj) as (c' & Hc & [H|[H|(v & b & H1 & H2)]]);
      assert (c' = c) by congruence; subst c'; auto.
    exfalso. destruct (t_fail _ _ T _ _ Hf) as [H|(d & Hd & H)]; [congruence|].
    assert (nth_error (s_rips s) rid = Some InProgress).
    { eapply (v_own _ I); [exact Hd|]. destruct H as [-> | ->]; reflexivity. }
    congruence.
  Qed.

  (* the thread whose computation failed gets the exception, it never returns a value *)
  Theorem C23_thrower s tr j rid d :
    reach s tr -> In (j, EFail rid) tr -> call_at s j d ->
    ca_pc d = Failing rid \/ ca_pc d = Aborting rid \/ ca_pc d = Threw.
  Proof.
    intros R Hf Hd. eapply fail_reach; eauto.
  Qed.

  (* when a failed computation is removed from the map, its key is neither cached nor in progress *)
  Theorem C23_clean s tr i c rid s' :
    reach s tr -> call_at s i c -> step s (i, EErase rid) s' ->
    get (ca_key c) (l_pins (s_cache s')) = None /\ get (ca_key c) (l_ents (s_cache s')) = None /\
    get (ca_key c) (s_inprog s') = None.
  Proof.
    intros R Hi S. destruct (inv_reach _ _ _ _ _ _ R) as [I T].
    destruct (step_cases _ _ _ _ _ _ _ I S) as [(k & p & parent & Z & _)|(c' & p & X)]; [discriminate|].
    pose proof (x_at _ _ _ _ _ _ _ _ X) as Hi'. assert (c' = c) by congruence. subst c'.
    pose proof (x_pc _ _ _ _ _ _ _ _ X) as P. inversion P as [| | | | | | | |? E0 Epc E2| | |]. subst.
    destruct (v_inm _ I i c rid Hi) as [q Hq]; [now rewrite <- Epc|].
    pose proof (v_nocache _ I _ _ Hq) as A.
    assert (A' : absent (s_cache s') (ca_key c)).
    { apply not_held_absent. intros v Hv. destruct (x_held _ _ _ _ _ _ _ _ X _ _ Hv) as [H|(? & ? & Z & _)];
        [|discriminate]. eapply absent_holds; eauto. }
    destruct A' as [A1 A2]. split; auto. split; auto.
    rewrite (x_map _ _ _ _ _ _ _ _ X). cbn. now rewrite get_remove, N.eqb_refl.
  Qed.

  (* before that the key is not cached either; nothing of a failed computation is ever cached: what is cached
     is the value of a successful computation for that key *)
  Theorem C23_cached_is_good s tr k v :
    reach s tr -> get k (l_pins (s_cache s)) = Some v \/ (exists t, get k (l_ents (s_cache s)) = Some (v, t)) ->
    exists j d rid, In (j, EOk rid v) tr /\ call_at s j d /\ ca_key d = k.
  Proof.
    intros R H. destruct (inv_reach _ _ _ _ _ _ R) as [_ T].
    assert (Hh : holds (s_cache s) k v).
    { destruct H as [H|[t H]]; apply get_In in H; [left|right]; eauto. }
    destruct (t_cached _ _ T _ _ Hh) as (j & rid & H1 & d & H2 & H3). exists j, d, rid. auto.
  Qed.

  (* a later request computes it again: as long as nobody else has registered the key, the next step of a
     new call for it is to start a computation *)
  Theorem C23_recompute s tr i c e s' :
    reach s tr -> call_at s i c -> ca_pc c = Start ->
    get (ca_key c) (l_pins (s_cache s)) = None -> get (ca_key c) (l_ents (s_cache s)) = None ->
    get (ca_key c) (s_inprog s) = None ->
    step s (i, e) s' -> exists rid, e = EReg rid /\ call_at s' i (at_pc c (Computing rid)).
  Proof.
    intros R Hi Hp A1 A2 A3 S. destruct (inv_reach _ _ _ _ _ _ R) as [I T].
    destruct (step_cases _ _ _ _ _ _ _ I S) as [(k & p & parent & -> & _ & _ & _ & -> & _)|(c' & p & X)].
    { apply nth_error_lt in Hi. lia. }
    pose proof (x_at _ _ _ _ _ _ _ _ X) as Hi'. assert (c' = c) by congruence. subst c'.
    pose proof (x_pc _ _ _ _ _ _ _ _ X) as P. pose proof (x_ok _ _ _ _ _ _ _ _ X) as A.
    pose proof (calls_same _ _ _ _ _ _ _ _ X) as Hs.
    rewrite Hp in P. inversion P; subst; cbn in A.
    - exfalso. eapply absent_holds; [split; eauto|exact A].
    - destruct A. congruence.
    - eauto.
  Qed.

  (* a pinned request that got a value has it pinned: as long as nobody clears the whole cache *)
  Inductive keeps : state -> list (nat * event) -> Prop :=
  | K_init : keeps (initial maxNum) []
  | K_step s tr e s' : keeps s tr -> step s e s' -> keeps s' (tr ++ [e])
  | K_env s tr o c1 r : keeps s tr -> lru_step size maxSize maxSingle (s_cache s) o c1 r ->
      match o with ClearUnpinned | Lookup _ _ | Contains _ => True | _ => False end ->
      keeps {| s_cache := c1; s_inprog := s_inprog s; s_rips := s_rips s; s_calls := s_calls s |} tr.

  Lemma keeps_reach s tr : keeps s tr -> reach s tr.
  Proof.
    induction 1 as [|s tr e s' K IH S|s tr o c1 r K IH H Ho].
    - constructor.
    - econstructor; eauto.
    - eapply R_env; eauto. econstructor; eauto. destruct o; auto.
  Qed.

  Theorem C23_pinned s tr i c v b :
    keeps s tr -> call_at s i c -> ca_pinned c = true -> ca_pc c = Returned v b ->
    get (ca_key c) (l_pins (s_cache s)) = Some v.
  Proof.
    intros K Hi Hpin Hp. pose proof (keeps_reach _ _ K) as R. destruct (inv_reach _ _ _ _ _ _ R) as [I T].
    assert (HP : (forall j rid w k, In (j, EMove rid w true) tr -> key_at s j k ->
                    get k (l_pins (s_cache s)) = Some w) /\
                 (forall j d w, In (j, EHit w) tr -> call_at s j d -> ca_pinned d = true ->
                    get (ca_key d) (l_pins (s_cache s)) = Some w)).
    { clear - K. induction K as [|s tr [i e] s' K [IH1 IH2] S|s tr o c1 r K [IH1 IH2] H Ho].
      - split; intros; contradiction.
      - pose proof (keeps_reach _ _ K) as R. destruct (inv_reach _ _ _ _ _ _ R) as [I T].
        assert (Hkeep : forall k w, get k (l_pins (s_cache s)) = Some w -> get k (l_pins (s_cache s')) = Some w).
        { intros k w. eapply step_pins; eauto. }
        destruct (step_cases _ _ _ _ _ _ _ I S) as [(k & p & parent & -> & E1 & E2 & E3 & -> & E4 & _)|(c & p & X)].
        + assert (Hin : forall j e, In (j, e) tr -> e <> ESpawn -> exists d, call_at s j d).
          { intros. eapply trace_calls; eauto. }
          split.
          * intros j rid w k' Hin' Hk. apply in_snoc in Hin' as [Hin'|Hin']; [|discriminate].
            destruct (Hin _ _ Hin') as [d Hd]; [discriminate|]. apply Hkeep. eapply IH1; eauto.
            destruct Hk as (d' & Hd' & Hk). rewrite E4, nth_error_app1 in Hd' by (eapply nth_error_lt; eauto).
            exists d'. auto.
          * intros j d w Hin' Hd Hpin. apply in_snoc in Hin' as [Hin'|Hin']; [|discriminate].
            destruct (Hin _ _ Hin') as [d0 Hd0]; [discriminate|]. apply Hkeep.
            rewrite E4, nth_error_app1 in Hd by (eapply nth_error_lt; eauto). eapply IH2; eauto.
        + assert (Hcalls : forall j d', call_at s' j d' -> exists d, call_at s j d /\ ca_key d = ca_key d' /\ ca_pinned d = ca_pinned d').
          { intros j d' Hj. destruct (calls_after _ _ _ _ _ _ _ _ X _ _ Hj) as [[-> ->]|[_ Hj']].
            - exists c. split; [apply (x_at _ _ _ _ _ _ _ _ X)|]. auto.
            - eauto. }
          split.
          * intros j rid w k Hin Hk. destruct Hk as (d' & Hd' & Hk). destruct (Hcalls _ _ Hd') as (d & Hd & E & _).
            apply in_snoc in Hin as [Hin|Hin].
            -- apply Hkeep. eapply IH1; eauto. exists d. split; auto. congruence.
            -- injection Hin as -> ->. assert (d = c) by (pose proof (x_at _ _ _ _ _ _ _ _ X); congruence). subst d.
               rewrite <- Hk, <- E. eapply (x_pinned _ _ _ _ _ _ _ _ X); eauto.
          * intros j d' w Hin Hd' Hpin. destruct (Hcalls _ _ Hd') as (d & Hd & E & Ep).
            apply in_snoc in Hin as [Hin|Hin].
            -- apply Hkeep. rewrite <- E. eapply IH2; eauto.
            -- injection Hin as -> ->. rewrite <- E. eapply hit_pins; eauto.
      - cbn [s_cache]. assert (Hkeep : forall k w, get k (l_pins (s_cache s)) = Some w -> get k (l_pins c1) = Some w).
        { intros k w. eapply cstep_pins; eauto. destruct o; tauto. }
        split; intros; apply Hkeep; eauto. }
    destruct HP as [H1 H2]. destruct (t_pin3 _ _ T _ _ _ _ Hi Hpin Hp) as [H|(j & rid & H & Hk)]; eauto.
  Qed.
End Theorems.
Print Assumptions C22_single_computation.
Print Assumptions C22_starts_only_if_missing.
Print Assumptions C22_value.
Print Assumptions C22_same_value.
Print Assumptions C22_waiters_agree.
Print Assumptions C22_waits_for_running.
Print Assumptions C22_no_lost_waiter.
Print Assumptions C22_no_deadlock.
Print Assumptions C22_progress.
Print Assumptions C22_everybody_answered.
Print Assumptions C23_waiters_error.
Print Assumptions C23_thrower.
Print Assumptions C23_clean.
Print Assumptions C23_cached_is_good.
Print Assumptions C23_recompute.
Print Assumptions C23_pinned.

(* ---------- concrete executions ---------- *)
Lemma children_final l i :
  forallb (fun d => negb (match ca_parent d with Some q => Nat.eqb q i | None => false end) || final d) l = true ->
  forall j d, nth_error l j = Some d -> ca_parent d = Some i -> final d = true.
Proof.
  intros H j d Hj Hp. apply nth_error_In in Hj. rewrite forallb_forall in H. specialize (H _ Hj).
  rewrite Hp, Nat.eqb_refl in H. exact H.
Qed.

Definition xsize (v : N) : N := v.
(* limits of the examples: 10 entries, total size 1000, single results up to 50 *)
Notation xreach := (ConcCache_Model.reach xsize 1000 50 10).
Notation xstep := (ConcCache_Model.step xsize 1000 50).

Ltac go H t :=
  let H' := fresh in
  pose proof (R_step _ _ _ _ _ _ _ _ H t) as H'; cbn in H'; clear H; rename H' into H.

(* Calls 0 (not pinned) and 1 (pinned) ask for key 7; the computation of 7 needs key 8, whose computation
   (call 2) fails; the computation of 7 succeeds nevertheless; call 3 asks for 8 again, and fails to compute
   while call 4 waits for it. *)
Example C22_C23_example : exists s tr,
  xreach s tr /\
  map ca_pc (s_calls s) = [Returned 42 false; Returned 42 false; Threw; Threw; ThrewWaited] /\
  In (1%nat, EJoin 0) tr /\ In (0%nat, EMove 0 42 true) tr /\ In (2%nat, EFail 1) tr /\ In (4%nat, EJoin 2) tr /\
  In (3%nat, EErase 2) tr /\ get 7 (l_pins (s_cache s)) = Some 42 /\
  nested (fun k => if (k =? 7)%N then 2%nat else 1%nat) s.
Proof.
  pose proof (R_init xsize 1000 50 10) as H.
  go H (St_spawn xsize 1000 50 (initial 10) 7 false None Logic.I).
  match type of H with ConcCache_Model.reach _ _ _ _ ?s _ =>
    go H (St_register xsize 1000 50 s 0 _ _ eq_refl eq_refl (S_contains _ _ _ _ _) eq_refl) end.
  match type of H with ConcCache_Model.reach _ _ _ _ ?s _ => go H (St_spawn xsize 1000 50 s 7 true None Logic.I) end.
  match type of H with ConcCache_Model.reach _ _ _ _ ?s _ =>
    go H (St_join xsize 1000 50 s 1 _ _ false 0 eq_refl eq_refl
            (S_containspin_none _ _ _ (s_cache s) 7 eq_refl eq_refl) eq_refl) end.
  match type of H with ConcCache_Model.reach _ _ _ _ ?s _ =>
    go H (St_spawn xsize 1000 50 s 8 false (Some 0%nat) (ex_intro _ _ (ex_intro _ _ (conj eq_refl eq_refl)))) end.
  match type of H with ConcCache_Model.reach _ _ _ _ ?s _ =>
    go H (St_register xsize 1000 50 s 2 _ _ eq_refl eq_refl (S_contains _ _ _ _ _) eq_refl) end.
  match type of H with ConcCache_Model.reach _ _ _ _ ?s _ =>
    go H (St_fail xsize 1000 50 s 2 _ _ eq_refl eq_refl (children_final (s_calls s) 2 eq_refl)) end.
  match type of H with ConcCache_Model.reach _ _ _ _ ?s _ =>
    go H (St_erase xsize 1000 50 s 2 _ _ eq_refl eq_refl) end.
  match type of H with ConcCache_Model.reach _ _ _ _ ?s _ =>
    go H (St_abort xsize 1000 50 s 2 _ _ eq_refl eq_refl eq_refl) end.
  match type of H with ConcCache_Model.reach _ _ _ _ ?s _ =>
    go H (St_compute xsize 1000 50 s 0 _ _ 42 eq_refl eq_refl (children_final (s_calls s) 0 eq_refl)) end.
  match type of H with ConcCache_Model.reach _ _ _ _ ?s _ =>
    assert (Hin : lru_step xsize 1000 50 (s_cache s) (InsertPinned 7 42)
              {| l_max := 10; l_ents := []; l_pins := [(7, 42)] |} (Value 42))
      by (apply S_pin; [reflexivity|reflexivity|vm_compute; discriminate|apply shrink_stop; left; reflexivity]);
    go H (St_move xsize 1000 50 s 0 _ _ _ true _ _ _ 0 eq_refl eq_refl eq_refl Hin (or_introl eq_refl));
    clear Hin end.
  match type of H with ConcCache_Model.reach _ _ _ _ ?s _ =>
    go H (St_finish xsize 1000 50 s 0 _ _ _ eq_refl eq_refl eq_refl) end.
  match type of H with ConcCache_Model.reach _ _ _ _ ?s _ =>
    go H (St_got xsize 1000 50 s 1 _ _ _ eq_refl eq_refl eq_refl) end.
  match type of H with ConcCache_Model.reach _ _ _ _ ?s _ => go H (St_spawn xsize 1000 50 s 8 false None Logic.I) end.
  match type of H with ConcCache_Model.reach _ _ _ _ ?s _ =>
    go H (St_register xsize 1000 50 s 3 _ _ eq_refl eq_refl (S_contains _ _ _ _ _) eq_refl) end.
  match type of H with ConcCache_Model.reach _ _ _ _ ?s _ => go H (St_spawn xsize 1000 50 s 8 false None Logic.I) end.
  match type of H with ConcCache_Model.reach _ _ _ _ ?s _ =>
    go H (St_join xsize 1000 50 s 4 _ _ false 2 eq_refl eq_refl (S_contains _ _ _ _ _) eq_refl) end.
  match type of H with ConcCache_Model.reach _ _ _ _ ?s _ =>
    go H (St_fail xsize 1000 50 s 3 _ _ eq_refl eq_refl (children_final (s_calls s) 3 eq_refl)) end.
  match type of H with ConcCache_Model.reach _ _ _ _ ?s _ =>
    go H (St_erase xsize 1000 50 s 3 _ _ eq_refl eq_refl) end.
  match type of H with ConcCache_Model.reach _ _ _ _ ?s _ =>
    go H (St_abort xsize 1000 50 s 3 _ _ eq_refl eq_refl eq_refl) end.
  match type of H with ConcCache_Model.reach _ _ _ _ ?s _ =>
    go H (St_got_error xsize 1000 50 s 4 _ _ eq_refl eq_refl eq_refl) end.
  eexists _, _. split; [exact H|]. split; [reflexivity|]. simpl.
  split; [tauto|]. split; [tauto|]. split; [tauto|]. split; [tauto|]. split; [tauto|]. split; [reflexivity|].
  intros i c j d. simpl.
  destruct i as [|[|[|[|[|i]]]]]; simpl; intros E1 E2 E3; try (destruct i; discriminate);
    injection E1 as <-; try discriminate; injection E2 as <-; injection E3 as <-; simpl; lia.
Qed.

(* ---------- findings ---------- *)

(* A result too large for the cache is simply not cached if nobody wants it pinned. If somebody does, nobody
   gets it: the computation of call 0 succeeds, but since call 1 joined it with a pinned request, the insertion
   throws and both calls end with an exception, although the request of call 0 alone would have succeeded. *)
Theorem C22_success_lost_refuted : exists s tr,
  xreach s tr /\ In (0%nat, EOk 0 99) tr /\
  (forall j rid, ~ In (j, EFail rid) tr) /\
  map ca_pinned (s_calls s) = [false; true] /\ map ca_pc (s_calls s) = [Threw; ThrewWaited].
Proof.
  pose proof (R_init xsize 1000 50 10) as H.
  go H (St_spawn xsize 1000 50 (initial 10) 7 false None Logic.I).
  match type of H with ConcCache_Model.reach _ _ _ _ ?s _ =>
    go H (St_register xsize 1000 50 s 0 _ _ eq_refl eq_refl (S_contains _ _ _ _ _) eq_refl) end.
  match type of H with ConcCache_Model.reach _ _ _ _ ?s _ => go H (St_spawn xsize 1000 50 s 7 true None Logic.I) end.
  match type of H with ConcCache_Model.reach _ _ _ _ ?s _ =>
    go H (St_join xsize 1000 50 s 1 _ _ false 0 eq_refl eq_refl
            (S_containspin_none _ _ _ (s_cache s) 7 eq_refl eq_refl) eq_refl) end.
  match type of H with ConcCache_Model.reach _ _ _ _ ?s _ =>
    go H (St_compute xsize 1000 50 s 0 _ _ 99 eq_refl eq_refl (children_final (s_calls s) 0 eq_refl)) end.
  match type of H with ConcCache_Model.reach _ _ _ _ ?s _ =>
    go H (St_move_throws xsize 1000 50 s 0 _ _ _ true _ _ _ 0 eq_refl eq_refl eq_refl
            (S_pin_big xsize 1000 50 (s_cache s) 7 99 eq_refl eq_refl eq_refl) (or_intror eq_refl)) end.
  match type of H with ConcCache_Model.reach _ _ _ _ ?s _ =>
    go H (St_erase xsize 1000 50 s 0 _ _ eq_refl eq_refl) end.
  match type of H with ConcCache_Model.reach _ _ _ _ ?s _ =>
    go H (St_abort xsize 1000 50 s 0 _ _ eq_refl eq_refl eq_refl) end.
  match type of H with ConcCache_Model.reach _ _ _ _ ?s _ =>
    go H (St_got_error xsize 1000 50 s 1 _ _ eq_refl eq_refl eq_refl) end.
  eexists _, _. split; [exact H|]. simpl. split; [tauto|]. split; [|auto].
  intros j rid Hin. repeat (destruct Hin as [Hin|Hin]; [discriminate|]). exact Hin.
Qed.
Print Assumptions C22_success_lost_refuted.

(* Without the condition of C22_no_deadlock a thread can wait for itself: the computation of key 7 asks for
   key 7. No call can make a step although none has ended. *)
Theorem C22_self_request_refuted : exists s tr,
  xreach s tr /\ map final (s_calls s) = [false; false] /\
  forall j e s', xstep s (j, e) s' -> e = ESpawn.
Proof.
  pose proof (R_init xsize 1000 50 10) as H.
  go H (St_spawn xsize 1000 50 (initial 10) 7 false None Logic.I).
  match type of H with ConcCache_Model.reach _ _ _ _ ?s _ =>
    go H (St_register xsize 1000 50 s 0 _ _ eq_refl eq_refl (S_contains _ _ _ _ _) eq_refl) end.
  match type of H with ConcCache_Model.reach _ _ _ _ ?s _ =>
    go H (St_spawn xsize 1000 50 s 7 false (Some 0%nat) (ex_intro _ _ (ex_intro _ _ (conj eq_refl eq_refl)))) end.
  match type of H with ConcCache_Model.reach _ _ _ _ ?s _ =>
    go H (St_join xsize 1000 50 s 1 _ _ false 0 eq_refl eq_refl (S_contains _ _ _ _ _) eq_refl) end.
  eexists _, _. split; [exact H|]. split; [reflexivity|].
  intros j e s' S. 
  match type of S with ConcCache_Model.step _ _ _ ?s0 ?ie _ => remember s0 as s eqn:Es; remember ie as p eqn:Ep end.
  assert (Hc : s_calls s = [{| ca_key := 7; ca_pinned := false; ca_parent := None; ca_pc := Computing 0 |};
                            {| ca_key := 7; ca_pinned := false; ca_parent := Some 0%nat; ca_pc := Waiting 0 |}])
    by (rewrite Es; reflexivity).
  assert (Hr : s_rips s = [InProgress]) by (rewrite Es; reflexivity). clear Es H.
  assert (Hpc : forall i c, nth_error (s_calls s) i = Some c ->
            (i = 0%nat /\ ca_pc c = Computing 0) \/ (i = 1%nat /\ ca_pc c = Waiting 0)).
  { rewrite Hc. intros [|[|i]] c E; simpl in E; [injection E as <-; auto|injection E as <-; auto|destruct i; discriminate]. }
  destruct S as [s k p0 parent Hpar|s i c c1 c2 v now Hi Hp H1 H2|s i c c1 p0 rid Hi Hp H1 Hg|s i c c1 Hi Hp H1 Hg
    |s i c rid v Hi Hp Hch|s i c rid Hi Hp Hch|s i c rid v p0 rid' c1 r now Hi Hp Hg H1 H2
    |s i c rid v p0 rid' c1 r now Hi Hp Hg H1 H2|s i c rid v Hi Hp Hg|s i c rid v Hi Hp Hg|s i c rid v Hi Hp Hg
    |s i c rid Hi Hp|s i c rid Hi Hp Hg|s i c rid Hi Hp Hg|s i c rid v Hi Hp Hg|s i c rid Hi Hp Hg];
    [congruence|..]; exfalso; destruct (Hpc _ _ Hi) as [[-> E]|[-> E]]; rewrite E in Hp; try discriminate Hp.
  - specialize (Hch 1%nat). rewrite Hc in Hch. specialize (Hch _ eq_refl eq_refl). discriminate.
  - specialize (Hch 1%nat). rewrite Hc in Hch. specialize (Hch _ eq_refl eq_refl). discriminate.
  - injection Hp as <-. rewrite Hr in Hg. discriminate.
  - injection Hp as <-. rewrite Hr in Hg. discriminate.
Qed.
Print Assumptions C22_self_request_refuted.

Ltac gok H t :=
  let H' := fresh in
  pose proof (K_step _ _ _ _ _ _ _ _ H t) as H'; cbn in H'; clear H; rename H' into H.

(* a pinned request that computes its result, then another pinned request for it *)
Example C23_pinned_example : exists s tr,
  keeps xsize 1000 50 10 s tr /\ map ca_pinned (s_calls s) = [true; true] /\
  map ca_pc (s_calls s) = [Returned 42 false; Returned 42 true].
Proof.
  pose proof (K_init xsize 1000 50 10) as H.
  gok H (St_spawn xsize 1000 50 (initial 10) 7 true None Logic.I).
  match type of H with keeps _ _ _ _ ?s _ =>
    gok H (St_register xsize 1000 50 s 0 _ _ eq_refl eq_refl
             (S_containspin_none _ _ _ (s_cache s) 7 eq_refl eq_refl) eq_refl) end.
  match type of H with keeps _ _ _ _ ?s _ =>
    gok H (St_compute xsize 1000 50 s 0 _ _ 42 eq_refl eq_refl (children_final (s_calls s) 0 eq_refl)) end.
  match type of H with keeps _ _ _ _ ?s _ =>
    assert (Hin : lru_step xsize 1000 50 (s_cache s) (InsertPinned 7 42)
              {| l_max := 10; l_ents := []; l_pins := [(7, 42)] |} (Value 42))
      by (apply S_pin; [reflexivity|reflexivity|vm_compute; discriminate|apply shrink_stop; left; reflexivity]);
    gok H (St_move xsize 1000 50 s 0 _ _ _ true _ _ _ 0 eq_refl eq_refl eq_refl Hin (or_introl eq_refl));
    clear Hin end.
  match type of H with keeps _ _ _ _ ?s _ =>
    gok H (St_finish xsize 1000 50 s 0 _ _ _ eq_refl eq_refl eq_refl) end.
  match type of H with keeps _ _ _ _ ?s _ => gok H (St_spawn xsize 1000 50 s 7 true None Logic.I) end.
  match type of H with keeps _ _ _ _ ?s _ =>
    gok H (St_hit xsize 1000 50 s 1 _ _ _ 42 5 eq_refl eq_refl
             (S_containspin_pinned _ _ _ (s_cache s) 7 42 eq_refl) (S_lookup_pinned _ _ _ (s_cache s) 7 5 42 eq_refl)) end.
  eexists _, _. split; [exact H|]. split; reflexivity.
Qed.
