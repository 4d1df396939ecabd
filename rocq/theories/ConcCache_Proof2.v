(* What an execution of the concurrent cache has done. *)
From Coq Require Import List NArith Arith Lia Permutation Bool.
From Coq Require Import ZifyBool ZifyN ZifyNat.
From Verif Require Import Cache_Spec Cache_Model Cache_Proof ConcCache_Model ConcCache_Proof.
Import ListNotations.
Open Scope N_scope.

Definition key_at (s : state) (j : nat) (k : N) : Prop := exists d, call_at s j d /\ ca_key d = k.

(* One step of one call, reachable states only (no check fails). The last argument is the effect on the
   results and on the map of computations in progress. *)
Inductive pstep : event -> pc -> pc -> Prop :=
| P_hit v : pstep (EHit v) Start (Returned v true)
| P_join r : pstep (EJoin r) Start (Waiting r)
| P_reg r : pstep (EReg r) Start (Computing r)
| P_ok r v : pstep (EOk r v) (Computing r) (Computed r v)
| P_fail r : pstep (EFail r) (Computing r) (Failing r)
| P_move r v p : pstep (EMove r v p) (Computed r v) (Moved r v)
| P_movefail r v : pstep (EMoveFail r) (Computed r v) (Failing r)
| P_finish r v : pstep (EFinish r) (Moved r v) (Returned v false)
| P_erase r : pstep (EErase r) (Failing r) (Aborting r)
| P_abort r : pstep (EAbort r) (Aborting r) Threw
| P_got r v : pstep (EGot r v) (Waiting r) (Returned v false)
| P_goterr r : pstep (EGotErr r) (Waiting r) ThrewWaited.

Definition rips_after (e : event) (p : pc) (l : list status) : list status :=
  match e, p with
  | EReg _, _ => l ++ [InProgress]
  | EFinish rid, Moved _ v => set_nth rid (Finished v) l
  | EAbort rid, _ => set_nth rid Aborted l
  | _, _ => l
  end.

Definition map_after (e : event) (c : call) (m : list (N * (bool * nat))) : list (N * (bool * nat)) :=
  match e with
  | EReg rid => (ca_key c, (ca_pinned c, rid)) :: m
  | EJoin rid => match get (ca_key c) m with
                 | Some (p, _) => (ca_key c, (p || ca_pinned c, rid)) :: remove (ca_key c) m
                 | None => m
                 end
  | EMove _ _ _ | EErase _ => remove (ca_key c) m
  | _ => m
  end.

(* when the step can happen *)
Definition allowed (e : event) (s : state) (c : call) : Prop :=
  match e with
  | EHit v => holds (s_cache s) (ca_key c) v
  | EJoin rid => exists p, get (ca_key c) (s_inprog s) = Some (p, rid)
  | EReg rid => rid = length (s_rips s) /\ get (ca_key c) (s_inprog s) = None /\
                absent (s_cache s) (ca_key c)
  | EMove rid v p => get (ca_key c) (s_inprog s) = Some (p, rid)
  | EMoveFail rid => exists v, ca_pc c = Computed rid v /\ get (ca_key c) (s_inprog s) = Some (true, rid)
  | EGot rid v => nth_error (s_rips s) rid = Some (Finished v)
  | EGotErr rid => nth_error (s_rips s) rid = Some Aborted
  | _ => True
  end.

Lemma in_snoc {A} (x : A) l a : In x (l ++ [a]) <-> In x l \/ a = x.
Proof. rewrite in_app_iff. simpl. tauto. Qed.

Section Steps.
  Variable size : N -> N.
  Variables maxSize maxSingle : N.
  Notation cstep := (lru_step size maxSize maxSingle).
  Notation step := (step size maxSize maxSingle).
  Notation reach := (reach size maxSize maxSingle).

  Record stepped (s : state) (i : nat) (c : call) (e : event) (p : pc) (s' : state) : Prop := {
    x_at : call_at s i c;
    x_pc : pstep e (ca_pc c) p;
    x_calls : s_calls s' = set_nth i (at_pc c p) (s_calls s);
    x_rips : s_rips s' = rips_after e (ca_pc c) (s_rips s);
    x_map : s_inprog s' = map_after e c (s_inprog s);
    x_ok : allowed e s c;
    x_held : forall k v, holds (s_cache s') k v -> holds (s_cache s) k v \/
               exists rid q, e = EMove rid v q /\ k = ca_key c;
    x_big : forall rid, e = EMoveFail rid -> exists v, ca_pc c = Computed rid v /\ maxSingle < size v;
    x_pinned : forall rid v, e = EMove rid v true -> get (ca_key c) (l_pins (s_cache s')) = Some v }.

  Definition new_call k p parent := {| ca_key := k; ca_pinned := p; ca_parent := parent; ca_pc := Start |}.

  Ltac st Hpc :=
    split; cbn [s_cache s_inprog s_rips s_calls allowed];
    [assumption | rewrite Hpc; econstructor | reflexivity
    | try rewrite Hpc; try reflexivity | try reflexivity | | | try (intros; discriminate) | try (intros; discriminate)].

  Lemma step_cases s i e s' : inv1 s -> step s (i, e) s' ->
    (exists k p parent, e = ESpawn /\ s_cache s' = s_cache s /\ s_inprog s' = s_inprog s /\
       s_rips s' = s_rips s /\ i = length (s_calls s) /\
       s_calls s' = s_calls s ++ [new_call k p parent] /\
       match parent with
       | None => True
       | Some j => exists c rid, call_at s j c /\ ca_pc c = Computing rid
       end) \/
    (exists c p, stepped s i c e p s').
  Proof.
    intros I H.
    remember (i, e) as ie eqn:Eie. destruct H as
      [s k p parent Hpar
      |s i0 c c1 c2 v now Hi Hpc H1 H2
      |s i0 c c1 p rid Hi Hpc H1 Hg
      |s i0 c c1 Hi Hpc H1 Hg
      |s i0 c rid v Hi Hpc Hch
      |s i0 c rid Hi Hpc Hch
      |s i0 c rid v p rid' c1 r now Hi Hpc Hg Hc Hr
      |s i0 c rid v p rid' c1 r now Hi Hpc Hg Hc Hr
      |s i0 c rid v Hi Hpc Hg
      |s i0 c rid v Hi Hpc Hrip
      |s i0 c rid v Hi Hpc Hrip
      |s i0 c rid Hi Hpc
      |s i0 c rid Hi Hpc Hrip
      |s i0 c rid Hi Hpc Hrip
      |s i0 c rid v Hi Hpc Hrip
      |s i0 c rid Hi Hpc Hrip]; injection Eie as <- <-; unfold set_call in *.
    - left. exists k, p, parent. repeat split; auto.
    - right. exists c, (Returned v true).
      st Hpc; auto.
      + apply lookup_holds in H2 as [Hh _].
        destruct (cstep_holds _ _ _ _ _ _ _ _ _ H1 Hh) as [Ho|[_ Z]]; [exact Ho|discriminate].
      + intros k w Hw.
        destruct (cstep_holds _ _ _ _ _ _ _ _ _ H2 Hw) as [Ho|[[[? Z]|Z] _]]; try discriminate.
        destruct (cstep_holds _ _ _ _ _ _ _ _ _ H1 Ho) as [Ho'|[_ Z]]; [auto|discriminate].
    - right. exists c, (Waiting rid). apply contains_false in H1 as [-> Habs]. st Hpc; auto.
      + cbn. now rewrite Hg.
      + eauto.
    - right. exists c, (Computing (length (s_rips s))). apply contains_false in H1 as [-> Habs]. st Hpc; auto.
    - right. exists c, (Computed rid v). st Hpc; auto.
    - right. exists c, (Failing rid). st Hpc; auto.
    - right. exists c, (Moved rid v).
      assert (rid' = rid).
      { destruct (v_inm _ I i0 c rid) as [q Hq]; auto; [now rewrite Hpc|congruence]. }
      subst rid'. st Hpc; auto.
      + intros k w Hw. destruct (cstep_holds _ _ _ _ _ _ _ _ _ Hc Hw) as [Ho|[Z _]]; auto. right.
        exists rid, p. destruct p, Z as [[? Z]|Z]; try discriminate; injection Z as -> ->; try subst; auto.
      + intros rid0 v0 E. injection E as <- <- ->.
        pose proof (v_nocache _ I _ _ Hg) as Habs.
        destruct (insert_absent _ _ _ _ true _ _ 0 _ _ Habs Hc) as (_ & _ & Hnn & Hp).
        apply Hp; auto. destruct Hr as [Hr|Hr]; auto. elim (Hnn eq_refl Hr).
    - right. exists c, (Failing rid).
      assert (rid' = rid).
      { destruct (v_inm _ I i0 c rid) as [q Hq]; auto; [now rewrite Hpc|congruence]. }
      subst rid'. pose proof (v_nocache _ I _ _ Hg) as Habs.
      destruct (insert_absent _ _ _ _ _ _ _ _ _ _ Habs Hc) as (Hnd & Hbig & _).
      assert (E : r = TooBig) by (destruct Hr as [Hr|Hr]; [contradiction|exact Hr]).
      destruct (Hbig E) as [-> Hsz].
      st Hpc; auto.
      + exists v. auto.
      + intros k w Hw. destruct (cstep_holds _ _ _ _ _ _ _ _ _ Hc Hw) as [Ho|[_ Z]]; auto. congruence.
      + intros rid0 E0. injection E0 as <-. eauto.
    - exfalso. destruct (v_inm _ I i0 c rid) as [q Hq]; auto; [now rewrite Hpc|congruence].
    - right. exists c, (Returned v false). st Hpc; auto.
    - exfalso. apply Hrip. eapply (v_own _ I); eauto. now rewrite Hpc.
    - right. exists c, (Aborting rid). st Hpc; auto.
    - right. exists c, Threw. st Hpc; auto.
    - exfalso. apply Hrip. eapply (v_own _ I); eauto. now rewrite Hpc.
    - right. exists c, (Returned v false). st Hpc; auto.
    - right. exists c, ThrewWaited. st Hpc; auto.
  Qed.

  Record inv2 (s : state) (tr : list (nat * event)) : Prop := {
    t_reg : forall j rid, In (j, EReg rid) tr -> (rid < length (s_rips s))%nat;
    t_once : forall j j' rid, In (j, EReg rid) tr -> In (j', EReg rid) tr -> j = j';
    t_own : forall i c rid, call_at s i c -> owns (ca_pc c) rid -> In (i, EReg rid) tr;
    t_wait : forall i c rid, call_at s i c -> ca_pc c = Waiting rid ->
      exists j, In (j, EReg rid) tr /\ key_at s j (ca_key c);
    t_ok : forall j rid v, In (j, EOk rid v) tr -> In (j, EReg rid) tr;
    t_move : forall j rid v p, In (j, EMove rid v p) tr -> In (j, EOk rid v) tr /\
      ((exists c, call_at s j c /\ ca_pc c = Moved rid v) \/ nth_error (s_rips s) rid = Some (Finished v));
    t_val : forall i c rid v, call_at s i c -> ca_pc c = Computed rid v \/ ca_pc c = Moved rid v ->
      In (i, EOk rid v) tr;
    t_moved : forall i c rid v, call_at s i c -> ca_pc c = Moved rid v -> exists p, In (i, EMove rid v p) tr;
    t_fin : forall rid v, nth_error (s_rips s) rid = Some (Finished v) -> exists j p, In (j, EMove rid v p) tr;
    t_cached : forall k v, holds (s_cache s) k v ->
      exists j rid, In (j, EOk rid v) tr /\ key_at s j k;
    t_ret : forall i c v b, call_at s i c -> ca_pc c = Returned v b ->
      exists j rid, In (j, EOk rid v) tr /\ key_at s j (ca_key c);
    t_pin1 : forall i c rid p, call_at s i c -> ca_pinned c = true -> refers (ca_pc c) rid ->
      get (ca_key c) (s_inprog s) = Some (p, rid) -> p = true;
    t_pin2 : forall i c rid j v p, call_at s i c -> ca_pinned c = true -> refers (ca_pc c) rid ->
      In (j, EMove rid v p) tr -> p = true;
    t_pin3 : forall i c v b, call_at s i c -> ca_pinned c = true -> ca_pc c = Returned v b ->
      In (i, EHit v) tr \/ exists j rid, In (j, EMove rid v true) tr /\ key_at s j (ca_key c);
    t_fail : forall j rid, In (j, EFail rid) tr \/ In (j, EMoveFail rid) tr ->
      nth_error (s_rips s) rid = Some Aborted \/
      exists c, call_at s j c /\ (ca_pc c = Failing rid \/ ca_pc c = Aborting rid);
    t_err : forall rid, nth_error (s_rips s) rid = Some Aborted ->
      exists j, In (j, EAbort rid) tr;
    t_abort : forall i c rid, call_at s i c -> ca_pc c = Failing rid \/ ca_pc c = Aborting rid ->
      In (i, EFail rid) tr \/ In (i, EMoveFail rid) tr;
    t_abort2 : forall j rid, In (j, EAbort rid) tr -> In (j, EFail rid) tr \/ In (j, EMoveFail rid) tr }.

  Section One.
    Variables (s : state) (i : nat) (c : call) (e : event) (p : pc) (s' : state).
    Hypothesis (I : inv1 s) (X : stepped s i c e p s').

    Lemma calls_after j d : call_at s' j d ->
      (j = i /\ d = at_pc c p) \/ (j <> i /\ call_at s j d).
    Proof.
      rewrite (x_calls _ _ _ _ _ _ X), nth_error_set by (eapply nth_error_lt, (x_at _ _ _ _ _ _ X)).
      destruct (Nat.eqb_spec j i); intros H; [left|right]; split; auto. congruence.
    Qed.

    Lemma calls_same : call_at s' i (at_pc c p).
    Proof.
      rewrite (x_calls _ _ _ _ _ _ X), nth_error_set by (eapply nth_error_lt, (x_at _ _ _ _ _ _ X)).
      now rewrite Nat.eqb_refl.
    Qed.

    Lemma calls_other j d : j <> i -> call_at s j d -> call_at s' j d.
    Proof.
      rewrite (x_calls _ _ _ _ _ _ X), nth_error_set by (eapply nth_error_lt, (x_at _ _ _ _ _ _ X)).
      intros Hn. apply Nat.eqb_neq in Hn. now rewrite Hn.
    Qed.

    Lemma key_same j k : key_at s j k -> key_at s' j k.
    Proof.
      intros (d & Hd & Hk). destruct (Nat.eq_dec j i) as [->|Hn].
      - exists (at_pc c p). split; [apply calls_same|]. pose proof (x_at _ _ _ _ _ _ X). simpl. congruence.
      - exists d. split; auto. now apply calls_other.
    Qed.

    Lemma key_self : key_at s' i (ca_key c).
    Proof. exists (at_pc c p). split; [apply calls_same|reflexivity]. Qed.

    (* the status of a result only changes from InProgress *)
    Lemma rips_stable rid st : nth_error (s_rips s) rid = Some st -> st <> InProgress ->
      nth_error (s_rips s') rid = Some st.
    Proof.
      intros H Hst. rewrite (x_rips _ _ _ _ _ _ X).
      pose proof (x_pc _ _ _ _ _ _ X) as P. pose proof (x_at _ _ _ _ _ _ X) as Hi.
      inversion P as [| | | | | | | rid0 v E1 E2 E3| |rid0 E1 E2 E3| |]; cbn [rips_after]; auto.
      - rewrite nth_error_app1; auto. eapply nth_error_lt; eauto.
      - assert (Ho : nth_error (s_rips s) rid0 = Some InProgress).
        { eapply (v_own _ I); eauto. now rewrite <- E2. }
        rewrite nth_error_set by (eapply nth_error_lt; eauto).
        destruct (Nat.eqb_spec rid rid0); auto. congruence.
      - assert (Ho : nth_error (s_rips s) rid0 = Some InProgress).
        { eapply (v_own _ I); eauto. now rewrite <- E2. }
        rewrite nth_error_set by (eapply nth_error_lt; eauto).
        destruct (Nat.eqb_spec rid rid0); auto. congruence.
    Qed.

    Lemma rips_grow : (length (s_rips s) <= length (s_rips s'))%nat.
    Proof.
      rewrite (x_rips _ _ _ _ _ _ X). destruct e; simpl; auto; try (rewrite app_length; lia).
      - destruct (ca_pc c); auto. now rewrite set_nth_length.
      - now rewrite set_nth_length.
    Qed.

    Lemma rips_new rid st : nth_error (s_rips s') rid = Some st -> st <> InProgress ->
      nth_error (s_rips s) rid = Some st \/
      (e = EFinish rid /\ exists v, ca_pc c = Moved rid v /\ st = Finished v) \/
      (e = EAbort rid /\ ca_pc c = Aborting rid /\ st = Aborted).
    Proof.
      rewrite (x_rips _ _ _ _ _ _ X). intros H Hst.
      pose proof (x_pc _ _ _ _ _ _ X) as P. pose proof (x_at _ _ _ _ _ _ X) as Hi. revert H.
      inversion P as [| | r E1 E2 E3| | | | | rid0 v E1 E2 E3| |rid0 E1 E2 E3| |]; cbn [rips_after]; auto; intros H.
      - left. destruct (Nat.lt_ge_cases rid (length (s_rips s))) as [L|L].
        + now rewrite nth_error_app1 in H.
        + rewrite nth_error_app2 in H by exact L. destruct (rid - length (s_rips s))%nat as [|[|]]; simpl in H;
            congruence.
      - assert (Ho : nth_error (s_rips s) rid0 = Some InProgress).
        { eapply (v_own _ I); eauto. now rewrite <- E2. }
        rewrite nth_error_set in H by (eapply nth_error_lt; eauto).
        destruct (Nat.eqb_spec rid rid0); auto. subst rid0. right. left. split; auto. exists v. split; auto. congruence.
      - assert (Ho : nth_error (s_rips s) rid0 = Some InProgress).
        { eapply (v_own _ I); eauto. now rewrite <- E2. }
        rewrite nth_error_set in H by (eapply nth_error_lt; eauto).
        destruct (Nat.eqb_spec rid rid0); auto. subst rid0. right. right. split; auto. split; auto. congruence.
    Qed.

  End One.

    Ltac old H := apply in_snoc in H as [H|H]; [|injection H as ? H; try discriminate H].
    Ltac new := apply in_snoc; auto.

    Lemma inv2_step s i c e p s' tr :
      inv1 s -> inv2 s tr -> stepped s i c e p s' -> inv2 s' (tr ++ [(i, e)]).
    Proof.
      intros I T X.
      pose proof (x_pc _ _ _ _ _ _ X) as P. pose proof (x_at _ _ _ _ _ _ X) as Hi.
      pose proof (x_ok _ _ _ _ _ _ X) as A.
      pose proof (rips_grow _ _ _ _ _ _ X) as G.
      constructor.
      - intros j rid H. apply in_snoc in H as [H|H].
        + pose proof (t_reg _ _ T _ _ H). lia.
        + injection H as <- E. rewrite (x_rips _ _ _ _ _ _ X). subst e. destruct A as (-> & _). simpl.
          rewrite app_length. simpl. lia.
      - intros j j' rid H H'. apply in_snoc in H as [H|H]; apply in_snoc in H' as [H'|H'].
        + eapply (t_once _ _ T); eauto.
        + injection H' as <- E. subst e. destruct A as (-> & _). pose proof (t_reg _ _ T _ _ H). lia.
        + injection H as <- E. subst e. destruct A as (-> & _). pose proof (t_reg _ _ T _ _ H'). lia.
        + congruence.
      - intros j d rid Hj Ho. apply in_snoc. apply (calls_after _ _ _ _ _ _ X) in Hj as [[-> ->]|[Hn Hj]].
        + cbn [at_pc ca_pc] in Ho. inversion P as [? E0 Epc E2|? E0 Epc E2|? E0 Epc E2|? ? E0 Epc E2|? E0 Epc E2|? ? ? E0 Epc E2|? ? E0 Epc E2|? ? E0 Epc E2|? E0 Epc E2|? E0 Epc E2|? ? E0 Epc E2|? E0 Epc E2]; subst e p; cbn in Ho; try contradiction; subst; auto; left;
            apply (t_own _ _ T i c); auto; now rewrite <- Epc.
        + left. eapply (t_own _ _ T); eauto.
      - intros j d rid Hj Hw. apply (calls_after _ _ _ _ _ _ X) in Hj as [[-> ->]|[Hn Hj]].
        + cbn [at_pc ca_pc ca_key] in *. subst p. inversion P. subst e r. destruct A as [q Hq].
          destruct (v_map _ I _ _ _ Hq) as (j & d & Hj & Hk & Hm).
          exists j. split; [apply in_snoc; left; eapply (t_own _ _ T); eauto using in_map_owns|].
          apply (key_same _ _ _ _ _ _ X). exists d. auto.
        + destruct (t_wait _ _ T _ _ _ Hj Hw) as (j' & H1 & H2). exists j'. split; [new|]. now apply (key_same _ _ _ _ _ _ X).
      - intros j rid v H. apply in_snoc. apply in_snoc in H as [H|H].
        + left. eapply (t_ok _ _ T); eauto.
        + injection H as <- E. subst e. left. apply (t_own _ _ T i c); auto. inversion P. reflexivity.
      - intros j rid v q H. apply in_snoc in H as [H|H].
        + destruct (t_move _ _ T _ _ _ _ H) as [H1 H2]. split; [new|].
          destruct H2 as [(d & Hd & Hm)|H2]; [|right; apply (rips_stable _ _ _ _ _ _ I X); auto; discriminate].
          destruct (Nat.eq_dec j i) as [->|Hn].
          * assert (d = c) by congruence. subst d. right. rewrite Hm in P. inversion P. subst.
            rewrite (x_rips _ _ _ _ _ _ X), Hm. cbn [rips_after].
            rewrite nth_error_set; [now rewrite Nat.eqb_refl|].
            eapply nth_error_lt, (v_own _ I i c); eauto. now rewrite Hm.
          * left. exists d. split; auto. now apply (calls_other _ _ _ _ _ _ X).
        + injection H as <- E. subst e. inversion P. subst. split.
          * new. left. apply (t_val _ _ T i c); auto.
          * left. eexists. split; [apply (calls_same _ _ _ _ _ _ X)|]. reflexivity.
      - intros j d rid v Hj Hp. apply (calls_after _ _ _ _ _ _ X) in Hj as [[-> ->]|[Hn Hj]]; apply in_snoc.
        + cbn [at_pc ca_pc] in Hp. destruct Hp as [-> | ->]; inversion P; subst; auto.
          left. apply (t_val _ _ T i c); auto.
        + left. eapply (t_val _ _ T); eauto.
      - intros j d rid v Hj Hp. apply (calls_after _ _ _ _ _ _ X) in Hj as [[-> ->]|[Hn Hj]].
        + cbn [at_pc ca_pc] in Hp. subst p. inversion P; subst. eexists. new.
        + destruct (t_moved _ _ T _ _ _ _ Hj Hp) as [q Hq]. exists q. new.
      - intros rid v H. apply (rips_new _ _ _ _ _ _ I X) in H as [H|[(E & v' & E1 & E2)|(_ & _ & Z)]]; try discriminate.
        + destruct (t_fin _ _ T _ _ H) as (j & q & Hq). exists j, q. new.
        + injection E2 as <-. destruct (t_moved _ _ T _ _ _ _ Hi E1) as [q Hq]. exists i, q. new.
      - intros k v H. destruct (x_held _ _ _ _ _ _ X _ _ H) as [H1|(rid & q & E & ->)].
        + destruct (t_cached _ _ T _ _ H1) as (j & rid & H2 & H3). exists j, rid. split; [new|now apply (key_same _ _ _ _ _ _ X)].
        + subst e. inversion P. subst. exists i, rid. split; [|apply (key_self _ _ _ _ _ _ X)]. new. left.
          apply (t_val _ _ T i c); auto.
      - intros j d v b Hj Hr. apply (calls_after _ _ _ _ _ _ X) in Hj as [[-> ->]|[Hn Hj]].
        + cbn [at_pc ca_pc ca_key] in *. subst p. inversion P; subst; cbn [allowed] in A.
          * destruct (t_cached _ _ T _ _ A) as (j & rid & H2 & H3). exists j, rid. split; [new|now apply (key_same _ _ _ _ _ _ X)].
          * exists i, r. split; [new; left|apply (key_self _ _ _ _ _ _ X)]. apply (t_val _ _ T i c); auto.
          * destruct (t_fin _ _ T _ _ A) as (j & q & Hq). destruct (t_move _ _ T _ _ _ _ Hq) as [Hok _].
            destruct (t_wait _ _ T i c r) as (j' & W1 & W2); auto.
            assert (j = j') by (eapply (t_once _ _ T); eauto; eapply (t_ok _ _ T); eauto). subst j'.
            exists j, r. split; [new|now apply (key_same _ _ _ _ _ _ X)].
        + destruct (t_ret _ _ T _ _ _ _ Hj Hr) as (j' & rid & H2 & H3). exists j', rid. split; [new|now apply (key_same _ _ _ _ _ _ X)].
      - (* a pinned call is recorded in the map *)
        intros j d rid q Hj Hpin Href Hg. rewrite (x_map _ _ _ _ _ _ X) in Hg.
        apply (calls_after _ _ _ _ _ _ X) in Hj as [[-> ->]|[Hn Hj]].
        + cbn [at_pc ca_pc ca_key ca_pinned] in *.
          inversion P as [? E0 Epc E2|? E0 Epc E2|? E0 Epc E2|? ? E0 Epc E2|? E0 Epc E2|? ? ? E0 Epc E2|? ? E0 Epc E2|? ? E0 Epc E2|? E0 Epc E2|? E0 Epc E2|? ? E0 Epc E2|? E0 Epc E2]; subst e p; cbn [map_after allowed] in *; destruct Href as [Hf|Hf]; cbn in Hf; try contradiction;
            try discriminate Hf; try (rewrite get_remove, N.eqb_refl in Hg; discriminate).
          * destruct A as [q' A]. rewrite A, get_cons_remove, N.eqb_refl in Hg. injection Hg as <- _.
            rewrite Hpin. apply orb_true_r.
          * simpl in Hg. rewrite N.eqb_refl in Hg. congruence.
          * apply (t_pin1 _ _ T i c rid); auto. rewrite <- Epc. left. exact Hf.
          * apply (t_pin1 _ _ T i c rid); auto. rewrite <- Epc. left. exact Hf.
          * apply (t_pin1 _ _ T i c rid); auto. rewrite <- Epc. left. exact Hf.
        + destruct e; cbn [map_after allowed] in *; try (eapply (t_pin1 _ _ T); eassumption).
          * destruct A as [q' A]. rewrite A, get_cons_remove in Hg. destruct (N.eqb_spec (ca_key d) (ca_key c)) as [E|E];
              [|eapply (t_pin1 _ _ T); eassumption].
            injection Hg as <- <-. rewrite <- E in A. rewrite (t_pin1 _ _ T _ _ _ _ Hj Hpin Href A). reflexivity.
          * simpl in Hg. destruct (N.eqb_spec (ca_key d) (ca_key c)) as [E|E];
              [|eapply (t_pin1 _ _ T); eassumption].
            injection Hg as <- <-. destruct A as (-> & _). exfalso.
            destruct Href as [Hf|Hf].
            -- apply (v_own _ I _ _ _ Hj) in Hf. apply nth_error_lt in Hf. lia.
            -- apply (v_wait _ I _ _ _ Hj) in Hf. lia.
          * rewrite get_remove in Hg. destruct (ca_key d =? ca_key c); [discriminate|].
            eapply (t_pin1 _ _ T); eassumption.
          * rewrite get_remove in Hg. destruct (ca_key d =? ca_key c); [discriminate|].
            eapply (t_pin1 _ _ T); eassumption.
      - (* so its result is inserted as pinned *)
        assert (Hmoved : forall rid j v q k b, In (j, EMove rid v q) tr ->
                   get k (s_inprog s) = Some (b, rid) -> False).
        { intros rid j v q k b Hm Hg. destruct (v_map _ I _ _ _ Hg) as (j' & d & Hj & Hk & Hin).
          destruct (t_move _ _ T _ _ _ _ Hm) as [_ [(d' & Hd' & Hp)|Hf]].
          - assert (j = j').
            { eapply (v_one _ I); eauto using in_map_owns. now rewrite Hp. }
            subst j'. assert (d' = d) by congruence. subst d'. rewrite Hp in Hin. elim Hin.
          - pose proof (v_own _ I _ _ _ Hj (in_map_owns _ _ Hin)). congruence. }
        intros j d rid j' v q Hj Hpin Href Hm. apply in_snoc in Hm as [Hm|Hm].
        + apply (calls_after _ _ _ _ _ _ X) in Hj as [[-> ->]|[Hn Hj]]; [|eapply (t_pin2 _ _ T); eassumption].
          cbn [at_pc ca_pc ca_key ca_pinned] in *.
          inversion P as [? E0 Epc E2|? E0 Epc E2|? E0 Epc E2|? ? E0 Epc E2|? E0 Epc E2|? ? ? E0 Epc E2|? ? E0 Epc E2|? ? E0 Epc E2|? E0 Epc E2|? E0 Epc E2|? ? E0 Epc E2|? E0 Epc E2]; subst e p; cbn [allowed] in A; destruct Href as [Hf|Hf]; cbn in Hf; try contradiction; try discriminate Hf;
            try (apply (t_pin2 _ _ T i c rid j' v q); auto; rewrite <- Epc; left; exact Hf).
          * destruct A as [q' A]. injection Hf as ->. elim (Hmoved _ _ _ _ _ _ Hm A).
          * destruct A as (A & _). destruct (t_move _ _ T _ _ _ _ Hm) as [Hok _]. apply (t_ok _ _ T) in Hok.
            apply (t_reg _ _ T) in Hok. lia.
        + injection Hm as <- ->. cbn [allowed] in A. inversion P as [| | | | |? ? ? E0 Epc E2| | | | | |]. subst.
          apply (calls_after _ _ _ _ _ _ X) in Hj as [[-> ->]|[Hn Hj]].
          * cbn [at_pc ca_pc ca_key ca_pinned] in *. apply (t_pin1 _ _ T i c rid); auto.
            rewrite <- Epc. left. reflexivity.
          * apply (t_pin1 _ _ T j d rid); auto. replace (ca_key d) with (ca_key c); auto.
            assert (Hc : In (i, EReg rid) tr). { apply (t_own _ _ T i c); auto. now rewrite <- Epc. }
            destruct Href as [Hf|Hf].
            -- elim Hn. eapply (t_once _ _ T); eauto. eapply (t_own _ _ T); eauto.
            -- destruct (t_wait _ _ T _ _ _ Hj Hf) as (j' & H1 & d' & H2 & H3).
               assert (i = j') by (eapply (t_once _ _ T); eauto). subst j'. congruence.
      - intros j d v b Hj Hpin Hr. apply (calls_after _ _ _ _ _ _ X) in Hj as [[-> ->]|[Hn Hj]].
        + cbn [at_pc ca_pc ca_key ca_pinned] in *. subst p. inversion P; subst; cbn [allowed] in A.
          * left. new.
          * right. destruct (t_moved _ _ T i c r v) as [q Hq]; auto.
            assert (q = true). { apply (t_pin2 _ _ T i c r i v q); auto. left. match goal with E : _ = ca_pc c |- _ => now rewrite <- E end. }
            subst q. exists i, r. split; [new|apply (key_self _ _ _ _ _ _ X)].
          * right. destruct (t_fin _ _ T _ _ A) as (j & q & Hq).
            assert (q = true). { apply (t_pin2 _ _ T i c r j v q); auto. right. auto. }
            subst q. destruct (t_wait _ _ T i c r) as (j' & W1 & W2); auto.
            destruct (t_move _ _ T _ _ _ _ Hq) as [Hok _].
            assert (j = j') by (eapply (t_once _ _ T); eauto; eapply (t_ok _ _ T); eauto). subst j'.
            exists j, r. split; [new|now apply (key_same _ _ _ _ _ _ X)].
        + destruct (t_pin3 _ _ T _ _ _ _ Hj Hpin Hr) as [H|(j' & rid & H1 & H2)]; [left; new|].
          right. exists j', rid. split; [new|now apply (key_same _ _ _ _ _ _ X)].
      - intros j rid H.
        assert (H' : (In (j, EFail rid) tr \/ In (j, EMoveFail rid) tr) \/ (j = i /\ (e = EFail rid \/ e = EMoveFail rid))).
        { destruct H as [H|H]; apply in_snoc in H as [H|H]; auto; injection H as -> ->; auto. }
        destruct H' as [H'|[-> H']].
        + destruct (t_fail _ _ T _ _ H') as [H1|(d & Hd & Hf)]; [left; apply (rips_stable _ _ _ _ _ _ I X); auto; discriminate|].
          destruct (Nat.eq_dec j i) as [->|Hn].
          * assert (d = c) by congruence. subst d. destruct Hf as [Hf|Hf]; rewrite Hf in P; inversion P; subst.
            -- right. eexists. split; [apply (calls_same _ _ _ _ _ _ X)|]. simpl. auto.
            -- left. rewrite (x_rips _ _ _ _ _ _ X). cbn [rips_after].
               rewrite nth_error_set; [now rewrite Nat.eqb_refl|].
               eapply nth_error_lt, (v_own _ I i c); eauto. now rewrite Hf.
          * right. exists d. split; auto. now apply (calls_other _ _ _ _ _ _ X).
        + right. eexists. split; [apply (calls_same _ _ _ _ _ _ X)|]. simpl. destruct H' as [-> | ->]; inversion P; auto.
      - intros rid H. apply (rips_new _ _ _ _ _ _ I X) in H as [H|[(E & v' & E1 & E2)|(E & _ & Z)]]; try discriminate.
        + destruct (t_err _ _ T _ H) as (j & Hq). exists j. new.
        + exists i. apply in_snoc. right. congruence.
      - intros j d rid Hj Hp. rewrite !in_snoc. apply (calls_after _ _ _ _ _ _ X) in Hj as [[-> ->]|[Hn Hj]].
        + cbn [at_pc ca_pc] in Hp. destruct Hp as [-> | ->]; inversion P; subst; auto.
          destruct (t_abort _ _ T i c rid); auto.
        + destruct (t_abort _ _ T _ _ _ Hj Hp); auto.
      - intros j rid H. rewrite !in_snoc. apply in_snoc in H as [H|H].
        + destruct (t_abort2 _ _ T _ _ H); auto.
        + injection H as <- E. subst e. inversion P. subst. destruct (t_abort _ _ T i c rid); auto.
    Qed.

  Lemma inv2_spawn s s' tr k p parent :
    inv1 s -> inv2 s tr -> s_cache s' = s_cache s -> s_inprog s' = s_inprog s -> s_rips s' = s_rips s ->
    s_calls s' = s_calls s ++ [new_call k p parent] ->
    inv2 s' (tr ++ [(length (s_calls s), ESpawn)]).
  Proof.
    intros I T E1 E2 E3 E4.
    assert (Hnew : forall j d, call_at s' j d -> call_at s j d \/ ca_pc d = Start).
    { rewrite E4. intros j d Hj. destruct (Nat.lt_ge_cases j (length (s_calls s))) as [L|L].
      - rewrite nth_error_app1 in Hj by exact L. auto.
      - rewrite nth_error_app2 in Hj by exact L. destruct (j - length (s_calls s))%nat as [|[|]]; simpl in Hj;
          try discriminate. injection Hj as <-. auto. }
    assert (Hold : forall j d, call_at s j d -> call_at s' j d).
    { intros j d Hj. rewrite E4, nth_error_app1; auto. eapply nth_error_lt; eauto. }
    assert (Hkey : forall j k', key_at s j k' -> key_at s' j k').
    { intros j k' (d & Hd & Hk). exists d. auto. }
    assert (Htr : forall j e, In (j, e) (tr ++ [(length (s_calls s), ESpawn)]) -> e = ESpawn \/ In (j, e) tr).
    { intros j e H. apply in_snoc in H as [H|H]; auto. injection H as _ <-. auto. }
    assert (Htr' : forall j e, In (j, e) tr -> In (j, e) (tr ++ [(length (s_calls s), ESpawn)])).
    { intros j e H. apply in_snoc. auto. }
    constructor; rewrite ?E1, ?E2, ?E3.
    - intros j rid H. apply Htr in H as [H|H]; [discriminate|]. eapply (t_reg _ _ T); eauto.
    - intros j j' rid H H'. apply Htr in H as [H|H]; [discriminate|]. apply Htr in H' as [H'|H']; [discriminate|].
      eapply (t_once _ _ T); eauto.
    - intros j d rid Hj Ho. apply Hnew in Hj as [Hj|Hj]; [apply Htr'; eapply (t_own _ _ T); eauto|].
      rewrite Hj in Ho. elim Ho.
    - intros j d rid Hj Ho. apply Hnew in Hj as [Hj|Hj]; [|congruence].
      destruct (t_wait _ _ T _ _ _ Hj Ho) as (j' & H1 & H2). eauto.
    - intros j rid v H. apply Htr in H as [H|H]; [discriminate|]. apply Htr'. eapply (t_ok _ _ T); eauto.
    - intros j rid v q H. apply Htr in H as [H|H]; [discriminate|].
      destruct (t_move _ _ T _ _ _ _ H) as [H1 [(d & H2 & H3)|H2]]; split; eauto.
    - intros j d rid v Hj Ho. apply Hnew in Hj as [Hj|Hj]; [|destruct Ho; congruence].
      apply Htr'. eapply (t_val _ _ T); eauto.
    - intros j d rid v Hj Ho. apply Hnew in Hj as [Hj|Hj]; [|congruence].
      destruct (t_moved _ _ T _ _ _ _ Hj Ho) as [q Hq]. eauto.
    - intros rid v H. destruct (t_fin _ _ T _ _ H) as (j & q & Hq). eauto.
    - intros k' v H. destruct (t_cached _ _ T _ _ H) as (j & rid & H1 & H2). eauto 6.
    - intros j d v b Hj Ho. apply Hnew in Hj as [Hj|Hj]; [|congruence].
      destruct (t_ret _ _ T _ _ _ _ Hj Ho) as (j' & rid & H1 & H2). eauto 6.
    - intros j d rid q Hj Hp Hr Hg. apply Hnew in Hj as [Hj|Hj]; [eapply (t_pin1 _ _ T); eauto|].
      rewrite Hj in Hr. destruct Hr as [[]|]; discriminate.
    - intros j d rid j' v q Hj Hp Hr Hg. apply Htr in Hg as [Hg|Hg]; [discriminate|].
      apply Hnew in Hj as [Hj|Hj]; [eapply (t_pin2 _ _ T); eauto|].
      rewrite Hj in Hr. destruct Hr as [[]|]; discriminate.
    - intros j d v b Hj Hp Hr. apply Hnew in Hj as [Hj|Hj]; [|congruence].
      destruct (t_pin3 _ _ T _ _ _ _ Hj Hp Hr) as [H|(j' & rid & H1 & H2)]; [auto|]. right. eauto 6.
    - intros j rid H.
      assert (H' : In (j, EFail rid) tr \/ In (j, EMoveFail rid) tr).
      { destruct H as [H|H]; apply Htr in H as [H|H]; auto; discriminate. }
      destruct (t_fail _ _ T _ _ H') as [H1|(d & H1 & H2)]; eauto.
    - intros rid H. destruct (t_err _ _ T _ H) as (j & Hq). eauto.
    - intros j d rid Hj Ho. apply Hnew in Hj as [Hj|Hj]; [|destruct Ho; congruence].
      destruct (t_abort _ _ T _ _ _ Hj Ho); auto.
    - intros j rid H. apply Htr in H as [H|H]; [discriminate|]. destruct (t_abort2 _ _ T _ _ H); auto.
  Qed.

  Lemma inv2_env s s' tr : inv1 s -> inv2 s tr -> env_step size maxSize maxSingle s s' -> inv2 s' tr.
  Proof.
    intros I T H. destruct H as [s o c1 r H Ho].
    destruct T as [T1 T2 T3 T4 T5 T6 T7 T8 T9 T10 T11 T12 T13 T14 T15 T16 T17 T18]. constructor; auto.
    cbn [s_cache]. intros k v Hh. apply T10. 
    destruct (cstep_holds _ _ _ _ _ _ _ _ _ H Hh) as [H1|[[[now ->]| ->] _]]; auto; contradiction.
  Qed.

  Lemma inv2_init n : inv2 (initial n) [].
  Proof.
    constructor; simpl; try contradiction; try tauto;
      try (intros i; destruct i; simpl; intros; try discriminate; contradiction).
    intros k v [H|[t H]]; destruct H.
  Qed.

  Lemma inv_reach n s tr : reach n s tr -> inv1 s /\ inv2 s tr.
  Proof.
    induction 1 as [|s tr [i e] s' R [I T] S|s tr s' R [I T] S].
    - split; [apply inv1_init|apply inv2_init].
    - split; [eapply inv1_step; eauto|].
      destruct (step_cases _ _ _ _ I S) as [(k & p & parent & -> & E1 & E2 & E3 & -> & E4 & _)|(c & p & X)].
      + eapply inv2_spawn; eauto.
      + eapply inv2_step; eauto.
    - split; [eapply inv1_env; eauto|eapply inv2_env; eauto].
  Qed.

  (* ---------- more about traces ---------- *)
  Lemma trace_calls n s tr : reach n s tr -> forall j e, In (j, e) tr -> exists d, call_at s j d.
  Proof.
    induction 1 as [|s tr [i e] s' R IH S|s tr s' R IH S]; intros j e' H.
    - contradiction.
    - destruct (inv_reach _ _ _ R) as [I _].
      destruct (step_cases _ _ _ _ I S) as [(k & p & parent & -> & E1 & E2 & E3 & -> & E4 & _)|(c & p & X)].
      + apply in_snoc in H as [H|H].
        * destruct (IH _ _ H) as [d Hd]. exists d. rewrite E4, nth_error_app1; auto. eapply nth_error_lt; eauto.
        * injection H as <- <-. rewrite E4. rewrite nth_error_app2, Nat.sub_diag by lia. simpl. eauto.
      + apply in_snoc in H as [H|H].
        * destruct (IH _ _ H) as [d Hd]. destruct (key_same _ _ _ _ _ _ X j (ca_key d)) as (d' & Hd' & _);
            [exists d; auto|eauto].
        * injection H as <- <-. eexists. apply (calls_same _ _ _ _ _ _ X).
    - destruct S as [s o c1 r S Ho]. simpl. eauto.
  Qed.

  (* every call for which something is recorded in the trace moves along *)
  Lemma join_reach n s tr : reach n s tr -> forall i rid, In (i, EJoin rid) tr ->
    exists c, call_at s i c /\
      (ca_pc c = Waiting rid \/ ca_pc c = ThrewWaited \/
       exists v b, ca_pc c = Returned v b /\ nth_error (s_rips s) rid = Some (Finished v)).
  Proof.
    induction 1 as [|s tr [i0 e] s' R IH S|s tr s' R IH S]; intros i rid H.
    - contradiction.
    - destruct (inv_reach _ _ _ R) as [I _].
      destruct (step_cases _ _ _ _ I S) as [(k & p & parent & -> & E1 & E2 & E3 & -> & E4 & _)|(c & p & X)].
      + apply in_snoc in H as [H|H]; [|discriminate]. destruct (IH _ _ H) as (c & Hc & Hcases).
        exists c. rewrite E3. split; auto. rewrite E4, nth_error_app1; auto. eapply nth_error_lt; eauto.
      + apply in_snoc in H as [H|H].
        * destruct (IH _ _ H) as (d & Hd & Hcases). destruct (Nat.eq_dec i i0) as [->|Hn].
          -- assert (d = c) by (pose proof (x_at _ _ _ _ _ _ X); congruence). subst d.
             exists (at_pc c p). split; [apply (calls_same _ _ _ _ _ _ X)|]. cbn [at_pc ca_pc].
             pose proof (x_pc _ _ _ _ _ _ X) as P. pose proof (x_ok _ _ _ _ _ _ X) as A.
             destruct Hcases as [E|[E|(v & b & E & _)]]; rewrite E in P; inversion P; subst; auto.
             right. right. exists v, false. split; auto. cbn in A.
             apply (rips_stable _ _ _ _ _ _ I X); auto. discriminate.
          -- exists d. split; [apply (calls_other _ _ _ _ _ _ X); auto|].
             destruct Hcases as [E|[E|(v & b & E & E')]]; auto. right. right. exists v, b. split; auto.
             apply (rips_stable _ _ _ _ _ _ I X); auto. discriminate.
        * injection H as <- E. exists (at_pc c p). split; [apply (calls_same _ _ _ _ _ _ X)|].
          pose proof (x_pc _ _ _ _ _ _ X) as P. rewrite E in P. inversion P. auto.
    - destruct S as [s o c1 r S Ho]. simpl. eauto.
  Qed.

  Lemma fail_reach n s tr : reach n s tr -> forall j rid d, In (j, EFail rid) tr -> call_at s j d ->
    ca_pc d = Failing rid \/ ca_pc d = Aborting rid \/ ca_pc d = Threw.
  Proof.
    intros R j rid. assert (H : In (j, EFail rid) tr -> exists d, call_at s j d /\
      (ca_pc d = Failing rid \/ ca_pc d = Aborting rid \/ ca_pc d = Threw)).
    { induction R as [|s tr [i0 e] s' R IH S|s tr s' R IH S]; intros H.
      - contradiction.
      - destruct (inv_reach _ _ _ R) as [I _].
        destruct (step_cases _ _ _ _ I S) as [(k & p & parent & -> & E1 & E2 & E3 & -> & E4 & _)|(c & p & X)].
        + apply in_snoc in H as [H|H]; [|discriminate]. destruct (IH H) as (c & Hc & Hcases).
          exists c. split; auto. rewrite E4, nth_error_app1; auto. eapply nth_error_lt; eauto.
        + apply in_snoc in H as [H|H].
          * destruct (IH H) as (d & Hd & Hcases). destruct (Nat.eq_dec j i0) as [->|Hn].
            -- assert (d = c) by (pose proof (x_at _ _ _ _ _ _ X); congruence). subst d.
               exists (at_pc c p). split; [apply (calls_same _ _ _ _ _ _ X)|]. cbn [at_pc ca_pc].
               pose proof (x_pc _ _ _ _ _ _ X) as P.
               destruct Hcases as [E|[E|E]]; rewrite E in P; inversion P; subst; auto.
            -- exists d. split; [apply (calls_other _ _ _ _ _ _ X); auto|auto].
          * injection H as <- E. exists (at_pc c p). split; [apply (calls_same _ _ _ _ _ _ X)|].
            pose proof (x_pc _ _ _ _ _ _ X) as P. rewrite E in P. inversion P. auto.
      - destruct S as [s o c1 r S Ho]. simpl. eauto. }
    intros d Hin Hd. destruct (H Hin) as (d' & Hd' & Hc). assert (d' = d) by congruence. now subst d'.
  Qed.

  (* one value per computation *)
  Lemma ok_reach n s tr : reach n s tr -> forall j rid v, In (j, EOk rid v) tr ->
    exists d, call_at s j d /\
      (ca_pc d = Computed rid v \/ (forall r, ca_pc d <> Computing r) /\ ca_pc d <> Start /\
                                  (forall r w, ca_pc d <> Computed r w)).
  Proof.
    induction 1 as [|s tr [i0 e] s' R IH S|s tr s' R IH S]; intros j rid v H.
    - contradiction.
    - destruct (inv_reach _ _ _ R) as [I _].
      destruct (step_cases _ _ _ _ I S) as [(k & p & parent & -> & E1 & E2 & E3 & -> & E4 & _)|(c & p & X)].
      + apply in_snoc in H as [H|H]; [|discriminate]. destruct (IH _ _ _ H) as (c & Hc & Hcases).
        exists c. split; auto. rewrite E4, nth_error_app1; auto. eapply nth_error_lt; eauto.
      + apply in_snoc in H as [H|H].
        * destruct (IH _ _ _ H) as (d & Hd & Hcases). destruct (Nat.eq_dec j i0) as [->|Hn].
          -- assert (d = c) by (pose proof (x_at _ _ _ _ _ _ X); congruence). subst d.
             exists (at_pc c p). split; [apply (calls_same _ _ _ _ _ _ X)|]. cbn [at_pc ca_pc].
             pose proof (x_pc _ _ _ _ _ _ X) as P. destruct Hcases as [E|(H1 & H2 & H3)].
             ++ rewrite E in P. right. inversion P; repeat split; intros; discriminate.
             ++ right. inversion P as [? E0 Epc E2|? E0 Epc E2|? E0 Epc E2|? ? E0 Epc E2|? E0 Epc E2|? ? ? E0 Epc E2|? ? E0 Epc E2|? ? E0 Epc E2|? E0 Epc E2|? E0 Epc E2|? ? E0 Epc E2|? E0 Epc E2];
                  try (elim H2; congruence); try (elim (H1 r); congruence); repeat split; intros; try discriminate.
                all: exfalso; eapply H1; symmetry; exact Epc.
          -- exists d. split; [apply (calls_other _ _ _ _ _ _ X); auto|auto].
        * injection H as <- E. exists (at_pc c p). split; [apply (calls_same _ _ _ _ _ _ X)|].
          pose proof (x_pc _ _ _ _ _ _ X) as P. rewrite E in P. inversion P. auto.
    - destruct S as [s o c1 r S Ho]. simpl. eauto.
  Qed.

  Lemma ok_once n s tr : reach n s tr -> forall j j' rid v w,
    In (j, EOk rid v) tr -> In (j', EOk rid w) tr -> v = w.
  Proof.
    induction 1 as [|s tr [i0 e] s' R IH S|s tr s' R IH S]; intros j j' rid v w H H'.
    - contradiction.
    - destruct (inv_reach _ _ _ R) as [I T].
      assert (Hlate : forall j j' v w, In (j, EOk rid v) tr -> (i0, e) = (j', EOk rid w) -> False).
      { clear j j' v w H H'. intros j j' v w H H'. injection H' as <- ->.
        destruct (step_cases _ _ _ _ I S) as [(k & p & parent & Z & _)|(c & p & X)]; [discriminate|].
        pose proof (x_pc _ _ _ _ _ _ X) as P. inversion P as [| | |? ? E0 Epc E2| | | | | | | |]. subst.
        destruct (ok_reach _ _ _ R _ _ _ H) as (d & Hd & Hc).
        assert (j = i0).
        { eapply (t_once _ _ T); [eapply (t_ok _ _ T); eauto|].
          eapply (t_own _ _ T); [apply (x_at _ _ _ _ _ _ X)|]. now rewrite <- Epc. }
        subst j. assert (d = c) by (pose proof (x_at _ _ _ _ _ _ X); congruence). subst d.
        destruct Hc as [Hc|(Hc & _)]; [congruence|]. elim (Hc rid). congruence. }
      apply in_snoc in H as [H|H]; apply in_snoc in H' as [H'|H']; eauto.
      + elim (Hlate _ _ _ _ H H').
      + elim (Hlate _ _ _ _ H' H).
      + congruence.
    - eauto.
  Qed.

  (* pinned entries stay *)
  Lemma cstep_pins a o b r k v : cstep a o b r -> match o with ClearAll | Erase _ => False | _ => True end ->
    get k (l_pins a) = Some v -> get k (l_pins b) = Some v.
  Proof.
    intros H Ho Hg. destruct H; auto; try contradiction.
    - match goal with H : shrinks _ _ _ _ |- _ => apply shrinks_facts in H as (_ & -> & _) end. exact Hg.
    - match goal with H : shrinks _ _ _ _ |- _ => apply shrinks_facts in H as (_ & -> & _) end.
      simpl. destruct (N.eqb_spec k k0); auto. congruence.
    - match goal with H : shrinks _ _ _ _ |- _ => apply shrinks_facts in H as (_ & -> & _) end. exact Hg.
    - simpl. destruct (N.eqb_spec k k0); auto. congruence.
  Qed.

  Lemma step_pins s e s' k v : step s e s' ->
    get k (l_pins (s_cache s)) = Some v -> get k (l_pins (s_cache s')) = Some v.
  Proof.
    intros H Hg. destruct H; cbn [s_cache]; auto.
    - eapply cstep_pins; [eassumption|exact Logic.I|].
      eapply cstep_pins; [eassumption| |exact Hg]. now destruct (ca_pinned c).
    - eapply cstep_pins; [eassumption| |exact Hg]. now destruct (ca_pinned c).
    - eapply cstep_pins; [eassumption| |exact Hg]. now destruct (ca_pinned c).
    - eapply cstep_pins; [eassumption| |exact Hg]. now destruct p.
    - eapply cstep_pins; [eassumption| |exact Hg]. now destruct p.
  Qed.

  Lemma hit_pins s i c v s' : step s (i, EHit v) s' -> call_at s i c -> ca_pinned c = true ->
    get (ca_key c) (l_pins (s_cache s')) = Some v.
  Proof.
    intros H Hi Hp. remember (i, EHit v) as ie eqn:E.
    destruct H as [|s i0 c0 c1 c2 v0 now Hi0 Hpc H1 H2| | | | | | | | | | | | | |]; try discriminate.
    injection E as -> ->. assert (c0 = c) by congruence. subst c0. rewrite Hp in H1. cbn [s_cache].
    assert (H1' : exists w, get (ca_key c) (l_pins c1) = Some w).
    { inversion H1; subst; eauto. simpl. rewrite N.eqb_refl. eauto. }
    destruct H1' as [w Hw]. inversion H2; subst; congruence.
  Qed.
End Steps.
