(* Invariants of the concurrent cache. *)
From Coq Require Import List NArith Arith Lia Permutation Bool.
From Coq Require Import ZifyBool ZifyN ZifyNat.
From Verif Require Import Cache_Spec Cache_Model Cache_Proof ConcCache_Model.
Import ListNotations.
Open Scope N_scope.

(* ---------- the cache underneath ---------- *)
Section CacheFacts.
  Variable size : N -> N.
  Variables maxSize maxSingle : N.
  Notation cstep := (lru_step size maxSize maxSingle).

  Record wf (a : lru) : Prop := {
    w_ents : NoDup (map fst (l_ents a));
    w_pins : NoDup (map fst (l_pins a));
    w_disj : forall k, In k (map fst (l_pins a)) -> In k (map fst (l_ents a)) -> False }.

  Definition holds (a : lru) (k v : N) : Prop :=
    In (k, v) (l_pins a) \/ exists t, In (k, (v, t)) (l_ents a).
  Definition absent (a : lru) (k : N) : Prop := get k (l_pins a) = None /\ get k (l_ents a) = None.

  Lemma absent_holds a k v : absent a k -> holds a k v -> False.
  Proof.
    intros [H1 H2] [H|[t H]]; apply in_key in H.
    - apply get_None in H1. auto.
    - apply get_None in H2. auto.
  Qed.

  Lemma not_held_absent a k : (forall v, ~ holds a k v) -> absent a k.
  Proof.
    intros H. split.
    - destruct (get k (l_pins a)) as [v|] eqn:E; auto. elim (H v). left. now apply get_In.
    - destruct (get k (l_ents a)) as [[v t]|] eqn:E; auto. elim (H v). right. exists t. now apply get_In.
  Qed.

  Lemma shrinks_wf a b : shrinks size maxSize a b -> wf a -> wf b.
  Proof.
    intros Hs [W1 W2 W3]. destruct (shrinks_facts _ _ _ _ Hs) as (_ & E2 & E3 & _ & _ & E6 & _).
    constructor; auto; rewrite E2; auto. intros k H1 H2. apply (W3 k H1).
    apply in_map_iff in H2 as (e & <- & He). apply in_map. auto.
  Qed.

  Lemma shrinks_holds a b k v : shrinks size maxSize a b -> holds b k v -> holds a k v.
  Proof.
    intros Hs. destruct (shrinks_facts _ _ _ _ Hs) as (_ & E2 & E3 & _).
    intros [H|[t H]]; [left; now rewrite <- E2|right; eauto].
  Qed.

  Lemma wf_perm a es : Permutation (map fst es) (map fst (l_ents a)) -> wf a -> wf (with_ents a es).
  Proof.
    intros Hp [W1 W2 W3]. constructor; simpl; auto.
    - eapply Permutation_NoDup; [symmetry; exact Hp|exact W1].
    - intros k H1 H2. apply (W3 k H1). eapply Permutation_in; eauto.
  Qed.

  Lemma cstep_wf a o b r : cstep a o b r -> wf a -> wf b.
  Proof.
    intros H W. pose proof W as W'. destruct W' as [W1 W2 W3].
    destruct H as [c k now v E1|c k now E1 E2|c k now v t es E1 E2 E3|c k v now E1|c k v now E1 E2 E3
      |c k v now c' E1 E2 E3 E4|c k v E1|c k v E1 E2 E3|c k v c' E1 E2 E3 E4|c n c' E1|c k|c k v E1
      |c k E1 E2|c k v t E1 E2|c k|c|c]; auto.
    - apply wf_perm; auto.
      rewrite (Permutation_map fst E3), (Permutation_map fst (remove_perm _ _ _ W1 E2)). reflexivity.
    - apply get_None in E1, E2. apply (shrinks_wf _ _ E4). constructor; simpl; auto.
      + constructor; auto.
      + intros k' H1 [<-|H2]; eauto.
    - apply get_None in E1, E2. apply (shrinks_wf _ _ E4). constructor; simpl; auto.
      + constructor; auto.
      + intros k' [<-|H1] H2; eauto.
    - apply (shrinks_wf _ _ E1). constructor; auto.
    - apply get_None in E1. constructor; simpl.
      + now apply NoDup_map_filter.
      + constructor; auto.
      + intros k' [<-|H1] H2; apply keys_remove in H2 as [H2 H3]; [congruence|eauto].
    - constructor; simpl; try now apply NoDup_map_filter.
      intros k' H1 H2. apply keys_remove in H1, H2. apply (W3 k'); tauto.
    - constructor; simpl; auto using NoDup_nil.
    - constructor; simpl; auto using NoDup_nil.
  Qed.

  Lemma cstep_holds a o b r k v : cstep a o b r -> holds b k v ->
    holds a k v \/
    ((exists now, o = Insert k v now) \/ o = InsertPinned k v) /\ r = Value v.
  Proof.
    intros H Hb.
    destruct H as [c k0 now v0 E1|c k0 now E1 E2|c k0 now v0 t es E1 E2 E3|c k0 v0 now E1|c k0 v0 now E1 E2 E3
      |c k0 v0 now c' E1 E2 E3 E4|c k0 v0 E1|c k0 v0 E1 E2 E3|c k0 v0 c' E1 E2 E3 E4|c n c' E1|c k0|c k0 v0 E1
      |c k0 E1 E2|c k0 v0 t E1 E2|c k0|c|c]; auto.
    - left. destruct Hb as [Hb|[t' Hb]]; [left; exact Hb|]. simpl in Hb.
      apply (Permutation_in _ E3) in Hb as [Hb|Hb].
      + injection Hb as <- <- <-. right. exists t. now apply get_In.
      + apply remove_In in Hb. right. exists t'. tauto.
    - apply (shrinks_holds _ _ _ _ E4) in Hb as [Hb|[t' Hb]]; [left; left; exact Hb|].
      simpl in Hb. destruct Hb as [Hb|Hb].
      + injection Hb as <- <- <-. right. eauto.
      + left. right. eauto.
    - apply (shrinks_holds _ _ _ _ E4) in Hb as [Hb|[t' Hb]]; [|left; right; eauto].
      simpl in Hb. destruct Hb as [Hb|Hb].
      + injection Hb as <- <-. right. auto.
      + left. left. exact Hb.
    - apply (shrinks_holds _ _ _ _ E1) in Hb as [Hb|[t' Hb]]; left; [left|right]; eauto.
    - left. destruct Hb as [[Hb|Hb]|[t' Hb]].
      + injection Hb as <- <-. right. exists t. now apply get_In.
      + left. exact Hb.
      + apply remove_In in Hb. right. exists t'. tauto.
    - left. destruct Hb as [Hb|[t' Hb]]; simpl in Hb; apply remove_In in Hb; [left|right]; eauto; try tauto.
      exists t'. tauto.
    - left. destruct Hb as [Hb|[t' []]]. left. exact Hb.
    - destruct Hb as [[]|[t' []]].
  Qed.

  Lemma contains_false a (p : bool) k b :
    cstep a (if p then ContainsPin k else Contains k) b (Answer false) -> b = a /\ absent a k.
  Proof.
    destruct p; intros H; inversion H; subst; split; auto; try (split; assumption).
    unfold absent. destruct (get k (l_pins b)), (get k (l_ents b)); auto; discriminate.
  Qed.

  Lemma lookup_holds a k now b v : cstep a (Lookup k now) b (Value v) -> holds a k v /\ holds b k v.
  Proof.
    intros H. inversion H; subst.
    - match goal with H : get k _ = _ |- _ => apply get_In in H end. split; left; assumption.
    - split; right.
      + exists t. now apply get_In.
      + exists now. simpl. eapply Permutation_in; [symmetry; eassumption|]. simpl. auto.
  Qed.

  (* the operations are always possible *)
  Lemma min_exists (es : list (N * (N * N))) : es <> [] ->
    exists e rest, Permutation es (e :: rest) /\ Forall (fun e' => snd (snd e) <= snd (snd e')) rest.
  Proof.
    induction es as [|e es IH]; [congruence|]. intros _. destruct es as [|e2 es].
    - exists e, []. split; auto.
    - destruct IH as (m & rest & Hp & Hf); [discriminate|].
      destruct (N.le_gt_cases (snd (snd e)) (snd (snd m))) as [L|L].
      + exists e, (e2 :: es). split; [reflexivity|]. apply Forall_forall. intros x Hx.
        apply (Permutation_in _ Hp) in Hx as [<-|Hx]; auto.
        pose proof (proj1 (Forall_forall _ _) Hf x Hx). simpl in H. lia.
      + exists m, (e :: rest). split.
        * etransitivity; [apply perm_skip; exact Hp|apply perm_swap].
        * constructor; auto. lia.
  Qed.

  Lemma shrinks_total a : exists b, shrinks size maxSize a b.
  Proof.
    remember (length (l_ents a)) as n eqn:E. revert a E. induction n as [|n IH]; intros a E.
    - exists a. apply shrink_stop. left. destruct (l_ents a); [reflexivity|discriminate].
    - destruct (N.le_gt_cases (N.of_nat (length (l_ents a) + length (l_pins a))) (l_max a)) as [L1|L1];
        [destruct (N.le_gt_cases (l_size size a) maxSize) as [L2|L2]|].
      + exists a. apply shrink_stop. right. unfold over. lia.
      + destruct (min_exists (l_ents a)) as ([k [v t]] & rest & Hp & Hf).
        { intros Z. rewrite Z in E. discriminate. }
        destruct (IH (with_ents a rest)) as [b Hb].
        { pose proof (Permutation_length Hp). simpl in *. lia. }
        exists b. eapply shrink_evict; eauto. right. lia.
      + destruct (min_exists (l_ents a)) as ([k [v t]] & rest & Hp & Hf).
        { intros Z. rewrite Z in E. discriminate. }
        destruct (IH (with_ents a rest)) as [b Hb].
        { pose proof (Permutation_length Hp). simpl in *. lia. }
        exists b. eapply shrink_evict; eauto. left. lia.
  Qed.

  Lemma contains_total a (p : bool) k :
    (exists b v now c, cstep a (if p then ContainsPin k else Contains k) b (Answer true) /\
       cstep b (Lookup k now) c (Value v)) \/
    cstep a (if p then ContainsPin k else Contains k) a (Answer false).
  Proof.
    destruct (get k (l_pins a)) as [v|] eqn:Ep.
    - left. exists a, v, 0, a. split; [|now apply S_lookup_pinned]. destruct p.
      + now apply S_containspin_pinned with v.
      + replace (Answer true) with (Answer (match get k (l_pins a), get k (l_ents a) with
          None, None => false | _, _ => true end)) by (now rewrite Ep). apply S_contains.
    - destruct (get k (l_ents a)) as [[v t]|] eqn:Ee.
      + left. destruct p.
        * eexists _, v, 0, _. split; [eapply S_containspin; eauto|]. apply S_lookup_pinned. simpl.
          now rewrite N.eqb_refl.
        * eexists a, v, 0, _. split.
          -- replace (Answer true) with (Answer (match get k (l_pins a), get k (l_ents a) with
               None, None => false | _, _ => true end)) by (now rewrite Ep, Ee). apply S_contains.
          -- eapply S_lookup; eauto.
      + right. destruct p.
        * now apply S_containspin_none.
        * replace (Answer false) with (Answer (match get k (l_pins a), get k (l_ents a) with
            None, None => false | _, _ => true end)) by (now rewrite Ep, Ee). apply S_contains.
  Qed.

  Lemma insert_total a (p : bool) k v :
    exists b r now, cstep a (if p then InsertPinned k v else Insert k v now) b r.
  Proof.
    destruct (get k (l_pins a)) as [w|] eqn:Ep.
    { exists a, Duplicate, 0. destruct p; [apply S_pin_dup|apply S_insert_dup]; left; congruence. }
    destruct (get k (l_ents a)) as [w|] eqn:Ee.
    { exists a, Duplicate, 0. destruct p; [apply S_pin_dup|apply S_insert_dup]; right; congruence. }
    destruct (N.le_gt_cases (size v) maxSingle) as [L|L].
    - destruct p.
      + destruct (shrinks_total {| l_max := l_max a; l_ents := l_ents a; l_pins := (k, v) :: l_pins a |})
          as [b Hb]. exists b, (Value v), 0. now apply S_pin.
      + destruct (shrinks_total (with_ents a ((k, (v, 0)) :: l_ents a))) as [b Hb].
        exists b, (Value v), 0. now apply S_insert.
    - destruct p.
      + exists a, TooBig, 0. now apply S_pin_big.
      + exists a, Null, 0. now apply S_insert_big.
  Qed.

  Lemma insert_absent a (p : bool) k v now b r :
    absent a k -> cstep a (if p then InsertPinned k v else Insert k v now) b r ->
    r <> Duplicate /\ (r = TooBig -> p = true /\ maxSingle < size v) /\ (p = true -> r <> Null) /\
    (p = true -> r = Value v -> get k (l_pins b) = Some v).
  Proof.
    intros [A1 A2] H. destruct p; inversion H; subst; try (split; [discriminate|]);
      try (exfalso; match goal with H : _ \/ _ |- _ => destruct H; congruence end).
    - repeat split; auto; discriminate.
    - split; [discriminate|]. split; [discriminate|]. intros _ _.
      match goal with H : shrinks _ _ _ _ |- _ => apply shrinks_facts in H as (_ & -> & _) end.
      simpl. now rewrite N.eqb_refl.
    - repeat split; discriminate.
    - repeat split; discriminate.
  Qed.
End CacheFacts.

(* ---------- structure of reachable states ---------- *)
Lemma nth_error_set {A} i j (a : A) l :
  (i < length l)%nat -> nth_error (set_nth i a l) j = if Nat.eqb j i then Some a else nth_error l j.
Proof.
  revert i j; induction l as [|b l IH]; intros i j H; simpl in H; [lia|].
  destruct i as [|i], j as [|j]; unfold set_nth in *; simpl; auto.
  apply IH. lia.
Qed.

Lemma nth_error_lt {A} i (l : list A) a : nth_error l i = Some a -> (i < length l)%nat.
Proof. intros H. apply nth_error_Some. congruence. Qed.

Definition owns (p : pc) (rid : nat) : Prop :=
  match p with
  | Computing r | Computed r _ | Moved r _ | Failing r | Aborting r => r = rid
  | _ => False
  end.
Definition in_map (p : pc) (rid : nat) : Prop :=
  match p with Computing r | Computed r _ | Failing r => r = rid | _ => False end.
Definition refers (p : pc) (rid : nat) : Prop := owns p rid \/ p = Waiting rid.

Lemma in_map_owns p rid : in_map p rid -> owns p rid.
Proof. destruct p; simpl; tauto. Qed.

Notation call_at s i c := (nth_error (s_calls s) i = Some c).

Record inv1 (s : state) : Prop := {
  v_cache : wf (s_cache s);
  v_keys : NoDup (map fst (s_inprog s));
  v_map : forall k p rid, get k (s_inprog s) = Some (p, rid) ->
    exists i c, call_at s i c /\ ca_key c = k /\ in_map (ca_pc c) rid;
  v_own : forall i c rid, call_at s i c -> owns (ca_pc c) rid -> nth_error (s_rips s) rid = Some InProgress;
  v_inm : forall i c rid, call_at s i c -> in_map (ca_pc c) rid ->
    exists p, get (ca_key c) (s_inprog s) = Some (p, rid);
  v_one : forall i j c d rid, call_at s i c -> call_at s j d ->
    owns (ca_pc c) rid -> owns (ca_pc d) rid -> i = j;
  v_running : forall rid, nth_error (s_rips s) rid = Some InProgress ->
    exists i c, call_at s i c /\ owns (ca_pc c) rid;
  v_nocache : forall k x, get k (s_inprog s) = Some x -> absent (s_cache s) k;
  v_ok : forall i c, call_at s i c -> ca_pc c <> Broken;
  v_wait : forall i c rid, call_at s i c -> ca_pc c = Waiting rid -> (rid < length (s_rips s))%nat }.

(* an in-progress key belongs to one call *)
Lemma key_owner s i c rid j d rid' : inv1 s ->
  call_at s i c -> call_at s j d -> in_map (ca_pc c) rid -> in_map (ca_pc d) rid' ->
  ca_key c = ca_key d -> i = j /\ rid = rid'.
Proof.
  intros I Hi Hj Mi Mj E.
  destruct (v_inm _ I _ _ _ Hi Mi) as [p Hp]. destruct (v_inm _ I _ _ _ Hj Mj) as [p' Hp'].
  rewrite E, Hp' in Hp. injection Hp as _ <-. split; [|reflexivity].
  eapply (v_one _ I); eauto using in_map_owns.
Qed.

Section Steps.
  Variable size : N -> N.
  Variables maxSize maxSingle : N.
  Notation cstep := (lru_step size maxSize maxSingle).
  Notation step := (step size maxSize maxSingle).

  Lemma absent_step a o b r k : cstep a o b r -> absent a k ->
    match o with Insert k' _ _ | InsertPinned k' _ => k' <> k | _ => True end -> absent b k.
  Proof.
    intros H Ha Ho. apply not_held_absent. intros v Hv.
    destruct (cstep_holds _ _ _ _ _ _ _ _ _ H Hv) as [Hold|[[[now ->]| ->] _]]; auto.
    eapply absent_holds; eauto.
  Qed.

  (* splits a lookup in an updated list of calls *)
  Ltac at_calls :=
    repeat match goal with
    | H : nth_error (set_nth ?i ?a ?l) ?j = Some ?c |- _ =>
        rewrite nth_error_set in H by (eapply nth_error_lt; eassumption);
        destruct (Nat.eqb_spec j i); [subst j; injection H as <-|]
    end; cbn [ca_pc ca_key ca_pinned ca_parent at_pc] in *.

  (* finds a call in an updated list of calls *)
  Lemma at_other {l : list call} {i j c c' d} :
    nth_error l i = Some c -> nth_error l j = Some d -> j <> i -> nth_error (set_nth i c' l) j = Some d.
  Proof.
    intros H1 H2 Hn. rewrite nth_error_set by (eapply nth_error_lt; eassumption).
    apply Nat.eqb_neq in Hn. now rewrite Hn.
  Qed.
  Lemma at_same {l : list call} {i c c'} :
    nth_error l i = Some c -> nth_error (set_nth i c' l) i = Some c'.
  Proof.
    intros H1. rewrite nth_error_set by (eapply nth_error_lt; eassumption). now rewrite Nat.eqb_refl.
  Qed.

  (* a call moves on with neither the map nor the results changing *)
  Lemma inv1_plain s i c p cache' :
    inv1 s -> call_at s i c -> wf cache' ->
    (forall k, absent (s_cache s) k -> absent cache' k) ->
    (forall rid, owns p rid <-> owns (ca_pc c) rid) ->
    (forall rid, in_map p rid <-> in_map (ca_pc c) rid) ->
    p <> Broken -> (forall rid, p = Waiting rid -> ca_pc c = Waiting rid) ->
    inv1 {| s_cache := cache'; s_inprog := s_inprog s; s_rips := s_rips s;
            s_calls := set_nth i (at_pc c p) (s_calls s) |}.
  Proof.
    intros I Hi Hw Ha Ho Hm Hb Hwt. constructor; cbn [s_cache s_inprog s_rips s_calls].
    - exact Hw.
    - apply I.
    - intros k q rid H. destruct (v_map _ I _ _ _ H) as (j & d & Hj & Hk & Hin).
      destruct (Nat.eq_dec j i) as [->|Hn].
      + assert (d = c) by congruence. subst d. exists i, (at_pc c p). split; [eapply at_same; eauto|].
        split; [exact Hk|]. now apply Hm.
      + exists j, d. split; [eapply at_other; eauto|]. auto.
    - intros j d rid Hj Hown. at_calls.
      + apply (v_own _ I i c); auto. now apply Ho.
      + apply (v_own _ I j d); auto.
    - intros j d rid Hj Hin. at_calls.
      + apply (v_inm _ I i c); auto. now apply Hm.
      + apply (v_inm _ I j d); auto.
    - intros j j' d d' rid Hj Hj' O1 O2. at_calls; auto.
      + apply (v_one _ I j i d c rid); auto. now apply Ho.
      + apply (v_one _ I i j' c d' rid); auto. now apply Ho.
      + apply (v_one _ I j j' d d' rid); auto.
    - intros rid H. destruct (v_running _ I _ H) as (j & d & Hj & Hown).
      destruct (Nat.eq_dec j i) as [->|Hn].
      + assert (d = c) by congruence. subst d. exists i, (at_pc c p). split; [eapply at_same; eauto|].
        now apply Ho.
      + exists j, d. split; [eapply at_other; eauto|]. auto.
    - intros k x H. apply Ha. eapply (v_nocache _ I); eauto.
    - intros j d Hj. at_calls; auto. eapply (v_ok _ I); eauto.
    - intros j d rid Hj Hp. at_calls.
      + eapply (v_wait _ I i c); auto.
      + eapply (v_wait _ I j d); eauto.
  Qed.

  Lemma get_cons_remove {A} k k' (a : A) m :
    get k' ((k, a) :: remove k m) = if k' =? k then Some a else get k' m.
  Proof. simpl. rewrite get_remove. now destruct (k' =? k). Qed.

  Lemma remove_keys {A} k (m : list (N * A)) : NoDup (map fst m) -> NoDup (map fst (remove k m)).
  Proof. apply NoDup_map_filter. Qed.

  Lemma remove_not_in {A} k (m : list (N * A)) : ~ In k (map fst (remove k m)).
  Proof. intros H. apply keys_remove in H. tauto. Qed.

  (* the owner of rid in the map leaves the map: moving the result to the cache, or erasing after a failure *)
  Lemma inv1_unmap s i c p cache' rid :
    inv1 s -> call_at s i c -> wf cache' ->
    (forall k, k <> ca_key c -> absent (s_cache s) k -> absent cache' k) ->
    in_map (ca_pc c) rid -> (forall r, owns p r <-> r = rid) -> (forall r, ~ in_map p r) ->
    p <> Broken -> (forall r, p <> Waiting r) ->
    inv1 {| s_cache := cache'; s_inprog := remove (ca_key c) (s_inprog s); s_rips := s_rips s;
            s_calls := set_nth i (at_pc c p) (s_calls s) |}.
  Proof.
    intros I Hi Hw Ha Hin Ho Hm Hb Hwt. pose proof (in_map_owns _ _ Hin) as Hown.
    constructor; cbn [s_cache s_inprog s_rips s_calls].
    - exact Hw.
    - apply remove_keys, I.
    - intros k q r H. rewrite get_remove in H. destruct (N.eqb_spec k (ca_key c)) as [->|Hk]; [discriminate|].
      destruct (v_map _ I _ _ _ H) as (j & d & Hj & Hkd & Hind).
      exists j, d. split; [|auto]. eapply at_other; eauto. intros ->. congruence.
    - intros j d r Hj Howns. at_calls.
      + apply Ho in Howns as ->. apply (v_own _ I i c); auto.
      + apply (v_own _ I j d); auto.
    - intros j d r Hj Hind. at_calls.
      + elim (Hm _ Hind).
      + destruct (v_inm _ I j d r Hj Hind) as [q Hq]. exists q. rewrite get_remove.
        destruct (N.eqb_spec (ca_key d) (ca_key c)) as [E|]; [|exact Hq].
        destruct (key_owner s j d r i c rid I Hj Hi Hind Hin E). congruence.
    - intros j j' d d' r Hj Hj' O1 O2. at_calls; auto.
      + apply Ho in O2 as ->. apply (v_one _ I j i d c rid); auto.
      + apply Ho in O1 as ->. apply (v_one _ I i j' c d' rid); auto.
      + apply (v_one _ I j j' d d' r); auto.
    - intros r H. destruct (v_running _ I _ H) as (j & d & Hj & Howns).
      destruct (Nat.eq_dec j i) as [->|Hn].
      + assert (d = c) by congruence. subst d. exists i, (at_pc c p). split; [eapply at_same; eauto|].
        apply Ho. destruct (ca_pc c); simpl in *; try contradiction; congruence.
      + exists j, d. split; [eapply at_other; eauto|]. auto.
    - intros k x H. rewrite get_remove in H. destruct (N.eqb_spec k (ca_key c)) as [->|Hk]; [discriminate|].
      apply Ha; auto. eapply (v_nocache _ I); eauto.
    - intros j d Hj. at_calls; auto. eapply (v_ok _ I); eauto.
    - intros j d r Hj Hp. at_calls.
      + elim (Hwt _ Hp).
      + eapply (v_wait _ I j d); eauto.
  Qed.

  (* the owner of rid, which is not in the map any more, ends it *)
  Lemma inv1_end s i c p rid st :
    inv1 s -> call_at s i c -> owns (ca_pc c) rid -> (forall r, ~ in_map (ca_pc c) r) ->
    st <> InProgress -> (forall r, ~ owns p r) -> p <> Broken -> (forall r, p <> Waiting r) ->
    inv1 {| s_cache := s_cache s; s_inprog := s_inprog s; s_rips := set_nth rid st (s_rips s);
            s_calls := set_nth i (at_pc c p) (s_calls s) |}.
  Proof.
    intros I Hi Hown Hnm Hst Hp Hb Hwt.
    pose proof (v_own _ I _ _ _ Hi Hown) as Hrip.
    assert (Hrip' : forall r, nth_error (set_nth rid st (s_rips s)) r =
                     if Nat.eqb r rid then Some st else nth_error (s_rips s) r).
    { intros r. apply nth_error_set. eapply nth_error_lt; eauto. }
    assert (Howner : forall j d r, call_at s j d -> owns (ca_pc d) r -> j <> i -> r <> rid).
    { intros j d r Hj Ho Hn ->. apply Hn. eapply (v_one _ I); eauto. }
    assert (Hci : forall r, owns (ca_pc c) r -> r = rid).
    { intros r. destruct (ca_pc c); simpl in *; try contradiction; congruence. }
    constructor; cbn [s_cache s_inprog s_rips s_calls].
    - apply I.
    - apply I.
    - intros k q r H. destruct (v_map _ I _ _ _ H) as (j & d & Hj & Hkd & Hind).
      exists j, d. split; [|auto]. eapply at_other; eauto. intros ->.
      assert (d = c) by congruence. subst d. elim (Hnm _ Hind).
    - intros j d r Hj Howns. at_calls.
      + elim (Hp _ Howns).
      + rewrite Hrip'. destruct (Nat.eqb_spec r rid) as [->|].
        * exfalso. eapply Howner; eauto.
        * eapply (v_own _ I); eauto.
    - intros j d r Hj Hind. at_calls.
      + elim (Hp _ (in_map_owns _ _ Hind)).
      + apply (v_inm _ I j d); auto.
    - intros j j' d d' r Hj Hj' O1 O2. at_calls; auto.
      + elim (Hp _ O2).
      + elim (Hp _ O1).
      + apply (v_one _ I j j' d d' r); auto.
    - intros r H. rewrite Hrip' in H. destruct (Nat.eqb_spec r rid) as [Hr|Hr]; [congruence|].
      destruct (v_running _ I _ H) as (j & d & Hj & Howns).
      exists j, d. split; [|auto]. eapply at_other; eauto. intros ->.
      assert (d = c) by congruence. subst d. auto.
    - apply I.
    - intros j d Hj. at_calls; auto. eapply (v_ok _ I); eauto.
    - intros j d r Hj Hp'. rewrite set_nth_length. at_calls.
      + elim (Hwt _ Hp').
      + eapply (v_wait _ I j d); eauto.
  Qed.

  Lemma inv1_init n : inv1 (initial n).
  Proof.
    constructor; simpl; auto using NoDup_nil; try discriminate.
    - constructor; simpl; auto using NoDup_nil.
    - intros i c rid H. destruct i; discriminate.
    - intros i c rid H. destruct i; discriminate.
    - intros i j c d rid H. destruct i; discriminate.
    - intros rid H. destruct rid; discriminate.
    - intros i c H. destruct i; discriminate.
    - intros i c rid H. destruct i; discriminate.
  Qed.

  Lemma inv1_env s s' : inv1 s -> env_step size maxSize maxSingle s s' -> inv1 s'.
  Proof.
    intros I H. destruct H as [s o c1 r H Ho]. destruct I as [I1 I2 I3 I4 I5 I6 I7 I8 I9 I10].
    constructor; auto; cbn [s_cache s_inprog].
    - eapply cstep_wf; eauto.
    - intros k x Hk. eapply absent_step; eauto. destruct o; tauto.
  Qed.

  Lemma inv1_step s e s' : inv1 s -> step s e s' -> inv1 s'.
  Proof.
    intros I H. destruct H as
      [s k p parent Hpar
      |s i c c1 c2 v now Hi Hpc H1 H2
      |s i c c1 p rid Hi Hpc H1 Hg
      |s i c c1 Hi Hpc H1 Hg
      |s i c rid v Hi Hpc Hch
      |s i c rid Hi Hpc Hch
      |s i c rid v p rid' c1 r now Hi Hpc Hg Hc Hr
      |s i c rid v p rid' c1 r now Hi Hpc Hg Hc Hr
      |s i c rid v Hi Hpc Hg
      |s i c rid v Hi Hpc Hrip
      |s i c rid v Hi Hpc Hrip
      |s i c rid Hi Hpc
      |s i c rid Hi Hpc Hrip
      |s i c rid Hi Hpc Hrip
      |s i c rid v Hi Hpc Hrip
      |s i c rid Hi Hpc Hrip]; unfold set_call in *.
    - (* spawn *)
      assert (Hnew : forall j d, nth_error (s_calls s ++ [{| ca_key := k; ca_pinned := p; ca_parent := parent; ca_pc := Start |}]) j = Some d ->
                call_at s j d \/ ca_pc d = Start).
      { intros j d Hj. destruct (Nat.lt_ge_cases j (length (s_calls s))) as [L|L].
        - rewrite nth_error_app1 in Hj by exact L. auto.
        - rewrite nth_error_app2 in Hj by exact L. destruct (j - length (s_calls s))%nat as [|[|]]; simpl in Hj;
            try discriminate. injection Hj as <-. auto. }
      assert (Hold : forall j d, call_at s j d -> nth_error (s_calls s ++ [{| ca_key := k; ca_pinned := p; ca_parent := parent; ca_pc := Start |}]) j = Some d).
      { intros j d Hj. rewrite nth_error_app1; auto. eapply nth_error_lt; eauto. }
      constructor; cbn [s_cache s_inprog s_rips s_calls].
      + apply I.
      + apply I.
      + intros k' q rid H. destruct (v_map _ I _ _ _ H) as (j & d & Hj & H'). eauto.
      + intros j d rid Hj Ho. apply Hnew in Hj as [Hj|E]; [eapply (v_own _ I); eauto|].
        rewrite E in Ho. elim Ho.
      + intros j d rid Hj Ho. apply Hnew in Hj as [Hj|E]; [eapply (v_inm _ I); eauto|].
        rewrite E in Ho. elim Ho.
      + intros j j' d d' rid Hj Hj' O1 O2. apply Hnew in Hj as [Hj|E]; [|rewrite E in O1; elim O1].
        apply Hnew in Hj' as [Hj'|E]; [|rewrite E in O2; elim O2]. eapply (v_one _ I); eauto.
      + intros rid H. destruct (v_running _ I _ H) as (j & d & Hj & H'). eauto.
      + apply I.
      + intros j d Hj. apply Hnew in Hj as [Hj|E]; [eapply (v_ok _ I); eauto|congruence].
      + intros j d rid Hj Ho. apply Hnew in Hj as [Hj|E]; [eapply (v_wait _ I); eauto|congruence].
    - (* hit *)
      apply inv1_plain; auto; try rewrite Hpc; try (simpl; tauto); try discriminate.
      + eapply cstep_wf; [exact H2|]. eapply cstep_wf; [exact H1|]. apply I.
      + intros k Ha. eapply absent_step; [exact H2| |exact Logic.I].
        eapply absent_step; [exact H1|exact Ha|]. now destruct (ca_pinned c).
    - (* join *)
      apply contains_false in H1 as [-> Habs].
      constructor; cbn [s_cache s_inprog s_rips s_calls].
      + apply I.
      + simpl. constructor; [apply remove_not_in|apply remove_keys, I].
      + intros k q r H. rewrite get_cons_remove in H. destruct (N.eqb_spec k (ca_key c)) as [->|Hk].
        * injection H as <- <-. destruct (v_map _ I _ _ _ Hg) as (j & d & Hj & Hkd & Hind).
          exists j, d. split; [|auto]. eapply at_other; eauto. intros ->.
          assert (d = c) by congruence. subst d. rewrite Hpc in Hind. elim Hind.
        * destruct (v_map _ I _ _ _ H) as (j & d & Hj & Hkd & Hind).
          exists j, d. split; [|auto]. eapply at_other; eauto. intros ->. congruence.
      + intros j d r Hj Ho. at_calls; [elim Ho|eapply (v_own _ I); eauto].
      + intros j d r Hj Hind. at_calls; [elim Hind|].
        destruct (v_inm _ I _ _ _ Hj Hind) as [q Hq]. rewrite get_cons_remove.
        destruct (N.eqb_spec (ca_key d) (ca_key c)) as [E|]; [|eauto].
        rewrite E, Hg in Hq. injection Hq as _ <-. eauto.
      + intros j j' d d' r Hj Hj' O1 O2. at_calls; auto; try (elim O1; fail); try (elim O2; fail).
        eapply (v_one _ I); eauto.
      + intros r H. destruct (v_running _ I _ H) as (j & d & Hj & Ho). exists j, d. split; [|auto].
        eapply at_other; eauto. intros ->. assert (d = c) by congruence. subst d. rewrite Hpc in Ho. elim Ho.
      + intros k x H. rewrite get_cons_remove in H. destruct (N.eqb_spec k (ca_key c)) as [->|Hk]; auto.
        eapply (v_nocache _ I); eauto.
      + intros j d Hj. at_calls; [discriminate|]. eapply (v_ok _ I); eauto.
      + intros j d r Hj Hp. at_calls; [|eapply (v_wait _ I); eauto]. injection Hp as <-.
        destruct (v_map _ I _ _ _ Hg) as (j & d & Hj & _ & Hind).
        eapply nth_error_lt, (v_own _ I); eauto using in_map_owns.
    - (* register *)
      apply contains_false in H1 as [-> Habs].
      assert (Hnew : forall r, nth_error (s_rips s ++ [InProgress]) r = Some InProgress <->
                 nth_error (s_rips s) r = Some InProgress \/ r = length (s_rips s)).
      { intros r. destruct (Nat.lt_ge_cases r (length (s_rips s))) as [L|L].
        - rewrite nth_error_app1 by exact L. split; auto. intros [H|H]; [auto|lia].
        - rewrite nth_error_app2 by exact L. assert (nth_error (s_rips s) r = None) by (now apply nth_error_None).
          destruct (r - length (s_rips s))%nat as [|[|]] eqn:E; simpl; split; auto; try discriminate.
          + intros _. right. lia.
          + intros [H'|H']; [congruence|lia].
          + intros [H'|H']; [congruence|lia]. }
      assert (Hfresh : forall j d r, call_at s j d -> owns (ca_pc d) r -> r <> length (s_rips s)).
      { intros j d r Hj Ho ->. apply (v_own _ I _ _ _ Hj) in Ho. apply nth_error_lt in Ho. lia. }
      constructor; cbn [s_cache s_inprog s_rips s_calls].
      + apply I.
      + simpl. constructor; [now apply get_None|apply I].
      + intros k q r H. simpl in H. destruct (N.eqb_spec k (ca_key c)) as [->|Hk].
        * injection H as <- <-. eexists i, _. split; [eapply at_same; eauto|]. split; reflexivity.
        * destruct (v_map _ I _ _ _ H) as (j & d & Hj & Hkd & Hind).
          exists j, d. split; [|auto]. eapply at_other; eauto. intros ->. congruence.
      + intros j d r Hj Ho. apply Hnew. at_calls.
        * simpl in Ho. auto.
        * left. eapply (v_own _ I); eauto.
      + intros j d r Hj Hind. at_calls.
        * simpl in Hind. subst r. exists (ca_pinned c). simpl. now rewrite N.eqb_refl.
        * destruct (v_inm _ I _ _ _ Hj Hind) as [q Hq]. exists q. simpl.
          destruct (N.eqb_spec (ca_key d) (ca_key c)) as [E|]; [congruence|exact Hq].
      + intros j j' d d' r Hj Hj' O1 O2. at_calls; auto.
        * simpl in O2. subst r. elim (Hfresh _ _ _ Hj O1). reflexivity.
        * simpl in O1. subst r. elim (Hfresh _ _ _ Hj' O2). reflexivity.
        * eapply (v_one _ I); eauto.
      + intros r H. apply Hnew in H as [H| ->].
        * destruct (v_running _ I _ H) as (j & d & Hj & Ho). exists j, d. split; [|auto].
          eapply at_other; eauto. intros ->. assert (d = c) by congruence. subst d. rewrite Hpc in Ho. elim Ho.
        * eexists i, _. split; [eapply at_same; eauto|]. reflexivity.
      + intros k x H. simpl in H. destruct (N.eqb_spec k (ca_key c)) as [->|Hk]; auto.
        eapply (v_nocache _ I); eauto.
      + intros j d Hj. at_calls; [discriminate|]. eapply (v_ok _ I); eauto.
      + intros j d r Hj Hp. rewrite app_length. simpl. at_calls; [discriminate|].
        pose proof (v_wait _ I _ _ _ Hj Hp). lia.
    - apply inv1_plain; auto; try rewrite Hpc; try (simpl; tauto); try discriminate. apply I.
    - apply inv1_plain; auto; try rewrite Hpc; try (simpl; tauto); try discriminate. apply I.
    - (* move *)
      apply inv1_unmap with rid; auto; try rewrite Hpc; try (simpl; tauto); try discriminate.
      + eapply cstep_wf; [exact Hc|]. apply I.
      + intros k Hk Ha. eapply absent_step; [exact Hc|exact Ha|]. destruct p; auto.
      + simpl. split; congruence.
    - (* move throws *)
      pose proof (v_nocache _ I _ _ Hg) as Habs.
      assert (c1 = s_cache s).
      { destruct Hr as [-> | ->]; destruct p; inversion Hc; reflexivity. }
      subst c1. apply inv1_plain; auto; try rewrite Hpc; try (simpl; tauto); try discriminate. apply I.
    - apply inv1_plain; auto; try rewrite Hpc; try (simpl; tauto); try discriminate. apply I.
    - apply inv1_end; auto; try rewrite Hpc; try (simpl; tauto); try discriminate.
    - exfalso. apply Hrip. eapply (v_own _ I); eauto. now rewrite Hpc.
    - apply inv1_unmap with rid; auto; try rewrite Hpc; try (simpl; tauto); try discriminate.
      + apply I.
      + simpl. split; congruence.
    - apply inv1_end; auto; try rewrite Hpc; try (simpl; tauto); try discriminate.
    - exfalso. apply Hrip. eapply (v_own _ I); eauto. now rewrite Hpc.
    - apply inv1_plain; auto; try rewrite Hpc; try (simpl; tauto); try discriminate. apply I.
    - apply inv1_plain; auto; try rewrite Hpc; try (simpl; tauto); try discriminate. apply I.
  Qed.

  Lemma inv1_reach n s tr : reach size maxSize maxSingle n s tr -> inv1 s.
  Proof.
    induction 1; eauto using inv1_init, inv1_step, inv1_env.
  Qed.
End Steps.
