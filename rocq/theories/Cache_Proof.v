(* The heap-based cache implements the abstract least-recently-used cache. *)
From Coq Require Import List NArith Arith Lia Permutation Sorted Bool.
From Coq Require Import ZifyBool ZifyN ZifyNat.
From Verif Require Import Cache_Spec Cache_Model.
Import ListNotations.
Open Scope N_scope.

(* std::priority_queue::top returns an entry with the smallest score (which one of several is open) *)
Definition top_ok (top : list (N * nat) -> nat) : Prop :=
  forall heap, heap <> [] ->
    exists e, nth_error heap (top heap) = Some e /\ Forall (fun e' => fst e <= fst e') heap.

(* ---------- lists and association lists ---------- *)
Lemma remove_nth_perm {A} i (l : list A) a :
  nth_error l i = Some a -> Permutation l (a :: remove_nth i l).
Proof.
  unfold remove_nth. revert i; induction l as [|b l IH]; intros [|i] H; simpl in H; try discriminate.
  - injection H as ->. simpl. reflexivity.
  - simpl. etransitivity; [apply perm_skip, (IH i H)|]. simpl. apply perm_swap.
Qed.

Lemma set_nth_length {A} i (a : A) l : length (set_nth i a l) = length l.
Proof.
  unfold set_nth. rewrite app_length.
  destruct (skipn i l) as [|b r] eqn:E.
  - rewrite <- (firstn_skipn i l) at 2. rewrite app_length, E. reflexivity.
  - rewrite <- (firstn_skipn i l) at 2. rewrite app_length, E. reflexivity.
Qed.

Lemma set_nth_same {A} i (a d : A) l : (i < length l)%nat -> nth i (set_nth i a l) d = a.
Proof.
  revert i; induction l as [|b l IH]; intros [|i] H; simpl in H; try lia.
  - reflexivity.
  - unfold set_nth in *. simpl. apply IH. lia.
Qed.

Lemma set_nth_other {A} i j (a d : A) l : i <> j -> nth j (set_nth i a l) d = nth j l d.
Proof.
  revert i j; induction l as [|b l IH]; intros i j H.
  - unfold set_nth. rewrite firstn_nil, skipn_nil. reflexivity.
  - destruct i as [|i], j as [|j]; unfold set_nth in *; simpl; auto; try lia.
Qed.

Lemma get_In {A} k (m : list (N * A)) a : get k m = Some a -> In (k, a) m.
Proof.
  induction m as [|[k' b] m IH]; simpl; [discriminate|].
  destruct (N.eqb_spec k k') as [->|]; [intros H; injection H as ->; auto|auto].
Qed.

Lemma get_None {A} k (m : list (N * A)) : get k m = None <-> ~ In k (map fst m).
Proof.
  induction m as [|[k' b] m IH]; simpl; [tauto|].
  destruct (N.eqb_spec k k') as [->|].
  - split; [discriminate|intros H; elim H; auto].
  - rewrite IH. intuition.
Qed.

Lemma In_get {A} k (m : list (N * A)) a : NoDup (map fst m) -> In (k, a) m -> get k m = Some a.
Proof.
  induction m as [|[k' b] m IH]; simpl; [tauto|]. intros Hn [E|Hin].
  - injection E as -> ->. now rewrite N.eqb_refl.
  - apply NoDup_cons_iff in Hn as [Hn Hm]. destruct (N.eqb_spec k k') as [->|].
    + elim Hn. apply in_map_iff. exists (k', a). auto.
    + auto.
Qed.

Lemma remove_notin {A} k (m : list (N * A)) : ~ In k (map fst m) -> remove k m = m.
Proof.
  induction m as [|[k' b] m IH]; simpl; auto. intros H.
  unfold remove in *. simpl. destruct (N.eqb_spec k' k) as [->|]; simpl; [tauto|].
  f_equal. apply IH. tauto.
Qed.

Lemma remove_perm {A} k (m : list (N * A)) a :
  NoDup (map fst m) -> get k m = Some a -> Permutation m ((k, a) :: remove k m).
Proof.
  induction m as [|[k' b] m IH]; simpl; [discriminate|]. intros Hn H.
  apply NoDup_cons_iff in Hn as [Hn Hm].
  unfold remove in *. simpl. destruct (N.eqb_spec k k') as [->|Hk].
  - injection H as ->. rewrite N.eqb_refl. simpl.
    fold (remove k' m). now rewrite remove_notin.
  - destruct (N.eqb_spec k' k) as [->|]; [congruence|]. simpl.
    etransitivity; [apply perm_skip, IH; auto|]. apply perm_swap.
Qed.

Lemma remove_In {A} k (m : list (N * A)) e : In e (remove k m) <-> In e m /\ fst e <> k.
Proof.
  unfold remove. rewrite filter_In, negb_true_iff, N.eqb_neq. tauto.
Qed.

Lemma NoDup_map_filter {A B} (f : A -> B) p (l : list A) :
  NoDup (map f l) -> NoDup (map f (filter p l)).
Proof.
  induction l as [|a l IH]; simpl; auto. intros H. apply NoDup_cons_iff in H as [H1 H2].
  destruct (p a); simpl; auto. constructor; auto.
  intros Hin. apply H1. apply in_map_iff in Hin as (x & <- & Hx).
  apply filter_In in Hx. apply in_map. tauto.
Qed.

Lemma get_remove {A} k k' (m : list (N * A)) :
  get k (remove k' m) = if k =? k' then None else get k m.
Proof.
  induction m as [|[j b] m IH]; [now destruct (k =? k')|].
  unfold remove in *. simpl.
  destruct (N.eqb_spec j k') as [->|]; simpl.
  - rewrite IH. destruct (N.eqb_spec k k'); auto.
  - rewrite IH. destruct (N.eqb_spec k j) as [->|]; destruct (N.eqb_spec j k');
      try congruence; destruct (N.eqb_spec k k'); congruence.
Qed.

Lemma map_remove {A B} (f : N * A -> N * B) k (m : list (N * A)) :
  (forall e, fst (f e) = fst e) -> map f (remove k m) = remove k (map f m).
Proof.
  intros Hf. induction m as [|e m IH]; auto. unfold remove in *. simpl. rewrite Hf.
  destruct (fst e =? k); simpl; congruence.
Qed.

Lemma get_map {A B} (f : N * A -> N * B) k (m : list (N * A)) :
  (forall e, fst (f e) = fst e) ->
  get k (map f m) = match get k m with Some a => Some (snd (f (k, a))) | None => None end.
Proof.
  intros Hf. induction m as [|[j a] m IH]; auto. simpl.
  pose proof (Hf (j, a)) as Hj. destruct (f (j, a)) as [j' b] eqn:E. simpl in Hj. subst j'.
  destruct (N.eqb_spec k j) as [->|]; auto. now rewrite E.
Qed.

(* ---------- sizes ---------- *)
Section Total.
  Variable size : N -> N.
  Lemma total_app l1 l2 : total size (l1 ++ l2) = total size l1 + total size l2.
  Proof. induction l1; simpl; auto. rewrite IHl1. lia. Qed.
  Lemma total_perm l1 l2 : Permutation l1 l2 -> total size l1 = total size l2.
  Proof. induction 1; simpl; lia. Qed.
End Total.

Lemma W64_pos : W64 <> 0. Proof. discriminate. Qed.

Lemma add64_mod a b : add64 (a mod W64) b = (a + b) mod W64.
Proof. unfold add64. now rewrite N.add_mod_idemp_l by apply W64_pos. Qed.

Lemma sub64_mod a b : sub64 ((b + a) mod W64) b = a mod W64.
Proof.
  unfold sub64. rewrite N.add_mod_idemp_l by apply W64_pos.
  pose proof (N.mod_lt b W64 W64_pos).
  pose proof (N.div_mod b W64 W64_pos).
  rewrite H0 at 1.
  replace (W64 * (b / W64) + b mod W64 + a + (W64 - b mod W64)) with (a + (b / W64 + 1) * W64) by lia.
  apply N.mod_add, W64_pos.
Qed.


(* ---------- the invariant ---------- *)
Section Pq.
  Variable top : list (N * nat) -> nat.
  Hypothesis Htop : top_ok top.

  Definition val_of (q : pq) (h : nat) : N :=
    match nd_entry (get_node q h) with Some (_, v) => v | None => 0 end.
  Definition score_of (q : pq) (h : nat) : N :=
    match nd_score (get_node q h) with Some s => s | None => 0 end.
  Definition ent_of (q : pq) (e : N * nat) : N * (N * N) :=
    (fst e, (val_of q (snd e), score_of q (snd e))).
  Definition abs (c : cache) : lru :=
    {| l_max := c_max c; l_ents := map (ent_of (c_q c)) (c_acc c); l_pins := c_pins c |}.

  (* the node of an unpinned entry *)
  Definition live (q : pq) (t : N) (e : N * nat) : Prop :=
    exists s v,
      get_node q (snd e) = {| nd_score := Some s; nd_entry := Some (fst e, v); nd_in := true |} /\
      (snd e < length (q_nodes q))%nat /\ In (s, snd e) (q_heap q) /\ s <= t /\
      (forall s', In (s', snd e) (q_heap q) -> s' <= s).

  (* the priority queue holds exactly the handles [hs] *)
  Record pq_inv (t : N) (q : pq) (acc : list (N * nat)) : Prop := {
    pi_handles : NoDup (map snd acc);
    pi_live : Forall (live q t) acc;
    pi_heap : NoDup (q_heap q);
    pi_range : Forall (fun e => (snd e < length (q_nodes q))%nat) (q_heap q);
    pi_stale : forall e, In e (q_heap q) -> entry_current q e = true -> In (snd e) (map snd acc);
    pi_size : q_size q = N.of_nat (length acc) }.

  Lemma ent_of_key q e : fst (ent_of q e) = fst e.
  Proof. reflexivity. Qed.

  Lemma get_ents c k :
    get k (l_ents (abs c)) =
    match get k (c_acc c) with
    | Some h => Some (val_of (c_q c) h, score_of (c_q c) h) | None => None end.
  Proof. simpl. rewrite get_map by apply ent_of_key. destruct (get k (c_acc c)); reflexivity. Qed.

  (* ---------- pruning and popping ---------- *)
  Lemma prune_ok q fuel heap :
    (length heap <= fuel)%nat ->
    NoDup heap ->
    exists heap', prune top fuel q heap = Ok heap' /\ NoDup heap' /\ incl heap' heap /\
      (forall e, In e heap -> entry_current q e = true -> In e heap') /\
      (length heap' <= length heap)%nat /\
      (heap' = [] \/
       exists e, nth_error heap' (top heap') = Some e /\ entry_current q e = true /\
                 Forall (fun e' => fst e <= fst e') heap').
  Proof using Htop.
    revert heap. induction fuel as [|fuel IH]; intros heap Hl Hn.
    - destruct heap; simpl in Hl; [|lia]. exists []. simpl.
      repeat split; auto using incl_refl.
    - destruct heap as [|e0 heap0] eqn:Eh.
      { exists []. simpl. repeat split; auto using incl_refl. }
      rewrite <- Eh in *. assert (Hne : heap <> []) by (subst; discriminate).
      destruct (Htop heap Hne) as (e & He & Hmin).
      assert (Eq : prune top (S fuel) q heap =
        if entry_current q e then Ok heap else prune top fuel q (remove_nth (top heap) heap)).
      { rewrite Eh at 1. cbn [prune]. rewrite <- Eh, He. reflexivity. }
      rewrite Eq. destruct (entry_current q e) eqn:Ec.
      + exists heap. repeat split; auto using incl_refl. right. exists e. auto.
      + pose proof (remove_nth_perm _ _ _ He) as Hp.
        assert (Hn' : NoDup (e :: remove_nth (top heap) heap)) by (eapply Permutation_NoDup; eauto).
        apply NoDup_cons_iff in Hn' as [_ Hn'].
        pose proof (Permutation_length Hp) as Hlen. simpl in Hlen.
        destruct (IH (remove_nth (top heap) heap)) as (h' & H1 & H2 & H3 & H4 & H5 & H6); auto; [lia|].
        exists h'. split; [exact H1|]. split; [exact H2|]. split; [|split; [|split; [lia|exact H6]]].
        * intros x Hx. eapply Permutation_in; [symmetry; exact Hp|]. right. auto.
        * intros x Hx Hc. apply H4; auto. apply (Permutation_in _ Hp) in Hx as [<-|]; auto.
          congruence.
  Qed.

  Lemma current_live q t e s h :
    live q t e -> h = snd e -> entry_current q (s, h) = true -> s = score_of q h.
  Proof.
    intros (s0 & v & Hn & _) -> Hc. unfold entry_current, score_of in *. simpl in *.
    rewrite Hn in *. simpl in *. now apply N.eqb_eq.
  Qed.

  Lemma get_node_set q h h' n :
    (h < length (q_nodes q))%nat ->
    get_node (set_node q h n) h' = if Nat.eqb h' h then n else get_node q h'.
  Proof.
    intros Hh. unfold get_node, set_node. simpl. destruct (Nat.eqb_spec h' h) as [->|].
    - now apply set_nth_same.
    - apply set_nth_other. auto.
  Qed.

  Lemma pop_ok t q acc :
    pq_inv t q acc -> acc <> [] ->
    exists q' k h v s,
      pq_pop top q = Ok (q', h) /\ h_entry q' h = Ok (k, v) /\
      In (k, h) acc /\ v = val_of q h /\ s = score_of q h /\
      Forall (fun e => s <= score_of q (snd e)) acc /\
      pq_inv t q' (filter (fun e => negb (Nat.eqb (snd e) h)) acc) /\
      (forall h', h' <> h -> get_node q' h' = get_node q h') /\
      (length (q_heap q') < length (q_heap q))%nat.
  Proof using Htop.
    intros I Hne. destruct I as [Hh Hl Hn Hr Hs Hz].
    destruct (prune_ok q (length (q_heap q)) (q_heap q)) as (heap & E & Hn' & Hi & Hcur & Hlen & Hcase);
      auto.
    unfold pq_pop. rewrite E. cbn [bind].
    assert (Hex : exists e0, In e0 acc) by (destruct acc as [|e0 ?]; [congruence|exists e0; simpl; auto]).
    assert (Hin : forall e, In e acc -> In (score_of q (snd e), snd e) heap).
    { intros e He. pose proof (proj1 (Forall_forall _ _) Hl e He) as (s & v & Hg & _ & Hhe & _).
      unfold score_of. rewrite Hg. simpl. apply Hcur; auto.
      unfold entry_current. simpl. rewrite Hg. simpl. apply N.eqb_refl. }
    assert (Hne' : heap <> []).
    { destruct Hex as [e0 He0]. specialize (Hin _ He0). intros ->. elim Hin. }
    destruct Hcase as [?|([s h] & He & Hc & Hmin)]; [contradiction|].
    destruct heap as [|hd tl] eqn:Eheap; [contradiction|]. rewrite <- Eheap in *. rewrite He.
    pose proof (nth_error_In _ _ He) as Hsh.
    pose proof (Hs _ (Hi _ Hsh) Hc) as Hacc. simpl in Hacc.
    apply in_map_iff in Hacc as ([k h0] & Eh & Hkh). simpl in Eh. subst h0.
    pose proof (proj1 (Forall_forall _ _) Hl _ Hkh) as Hlive.
    pose proof (current_live _ _ _ _ _ Hlive eq_refl Hc) as Es. simpl in Es.
    destruct Hlive as (s0 & v & Hg & Hlt & Hhe & Ht & Hmax). simpl in *.
    pose proof (remove_nth_perm _ _ _ He) as Hp.
    assert (Hn2 : NoDup ((s, h) :: remove_nth (top heap) heap)) by (eapply Permutation_NoDup; eauto).
    apply NoDup_cons_iff in Hn2 as [Hnot Hn2].
    eexists _, k, h, v, s. split; [reflexivity|].
    split. { unfold h_entry. rewrite get_node_set by exact Hlt. rewrite Nat.eqb_refl. cbn. now rewrite Hg. }
    split; [exact Hkh|].
    split. { unfold val_of. now rewrite Hg. }
    split; [exact Es|].
    split. { apply Forall_forall. intros e Hein. specialize (Hin e Hein).
             exact (proj1 (Forall_forall _ _) Hmin _ Hin). }
    split; [|split].
    - constructor; cbn [set_node q_nodes q_heap q_size].
      + apply NoDup_map_filter. exact Hh.
      + apply Forall_forall. intros e Hef. apply filter_In in Hef as [Hein Hneq].
        apply negb_true_iff, Nat.eqb_neq in Hneq.
        pose proof (proj1 (Forall_forall _ _) Hl e Hein) as (s' & v' & Hg' & Hlt' & Hhe' & Ht' & Hmax').
        exists s', v'. rewrite get_node_set by exact Hlt. cbn.
        apply Nat.eqb_neq in Hneq. rewrite Hneq. rewrite set_nth_length.
        split; [exact Hg'|]. split; [exact Hlt'|].
        assert (Hin' := Hin e Hein). unfold score_of in Hin'. rewrite Hg' in Hin'. simpl in Hin'.
        split; [|split; [exact Ht'|]].
        * apply (Permutation_in _ Hp) in Hin' as [Ex|]; auto.
          apply Nat.eqb_neq in Hneq. congruence.
        * intros s1 Hs1. apply Hmax'. apply Hi. eapply Permutation_in; [symmetry; exact Hp|]. now right.
      + exact Hn2.
      + apply Forall_forall. intros e Hein. rewrite set_nth_length.
        apply (proj1 (Forall_forall _ _) Hr). apply Hi. eapply Permutation_in; [symmetry; exact Hp|].
        now right.
      + intros e Hein Hce. unfold entry_current in Hce. rewrite get_node_set in Hce by exact Hlt.
        assert (Hc2 : entry_current q e = true).
        { unfold entry_current. destruct (Nat.eqb_spec (snd e) h) as [Eq|]; [|exact Hce].
          rewrite Eq in *. exact Hce. }
        assert (Hin2 : In e (q_heap q)).
        { apply Hi. eapply Permutation_in; [symmetry; exact Hp|]. now right. }
        pose proof (Hs e Hin2 Hc2) as Hm. apply in_map_iff in Hm as (a & Ea & Ha).
        apply in_map_iff. exists a. split; [exact Ea|]. apply filter_In. split; [exact Ha|].
        apply negb_true_iff, Nat.eqb_neq. intros Eq. apply Hnot.
        replace (s, h) with e; auto. destruct e as [s2 h2]. simpl in *.
        assert (E2 : h2 = h) by congruence. rewrite E2 in *. f_equal.
        unfold entry_current in Hc2. simpl in Hc2. rewrite Hg in Hc2. simpl in Hc2.
        apply N.eqb_eq in Hc2. unfold score_of in Es. rewrite Hg in Es. simpl in Es. congruence.
      + rewrite Hz. unfold dec64.
        assert (HL : length acc = S (length (filter (fun e => negb (Nat.eqb (snd e) h)) acc))).
        { clear -Hh Hkh. induction acc as [|a acc IH]; [elim Hkh|].
          simpl in Hh. apply NoDup_cons_iff in Hh as [Ha Hh]. simpl. destruct Hkh as [->|Hkh].
          - simpl. rewrite Nat.eqb_refl. simpl. f_equal.
            clear IH Hh. induction acc as [|b acc IH2]; auto. simpl in *.
            destruct (Nat.eqb_spec (snd b) h); simpl; [elim Ha; auto|]. f_equal. apply IH2. tauto.
          - destruct (Nat.eqb_spec (snd a) h) as [E|]; simpl.
            + elim Ha. rewrite E. apply in_map_iff. exists (k, h). auto.
            + f_equal. auto. }
        rewrite HL. destruct (N.eqb_spec (N.of_nat (S (length (filter (fun e => negb (Nat.eqb (snd e) h)) acc)))) 0); lia.
    - intros h' Hh'. rewrite get_node_set by exact Hlt. cbn.
      apply Nat.eqb_neq in Hh'. now rewrite Hh'.
    - cbn. pose proof (Permutation_length Hp) as HL. simpl in HL. lia.
  Qed.

  Lemma live_mono t t' q e : t <= t' -> live q t e -> live q t' e.
  Proof. intros Ht (s & v & H1 & H2 & H3 & H4 & H5). exists s, v. repeat split; auto. lia. Qed.

  Lemma pq_inv_mono t t' q acc : t <= t' -> pq_inv t q acc -> pq_inv t' q acc.
  Proof.
    intros Ht [H1 H2 H3 H4 H5 H6]. constructor; auto.
    eapply Forall_impl; [|exact H2]. intros e. now apply live_mono.
  Qed.

  Lemma live_in t q acc e : pq_inv t q acc -> In e acc -> live q t e.
  Proof. intros I He. exact (proj1 (Forall_forall _ _) (pi_live _ _ _ I) e He). Qed.

  Lemma handle_key t q acc k k' h : pq_inv t q acc -> In (k, h) acc -> In (k', h) acc -> k = k'.
  Proof.
    intros I H1 H2. destruct (live_in _ _ _ _ I H1) as (s & v & E & _).
    destruct (live_in _ _ _ _ I H2) as (s' & v' & E' & _). simpl in *. congruence.
  Qed.

  Lemma NoDup_snoc {A} (l : list A) a : NoDup l -> ~ In a l -> NoDup (l ++ [a]).
  Proof.
    intros H1 H2. apply (Permutation_NoDup (l := a :: l)).
    - apply Permutation_cons_append.
    - constructor; auto.
  Qed.

  Lemma update_ok t q acc k h s :
    pq_inv t q acc -> In (k, h) acc -> t <= s ->
    exists q', pq_update q s h = Ok q' /\ pq_inv s q' acc /\
      h_entry q' h = Ok (k, val_of q h) /\
      val_of q' h = val_of q h /\ score_of q' h = s /\
      (forall h', h' <> h -> get_node q' h' = get_node q h').
  Proof.
    intros I Hin Ht. destruct (live_in _ _ _ _ I Hin) as (s0 & v & Hg & Hlt & Hh & Ht0 & Hmax).
    simpl in *. unfold pq_update, h_score. rewrite Hg. simpl.
    destruct (N.eqb_spec s s0) as [->|Hs].
    - exists q. split; [reflexivity|]. split; [now apply pq_inv_mono with t|].
      unfold h_entry, val_of, score_of. rewrite Hg. simpl. auto.
    - set (n := {| nd_score := Some s; nd_entry := Some (k, v); nd_in := true |}).
      set (q' := {| q_nodes := set_nth h n (q_nodes q); q_heap := q_heap q ++ [(s, h)];
                    q_size := q_size q |}).
      assert (Hget : forall h', get_node q' h' = if Nat.eqb h' h then n else get_node q h').
      { intros h'. apply (get_node_set q h h' n Hlt). }
      exists q'. split; [reflexivity|].
      assert (Hself : get_node q' h = n) by (rewrite Hget, Nat.eqb_refl; reflexivity).
      split; [|unfold h_entry, val_of, score_of; rewrite Hself, Hg; simpl;
               repeat split; intros h' Hh'; rewrite Hget; apply Nat.eqb_neq in Hh'; now rewrite Hh'].
      destruct I as [I1 I2 I3 I4 I5 I6]. constructor.
      + exact I1.
      + apply Forall_forall. intros e He.
        destruct (Nat.eqb_spec (snd e) h) as [E|E].
        * destruct e as [k' h']. simpl in E. subst h'.
          assert (k' = k).
          { destruct (proj1 (Forall_forall _ _) I2 _ He) as (s' & v' & E' & _). simpl in E'. congruence. }
          subst k'. exists s, v. simpl. rewrite Hself. split; [reflexivity|].
          rewrite set_nth_length. split; [exact Hlt|]. split; [apply in_or_app; simpl; auto|].
          split; [lia|]. intros s' Hs'. apply in_app_or in Hs' as [Hs'|[Hs'|[]]].
          -- specialize (Hmax _ Hs'). lia.
          -- injection Hs' as <-. lia.
        * destruct (proj1 (Forall_forall _ _) I2 _ He) as (s' & v' & E' & L' & H' & T' & M').
          exists s', v'. rewrite Hget. apply Nat.eqb_neq in E. rewrite E. split; [exact E'|].
          simpl. rewrite set_nth_length. split; [exact L'|]. split; [apply in_or_app; auto|].
          split; [lia|]. intros s1 Hs1. apply in_app_or in Hs1 as [Hs1|[Hs1|[]]]; auto.
          injection Hs1 as <- Ex. apply Nat.eqb_neq in E. congruence.
      + simpl. apply NoDup_snoc; auto. intros Hc. apply Hmax in Hc. lia.
      + simpl. rewrite set_nth_length. apply Forall_app. split; auto.
      + intros e He Hc. simpl in He. apply in_app_or in He as [He|[<-|[]]].
        * unfold entry_current in Hc. rewrite Hget in Hc.
          destruct (Nat.eqb_spec (snd e) h) as [E|E].
          -- rewrite E. apply in_map_iff. exists (k, h). auto.
          -- apply I5; auto.
        * simpl. apply in_map_iff. exists (k, h). auto.
      + exact I6.
  Qed.

  Lemma insert_ok t q acc k v s q' h :
    pq_inv t q acc -> t <= s -> pq_insert q s (k, v) = (q', h) ->
    pq_inv s q' ((k, h) :: acc) /\ val_of q' h = v /\ score_of q' h = s /\
    h_entry q' h = Ok (k, v) /\
    Forall (fun e => get_node q' (snd e) = get_node q (snd e)) acc.
  Proof.
    intros I Ht E. unfold pq_insert in E. injection E as <- <-.
    set (n := {| nd_score := Some s; nd_entry := Some (k, v); nd_in := true |}).
    set (h := length (q_nodes q)).
    set (q' := {| q_nodes := q_nodes q ++ [n]; q_heap := q_heap q ++ [(s, h)]; q_size := q_size q + 1 |}).
    assert (Hself : get_node q' h = n).
    { unfold get_node, q', h. simpl. rewrite app_nth2 by lia. now rewrite Nat.sub_diag. }
    assert (Hold : forall h', (h' < h)%nat -> get_node q' h' = get_node q h').
    { intros h' Hh. unfold get_node, q'. simpl. now apply app_nth1. }
    destruct I as [I1 I2 I3 I4 I5 I6].
    assert (Hacc : Forall (fun e => get_node q' (snd e) = get_node q (snd e)) acc).
    { eapply Forall_impl; [|exact I2]. intros e (s' & v' & _ & L & _). now apply Hold. }
    assert (Hnh : forall s', ~ In (s', h) (q_heap q)).
    { intros s' Hc. apply (proj1 (Forall_forall _ _) I4) in Hc. simpl in Hc. unfold h in Hc. lia. }
    split; [|split; [|split; [|split]]]; auto.
    2: { unfold val_of. now rewrite Hself. }
    2: { unfold score_of. now rewrite Hself. }
    2: { unfold h_entry. now rewrite Hself. }
    assert (Hlen : length (q_nodes q') = S h) by (unfold q', h; simpl; rewrite app_length; simpl; lia).
    constructor.
    - simpl. constructor; auto. intros Hc. apply in_map_iff in Hc as (e & E & He).
      destruct (proj1 (Forall_forall _ _) I2 _ He) as (s' & v' & _ & L & _). unfold h in E. lia.
    - constructor.
      + exists s, v. simpl. rewrite Hself. split; [reflexivity|].
        split; [rewrite app_length; simpl; unfold h; lia|].
        split; [apply in_or_app; simpl; auto|]. split; [lia|].
        intros s' Hs'. apply in_app_or in Hs' as [Hs'|[Hs'|[]]]; [elim (Hnh _ Hs')|].
        injection Hs' as <-. lia.
      + apply Forall_forall. intros e He.
        destruct (proj1 (Forall_forall _ _) I2 _ He) as (s' & v' & E' & L' & H' & T' & M').
        exists s', v'. rewrite (proj1 (Forall_forall _ _) Hacc e He). split; [exact E'|].
        rewrite Hlen. split; [unfold h; lia|]. simpl.
        split; [apply in_or_app; auto|]. split; [lia|].
        intros s1 Hs1. apply in_app_or in Hs1 as [Hs1|[Hs1|[]]]; auto.
        injection Hs1 as <- Ex. unfold h in Ex. lia.
    - simpl. apply NoDup_snoc; auto.
    - rewrite Hlen. simpl. apply Forall_app. split; [|repeat constructor; simpl; lia].
      eapply Forall_impl; [|exact I4]. simpl. intros e He. unfold h. lia.
    - intros e He Hc. simpl in He. apply in_app_or in He as [He|[<-|[]]]; [|simpl; auto].
      right. apply I5; auto. unfold entry_current in *. rewrite Hold in Hc; auto.
      apply (proj1 (Forall_forall _ _) I4) in He. exact He.
    - simpl. rewrite I6. lia.
  Qed.

  Lemma filter_one (acc : list (N * nat)) k h :
    NoDup (map snd acc) -> In (k, h) acc ->
    length acc = S (length (filter (fun e => negb (Nat.eqb (snd e) h)) acc)).
  Proof.
    intros Hh Hkh. induction acc as [|a acc IH]; [elim Hkh|].
    simpl in Hh. apply NoDup_cons_iff in Hh as [Ha Hh]. simpl. destruct Hkh as [->|Hkh].
    - simpl. rewrite Nat.eqb_refl. simpl. f_equal.
      clear IH Hh. induction acc as [|b acc IH2]; auto. simpl in *.
      destruct (Nat.eqb_spec (snd b) h); simpl; [elim Ha; auto|]. f_equal. apply IH2. tauto.
    - destruct (Nat.eqb_spec (snd a) h) as [E|]; simpl.
      + elim Ha. rewrite E. apply in_map_iff. exists (k, h). auto.
      + f_equal. auto.
  Qed.

  Lemma erase_ok t q acc k h :
    pq_inv t q acc -> In (k, h) acc ->
    exists q', pq_erase q h = Ok q' /\
      pq_inv t q' (filter (fun e => negb (Nat.eqb (snd e) h)) acc) /\
      h_entry q h = Ok (k, val_of q h) /\
      (forall h', h' <> h -> get_node q' h' = get_node q h').
  Proof.
    intros I Hin. destruct (live_in _ _ _ _ I Hin) as (s0 & v & Hg & Hlt & Hh & Ht0 & Hmax).
    simpl in *. unfold pq_erase. rewrite Hg. cbn [nd_in].
    set (q' := {| q_nodes := set_nth h dead (q_nodes q); q_heap := q_heap q;
                  q_size := dec64 (q_size q) |}).
    assert (Hget : forall h', get_node q' h' = if Nat.eqb h' h then dead else get_node q h').
    { intros h'. apply (get_node_set q h h' dead Hlt). }
    exists q'. split; [reflexivity|].
    split; [|split; [unfold h_entry, val_of; now rewrite Hg|
                     intros h' Hh'; rewrite Hget; apply Nat.eqb_neq in Hh'; now rewrite Hh']].
    destruct I as [I1 I2 I3 I4 I5 I6]. constructor.
    - now apply NoDup_map_filter.
    - apply Forall_forall. intros e He. apply filter_In in He as [He Hne].
      apply negb_true_iff in Hne.
      destruct (proj1 (Forall_forall _ _) I2 _ He) as (s' & v' & E' & L' & H' & T' & M').
      exists s', v'. rewrite Hget, Hne. simpl. rewrite set_nth_length. auto 10.
    - exact I3.
    - simpl. rewrite set_nth_length. exact I4.
    - intros e He Hc. unfold entry_current in Hc. rewrite Hget in Hc.
      destruct (Nat.eqb_spec (snd e) h) as [E|E]; [discriminate Hc|].
      pose proof (I5 e He Hc) as Hm. apply in_map_iff in Hm as (a & Ea & Ha).
      apply in_map_iff. exists a. split; auto. apply filter_In. split; auto.
      apply negb_true_iff, Nat.eqb_neq. congruence.
    - simpl. rewrite I6, (filter_one acc k h I1 Hin). unfold dec64.
      destruct (N.eqb_spec (N.of_nat (S (length (filter (fun e => negb (Nat.eqb (snd e) h)) acc)))) 0); lia.
  Qed.

  Lemma clear_ok t q : pq_inv t (pq_clear q) [].
  Proof. constructor; simpl; auto using NoDup_nil; intros e []. Qed.

  Lemma remove_filter t q acc k h :
    pq_inv t q acc -> NoDup (map fst acc) -> In (k, h) acc ->
    filter (fun e => negb (Nat.eqb (snd e) h)) acc = remove k acc.
  Proof.
    intros I Hn Hin. unfold remove. apply filter_ext_in. intros [k' h'] He. f_equal. simpl.
    destruct (Nat.eqb_spec h' h) as [->|Hh].
    - symmetry. apply N.eqb_eq. eapply handle_key; eauto.
    - symmetry. apply N.eqb_neq. intros ->. apply Hh.
      apply In_get in He; auto. apply In_get in Hin; auto. congruence.
  Qed.

  Lemma ents_remove q q' acc k h :
    NoDup (map fst acc) -> In (k, h) acc -> NoDup (map snd acc) ->
    (forall h', h' <> h -> get_node q' h' = get_node q h') ->
    map (ent_of q') (remove k acc) = remove k (map (ent_of q) acc).
  Proof.
    intros Hn Hin Hs Hg. rewrite <- map_remove by apply ent_of_key.
    apply map_ext_in. intros [k' h'] He. apply remove_In in He as [He Hk]. simpl in Hk.
    assert (Hh : h' <> h).
    { intros ->. apply Hk. clear -Hs Hin He. induction acc as [|a acc IH]; [elim Hin|].
      simpl in Hs. apply NoDup_cons_iff in Hs as [Ha Hs].
      destruct Hin as [->|Hin], He as [He|He]; auto.
      - congruence.
      - elim Ha. apply in_map_iff. exists (k', h). auto.
      - subst a. elim Ha. apply in_map_iff. exists (k, h). auto. }
    unfold ent_of, val_of, score_of. simpl. now rewrite Hg.
  Qed.
End Pq.

(* ---------- the cache ---------- *)
Section Inv.
  Variable top : list (N * nat) -> nat.
  Variable size : N -> N.
  Variables maxSize maxSingle : N.
  Hypothesis Htop : top_ok top.
  Definition sizes_ok (c : cache) : Prop :=
    c_np c = total size (map (fun e => fst (snd e)) (l_ents (abs c))) mod W64 /\
    c_pp c = total size (map snd (c_pins c)) mod W64.

  Record inv (t : N) (c : cache) : Prop := {
    i_pq : pq_inv t (c_q c) (c_acc c);
    i_acc : NoDup (map fst (c_acc c));
    i_pins : NoDup (map fst (c_pins c));
    i_disj : forall k, In k (map fst (c_pins c)) -> In k (map fst (c_acc c)) -> False;
    i_sizes : sizes_ok c;
    i_single : forall k v t, In (k, (v, t)) (l_ents (abs c)) -> size v <= maxSingle }.


  Lemma add64_sizes c :
    sizes_ok c -> l_size size (abs c) < W64 -> add64 (c_np c) (c_pp c) = l_size size (abs c).
  Proof.
    intros [H1 H2] Hw. unfold l_size in *. simpl in *. unfold add64.
    rewrite H1, H2. rewrite <- N.add_mod by apply W64_pos. now apply N.mod_small.
  Qed.

  Lemma over_eq t c :
    inv t c -> l_size size (abs c) < W64 ->
    ((c_max c <? q_size (c_q c) + N.of_nat (length (c_pins c)))
      || (maxSize <? add64 (c_np c) (c_pp c))) = true <-> over size maxSize (abs c).
  Proof.
    intros I Hw. rewrite add64_sizes by (auto; apply I).
    rewrite (pi_size _ _ _ (i_pq _ _ I)).
    unfold over. simpl. rewrite map_length, orb_true_iff, !N.ltb_lt. lia.
  Qed.

  Lemma total_ents_remove es k v t :
    NoDup (map fst es) -> get k es = Some (v, t) ->
    total size (map (fun e : N * (N * N) => fst (snd e)) es) =
    size v + total size (map (fun e => fst (snd e)) (remove k es)).
  Proof.
    intros Hn Hg. pose proof (remove_perm _ _ _ Hn Hg) as Hp.
    rewrite (total_perm size _ _ (Permutation_map (fun e => fst (snd e)) Hp)). reflexivity.
  Qed.

  Lemma keys_ents c : map fst (l_ents (abs c)) = map fst (c_acc c).
  Proof. simpl. rewrite map_map. reflexivity. Qed.

  (* removing an unpinned entry from all data structures *)
  Lemma drop_inv t c k h q :
    inv t c -> In (k, h) (c_acc c) ->
    pq_inv t q (filter (fun e => negb (Nat.eqb (snd e) h)) (c_acc c)) ->
    (forall h', h' <> h -> get_node q h' = get_node (c_q c) h') ->
    let c' := {| c_max := c_max c; c_np := sub64 (c_np c) (size (val_of (c_q c) h)); c_pp := c_pp c;
                 c_q := q; c_pins := c_pins c; c_acc := remove k (c_acc c) |} in
    inv t c' /\ l_ents (abs c') = remove k (l_ents (abs c)) /\
    Permutation (l_ents (abs c))
      ((k, (val_of (c_q c) h, score_of (c_q c) h)) :: l_ents (abs c')).
  Proof.
    intros I Hin Hq Hg c'. pose proof I as I'. destruct I' as [I1 I2 I3 I4 I5 I6].
    rewrite (remove_filter _ _ _ _ _ I1 I2 Hin) in Hq.
    assert (Ee : l_ents (abs c') = remove k (l_ents (abs c))).
    { simpl. apply ents_remove with h; auto. apply I1. }
    assert (Hgk : get k (l_ents (abs c)) = Some (val_of (c_q c) h, score_of (c_q c) h)).
    { rewrite get_ents. now rewrite (In_get _ _ _ I2 Hin). }
    assert (Hnd : NoDup (map fst (l_ents (abs c)))) by (rewrite keys_ents; exact I2).
    split; [|split; [exact Ee|rewrite Ee; now apply remove_perm]].
    constructor.
    - exact Hq.
    - now apply NoDup_map_filter.
    - exact I3.
    - intros k' H1 H2. apply (I4 k' H1). simpl in H2. apply in_map_iff in H2 as (e & <- & He).
      apply remove_In in He. apply in_map. tauto.
    - destruct I5 as [S1 S2]. split; [|exact S2]. rewrite Ee. simpl c_np. rewrite S1.
      rewrite (total_ents_remove _ _ _ _ Hnd Hgk). apply sub64_mod.
    - intros k' v t' Hv. rewrite Ee in Hv. apply remove_In in Hv. apply (I6 k' v t'). tauto.
  Qed.

  Lemma shrink_ok t fuel c :
    inv t c -> l_size size (abs c) < W64 -> (length (q_heap (c_q c)) <= fuel)%nat ->
    exists c', shrink top size maxSize fuel c = Ok c' /\ inv t c' /\
      shrinks size maxSize (abs c) (abs c') /\
      (forall h, nd_entry (get_node (c_q c') h) = nd_entry (get_node (c_q c) h)).
  Proof.
    revert c. induction fuel as [|fuel IH]; intros c I Hw Hf.
    all: pose proof (pi_size _ _ _ (i_pq _ _ I)) as Hz.
    all: cbn [shrink]; destruct (N.eqb_spec (q_size (c_q c)) 0) as [Ez|Ez]; cbn [negb andb].
    - exists c. split; [reflexivity|]. split; [exact I|]. split; [|auto].
      apply shrink_stop. left. simpl. destruct (c_acc c); [reflexivity|simpl in Hz; lia].
    - destruct ((c_max c <? q_size (c_q c) + N.of_nat (length (c_pins c)))
        || (maxSize <? add64 (c_np c) (c_pp c))) eqn:Eo.
      + exfalso. assert (E : q_heap (c_q c) = []) by (destruct (q_heap (c_q c)); auto; simpl in Hf; lia).
        destruct (c_acc c) as [|e acc] eqn:Ea; [simpl in Hz; lia|].
        pose proof (pi_live _ _ _ (i_pq _ _ I)) as Hl. rewrite Ea in Hl. apply Forall_inv in Hl.
        destruct Hl as (s & v & _ & _ & Hin & _). rewrite E in Hin. exact Hin.
      + exists c. split; [reflexivity|]. split; [exact I|]. split; [|auto]. apply shrink_stop. right.
        rewrite <- (over_eq t c I Hw). congruence.
    - exists c. split; [reflexivity|]. split; [exact I|]. split; [|auto].
      apply shrink_stop. left. simpl. destruct (c_acc c); [reflexivity|simpl in Hz; lia].
    - destruct ((c_max c <? q_size (c_q c) + N.of_nat (length (c_pins c)))
        || (maxSize <? add64 (c_np c) (c_pp c))) eqn:Eo.
      + apply (over_eq t c I Hw) in Eo.
        assert (Hne : c_acc c <> []) by (intros E; rewrite E in Hz; simpl in Hz; lia).
        destruct (pop_ok top Htop t (c_q c) (c_acc c) (i_pq _ _ I) Hne)
          as (q & k & h & v & s & Ep & Ee & Hin & Hv & Hs & Hmin & Hq & Hg & Hlen).
        rewrite Ep. cbn [bind]. rewrite Ee. cbn [bind].
        destruct (drop_inv t c k h q I Hin Hq Hg) as (Id & Ed & Hp).
        rewrite <- Hv in *. rewrite <- Hs in *.
        set (c1 := {| c_max := c_max c; c_np := sub64 (c_np c) (size v); c_pp := c_pp c;
                      c_q := q; c_pins := c_pins c; c_acc := remove k (c_acc c) |}) in *.
        assert (Hsz : l_size size (abs c) = size v + l_size size (abs c1)).
        { unfold l_size.
          rewrite (total_perm size _ _ (Permutation_map (fun e => fst (snd e)) Hp)). simpl. lia. }
        destruct (IH c1) as (c' & E1 & E2 & E3 & E4); [exact Id|lia|simpl; lia|].
        exists c'. split; [exact E1|]. split; [exact E2|]. split.
        * apply shrink_evict with (k := k) (v := v) (t := s) (rest := l_ents (abs c1)).
          -- exact Eo.
          -- exact Hp.
          -- apply Forall_forall. intros e He. rewrite Ed in He. apply remove_In in He as [He _].
             simpl in He. apply in_map_iff in He as (a & <- & Ha). simpl.
             exact (proj1 (Forall_forall _ _) Hmin a Ha).
          -- exact E3.
        * intros h'. rewrite E4. destruct (Nat.eq_dec h' h) as [->|Hh]; [|simpl; now rewrite Hg].
          destruct (live_in _ _ _ _ (i_pq _ _ I) Hin) as (s' & v' & Hgn & _).
          simpl in Hgn. simpl. unfold h_entry in Ee. unfold val_of in Hv. rewrite Hgn in *. simpl in *.
          destruct (nd_entry (get_node q h)); congruence.
      + exists c. split; [reflexivity|]. split; [exact I|]. split; [|auto]. apply shrink_stop. right.
        rewrite <- (over_eq t c I Hw). congruence.
  Qed.

  Lemma inv_mono t t' c : t <= t' -> inv t c -> inv t' c.
  Proof. intros Ht [H1 H2 H3 H4 H5 H6]. constructor; auto. now apply pq_inv_mono with t. Qed.

  Lemma contains_eq c k :
    contains c k = match get k (l_pins (abs c)), get k (l_ents (abs c)) with
                   | None, None => false | _, _ => true end.
  Proof.
    unfold contains. rewrite get_ents. simpl.
    destruct (get k (c_pins c)), (get k (c_acc c)); reflexivity.
  Qed.

  Lemma new_inv n : inv 0 (new_cache n).
  Proof.
    constructor; simpl; auto using NoDup_nil.
    - exact (clear_ok 0 empty_pq).
    - split; reflexivity.
    - intros k v t [].
  Qed.

  (* the clock after an operation *)
  Definition clock (t : N) (o : op) : N := fold_left N.max (op_time o) t.

  Lemma step_ok t c o :
    inv t c -> Forall (N.le t) (op_time o) -> l_size size (abs c) + op_size size o < W64 ->
    exists c' r, cache_step top size maxSize maxSingle c o = Ok (c', r) /\ inv (clock t o) c' /\
      lru_step size maxSize maxSingle (abs c) o (abs c') r.
  Proof.
    intros I Hc Hw. pose proof I as I'. destruct I' as [I1 I2 I3 I4 I5 I6].
    destruct o as [k now|k v now|k v|n|k|k|k| |]; cbn [cache_step clock op_time fold_left op_size] in *.
    - (* Lookup *)
      apply Forall_inv in Hc. replace (N.max t now) with now by lia.
      unfold cache_lookup. destruct (get k (c_pins c)) as [v|] eqn:Ep.
      { exists c, (Value v). split; [reflexivity|]. split; [now apply inv_mono with t|].
        now apply S_lookup_pinned. }
      destruct (get k (c_acc c)) as [h|] eqn:Ea.
      2: { exists c, Null. split; [reflexivity|]. split; [now apply inv_mono with t|].
           apply S_lookup_none; [exact Ep|]. now rewrite get_ents, Ea. }
      pose proof (get_In _ _ _ Ea) as Hin.
      destruct (update_ok t (c_q c) (c_acc c) k h now I1 Hin Hc) as (q & Eq & Hq & Ee & Hv & Hs & Hg).
      rewrite Eq. cbn [bind]. rewrite Ee. cbn [bind].
      set (c' := {| c_max := c_max c; c_np := c_np c; c_pp := c_pp c; c_q := q; c_pins := c_pins c;
                    c_acc := c_acc c |}).
      assert (Hval : forall h', val_of q h' = val_of (c_q c) h').
      { intros h'. destruct (Nat.eq_dec h' h) as [->|Hh]; auto. unfold val_of. now rewrite Hg. }
      eexists c', _. split; [reflexivity|]. split.
      + constructor; auto.
        * destruct I5 as [S1 S2]. split; [|exact S2]. simpl. rewrite S1. simpl.
          rewrite !map_map. simpl. f_equal. f_equal. apply map_ext. intros e. symmetry. apply Hval.
        * intros k' v' t' Hv'. simpl in Hv'. apply in_map_iff in Hv' as ([k0 h0] & E0 & Hin0).
          unfold ent_of in E0. simpl in E0. injection E0 as <- <- _.
          rewrite Hval. apply (I6 k0 _ (score_of (c_q c) h0)). simpl. apply in_map_iff.
          exists (k0, h0). auto.
      + apply (S_lookup size maxSize maxSingle (abs c) k now (val_of (c_q c) h) (score_of (c_q c) h)
                 (l_ents (abs c'))).
        * exact Ep.
        * now rewrite get_ents, Ea.
        * change (remove k (l_ents (abs c))) with (remove k (map (ent_of (c_q c)) (c_acc c))).
          rewrite <- (ents_remove (c_q c) q (c_acc c) k h I2 Hin (pi_handles _ _ _ I1) Hg) by auto.
          simpl. etransitivity.
          -- apply (Permutation_map (ent_of q)). exact (remove_perm k (c_acc c) h I2 Ea).
          -- simpl. unfold ent_of at 1. simpl. rewrite Hval, Hs. reflexivity.
    - (* Insert *)
      apply Forall_inv in Hc. replace (N.max t now) with now by lia.
      unfold cache_insert. rewrite contains_eq.
      destruct (get k (l_pins (abs c))) as [w|] eqn:Ep.
      { exists c, Duplicate. split; [reflexivity|]. split; [now apply inv_mono with t|].
        apply S_insert_dup. left. congruence. }
      destruct (get k (l_ents (abs c))) as [w|] eqn:Ea.
      { exists c, Duplicate. split; [reflexivity|]. split; [now apply inv_mono with t|].
        apply S_insert_dup. right. congruence. }
      destruct (N.ltb_spec maxSingle (size v)) as [Hs|Hs].
      { exists c, Null. split; [reflexivity|]. split; [now apply inv_mono with t|].
        now apply S_insert_big. }
      destruct (pq_insert (c_q c) now (k, v)) as [q h] eqn:Ei.
      destruct (insert_ok t (c_q c) (c_acc c) k v now q h I1 Hc Ei) as (Hq & Hv & Hsc & Hen & Hold).
      set (c1 := {| c_max := c_max c; c_np := add64 (c_np c) (size v); c_pp := c_pp c; c_q := q;
                    c_pins := c_pins c; c_acc := add_key k h (c_acc c) |}).
      assert (Ee : l_ents (abs c1) = (k, (v, now)) :: l_ents (abs c)).
      { simpl. unfold ent_of at 1. simpl. rewrite Hv, Hsc. f_equal.
        apply map_ext_in. intros e He. unfold ent_of, val_of, score_of.
        now rewrite (proj1 (Forall_forall _ _) Hold e He). }
      assert (Hk : ~ In k (map fst (c_acc c))).
      { rewrite get_ents in Ea. apply get_None. destruct (get k (c_acc c)); [discriminate|reflexivity]. }
      assert (Iv : inv now c1).
      { constructor.
        - exact Hq.
        - simpl. constructor; auto.
        - exact I3.
        - intros k' H1 [<-|H2]; [|exact (I4 k' H1 H2)]. simpl in H1.
          apply get_None in Ep. exact (Ep H1).
        - destruct I5 as [S1 S2]. split; [|exact S2]. rewrite Ee. simpl c_np. rewrite S1.
          rewrite add64_mod. simpl. f_equal. lia.
        - intros k' v' t' Hin. rewrite Ee in Hin. destruct Hin as [Hin|Hin].
          + injection Hin as <- <- <-. exact Hs.
          + exact (I6 k' v' t' Hin). }
      destruct (shrink_ok now (length (q_heap (c_q c1))) c1 Iv) as (c' & E1 & E2 & E3 & E4).
      { unfold l_size in *. rewrite Ee. simpl in *. lia. }
      { lia. }
      unfold shrink_to_fit. rewrite E1. cbn [bind].
      assert (Hfin : h_entry (c_q c') h = Ok (k, v)).
      { unfold h_entry. rewrite E4. exact Hen. }
      rewrite Hfin. cbn [bind].
      exists c', (Value v). split; [reflexivity|]. split; [exact E2|].
      apply S_insert; auto. replace (with_ents (abs c) ((k, (v, now)) :: l_ents (abs c))) with (abs c1).
      { exact E3. }
      unfold with_ents. rewrite <- Ee. reflexivity.
    - (* InsertPinned *)
      unfold cache_insert_pinned. rewrite contains_eq.
      destruct (get k (l_pins (abs c))) as [w|] eqn:Ep.
      { exists c, Duplicate. split; [reflexivity|]. split; [exact I|]. apply S_pin_dup. left. congruence. }
      destruct (get k (l_ents (abs c))) as [w|] eqn:Ea.
      { exists c, Duplicate. split; [reflexivity|]. split; [exact I|]. apply S_pin_dup. right. congruence. }
      destruct (N.ltb_spec maxSingle (size v)) as [Hs|Hs].
      { exists c, TooBig. split; [reflexivity|]. split; [exact I|]. now apply S_pin_big. }
      set (c1 := {| c_max := c_max c; c_np := c_np c; c_pp := add64 (c_pp c) (size v); c_q := c_q c;
                    c_pins := add_key k v (c_pins c); c_acc := c_acc c |}).
      assert (Hk : ~ In k (map fst (c_acc c))).
      { rewrite get_ents in Ea. apply get_None. destruct (get k (c_acc c)); [discriminate|reflexivity]. }
      assert (Iv : inv t c1).
      { constructor; auto.
        - simpl. constructor; auto. now apply get_None.
        - intros k' [<-|H1] H2; [exact (Hk H2)|exact (I4 k' H1 H2)].
        - destruct I5 as [S1 S2]. split; [exact S1|]. simpl. rewrite S2, add64_mod. f_equal. lia. }
      destruct (shrink_ok t (length (q_heap (c_q c1))) c1 Iv) as (c' & E1 & E2 & E3 & E4).
      { unfold l_size in *. simpl in *. lia. }
      { lia. }
      unfold shrink_to_fit. rewrite E1. cbn [bind].
      exists c', (Value v). split; [reflexivity|]. split; [exact E2|]. now apply S_pin.
    - (* SetMax *)
      unfold cache_set_max.
      set (c1 := {| c_max := n; c_np := c_np c; c_pp := c_pp c; c_q := c_q c; c_pins := c_pins c;
                    c_acc := c_acc c |}).
      assert (Iv : inv t c1) by (constructor; auto).
      destruct (shrink_ok t (length (q_heap (c_q c1))) c1 Iv) as (c' & E1 & E2 & E3 & E4).
      { unfold l_size in *. simpl in *. lia. }
      { lia. }
      unfold shrink_to_fit. rewrite E1. cbn [bind].
      exists c', Done. split; [reflexivity|]. split; [exact E2|]. now apply S_setmax.
    - (* Contains *)
      eexists c, _. split; [reflexivity|]. split; [exact I|]. rewrite contains_eq. apply S_contains.
    - (* ContainsPin *)
      unfold cache_contains_pin. destruct (get k (c_pins c)) as [v|] eqn:Ep.
      { exists c, (Answer true). split; [reflexivity|]. split; [exact I|].
        now apply S_containspin_pinned with v. }
      destruct (get k (c_acc c)) as [h|] eqn:Ea.
      2: { exists c, (Answer false). split; [reflexivity|]. split; [exact I|].
           apply S_containspin_none; [exact Ep|]. now rewrite get_ents, Ea. }
      pose proof (get_In _ _ _ Ea) as Hin.
      destruct (erase_ok t (c_q c) (c_acc c) k h I1 Hin) as (q & Eq & Hq & Ee & Hg).
      rewrite Ee. cbn [bind]. rewrite Eq. cbn [bind].
      destruct (drop_inv t c k h q I Hin Hq Hg) as (Id & Ed & Hp).
      eexists _, (Answer true). split; [reflexivity|]. split.
      + destruct Id as [D1 D2 D3 D4 D5 D6]. constructor; auto.
        * simpl. constructor; auto. now apply get_None.
        * intros k' [<-|H1] H2; [|exact (D4 k' H1 H2)].
          simpl in H2. apply in_map_iff in H2 as (e & E & He). apply remove_In in He. tauto.
        * destruct D5 as [S1 S2]. split; [exact S1|]. simpl in *. rewrite S2, add64_mod. f_equal. lia.
      + match goal with |- lru_step _ _ _ _ _ ?x _ =>
          replace x with {| l_max := l_max (abs c); l_ents := remove k (l_ents (abs c));
                            l_pins := (k, val_of (c_q c) h) :: l_pins (abs c) |} end.
        * apply S_containspin with (score_of (c_q c) h); [exact Ep|]. now rewrite get_ents, Ea.
        * rewrite <- Ed. reflexivity.
    - (* Erase *)
      unfold cache_erase. destruct (get k (c_pins c)) as [v|] eqn:Ep.
      { eexists _, Done. split; [reflexivity|]. split.
        - constructor; auto.
          + simpl. now apply NoDup_map_filter.
          + intros k' H1 H2. apply (I4 k'); auto. simpl in H1. apply in_map_iff in H1 as (e & <- & He).
            apply remove_In in He. apply in_map. tauto.
          + destruct I5 as [S1 S2]. split; [exact S1|]. simpl. rewrite S2.
            rewrite (total_perm size _ _ (Permutation_map snd (remove_perm _ _ _ I3 Ep))). simpl.
            apply sub64_mod.
        - match goal with |- lru_step _ _ _ _ _ ?x _ =>
            replace x with {| l_max := l_max (abs c); l_ents := remove k (l_ents (abs c));
                              l_pins := remove k (l_pins (abs c)) |} end.
          + apply S_erase.
          + rewrite (remove_notin k (l_ents (abs c))); [reflexivity|].
            rewrite keys_ents. intros H. apply (I4 k); auto. apply get_In in Ep.
            apply in_map_iff. exists (k, v). auto. }
      destruct (get k (c_acc c)) as [h|] eqn:Ea.
      2: { exists c, Done. split; [reflexivity|]. split; [exact I|].
           replace (abs c) with {| l_max := l_max (abs c); l_ents := remove k (l_ents (abs c));
                              l_pins := remove k (l_pins (abs c)) |} at 2.
           - apply S_erase.
           - rewrite !remove_notin; [reflexivity| |].
             + now apply get_None.
             + rewrite keys_ents. now apply get_None. }
      pose proof (get_In _ _ _ Ea) as Hin.
      destruct (erase_ok t (c_q c) (c_acc c) k h I1 Hin) as (q & Eq & Hq & Ee & Hg).
      rewrite Ee. cbn [bind]. rewrite Eq. cbn [bind].
      destruct (drop_inv t c k h q I Hin Hq Hg) as (Id & Ed & Hp).
      eexists _, Done. split; [reflexivity|]. split; [exact Id|].
      match goal with |- lru_step _ _ _ _ _ ?x _ =>
        replace x with {| l_max := l_max (abs c); l_ents := remove k (l_ents (abs c));
                          l_pins := remove k (l_pins (abs c)) |} end.
      + apply S_erase.
      + rewrite <- Ed, (remove_notin k (l_pins (abs c))); [reflexivity|now apply get_None].
    - (* ClearUnpinned *)
      eexists _, Done. split; [reflexivity|]. split; [|apply S_clear_unpinned].
      constructor; simpl; auto using NoDup_nil.
      + apply clear_ok.
      + destruct I5 as [_ S2]. split; [reflexivity|exact S2].
      + intros k v t' [].
    - (* ClearAll *)
      eexists _, Done. split; [reflexivity|]. split; [|apply S_clear_all].
      constructor; simpl; auto using NoDup_nil.
      + apply clear_ok.
      + split; reflexivity.
      + intros k v t' [].
  Qed.

  (* ---------- runs ---------- *)
  Lemma shrinks_facts a b :
    shrinks size maxSize a b ->
    l_max b = l_max a /\ l_pins b = l_pins a /\ incl (l_ents b) (l_ents a) /\
    l_size size b <= l_size size a /\ (l_ents b = [] \/ ~ over size maxSize b) /\
    (NoDup (map fst (l_ents a)) -> NoDup (map fst (l_ents b))) /\
    (forall e e', In e (l_ents a) -> ~ In e (l_ents b) -> In e' (l_ents b) ->
       snd (snd e) <= snd (snd e')) /\
    (l_ents b = l_ents a \/ over size maxSize a).
  Proof.
    induction 1 as [c Hs|c k v t rest c' Ho Hp Hm Hs IH].
    - repeat split; auto using incl_refl; try lia. intros e e' H1 H2. contradiction.
    - destruct IH as (E1 & E2 & E3 & E4 & E5 & E6 & E7 & _). simpl in *.
      assert (Hinc : incl rest (l_ents c)).
      { intros x Hx. eapply Permutation_in; [symmetry; exact Hp|]. now right. }
      split; [exact E1|]. split; [exact E2|]. split; [eauto using incl_tran|].
      split.
      { unfold l_size in *. simpl in *.
        rewrite (total_perm size _ _ (Permutation_map (fun e => fst (snd e)) Hp)). simpl. lia. }
      split; [exact E5|]. split.
      { intros Hn. apply E6. apply (Permutation_NoDup (Permutation_map fst Hp)) in Hn.
        simpl in Hn. now apply NoDup_cons_iff in Hn. }
      split; [|auto].
      intros e e' H1 H2 H3. apply (Permutation_in _ Hp) in H1 as [<-|H1].
      + simpl. exact (proj1 (Forall_forall _ _) Hm e' (E3 _ H3)).
      + auto.
  Qed.

  Lemma l_size_remove k es :
    total size (map (fun e : N * (N * N) => fst (snd e)) (remove k es)) <=
    total size (map (fun e => fst (snd e)) es).
  Proof.
    induction es as [|e es IH]; [simpl; lia|]. unfold remove in *. simpl.
    destruct (fst e =? k); simpl; lia.
  Qed.

  Lemma l_size_remove_pins k es :
    total size (map (@snd N N) (remove k es)) <= total size (map snd es).
  Proof.
    induction es as [|e es IH]; [simpl; lia|]. unfold remove in *. simpl.
    destruct (fst e =? k); simpl; lia.
  Qed.

  Lemma step_size a o b r :
    NoDup (map fst (l_ents a)) -> lru_step size maxSize maxSingle a o b r ->
    l_size size b <= l_size size a + op_size size o.
  Proof.
    intros Hn H.
    destruct H as [c k now v E1|c k now E1 E2|c k now v t es E1 E2 E3|c k v now E1|c k v now E1 E2 E3
      |c k v now c' E1 E2 E3 E4|c k v E1|c k v E1 E2 E3|c k v c' E1 E2 E3 E4|c n c' E1|c k|c k v E1
      |c k E1 E2|c k v t E1 E2|c k|c|c]; simpl op_size; try lia.
    - unfold l_size. simpl.
      rewrite (total_perm size _ _ (Permutation_map (fun e => fst (snd e)) E3)). simpl.
      rewrite (total_ents_remove _ _ _ _ Hn E2). lia.
    - apply shrinks_facts in E4. destruct E4 as (_ & _ & _ & Hl & _). unfold l_size in *. simpl in *. lia.
    - apply shrinks_facts in E4. destruct E4 as (_ & _ & _ & Hl & _). unfold l_size in *. simpl in *. lia.
    - apply shrinks_facts in E1. destruct E1 as (_ & _ & _ & Hl & _). unfold l_size in *. simpl in *. lia.
    - unfold l_size. simpl. rewrite (total_ents_remove _ _ _ _ Hn E2). lia.
    - unfold l_size. simpl. pose proof (l_size_remove k (l_ents c)).
      pose proof (l_size_remove_pins k (l_pins c)). lia.
    - unfold l_size. simpl. lia.
    - unfold l_size. simpl. lia.
  Qed.

  Lemma run_ok_gen h : forall t c c0 tr0,
    inv t c -> Forall (N.le t) (flat_map op_time h) -> clock_ok h ->
    l_size size (abs c) + inserted_size size h < W64 ->
    lru_run size maxSize maxSingle c0 tr0 (abs c) ->
    exists t' c' tr, cache_run top size maxSize maxSingle c h = Ok (c', tr) /\ map fst tr = h /\
      lru_run size maxSize maxSingle c0 (tr0 ++ tr) (abs c') /\
      inv t' c' /\ t <= t' /\ (forall now, t <= now -> Forall (fun x => x <= now) (flat_map op_time h) -> t' <= now) /\
      l_size size (abs c') <= l_size size (abs c) + inserted_size size h.
  Proof.
    induction h as [|o h IH]; intros t c c0 tr0 I Ht Hc Hw Hr.
    - exists t, c, []. rewrite app_nil_r. simpl. split; [reflexivity|]. split; [reflexivity|].
      split; [exact Hr|]. split; [exact I|]. split; [lia|]. split; [auto|lia].
    - simpl in *. apply Forall_app in Ht as [Ht1 Ht2].
      destruct (step_ok t c o I Ht1) as (c1 & r & E1 & I1 & S1); [lia|].
      rewrite E1. cbn [bind].
      assert (Hn : NoDup (map fst (l_ents (abs c)))) by (rewrite keys_ents; apply I).
      pose proof (step_size _ _ _ _ Hn S1) as Hs1.
      unfold clock_ok in Hc. simpl in Hc.
      assert (Hc' : clock_ok h).
      { unfold clock_ok. clear -Hc. induction (op_time o) as [|x l IH]; simpl in *; auto.
        apply IH. now apply StronglySorted_inv in Hc. }
      assert (Hk : Forall (N.le (clock t o)) (flat_map op_time h) /\ t <= clock t o /\
                   (forall now, t <= now -> Forall (fun x => x <= now) (op_time o) -> clock t o <= now)).
      { clear -Hc Ht1 Ht2. destruct o; simpl in *; unfold clock; simpl;
          try (split; [assumption|split; [lia|intros; assumption]]).
        all: apply StronglySorted_inv in Hc as [_ Hc]; apply Forall_inv in Ht1;
          replace (N.max t now) with now by lia; split; [exact Hc|split; [lia|]];
          intros x _ Hx; now apply Forall_inv in Hx. }
      destruct Hk as (Hk & Hk1 & Hk2).
      destruct (IH (clock t o) c1 c0 (tr0 ++ [(o, r)])) as (t' & c' & tr & E2 & M & R2 & I2 & T1 & T2 & W);
        auto.
      { lia. }
      { econstructor; eauto. }
      rewrite E2. cbn [bind]. exists t', c', ((o, r) :: tr). split; [reflexivity|].
      split; [simpl; congruence|]. split; [now rewrite <- app_assoc in R2|].
      split; [exact I2|]. split; [lia|]. split; [|lia].
      intros now Hnow Hall. apply Forall_app in Hall as [Ha1 Ha2]. apply T2; auto.
  Qed.

  Theorem run_ok n h :
    clock_ok h -> inserted_size size h < W64 ->
    exists t c tr, cache_run top size maxSize maxSingle (new_cache n) h = Ok (c, tr) /\ map fst tr = h /\
      lru_run size maxSize maxSingle {| l_max := n; l_ents := []; l_pins := [] |} tr (abs c) /\ inv t c /\
      (forall now, Forall (fun x => x <= now) (flat_map op_time h) -> t <= now) /\
      l_size size (abs c) <= inserted_size size h.
  Proof.
    intros Hc Hw.
    destruct (run_ok_gen h 0 (new_cache n) {| l_max := n; l_ents := []; l_pins := [] |} [])
      as (t & c & tr & E & M & R & I & _ & T & W); auto.
    - apply new_inv.
    - apply Forall_forall. intros; lia.
    - constructor.
    - exists t, c, tr. split; [exact E|]. split; [exact M|]. split; [exact R|]. split; [exact I|].
      split; [|exact W]. intros now Hnow. apply T; auto. lia.
  Qed.

  (* ---------- histories of the abstract machine ---------- *)
  Lemma last_inserted_snoc tr e k :
    last_inserted (tr ++ [e]) k =
    match inserted_here k e with Some v => Some v | None => last_inserted tr k end.
  Proof. unfold last_inserted. now rewrite fold_left_app. Qed.
  Lemma last_use_snoc tr e k :
    last_use (tr ++ [e]) k = match used_here k e with Some v => Some v | None => last_use tr k end.
  Proof. unfold last_use. now rewrite fold_left_app. Qed.

  Record good (tr : list (op * res)) (a : lru) : Prop := {
    g_ents : NoDup (map fst (l_ents a));
    g_pins : NoDup (map fst (l_pins a));
    g_disj : forall k, In k (map fst (l_pins a)) -> In k (map fst (l_ents a)) -> False;
    g_stored : forall k v t, In (k, (v, t)) (l_ents a) ->
      last_inserted tr k = Some v /\ last_use tr k = Some t;
    g_pinned : forall k v, In (k, v) (l_pins a) -> last_inserted tr k = Some v;
    g_limit : l_ents a = [] \/ ~ over size maxSize a }.

  Lemma good_shrink tr a b :
    NoDup (map fst (l_ents a)) -> NoDup (map fst (l_pins a)) ->
    (forall k, In k (map fst (l_pins a)) -> In k (map fst (l_ents a)) -> False) ->
    (forall k v t, In (k, (v, t)) (l_ents a) -> last_inserted tr k = Some v /\ last_use tr k = Some t) ->
    (forall k v, In (k, v) (l_pins a) -> last_inserted tr k = Some v) ->
    shrinks size maxSize a b -> good tr b.
  Proof.
    intros H1 H2 H3 H4 H5 Hs. destruct (shrinks_facts _ _ Hs) as (E1 & E2 & E3 & E4 & E5 & E6 & _).
    constructor; try rewrite E2.
    - auto.
    - exact H2.
    - intros k Hp He. apply (H3 k Hp). apply in_map_iff in He as (e & <- & He). apply in_map. auto.
    - intros k v t Hin. apply H4. auto.
    - exact H5.
    - exact E5.
  Qed.

  Lemma over_smaller a b :
    l_max b = l_max a -> (length (l_ents b) + length (l_pins b) <= length (l_ents a) + length (l_pins a))%nat ->
    l_size size b <= l_size size a -> ~ over size maxSize a -> ~ over size maxSize b.
  Proof. unfold over. intros -> H1 H2 H3 H4. apply H3. lia. Qed.

  Lemma remove_length {A} k (m : list (N * A)) : (length (remove k m) <= length m)%nat.
  Proof.
    unfold remove. induction m as [|e m IH]; simpl; auto. destruct (fst e =? k); simpl; lia.
  Qed.

  Lemma keys_remove {A} k (m : list (N * A)) k' :
    In k' (map fst (remove k m)) -> In k' (map fst m) /\ k' <> k.
  Proof.
    intros H. apply in_map_iff in H as (e & <- & He). apply remove_In in He as [H1 H2].
    split; auto. now apply in_map.
  Qed.

  Lemma in_key {A} k (a : A) (m : list (N * A)) : In (k, a) m -> In k (map fst m).
  Proof. intros H. apply in_map_iff. exists (k, a). auto. Qed.

  Lemma good_step tr a o b r :
    good tr a -> lru_step size maxSize maxSingle a o b r -> good (tr ++ [(o, r)]) b.
  Proof.
    intros G H. pose proof G as G'. destruct G' as [G1 G2 G3 G4 G5 G6].
    assert (Hframe : (forall k, inserted_here k (o, r) = None) -> (forall k, used_here k (o, r) = None) ->
                     b = a -> good (tr ++ [(o, r)]) b).
    { intros F1 F2 ->. constructor; auto.
      - intros k v t Hin. rewrite last_inserted_snoc, last_use_snoc, F1, F2. auto.
      - intros k v Hin. rewrite last_inserted_snoc, F1. auto. }
    destruct H as [c k now v E1|c k now E1 E2|c k now v t es E1 E2 E3|c k v now E1|c k v now E1 E2 E3
      |c k v now c' E1 E2 E3 E4|c k v E1|c k v E1 E2 E3|c k v c' E1 E2 E3 E4|c n c' E1|c k|c k v E1
      |c k E1 E2|c k v t E1 E2|c k|c|c]; try (apply Hframe; reflexivity).
    - (* lookup of a pinned key *)
      constructor; auto.
      + intros k' v' t Hin. rewrite last_inserted_snoc, last_use_snoc. simpl.
        destruct (N.eqb_spec k k') as [->|]; auto.
        elim (G3 k'); [eapply in_key, get_In; eauto|eapply in_key; eauto].
      + intros k' v' Hin. rewrite last_inserted_snoc. simpl. auto.
    - (* lookup of an unpinned key *)
      pose proof (remove_perm _ _ _ G1 E2) as Hp.
      assert (Hkeys : Permutation (map fst es) (map fst (l_ents c))).
      { rewrite (Permutation_map fst E3), (Permutation_map fst Hp). reflexivity. }
      constructor; simpl.
      + eapply Permutation_NoDup; [symmetry; exact Hkeys|]. exact G1.
      + exact G2.
      + intros k' H1 H2. apply (G3 k' H1). eapply Permutation_in; eauto.
      + intros k' v' t' Hin. apply (Permutation_in _ E3) in Hin. rewrite last_inserted_snoc, last_use_snoc.
        simpl. destruct Hin as [Hin|Hin].
        * injection Hin as <- <- <-. rewrite N.eqb_refl. split; auto.
          apply (G4 k v t). now apply get_In.
        * apply remove_In in Hin as [Hin Hk]. simpl in Hk.
          destruct (N.eqb_spec k k') as [->|]; [congruence|]. auto.
      + intros k' v' Hin. rewrite last_inserted_snoc. simpl. auto.
      + destruct G6 as [G6|G6]; [rewrite G6 in E2; discriminate|]. right.
        apply (over_smaller c); auto; simpl.
        * pose proof (Permutation_length E3). pose proof (Permutation_length Hp). simpl in *. lia.
        * unfold l_size. simpl.
          rewrite (total_perm size _ _ (Permutation_map (fun e => fst (snd e)) E3)).
          rewrite (total_perm size _ _ (Permutation_map (fun e => fst (snd e)) Hp)). simpl. lia.
    - (* insert *)
      apply get_None in E1, E2. eapply good_shrink; [..|exact E4]; simpl; auto.
      + constructor; auto.
      + intros k' H1 [<-|H2]; [contradiction|eauto].
      + intros k' v' t' [Hin|Hin]; rewrite last_inserted_snoc, last_use_snoc; simpl.
        * injection Hin as <- <- <-. rewrite N.eqb_refl. auto.
        * destruct (N.eqb_spec k k') as [->|]; auto. elim E2. eapply in_key; eauto.
      + intros k' v' Hin. rewrite last_inserted_snoc. simpl.
        destruct (N.eqb_spec k k') as [->|]; auto. elim E1. eapply in_key; eauto.
    - (* insert pinned *)
      apply get_None in E1, E2. eapply good_shrink; [..|exact E4]; simpl; auto.
      + constructor; auto.
      + intros k' [<-|H1] H2; [contradiction|eauto].
      + intros k' v' t' Hin; rewrite last_inserted_snoc, last_use_snoc; simpl.
        destruct (N.eqb_spec k k') as [->|]; auto. elim E2. eapply in_key; eauto.
      + intros k' v' [Hin|Hin]; rewrite last_inserted_snoc; simpl.
        * injection Hin as <- <-. now rewrite N.eqb_refl.
        * destruct (N.eqb_spec k k') as [->|]; auto. elim E1. eapply in_key; eauto.
    - (* set max *)
      eapply good_shrink; [..|exact E1]; simpl; auto.
      + intros k' v' t' Hin; rewrite last_inserted_snoc, last_use_snoc; simpl; auto.
      + intros k' v' Hin; rewrite last_inserted_snoc; simpl; auto.
    - (* pin an existing entry *)
      constructor; simpl.
      + now apply NoDup_map_filter.
      + constructor; auto. now apply get_None.
      + intros k' [<-|H1] H2; apply keys_remove in H2 as [H2 H3]; [congruence|eauto].
      + intros k' v' t' Hin. apply remove_In in Hin as [Hin _].
        rewrite last_inserted_snoc, last_use_snoc. simpl. auto.
      + intros k' v' [Hin|Hin]; rewrite last_inserted_snoc; simpl.
        * injection Hin as <- <-. apply (G4 k v t). now apply get_In.
        * auto.
      + destruct G6 as [G6|G6]; [rewrite G6 in E2; discriminate|]. right.
        pose proof (remove_perm _ _ _ G1 E2) as Hp.
        apply (over_smaller c); auto; simpl.
        * pose proof (Permutation_length Hp). simpl in *. lia.
        * unfold l_size. simpl.
          rewrite (total_perm size _ _ (Permutation_map (fun e => fst (snd e)) Hp)). simpl. lia.
    - (* erase *)
      constructor; simpl.
      + now apply NoDup_map_filter.
      + now apply NoDup_map_filter.
      + intros k' H1 H2. apply keys_remove in H1, H2. apply (G3 k'); tauto.
      + intros k' v' t' Hin. apply remove_In in Hin as [Hin _].
        rewrite last_inserted_snoc, last_use_snoc. simpl. auto.
      + intros k' v' Hin. apply remove_In in Hin as [Hin _]. rewrite last_inserted_snoc. simpl. auto.
      + destruct G6 as [G6|G6]; [left; rewrite G6; reflexivity|]. right.
        apply (over_smaller c); auto; simpl.
        * pose proof (remove_length k (l_ents c)). pose proof (remove_length k (l_pins c)). lia.
        * unfold l_size. simpl. pose proof (l_size_remove k (l_ents c)).
          pose proof (l_size_remove_pins k (l_pins c)). lia.
    - constructor; simpl; auto using NoDup_nil.
      + intros k v t [].
      + intros k' v' Hin; rewrite last_inserted_snoc; simpl; auto.
    - constructor; simpl; auto using NoDup_nil; intros; contradiction.
  Qed.

  Lemma good_run n tr a :
    lru_run size maxSize maxSingle {| l_max := n; l_ents := []; l_pins := [] |} tr a -> good tr a.
  Proof.
    intros H. remember {| l_max := n; l_ents := []; l_pins := [] |} as a0 eqn:E.
    induction H as [c|c tr c' o r c'' H IH S]; subst.
    - constructor; simpl; auto using NoDup_nil; intros; contradiction.
    - eapply good_step; eauto.
  Qed.
End Inv.
