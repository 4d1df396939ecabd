(* C19, C20, C21: the query result cache. *)
From Coq Require Import List NArith Arith Lia Permutation Sorted Bool.
From Coq Require Import ZifyBool ZifyN ZifyNat.
From Verif Require Import Cache_Spec Cache_Model Cache_Proof.
Import ListNotations.
Open Scope N_scope.

(* An implementation of top(): the first of the entries with the smallest score. *)
Fixpoint min_from (best : N) (bi i : nat) (heap : list (N * nat)) : nat :=
  match heap with
  | [] => bi
  | e :: heap' => if fst e <? best then min_from (fst e) i (S i) heap' else min_from best bi (S i) heap'
  end.
Definition first_min (heap : list (N * nat)) : nat :=
  match heap with [] => 0%nat | e :: heap' => min_from (fst e) 0 1 heap' end.

Lemma min_from_ok all heap : forall best bi i pre,
  all = pre ++ heap -> i = length pre ->
  (exists h, nth_error all bi = Some (best, h)) -> Forall (fun e => best <= fst e) pre ->
  exists e, nth_error all (min_from best bi i heap) = Some e /\ Forall (fun e' => fst e <= fst e') all.
Proof.
  induction heap as [|e heap IH]; intros best bi i pre Ha Hi [h Hb] Hp; simpl.
  - rewrite app_nil_r in Ha. subst pre. exists (best, h). auto.
  - destruct (N.ltb_spec (fst e) best) as [L|L].
    + apply (IH (fst e) i (S i) (pre ++ [e])).
      * rewrite <- app_assoc. exact Ha.
      * rewrite app_length. simpl. lia.
      * exists (snd e). rewrite Ha, nth_error_app2 by lia. replace (i - length pre)%nat with 0%nat by lia.
        destruct e; reflexivity.
      * apply Forall_app. split; [|repeat constructor; lia].
        eapply Forall_impl; [|exact Hp]. simpl. intros; lia.
    + apply (IH best bi (S i) (pre ++ [e])).
      * rewrite <- app_assoc. exact Ha.
      * rewrite app_length. simpl. lia.
      * eauto.
      * apply Forall_app. split; [exact Hp|repeat constructor; lia].
Qed.

Lemma first_min_ok : top_ok first_min.
Proof.
  intros heap Hne. destruct heap as [|e heap]; [congruence|].
  apply (min_from_ok (e :: heap) heap (fst e) 0 1 [e]); auto.
  - exists (snd e). destruct e; reflexivity.
  - repeat constructor. lia.
Qed.

Section Thm.
  Variable top : list (N * nat) -> nat.
  Variable size : N -> N.
  Variables maxSize maxSingle : N.
  Hypothesis Htop : top_ok top.
  Notation run n h := (cache_run top size maxSize maxSingle (new_cache n) h).
  Notation step := (cache_step top size maxSize maxSingle).

  (* what a history leaves behind *)
  Lemma history n h c tr :
    clock_ok h -> inserted_size size h < W64 -> run n h = Ok (c, tr) ->
    exists t, inv size maxSingle t c /\ good size maxSize tr (abs c) /\
      (forall now, Forall (fun x => x <= now) (flat_map op_time h) -> t <= now) /\
      l_size size (abs c) <= inserted_size size h.
  Proof using Htop.
    intros Hc Hw E.
    destruct (run_ok top size maxSize maxSingle Htop n h Hc Hw)
      as (t & c' & tr' & E' & _ & R & I & T & W).
    rewrite E in E'. injection E' as <- <-. exists t. split; [exact I|].
    split; [|split; [exact T|exact W]]. eapply good_run. exact R.
  Qed.

  Lemma inserted_size_app h o :
    inserted_size size (h ++ [o]) = inserted_size size h + op_size size o.
  Proof. induction h; simpl; [lia|]. rewrite IHh. lia. Qed.

  Lemma sorted_app_l {A} (R : A -> A -> Prop) l1 l2 : StronglySorted R (l1 ++ l2) ->
    StronglySorted R l1 /\ Forall (fun y => Forall (fun x => R x y) l1) l2.
  Proof.
    induction l1 as [|a l1 IH]; simpl; intros H.
    - split; [constructor|]. apply Forall_forall. auto.
    - apply StronglySorted_inv in H as [H1 H2]. apply IH in H1 as [H1 H3].
      apply Forall_app in H2 as [H2 H4]. split; [constructor; auto|].
      apply Forall_forall. intros y Hy. constructor.
      + exact (proj1 (Forall_forall _ _) H4 y Hy).
      + exact (proj1 (Forall_forall _ _) H3 y Hy).
  Qed.

  (* one more operation *)
  Lemma one_more n h o c tr :
    clock_ok (h ++ [o]) -> inserted_size size (h ++ [o]) < W64 -> run n h = Ok (c, tr) ->
    exists t c' r, inv size maxSingle t c /\ good size maxSize tr (abs c) /\
      step c o = Ok (c', r) /\ lru_step size maxSize maxSingle (abs c) o (abs c') r /\
      inv size maxSingle (clock t o) c' /\ good size maxSize (tr ++ [(o, r)]) (abs c').
  Proof using Htop.
    intros Hc Hw E. unfold clock_ok in Hc. rewrite flat_map_app in Hc.
    apply sorted_app_l in Hc as [Hc1 Hc2]. simpl in Hc2. rewrite app_nil_r in Hc2.
    rewrite inserted_size_app in Hw.
    destruct (history n h c tr Hc1) as (t & I & G & T & W); [lia|exact E|].
    destruct (step_ok top size maxSize maxSingle Htop t c o I) as (c' & r & E1 & I1 & S1).
    - apply Forall_forall. intros now Hn. apply T. exact (proj1 (Forall_forall _ _) Hc2 now Hn).
    - lia.
    - exists t, c', r. split; [exact I|]. split; [exact G|]. split; [exact E1|]. split; [exact S1|].
      split; [exact I1|]. eapply good_step; eauto.
  Qed.
End Thm.

(* C19: no history of operations ends in an exception of the priority queue or in undefined behaviour. *)
Theorem C19_no_fault : forall top size maxSize maxSingle n h,
  top_ok top -> clock_ok h -> inserted_size size h < W64 ->
  exists c tr, cache_run top size maxSize maxSingle (new_cache n) h = Ok (c, tr) /\ map fst tr = h.
Proof.
  intros top size maxSize maxSingle n h Ht Hc Hw.
  destruct (run_ok top size maxSize maxSingle Ht n h Hc Hw) as (t & c & tr & E & M & _). eauto.
Qed.
Print Assumptions C19_no_fault.

(* C19: the limits on the number of entries and on the size hold unless there is nothing but pinned
   entries, and no single unpinned entry exceeds the limit for one entry. *)
Theorem C19_limits : forall top size maxSize maxSingle n h c tr,
  top_ok top -> clock_ok h -> inserted_size size h < W64 ->
  cache_run top size maxSize maxSingle (new_cache n) h = Ok (c, tr) ->
  (num_non_pinned c + num_pinned c <= c_max c \/ num_non_pinned c = 0) /\
  (c_np c + c_pp c <= maxSize \/ num_non_pinned c = 0) /\
  (forall k v t, In (k, (v, t)) (l_ents (abs c)) -> size v <= maxSingle).
Proof.
  intros top size maxSize maxSingle n h c tr Ht Hc Hw E.
  destruct (history top size maxSize maxSingle Ht n h c tr Hc Hw E) as (t & I & G & _ & W).
  destruct (g_limit _ _ _ _ G) as [L|L].
  - assert (Hz : num_non_pinned c = 0).
    { unfold num_non_pinned. simpl in L. apply map_eq_nil in L. now rewrite L. }
    split; [auto|]. split; [auto|]. apply I.
  - unfold over in L. simpl in L. rewrite map_length in L.
    split; [left; unfold num_non_pinned, num_pinned; lia|]. split; [left|apply I].
    destruct (i_sizes _ _ _ _ I) as [S1 S2]. unfold l_size in W, L. simpl in W, L.
    assert (c_np c <= total size (map (fun e => fst (snd e)) (map (ent_of (c_q c)) (c_acc c)))).
    { rewrite S1. simpl. apply N.mod_le. discriminate. }
    assert (c_pp c <= total size (map snd (c_pins c))).
    { rewrite S2. simpl. apply N.mod_le. discriminate. }
    lia.
Qed.
Print Assumptions C19_limits.

(* C19: the accounted sizes are the sums of the sizes of the stored values, which are also what
   nonPinnedSize and pinnedSize report. *)
Lemma non_pinned_size_eq size maxSingle t c : inv size maxSingle t c ->
  non_pinned_size size c =
  Ok (total size (map (fun e => fst (snd e)) (l_ents (abs c))) mod W64).
Proof.
  intros I. unfold non_pinned_size. simpl.
  assert (Hl : Forall (live (c_q c) t) (c_acc c)) by apply I.
  assert (G : forall l x, Forall (live (c_q c) t) l ->
    fold_left (fun x e => let* s := x in let* (_, v) := h_entry (c_q c) (snd e) in Ok (add64 s (size v)))
      l (Ok (x mod W64)) =
    Ok ((x + total size (map (fun e => fst (snd e)) (map (ent_of (c_q c)) l))) mod W64)).
  { induction l as [|e l IH]; intros x Hf; simpl.
    - now rewrite N.add_0_r.
    - apply Forall_cons_iff in Hf as [(s & v & Hg & _) Hf].
      replace (h_entry (c_q c) (snd e)) with (Ok (fst e, v)) by (unfold h_entry; now rewrite Hg).
      replace (val_of (c_q c) (snd e)) with v by (unfold val_of; now rewrite Hg).
      cbn [bind]. rewrite add64_mod, IH by exact Hf. f_equal. f_equal. lia. }
  apply (G (c_acc c) 0 Hl).
Qed.

Lemma pinned_size_eq size c :
  pinned_size size c = total size (map snd (c_pins c)) mod W64.
Proof.
  unfold pinned_size.
  assert (G : forall l x, fold_left (fun x e => add64 x (size (snd e))) l (x mod W64) =
    (x + total size (map (@snd N N) l)) mod W64).
  { induction l as [|e l IH]; intros x; simpl; [now rewrite N.add_0_r|].
    rewrite add64_mod, IH. f_equal. lia. }
  apply (G (c_pins c) 0).
Qed.

Theorem C19_accounted_size : forall top size maxSize maxSingle n h c tr,
  top_ok top -> clock_ok h -> inserted_size size h < W64 ->
  cache_run top size maxSize maxSingle (new_cache n) h = Ok (c, tr) ->
  c_np c = total size (map (fun e => fst (snd e)) (l_ents (abs c))) /\
  c_pp c = total size (map snd (c_pins c)) /\
  non_pinned_size size c = Ok (c_np c) /\ pinned_size size c = c_pp c.
Proof.
  intros top size maxSize maxSingle n h c tr Ht Hc Hw E.
  destruct (history top size maxSize maxSingle Ht n h c tr Hc Hw E) as (t & I & G & _ & W).
  destruct (i_sizes _ _ _ _ I) as [S1 S2]. unfold l_size in W. simpl l_pins in W.
  rewrite (non_pinned_size_eq _ _ _ _ I), pinned_size_eq.
  rewrite N.mod_small in S1, S2 by lia. rewrite !N.mod_small by lia.
  rewrite S1, S2. auto.
Qed.
Print Assumptions C19_accounted_size.

(* C19: a pinned entry stays, with its value, unless erased explicitly or by clearing everything. *)
Theorem C19_pinned_stay : forall top size maxSize maxSingle n h o c tr c' r k v,
  top_ok top -> clock_ok (h ++ [o]) -> inserted_size size (h ++ [o]) < W64 ->
  cache_run top size maxSize maxSingle (new_cache n) h = Ok (c, tr) ->
  cache_step top size maxSize maxSingle c o = Ok (c', r) ->
  get k (c_pins c) = Some v -> o <> Erase k -> o <> ClearAll ->
  get k (c_pins c') = Some v.
Proof.
  intros top size maxSize maxSingle n h o c tr c' r k v Ht Hc Hw E E' Hk N1 N2.
  destruct (one_more top size maxSize maxSingle Ht n h o c tr Hc Hw E)
    as (t & c1 & r1 & I & G & E1 & S & _). rewrite E' in E1. injection E1 as <- <-.
  change (c_pins c) with (l_pins (abs c)) in Hk. change (c_pins c') with (l_pins (abs c')).
  generalize dependent (abs c'). generalize dependent (abs c). clear -N1 N2.
  intros a Hk _ b S. destruct S; simpl; auto.
  - apply shrinks_facts in H2 as (_ & -> & _). exact Hk.
  - apply shrinks_facts in H2 as (_ & -> & _). simpl.
    destruct (N.eqb_spec k k0) as [->|]; [congruence|exact Hk].
  - apply shrinks_facts in H as (_ & -> & _). exact Hk.
  - destruct (N.eqb_spec k k0) as [->|]; [congruence|exact Hk].
  - rewrite get_remove. destruct (N.eqb_spec k k0) as [->|]; [congruence|exact Hk].
  - congruence.
Qed.
Print Assumptions C19_pinned_stay.

(* C19: pinning works: afterwards the entry is among the pinned ones *)
Theorem C19_pin : forall top size maxSize maxSingle n h o c tr c' r k,
  top_ok top -> clock_ok (h ++ [o]) -> inserted_size size (h ++ [o]) < W64 ->
  cache_run top size maxSize maxSingle (new_cache n) h = Ok (c, tr) ->
  cache_step top size maxSize maxSingle c o = Ok (c', r) ->
  (o = ContainsPin k /\ r = Answer true \/ exists v w, o = InsertPinned k v /\ r = Value w) ->
  exists v, get k (c_pins c') = Some v /\ last_inserted (tr ++ [(o, r)]) k = Some v.
Proof.
  intros top size maxSize maxSingle n h o c tr c' r k Ht Hc Hw E E' Ho.
  destruct (one_more top size maxSize maxSingle Ht n h o c tr Hc Hw E)
    as (t & c1 & r1 & I & G & E1 & S & _ & G'). rewrite E' in E1. injection E1 as <- <-.
  change (c_pins c') with (l_pins (abs c')).
  assert (H : exists v, get k (l_pins (abs c')) = Some v).
  { clear -Ho S. generalize dependent (abs c'). generalize dependent (abs c). intros a b S.
    destruct Ho as [[-> ->]|(v & w & -> & ->)]; inversion S; subst; simpl; eauto.
    - rewrite N.eqb_refl. eauto.
    - match goal with H : shrinks _ _ _ _ |- _ => apply shrinks_facts in H as (_ & -> & _) end.
      simpl. rewrite N.eqb_refl. eauto. }
  destruct H as [v Hv]. exists v. split; [exact Hv|]. eapply g_pinned; [exact G'|]. now apply get_In.
Qed.
Print Assumptions C19_pin.

(* C20: looking up a key returns the value most recently inserted under it if the cache contains the
   key, and a null pointer otherwise. *)
Theorem C20_lookup : forall top size maxSize maxSingle n h c tr k now,
  top_ok top -> clock_ok (h ++ [Lookup k now]) -> inserted_size size h < W64 ->
  cache_run top size maxSize maxSingle (new_cache n) h = Ok (c, tr) ->
  exists c' r, cache_step top size maxSize maxSingle c (Lookup k now) = Ok (c', r) /\
    (contains c k = true -> exists v, r = Value v /\ last_inserted tr k = Some v) /\
    (contains c k = false -> r = Null).
Proof.
  intros top size maxSize maxSingle n h c tr k now Ht Hc Hw E.
  destruct (one_more top size maxSize maxSingle Ht n h (Lookup k now) c tr Hc) as
    (t & c' & r & I & G & E1 & S & _ & _); [rewrite inserted_size_app; simpl; lia|exact E|].
  exists c', r. split; [exact E1|]. rewrite contains_eq.
  inversion S; subst;
    repeat match goal with H : get k _ = _ |- _ => rewrite H end; split; try discriminate; auto; intros _.
  - exists v. split; [reflexivity|]. eapply g_pinned; [exact G|]. now apply get_In.
  - exists v. split; [reflexivity|].
    match goal with H : get k (l_ents _) = Some (v, ?t0) |- _ =>
      apply (g_stored _ _ _ _ G k v t0); now apply get_In end.
Qed.
Print Assumptions C20_lookup.

(* C20: inserting a key that is present is rejected and changes nothing *)
Theorem C20_duplicate : forall top size maxSize maxSingle c k v now,
  contains c k = true ->
  cache_step top size maxSize maxSingle c (Insert k v now) = Ok (c, Duplicate) /\
  cache_step top size maxSize maxSingle c (InsertPinned k v) = Ok (c, Duplicate).
Proof.
  intros. simpl. unfold cache_insert, cache_insert_pinned. rewrite H. auto.
Qed.
Print Assumptions C20_duplicate.

(* C20: a new key is accepted unless its value is too big, and then it is found, with that value, unless
   it had to be evicted at once to respect the limits *)
Theorem C20_insert : forall top size maxSize maxSingle n h c tr k v now,
  top_ok top -> clock_ok (h ++ [Insert k v now]) -> inserted_size size (h ++ [Insert k v now]) < W64 ->
  cache_run top size maxSize maxSingle (new_cache n) h = Ok (c, tr) ->
  contains c k = false -> size v <= maxSingle ->
  exists c', cache_step top size maxSize maxSingle c (Insert k v now) = Ok (c', Value v) /\
    (num_non_pinned c + num_pinned c + 1 <= c_max c -> c_np c + c_pp c + size v <= maxSize ->
     contains c' k = true /\ (forall k', contains c k' = true -> contains c' k' = true)).
Proof.
  intros top size maxSize maxSingle n h c tr k v now Ht Hc Hw E Hk Hs.
  destruct (one_more top size maxSize maxSingle Ht n h (Insert k v now) c tr Hc Hw E) as
    (t & c' & r & I & G & E1 & S & _ & _).
  rewrite contains_eq in Hk. rewrite inserted_size_app in Hw. simpl in Hw.
  unfold clock_ok in Hc. rewrite flat_map_app in Hc. apply sorted_app_l in Hc as [Hc _].
  destruct (C19_accounted_size top size maxSize maxSingle n h c tr Ht Hc) as (A1 & A2 & _); [lia|exact E|].
  inversion S; subst; try lia.
  - match goal with H : get _ _ <> None \/ _ |- _ => destruct H end; destruct (get k (l_pins (abs c))), (get k (l_ents (abs c))); congruence.
  - exists c'. split; [exact E1|]. intros L1 L2.
    match goal with H : shrinks _ _ _ _ |- _ =>
      apply shrinks_facts in H as (X1 & X2 & X3 & X4 & X5 & X6 & X7 & X8) end.
    destruct X8 as [X8|X8].
    + rewrite contains_eq, X8, X2. simpl. rewrite N.eqb_refl. split.
      * destruct (get k (c_pins c)); reflexivity.
      * intros k'. rewrite !contains_eq, X8, X2. simpl.
        destruct (get k' (c_pins c)); auto. destruct (k' =? k); auto.
    + exfalso. unfold over, l_size in X8. simpl in X8. rewrite map_length in X8.
      unfold num_non_pinned, num_pinned in L1.
      destruct X8 as [X8|X8]; [lia|]. simpl in A1. rewrite <- A2 in X8. lia.
Qed.
Print Assumptions C20_insert.

(* C20: a stored key only disappears by erasing it, by clearing, or by shrinking a cache that exceeds its
   limits; in the last two cases it was not pinned. *)
Theorem C20_kept : forall top size maxSize maxSingle n h o c tr c' r k,
  top_ok top -> clock_ok (h ++ [o]) -> inserted_size size (h ++ [o]) < W64 ->
  cache_run top size maxSize maxSingle (new_cache n) h = Ok (c, tr) ->
  cache_step top size maxSize maxSingle c o = Ok (c', r) ->
  contains c k = true -> contains c' k = false ->
  o = Erase k \/ o = ClearAll \/
  get k (c_pins c) = None /\
  (o = ClearUnpinned \/
   match o with
   | Insert k' v _ =>
       c_max c < num_non_pinned c + num_pinned c + 1 \/ maxSize < c_np c + c_pp c + size v
   | InsertPinned k' v =>
       c_max c < num_non_pinned c + num_pinned c + 1 \/ maxSize < c_np c + c_pp c + size v
   | SetMax m => m < num_non_pinned c + num_pinned c
   | _ => False
   end).
Proof.
  intros top size maxSize maxSingle n h o c tr c' r k Ht Hc Hw E E' Hk Hk'.
  pose proof Hc as Hc0. unfold clock_ok in Hc0. rewrite flat_map_app in Hc0. apply sorted_app_l in Hc0 as [Hc0 _].
  pose proof Hw as Hw0. rewrite inserted_size_app in Hw0.
  destruct (C19_accounted_size top size maxSize maxSingle n h c tr Ht Hc0) as (A1 & A2 & _); [lia|exact E|].
  destruct (C19_limits top size maxSize maxSingle n h c tr Ht Hc0) as (L1 & L2 & _); [lia|exact E|].
  destruct (one_more top size maxSize maxSingle Ht n h o c tr Hc Hw E)
    as (t & c1 & r1 & I & G & E1 & S & _). rewrite E' in E1. injection E1 as <- <-.
  rewrite contains_eq in Hk, Hk'. remember (abs c') as b eqn:Eb. clear Eb.
  destruct o as [k0 now|k0 v now|k0 v|m|k0|k0|k0| |]; auto.
  - exfalso. inversion S; subst; try congruence.
    simpl in Hk, Hk'.
    destruct (get k (c_pins c)); [discriminate|]. destruct (get k es) eqn:Eg; [discriminate|].
    apply get_None in Eg. destruct (get k (map (ent_of (c_q c)) (c_acc c))) as [p|] eqn:Eh; [|discriminate].
    apply Eg.
    match goal with H : Permutation es _ |- _ => apply Permutation_map with (f := fst) in H;
      eapply Permutation_in; [symmetry; exact H|] end. simpl.
    destruct (N.eq_dec k0 k) as [->|Hn]; auto. right.
    apply in_map_iff. exists (k, p). split; auto. apply remove_In. split; [now apply get_In|auto].
  - right. right. inversion S; subst; try congruence.
    match goal with H : shrinks _ _ _ _ |- _ =>
      apply shrinks_facts in H as (X1 & X2 & X3 & X4 & X5 & X6 & X7 & X8) end.
    rewrite X2 in Hk'. simpl in *. destruct (get k (c_pins c)) eqn:Ep; [discriminate|].
    split; [reflexivity|]. right. destruct X8 as [X8|X8].
    + rewrite X8 in Hk'. simpl in Hk'. destruct (k =? k0); [discriminate|].
      destruct (get k (map (ent_of (c_q c)) (c_acc c))); discriminate.
    + unfold over, l_size in X8. simpl in X8. rewrite map_length in X8.
      unfold num_non_pinned, num_pinned. destruct X8; [left; lia|right]. rewrite A1, A2. lia.
  - right. right. inversion S; subst; try congruence.
    match goal with H : shrinks _ _ _ _ |- _ =>
      apply shrinks_facts in H as (X1 & X2 & X3 & X4 & X5 & X6 & X7 & X8) end.
    rewrite X2 in Hk'. simpl in *. destruct (get k (c_pins c)) eqn:Ep;
      [destruct (k =? k0); discriminate|].
    split; [reflexivity|]. right. destruct X8 as [X8|X8].
    + rewrite X8 in Hk'. destruct (k =? k0); [discriminate|].
      destruct (get k (map (ent_of (c_q c)) (c_acc c))); discriminate.
    + unfold over, l_size in X8. simpl in X8. rewrite map_length in X8.
      unfold num_non_pinned, num_pinned. destruct X8; [left; lia|right]. rewrite A1, A2. lia.
  - right. right. inversion S; subst; try congruence.
    match goal with H : shrinks _ _ _ _ |- _ =>
      apply shrinks_facts in H as (X1 & X2 & X3 & X4 & X5 & X6 & X7 & X8) end.
    rewrite X2 in Hk'. simpl in *. destruct (get k (c_pins c)) eqn:Ep; [discriminate|].
    split; [reflexivity|]. right. destruct X8 as [X8|X8].
    + rewrite X8 in Hk'. destruct (get k (map (ent_of (c_q c)) (c_acc c))); discriminate.
    + unfold over, l_size in X8. simpl in X8. rewrite map_length in X8.
      unfold num_non_pinned, num_pinned. destruct X8; [lia|].
      assert (Hz : num_non_pinned c = 0).
      { destruct L2 as [L2|L2]; [rewrite A1, A2 in L2; simpl in L2; lia|exact L2]. }
      exfalso. unfold num_non_pinned in Hz. destruct (c_acc c); [|simpl in Hz; lia]. simpl in Hk.
      discriminate.
  - exfalso. inversion S; subst; congruence.
  - exfalso. inversion S; subst; try congruence.
    simpl in Hk'.
    rewrite get_remove in Hk'. destruct (k =? k0); [discriminate|]. simpl in *. congruence.
  - destruct (N.eq_dec k0 k) as [->|Hn]; auto. exfalso. inversion S; subst.
    simpl in *.
    rewrite !get_remove in Hk'. destruct (N.eqb_spec k k0); congruence.
  - destruct (get k (c_pins c)) eqn:Ep; auto. exfalso. inversion S; subst.
    simpl in *.
    rewrite Ep in Hk'. discriminate.
Qed.
Print Assumptions C20_kept.

(* C21: the heap-based cache behaves like the abstract least-recently-used cache: it gives the same
   results and holds the same entries. *)
Theorem C21_lru : forall top size maxSize maxSingle n h,
  top_ok top -> clock_ok h -> inserted_size size h < W64 ->
  exists c tr, cache_run top size maxSize maxSingle (new_cache n) h = Ok (c, tr) /\ map fst tr = h /\
    lru_run size maxSize maxSingle {| l_max := n; l_ents := []; l_pins := [] |} tr (abs c).
Proof.
  intros top size maxSize maxSingle n h Ht Hc Hw.
  destruct (run_ok top size maxSize maxSingle Ht n h Hc Hw) as (t & c & tr & E & M & R & _). eauto 6.
Qed.
Print Assumptions C21_lru.

(* C21: if an operation evicts the key k and keeps the unpinned key k', then k was not used more
   recently than k'. The time of the last use is computed from the history alone. *)
Theorem C21_oldest_first : forall top size maxSize maxSingle n h o c tr c' r k k' v' t',
  top_ok top -> clock_ok (h ++ [o]) -> inserted_size size (h ++ [o]) < W64 ->
  cache_run top size maxSize maxSingle (new_cache n) h = Ok (c, tr) ->
  cache_step top size maxSize maxSingle c o = Ok (c', r) ->
  contains c k = true \/ (exists v now w, o = Insert k v now /\ r = Value w) ->
  contains c' k = false -> o <> Erase k -> o <> ClearAll -> o <> ClearUnpinned ->
  In (k', (v', t')) (l_ents (abs c')) ->
  exists t, last_use (tr ++ [(o, r)]) k = Some t /\
            last_use (tr ++ [(o, r)]) k' = Some t' /\ t <= t'.
Proof.
  intros top size maxSize maxSingle n h o c tr c' r k k' v' t' Ht Hc Hw E E' Hk Hk' N1 N2 N3 Hin.
  destruct (one_more top size maxSize maxSingle Ht n h o c tr Hc Hw E)
    as (t & c1 & r1 & I & G & E1 & S & _ & G'). rewrite E' in E1. injection E1 as <- <-.
  assert (Hlast : last_use (tr ++ [(o, r)]) k' = Some t') by (apply (g_stored _ _ _ _ G' _ _ _ Hin)).
  assert (Hnot : get k (l_ents (abs c')) = None /\ get k (l_pins (abs c')) = None).
  { rewrite contains_eq in Hk'. destruct (get k (l_pins (abs c'))), (get k (l_ents (abs c'))); auto; discriminate. }
  destruct Hnot as [Hne Hnp]. remember (abs c') as b eqn:Eb. clear Eb.
  (* the state that is shrunk *)
  assert (Hs : exists a, shrinks size maxSize a b /\
    (forall k v t, In (k, (v, t)) (l_ents a) -> last_use (tr ++ [(o, r)]) k = Some t) /\
    (exists v t, In (k, (v, t)) (l_ents a))).
  { destruct Hk as [Hk|(v & now & w & -> & ->)].
    - destruct (C20_kept top size maxSize maxSingle n h o c tr c' r k Ht Hc Hw E E' Hk Hk')
        as [?|[?|[Hp [?|Ho]]]]; try contradiction.
      assert (Hold : exists v t, In (k, (v, t)) (l_ents (abs c))).
      { rewrite contains_eq in Hk. simpl in Hk. rewrite Hp in Hk.
        destruct (get k (map (ent_of (c_q c)) (c_acc c))) as [[v t0]|] eqn:Eg; [|discriminate].
        apply get_In in Eg. eauto. }
      destruct Hold as (v & t0 & Hold).
      destruct o as [k0 now|k0 v0 now|k0 v0|m|k0|k0|k0| |]; try contradiction.
      + inversion S; subst.
        * exfalso. rewrite contains_eq in Hk. rewrite Hne, Hnp in Hk. discriminate.
        * exfalso. rewrite contains_eq in Hk. rewrite Hne, Hnp in Hk. discriminate.
        * eexists. split; [eassumption|]. split; [|exists v, t0; simpl; auto].
          intros k1 v1 t1 Hx. rewrite last_use_snoc. simpl in Hx. simpl.
          destruct Hx as [Hx|Hx].
          -- injection Hx as <- <- <-. now rewrite N.eqb_refl.
          -- destruct (N.eqb_spec k0 k1) as [->|].
             ++ exfalso. match goal with H : get k1 (l_ents (abs c)) = None |- _ => apply get_None in H; apply H end.
                eapply in_key. exact Hx.
             ++ apply (g_stored _ _ _ _ G _ _ _ Hx).
      + inversion S; subst.
        * exfalso. rewrite contains_eq in Hk. rewrite Hne, Hnp in Hk. discriminate.
        * exfalso. rewrite contains_eq in Hk. rewrite Hne, Hnp in Hk. discriminate.
        * eexists. split; [eassumption|]. split; [|exists v, t0; simpl; auto].
          intros k1 v1 t1 Hx. rewrite last_use_snoc. simpl. apply (g_stored _ _ _ _ G _ _ _ Hx).
      + inversion S; subst. eexists. split; [eassumption|]. split; [|exists v, t0; simpl; auto].
        intros k1 v1 t1 Hx. rewrite last_use_snoc. simpl. apply (g_stored _ _ _ _ G _ _ _ Hx).
    - inversion S; subst. eexists. split; [eassumption|]. split; [|exists w, now; simpl; auto].
      intros k1 v1 t1 Hx. rewrite last_use_snoc. simpl in Hx. simpl.
      destruct Hx as [Hx|Hx].
      + injection Hx as <- <- <-. now rewrite N.eqb_refl.
      + destruct (N.eqb_spec k k1) as [->|].
        * exfalso. match goal with H : get k1 (l_ents (abs c)) = None |- _ => apply get_None in H; apply H end.
          eapply in_key. exact Hx.
        * apply (g_stored _ _ _ _ G _ _ _ Hx). }
  destruct Hs as (a & Hs & Hu & v & t0 & Hka). exists t0. split; [eapply Hu; exact Hka|].
  split; [exact Hlast|].
  apply shrinks_facts in Hs as (_ & _ & _ & _ & _ & _ & X & _).
  apply (X (k, (v, t0)) (k', (v', t')) Hka); auto.
  intros Hc'. apply get_None in Hne. apply Hne. eapply in_key. exact Hc'.
Qed.
Print Assumptions C21_oldest_first.

(* ---------- the hypotheses can be met ---------- *)
Definition ex_size (v : N) : N := v.
Definition ex_history : list op :=
  [Insert 1 10 1; Insert 2 20 2; InsertPinned 3 30; Lookup 1 3; Insert 4 40 4; Lookup 1 4;
   Insert 1 11 5; Insert 5 50 6; ContainsPin 5; SetMax 3; Lookup 2 7; Lookup 1 8; Lookup 5 9; ClearUnpinned; Lookup 3 9].

Example C19_C21_example :
  top_ok first_min /\ clock_ok ex_history /\ inserted_size ex_size ex_history < W64 /\
  exists c, cache_run first_min ex_size 120 60 (new_cache 3) ex_history =
    Ok (c, combine ex_history
      [Value 10; Value 20; Value 30; Value 10; Value 40; Value 10; Duplicate; Value 50; Answer true;
       Done; Null; Value 10; Value 50; Done; Value 30]).
Proof.
  split; [apply first_min_ok|]. split.
  { unfold clock_ok. cbn. repeat (apply SSorted_cons || apply SSorted_nil || apply Forall_cons || apply Forall_nil); lia. }
  split; [reflexivity|]. eexists. vm_compute. reflexivity.
Qed.

Example C20_example :
  exists c tr, cache_run first_min ex_size 120 60 (new_cache 3) (firstn 6 ex_history) = Ok (c, tr) /\
    contains c 1 = true /\ contains c 2 = false /\ contains c 3 = true /\ contains c 4 = true /\
    last_inserted tr 1 = Some 10 /\ last_use tr 1 = Some 4.
Proof. eexists _, _. split; [vm_compute; reflexivity|]. vm_compute. auto 10. Qed.

(* ---------- findings ---------- *)

(* With a score that may return to an earlier value of the same entry (not possible for the clock of the
   LRU cache, but allowed by FlexibleCache) the lazily updated heap counts an entry twice: the entry is
   evicted two times and the accounted size becomes wrong. *)
Theorem C19_general_scores_refuted :
  exists h c tr,
    cache_run first_min ex_size 1000 1000 (new_cache 3) h = Ok (c, tr) /\
    c_np c <> total ex_size (map (fun e => fst (snd e)) (l_ents (abs c))).
Proof.
  exists [Insert 1 10 1; Insert 2 20 5; Insert 3 30 6; Lookup 1 2; Lookup 1 1; SetMax 2; SetMax 1]. eexists _, _.
  split; [vm_compute; reflexivity|]. vm_compute. discriminate.
Qed.
Print Assumptions C19_general_scores_refuted.

(* Without a bound on the sum of the sizes, _totalSizeNonPinned + _totalSizePinned wraps around and the
   size limit is not respected. *)
Theorem C19_size_wraps_refuted :
  exists h c tr maxSize,
    clock_ok h /\
    cache_run first_min ex_size maxSize maxSize (new_cache 10) h = Ok (c, tr) /\
    num_non_pinned c <> 0 /\ maxSize < l_size ex_size (abs c).
Proof.
  exists [Insert 1 (2 ^ 63) 1; Insert 2 (2 ^ 63) 2]. eexists _, _, (2 ^ 64 - 1). split.
  { unfold clock_ok. cbn. repeat (apply SSorted_cons || apply SSorted_nil || apply Forall_cons || apply Forall_nil); lia. }
  split; [vm_compute; reflexivity|]. split; [discriminate|]. vm_compute. reflexivity.
Qed.
Print Assumptions C19_size_wraps_refuted.
