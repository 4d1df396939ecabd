(* Proofs for C81. *)
From Coq Require Import ZArith String Bool List Lia Permutation Arith.
From Verif Require Import Table_Spec Ops_Model Vars_Model Vars_Thm Plan_Model Plan_Proof2 Info_Spec Info_Model.
Import ListNotations.
Local Open Scope nat_scope.

Lemma list_set_some {A} : forall (l : list A) i x, i < length l -> exists l', list_set l i x = Some l' /\ length l' = length l /\
  forall c, nth_error l' c = if Nat.eqb c i then Some x else nth_error l c.
Proof.
  induction l as [|a l IH]; intros [|i] x H; cbn in H; try lia.
  - exists (x :: l). cbn. split; auto. split; auto. intros [|c]; reflexivity.
  - destruct (IH i x) as (l' & E & L & N); [lia|]. exists (a :: l'). cbn. rewrite E. cbn. split; auto. split; [now rewrite L|].
    intros [|c]; cbn; auto.
Qed.
Lemma list_set_none {A} : forall (l : list A) i x, length l <= i -> list_set l i x = None.
Proof.
  induction l as [|a l IH]; intros [|i] x H; cbn in *; auto; [lia|]. rewrite IH by lia. reflexivity.
Qed.

Lemma write_names_ok : forall m names, (forall v c, In (v, c) m -> c < length names) -> NoDup (map snd m) ->
  exists names', write_names names m = Some names' /\ length names' = length names /\
    (forall v c, In (v, c) m -> nth_error names' c = Some v) /\
    (forall c, ~ In c (map snd m) -> nth_error names' c = nth_error names c).
Proof.
  induction m as [|[v c] m IH]; intros names H N.
  - exists names. cbn. repeat split; auto. easy.
  - cbn [write_names]. destruct (list_set_some names c v) as (l & E & L & X); [apply (H v); now left|]. rewrite E.
    cbn [map snd] in N. inversion N; subst. destruct (IH l) as (l' & E' & L' & A & B); auto.
    { intros w d Hd. rewrite L. apply (H w). now right. }
    exists l'. split; auto. split; [congruence|]. split.
    + intros w d [Hd|Hd]; auto. injection Hd as <- <-. rewrite B, X, Nat.eqb_refl by auto. reflexivity.
    + intros d Hd. cbn in Hd. rewrite B, X by tauto. destruct (Nat.eqb_spec d c); auto. elim Hd. now left.
Qed.
Lemma write_names_bad : forall m names v c, In (v, c) m -> length names <= c -> write_names names m = None.
Proof.
  induction m as [|[w d] m IH]; intros names v c H L; [easy|]. cbn. destruct (Nat.ltb_spec d (length names)).
  - destruct (list_set_some names d w) as (l & E & L' & _); auto. rewrite E. destruct H as [H|H]; [injection H as -> ->; lia|].
    eapply IH; eauto. lia.
  - now rewrite list_set_none.
Qed.

Lemma names_full m w : full m w -> exists names, setColumnNames m = Some names /\ names_columns (var_find m) w names.
Proof.
  intros F. pose proof (full_desc _ _ F) as (D1 & D2 & D3). pose proof (full_length _ _ F) as L. destruct F as (F1 & F2 & F3 & F4).
  destruct (write_names_ok m (repeat "" (length m))%string) as (names & E & LN & A & B); auto.
  { intros v c H. rewrite repeat_length, L. apply (F2 v). now apply find_in. }
  exists names. split; auto. rewrite repeat_length, L in LN. split; auto. intros c v. split.
  - intros H. assert (Hc : c < w) by (rewrite <- LN; apply nth_error_Some; congruence). destruct (F4 c Hc) as (u & Hu).
    rewrite (A u c) in H by now apply find_in. congruence.
  - intros H. apply A. now apply find_in.
Qed.

(* ---------- full maps of the other operations ---------- *)
Lemma desc_full m w : describes m w -> length m = w -> full m w.
Proof.
  intros (D1 & D2 & D3) L. rewrite Forall_forall in D3.
  assert (I : forall v c, var_find m v = Some c <-> In (v, c) m) by (intros; now apply find_in).
  split; auto. split; [|split].
  - intros v c H. apply D3. apply I in H. now apply (in_map snd) in H.
  - intros v v' c H H'. apply I in H, H'. clear - D2 H H'. induction m as [|[x d] m IH]; [easy|]. cbn in D2. inversion D2; subst.
    destruct H as [H|H], H' as [H'|H']; auto.
    + congruence.
    + injection H as -> ->. elim H2. now apply (in_map snd) in H'.
    + injection H' as -> ->. elim H2. now apply (in_map snd) in H.
  - intros c Hc. assert (X : incl (seq 0 w) (map snd m)).
    { apply NoDup_length_incl; auto; [rewrite map_length, seq_length; lia|]. intros x Hx. apply in_seq. specialize (D3 x Hx). lia. }
    assert (Y : In c (map snd m)) by (apply X, in_seq; lia). apply in_map_iff in Y as ([v d] & E & Hv). cbn in E. subst d.
    exists v. now apply I.
Qed.
Lemma set_new m v c : var_find m v = None -> var_set m v c = m ++ [(v, c)].
Proof.
  unfold var_find. induction m as [|[w d] m IH]; intros H; auto. cbn [find fst] in H. cbn [var_set app]. destruct (String.eqb w v); [discriminate H|]. f_equal. auto.
Qed.
Lemma add_full m w v : full m w -> var_find m v = None -> full (var_set m v w) (w + 1).
Proof.
  intros F H. pose proof (full_desc _ _ F) as (D1 & D2 & D3). pose proof (full_length _ _ F) as L. rewrite set_new by auto.
  assert (Nv : ~ In v (map fst m)).
  { intros X. apply in_map_iff in X as ([x c] & E & Hx). cbn in E. subst x. apply find_in in Hx; auto. congruence. }
  rewrite Forall_forall in D3. apply desc_full.
  - split; [|split].
    + rewrite map_app. apply ListAux.NoDup_app_intro; auto; [repeat constructor; easy|]. intros x Hx [<-|[]]. auto.
    + rewrite map_app. apply ListAux.NoDup_app_intro; auto; [repeat constructor; easy|]. intros x Hx [<-|[]]. specialize (D3 _ Hx). cbn in D3. lia.
    + rewrite map_app. apply Forall_app. split; [apply Forall_forall; intros x Hx; specialize (D3 x Hx); lia|]. repeat constructor. cbn. lia.
  - rewrite app_length. cbn. lia.
Qed.
Lemma empty_full : full [] 0.
Proof. split; [constructor|]. split; [easy|]. split; [easy|]. lia. Qed.
Lemma values_full_gen : forall vs m k, full m k -> NoDup vs -> (forall v, In v vs -> var_find m v = None) ->
  full (values_vars m k vs) (k + length vs).
Proof.
  induction vs as [|v vs IH]; intros m k F N H; cbn [values_vars length]; [now rewrite Nat.add_0_r|]. inversion N; subst.
  replace (k + S (length vs)) with (k + 1 + length vs) by lia. apply IH; auto.
  - apply add_full; auto. apply H. now left.
  - intros x Hx. rewrite find_set. destruct (String.eqb_spec v x); [subst; easy|]. apply H. now right.
Qed.
Lemma union_full_gen : forall mb m w, full m w -> full (union_add_vars m w mb) (length (union_add_vars m w mb)).
Proof.
  induction mb as [|[v d] mb IH]; intros m w F; cbn [union_add_vars].
  - now rewrite (full_length _ _ F).
  - destruct (var_find m v) eqn:E; auto. rewrite <- set_new by auto. apply IH. now apply add_full.
Qed.

Lemma below_mono cs c d : NoDup cs -> c < d -> ~ In c cs ->
  length (filter (fun x => x <? d) cs) + S c <= length (filter (fun x => x <? c) cs) + d.
Proof.
  intros N H Hc. assert (E : Permutation (filter (fun x => x <? d) cs) (filter (fun x => x <? c) cs ++ filter (fun x => (c <=? x) && (x <? d)) cs)).
  { clear N Hc. induction cs as [|a cs IH]; auto. cbn [filter]. destruct (Nat.ltb_spec a d), (Nat.ltb_spec a c), (Nat.leb_spec c a); cbn [andb app]; try lia; auto.
    all: now apply Permutation_cons_app. }
  rewrite E, app_length. enough (length (filter (fun x => (c <=? x) && (x <? d)) cs) <= d - S c) by lia.
  rewrite <- (seq_length (d - S c) (S c)). apply NoDup_incl_length; [now apply NoDup_filter|].
  intros x Hx. apply filter_In in Hx as [Hx B]. apply andb_true_iff in B as [B1 B2]. apply Nat.leb_le in B1. apply Nat.ltb_lt in B2.
  apply in_seq. assert (x <> c) by congruence. lia.
Qed.
Lemma nodup_gb (gb : nat -> nat) (jcs : list (nat * nat)) : (forall d, is_jc jcs d = false <-> ~ In d (map snd jcs)) ->
  (forall d d', ~ In d (map snd jcs) -> ~ In d' (map snd jcs) -> gb d = gb d' -> d = d') ->
  forall mb : var_map, NoDup (map snd mb) ->
  NoDup (map (fun p => gb (snd p)) (filter (fun p : string * nat => negb (is_jc jcs (snd p))) mb)).
Proof.
  intros NJ GI2. induction mb as [|[v d] mb IH]; intros D2; [constructor|]. cbn [map snd] in D2. inversion D2; subst.
  cbn [filter snd]. destruct (is_jc jcs d) eqn:E; cbn [negb map snd]; auto. constructor; auto.
  intros X. apply in_map_iff in X as ([u e] & E1 & X). apply filter_In in X as [X1 X2]. cbn [snd] in *.
  apply negb_true_iff, NJ in X2. apply NJ in E. apply GI2 in E1; auto. subst. apply H1. now apply (in_map snd) in X1.
Qed.
Lemma optional_full ma mb wa wb : full ma wa -> full mb wb ->
  full (optional_vars ma mb wa (join_columns ma mb)) (wa + wb - length (join_columns ma mb)).
Proof.
  intros Fa Fb. pose proof (full_desc _ _ Fa) as Ha. pose proof (full_desc _ _ Fb) as Hb.
  set (jcs := join_columns ma mb). assert (J : jcs_of ma mb jcs) by apply Permutation_refl.
  destruct (jcs_nodup ma mb wa wb _ Ha Hb J) as [_ N2]. set (gb := fun d => wa + (d - length (filter (fun x => x <? d) (map snd jcs)))).
  destruct (multi_count ma mb wa wb jcs Fa Fb J) as [Cn Cl].
  assert (NJ : forall d, is_jc jcs d = false <-> ~ In d (map snd jcs)).
  { intros d. rewrite <- is_jc_in. destruct (is_jc jcs d); intuition. }
  assert (BL : forall d, length (filter (fun x => x <? d) (map snd jcs)) <= d) by (intros d; now apply below_count).
  assert (GI : forall d d', ~ In d (map snd jcs) -> d < d' -> gb d < gb d').
  { intros d d' Hd L. unfold gb. pose proof (below_mono _ d d' N2 L Hd). pose proof (BL d). pose proof (BL d'). lia. }
  assert (GI2 : forall d d', ~ In d (map snd jcs) -> ~ In d' (map snd jcs) -> gb d = gb d' -> d = d').
  { intros d d' Hd Hd' E. destruct (Nat.lt_trichotomy d d') as [L|[L|L]]; auto; [specialize (GI d d' Hd L)|specialize (GI d' d Hd' L)]; lia. }
  assert (FF : forall v, var_find (optional_vars ma mb wa jcs) v = match var_find ma v with Some c => Some c | None => option_map gb (var_find mb v) end).
  { intros v. unfold jcs. rewrite (optional_find ma mb wa wb v Ha Hb). destruct (var_find ma v); auto. }
  assert (GL : forall d, d < wb -> ~ In d (map snd jcs) -> gb d < wa + wb - length jcs).
  { intros d Hd Nd. destruct Fb as (B1 & B2 & B3 & B4). destruct (B4 d Hd) as (v & Ev).
    pose proof (C46_optional_columns ma mb wa wb v (gb d) Ha Hb) as X. fold jcs in X. rewrite FF in X.
    assert (Ea : var_find ma v = None) by (apply (jcs_nonjoin ma mb wb jcs v d (proj1 Ha) Hb J Ev); exact Nd).
    rewrite Ea, Ev in X. now apply X. }
  apply (comb_full ma mb wa wb _ _ (fun c => c) gb (fun d => ~ In d (map snd jcs))); auto.
  - rewrite optional_vars_add. apply add_nodup. apply Ha.
  - intros v d E. apply (jcs_nonjoin ma mb wb jcs v d (proj1 Ha) Hb J E).
  - intros c Hc. lia.
  - intros c d Hc Hd Nd. unfold gb. lia.
  - intros c Hc. destruct (Nat.ltb_spec c wa); [left; eauto|right].
    set (L := map (fun p => gb (snd p)) (filter (fun p : string * nat => negb (is_jc jcs (snd p))) mb)).
    assert (IL : forall x, In x L <-> exists d, In d (map snd mb) /\ ~ In d (map snd jcs) /\ gb d = x).
    { intros x. unfold L. rewrite in_map_iff. split.
      - intros ([v d] & <- & H'). apply filter_In in H' as [H1 H2]. cbn in *. apply negb_true_iff, NJ in H2. exists d. split; auto. now apply (in_map snd) in H1.
      - intros (d & H1 & H2 & <-). apply in_map_iff in H1 as ([v d'] & <- & H1). exists (v, d'). split; auto. apply filter_In. split; auto. cbn. apply negb_true_iff. now apply NJ. }
    assert (LB : forall d, In d (map snd mb) -> d < wb) by (destruct Hb as (_ & _ & D3); rewrite Forall_forall in D3; auto).
    assert (NL : NoDup L) by (unfold L; apply nodup_gb; auto; apply Hb).
    assert (X : incl (seq wa (wb - length jcs)) L).
    { apply NoDup_length_incl; auto; [unfold L; rewrite map_length, seq_length, Cn; lia|]. intros x Hx. apply IL in Hx as (d & H1 & H2 & <-).
      apply in_seq. specialize (GL d (LB d H1) H2). unfold gb in *. lia. }
    assert (Y : In c L) by (apply X, in_seq; lia). apply IL in Y as (d & H1 & H2 & H3). exists d. auto.
Qed.

(* ---------- times ---------- *)
Local Open Scope Z_scope.
Lemma info_ind' (P : info -> Prop) :
  (forall t r c b d n x ch, (forall i, In i ch -> P i) -> P (Info t r c b d n x ch)) -> forall i, P i.
Proof.
  intros H. fix IH 1. intros [t r c b d n x ch]. apply H.
  induction ch as [|i ch IHc]; intros z Hz.
  - destruct Hz.
  - destruct Hz as [E|Hz]; [rewrite <- E; apply IH|now apply IHc].
Qed.
Lemma all_own_total : forall i, all_own (shown_times i) = i_time i.
Proof.
  induction i as [t r c b d n x ch IH] using info_ind'. cbn [shown_times all_own i_time]. unfold getOperationTime, getChildrenTime.
  cbn [i_cached i_time i_children]. destruct b; [lia|]. rewrite map_map.
  rewrite (map_ext_in (fun i => all_own (shown_times i)) i_time ch IH). lia.
Qed.
Lemma sum_div : forall l, (forall x, In x l -> 0 <= x) -> sum (map (fun x => x / 1000) l) <= sum l / 1000.
Proof.
  induction l as [|x l IH]; intros H; cbn [map sum]; [reflexivity|]. specialize (IH (fun y Hy => H y (or_intror Hy))).
  assert (x / 1000 + sum l / 1000 <= (x + sum l) / 1000); [|lia]. apply Z.div_le_lower_bound; [lia|].
  pose proof (Z.mul_div_le x 1000). pose proof (Z.mul_div_le (sum l) 1000). lia.
Qed.

Lemma add_details_children : forall l i, i_children (add_details i l) = i_children i.
Proof.
  unfold add_details. induction l as [|p l IH]; intros i; cbn [fold_left]; auto. rewrite IH. now destruct i.
Qed.
Lemma add_children_children i l : i_children (add_children i l) = i_children i ++ l.
Proof. now destruct i. Qed.
Lemma create_ok o v rows b time i : createRuntimeInformation o v rows b time = Some i ->
  setColumnNames (st_vars o) = Some (i_names i) /\ i_time i = time /\ i_rows i = rows /\ i_cols i = st_width o /\ i_cached i = b /\
  i_descriptor i = st_descriptor o /\ i_children i = i_children v /\
  detail i "original_total_time" = Some (i_time v) /\ detail i "original_operation_time" = Some (getOperationTime v) /\
  (forall k, k <> "original_total_time"%string -> k <> "original_operation_time"%string -> detail i k = None).
Proof.
  unfold createRuntimeInformation. destruct (setColumnNames (st_vars o)) as [names|]; [|discriminate]. intros E. injection E as <-.
  cbn [addDetail set_detail]. change (("original_total_time" =? "original_operation_time")%string) with false. cbn iota.
  cbn [i_names i_time i_rows i_cols i_cached i_descriptor i_children].
  repeat (split; [reflexivity|]). intros k H1 H2. unfold detail. cbn [i_details find fst].
  destruct (String.eqb_spec "original_total_time" k); [congruence|]. destruct (String.eqb_spec "original_operation_time" k); [congruence|]. reflexivity.
Qed.

Lemma path_full a b : a <> b -> full (path_vars a b) 2.
Proof.
  intros H. unfold path_vars. change 2%nat with (0 + 1 + 1)%nat. change 1%nat with (0 + 1)%nat at 1. apply add_full.
  - apply add_full; [apply empty_full|reflexivity].
  - cbn [var_set]. unfold var_find. cbn [find fst]. destruct (String.eqb_spec a b); [easy|reflexivity].
Qed.
Lemma path_bound_full side w sc here there (left : bool) : full side w -> var_find side here = Some sc ->
  var_find side there = None -> here <> there ->
  full (path_bind_vars (if left then path_vars here there else path_vars there here) side sc) (w + 1).
Proof.
  intros F Hh Ht Hne. pose proof (full_desc _ _ F) as D. pose proof (desc_lt _ _ _ _ D Hh) as Hsc. rewrite path_bind_add.
  assert (Hp : forall a b v, var_find (path_vars a b) v = if String.eqb b v then Some 1%nat else if String.eqb a v then Some 0%nat else None).
  { intros a b v. unfold path_vars. rewrite !find_set. destruct (String.eqb b v); auto. }
  apply (comb_full side [(there, 0%nat)] w 1 _ _
    (fun c => if c =? sc then (if left then 0 else 1) else if sc <? c then c + 1 else c + 2)%nat
    (fun _ => if left then 1 else 0)%nat (fun _ => True)); auto.
  - change 1%nat with (0 + 1)%nat. apply (add_full [] 0 there); [apply empty_full|reflexivity].
  - apply add_nodup. destruct left; unfold path_vars; apply set_nodup, set_nodup; constructor.
  - intros v. rewrite find_add by apply D. destruct (var_find side v) as [c|] eqn:E.
    + destruct (Nat.eqb_spec c sc) as [->|N].
      * assert (here = v) by (eapply desc_inj; eauto). subst v. destruct left; rewrite Hp, String.eqb_refl; [|reflexivity].
        destruct (String.eqb_spec there here); [congruence|]. reflexivity.
      * destruct (sc <? c)%nat; reflexivity.
    + rewrite find_cons. destruct (String.eqb_spec here v); [congruence|].
      destruct left; rewrite Hp; destruct (String.eqb_spec there v); cbn [option_map]; auto;
      destruct (String.eqb_spec here v); auto; congruence.
  - intros v d E. split; auto. intros _. rewrite find_cons in E. destruct (String.eqb_spec there v); [now subst|discriminate].
  - intros c Hc. destruct (Nat.eqb_spec c sc), (Nat.ltb_spec sc c), left; lia.
  - intros c c' Hc Hc'. destruct (Nat.eqb_spec c sc), (Nat.ltb_spec sc c), (Nat.eqb_spec c' sc), (Nat.ltb_spec sc c'), left; lia.
  - intros d Hd _. destruct left; lia.
  - intros d d' Hd Hd'. lia.
  - intros c d Hc Hd _. destruct (Nat.eqb_spec c sc), (Nat.ltb_spec sc c), left; lia.
  - intros c Hc. destruct (Nat.ltb_spec c 2).
    + destruct left; (destruct (Nat.eqb_spec c 0); [|assert (c = 1%nat) by lia]); subst;
      try (left; exists sc; split; [exact Hsc|now rewrite Nat.eqb_refl]); right; exists 0%nat; auto.
    + left. destruct (Nat.ltb_spec (c - 2) sc).
      * exists (c - 2)%nat. split; [lia|]. destruct (Nat.eqb_spec (c - 2) sc), (Nat.ltb_spec sc (c - 2)); lia.
      * exists (c - 1)%nat. split; [lia|]. destruct (Nat.eqb_spec (c - 1) sc), (Nat.ltb_spec sc (c - 1)); lia.
Qed.
Lemma some_pair {A B} (a a' : A) (b b' : B) : Some (a, b) = Some (a', b') -> a = a' /\ b = b'.
Proof. intros H. injection H as -> ->. auto. Qed.
