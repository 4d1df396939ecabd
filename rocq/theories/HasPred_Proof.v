From Coq Require Import List NArith Arith Bool Lia Permutation Sorted ZifyBool ZifyN ZifyNat.
From Verif Require Import Table_Spec HasPred_Spec HasPred_Model ListAux Path_Proof Path_Proof2.
Import ListNotations.
Open Scope N_scope.

Lemma lookup_ok ix id : index_ok ix ->
  match lookup ix id with
  | Preds ps (Some k) => predicates_of ix id = ps /\ nth_error (patterns ix) (N.to_nat k) = Some ps
  | Preds ps None => predicates_of ix id = ps
  | Neither => predicates_of ix id = []
  | Fault => False
  end.
Proof.
  intros Hok. unfold lookup, predicates_of.
  assert (Hex : match (if id <? N.of_nat (length (hasPredicate ix))
                       then Preds (nth (N.to_nat id) (hasPredicate ix) []) None else Neither) with
                | Preds ps (Some k) => nth (N.to_nat id) (hasPredicate ix) [] = ps /\ nth_error (patterns ix) (N.to_nat k) = Some ps
                | Preds ps None => nth (N.to_nat id) (hasPredicate ix) [] = ps
                | Neither => nth (N.to_nat id) (hasPredicate ix) [] = []
                | Fault => False end).
  { destruct (id <? N.of_nat (length (hasPredicate ix))) eqn:E; auto. apply nth_overflow. lia. }
  destruct (id <? N.of_nat (length (hasPattern ix))) eqn:E.
  - assert (Hlt : (N.to_nat id < length (hasPattern ix))%nat) by lia.
    rewrite (nth_error_nth' _ 0 Hlt). destruct (nth (N.to_nat id) (hasPattern ix) 0 =? NO_PATTERN) eqn:Ek; auto.
    unfold index_ok in Hok. rewrite Forall_forall in Hok.
    destruct (Hok _ (nth_In _ 0 Hlt)) as [H|H]; [lia|].
    rewrite (nth_error_nth' (patterns ix) []) by lia. split; [auto|]. apply nth_error_nth'. lia.
  - replace (nth_error (hasPattern ix) (N.to_nat id)) with (@None N); auto.
    symmetry. apply nth_error_None. lia.
Qed.

Lemma all_ids_spec ix id : In id (all_ids ix) <->
  id < N.of_nat (max (length (hasPattern ix)) (length (hasPredicate ix))).
Proof.
  unfold all_ids. rewrite in_map_iff. split.
  - intros (n & <- & H). apply in_seq in H. lia.
  - intros H. exists (N.to_nat id). split; [lia|]. apply in_seq. lia.
Qed.
Lemma all_ids_nodup ix : NoDup (all_ids ix).
Proof. apply NoDup_map_inj; [intros; lia|]. apply seq_NoDup. Qed.
Lemma seq_sorted n : forall a, StronglySorted N.lt (map N.of_nat (seq a n)).
Proof.
  induction n as [|n IH]; intros a; simpl; constructor; auto.
  apply Forall_forall. intros x Hx. apply in_map_iff in Hx. destruct Hx as (k & <- & Hk).
  apply in_seq in Hk. lia.
Qed.
Lemma not_in_ids ix e : ~ In e (all_ids ix) -> predicates_of ix e = [].
Proof.
  rewrite all_ids_spec. intros H. unfold predicates_of.
  replace (nth_error (hasPattern ix) (N.to_nat e)) with (@None N) by (symmetry; apply nth_error_None; lia).
  apply nth_overflow. lia.
Qed.

(* ---- scans ---- *)

Lemma full_scan_eq ix ids : index_ok ix -> full_scan ix ids =
  Some (flat_map (fun e => map (fun p => [e; p]) (predicates_of ix e)) ids).
Proof.
  intros Hok. induction ids as [|e ids IH]; cbn [full_scan flat_map]; auto. rewrite IH.
  pose proof (lookup_ok ix e Hok) as H. destruct (lookup ix e) as [ps [k|]| |].
  - destruct H as [-> _]. reflexivity.
  - rewrite H. reflexivity.
  - rewrite H. reflexivity.
  - contradiction.
Qed.

Lemma preds_nodup ix e : lists_distinct ix -> NoDup (predicates_of ix e).
Proof.
  intros [H1 H2]. rewrite Forall_forall in H1, H2. unfold predicates_of.
  assert (Ha : forall n (l : list (list N)), (forall x, In x l -> NoDup x) -> NoDup (nth n l [])).
  { intros n l Hl. destruct (Nat.lt_ge_cases n (length l)); [apply Hl, nth_In; auto|].
    rewrite nth_overflow by auto. constructor. }
  destruct (nth_error _ _); [destruct (_ =? _)|]; apply Ha; auto.
Qed.

Lemma full_scan_correct ix : index_ok ix -> exists res, compute_full_scan ix = Some res /\
  (forall r, In r res <-> exists e p, r = [e; p] /\ In p (predicates_of ix e)) /\
  (lists_distinct ix -> NoDup res) /\ sorted_on 0 res.
Proof.
  intros Hok. unfold compute_full_scan. rewrite full_scan_eq by auto. eexists. split; [reflexivity|].
  split; [|split].
  - intros r. rewrite in_flat_map. split.
    + intros (e & He & H). apply in_map_iff in H. destruct H as (p & <- & Hp). exists e, p. auto.
    + intros (e & p & -> & Hp). exists e. split; [|now apply (in_map (fun p => [e; p]))].
      destruct (in_dec N.eq_dec e (all_ids ix)) as [|Hn]; auto. rewrite (not_in_ids ix e Hn) in Hp. contradiction.
  - intros Hd. apply (NoDup_flat_map (fun r => col 0 r) (fun x => x)); auto.
    + apply all_ids_nodup.
    + intros e _. apply NoDup_map_inj; [congruence|]. now apply preds_nodup.
    + intros x y Hy. apply in_map_iff in Hy. destruct Hy as (z & <- & _). reflexivity.
  - apply strong_sorted_on. unfold all_ids.
    pose proof (seq_sorted (max (length (hasPattern ix)) (length (hasPredicate ix))) 0) as Hs.
    revert Hs. generalize (map N.of_nat (seq 0 (max (length (hasPattern ix)) (length (hasPredicate ix))))).
    induction 1 as [|e l Hl IH He]; simpl; [constructor|].
    assert (Hgen : forall ps, StronglySorted (fun r s => col 0 r <= col 0 s)
       (map (fun p => [e; p]) ps ++ flat_map (fun e => map (fun p => [e; p]) (predicates_of ix e)) l)).
    { induction ps as [|p ps IHp]; simpl; auto. constructor; auto. apply Forall_forall. intros r Hr.
      apply in_app_iff in Hr. destruct Hr as [Hr|Hr].
      - apply in_map_iff in Hr. destruct Hr as (q & <- & _). cbn. lia.
      - apply in_flat_map in Hr. destruct Hr as (e' & He' & Hr). apply in_map_iff in Hr.
        destruct Hr as (q & <- & _). rewrite Forall_forall in He. specialize (He e' He'). cbn. lia. }
    apply Hgen.
Qed.

Lemma free_s_eq ix p ids : index_ok ix -> free_s ix p ids =
  Some (flat_map (fun e => map (fun _ => [e]) (filter (fun q => q =? p) (predicates_of ix e))) ids).
Proof.
  intros Hok. induction ids as [|e ids IH]; cbn [free_s flat_map]; auto. rewrite IH.
  pose proof (lookup_ok ix e Hok) as H. destruct (lookup ix e) as [ps [k|]| |].
  - destruct H as [-> _]. reflexivity.
  - rewrite H. reflexivity.
  - rewrite H. reflexivity.
  - contradiction.
Qed.

Lemma free_s_correct ix p : index_ok ix -> exists res, compute_free_s ix p = Some res /\
  (forall r, In r res <-> exists e, r = [e] /\ In p (predicates_of ix e)) /\
  (lists_distinct ix -> NoDup res).
Proof.
  intros Hok. unfold compute_free_s. rewrite free_s_eq by auto. eexists. split; [reflexivity|]. split.
  - intros r. rewrite in_flat_map. split.
    + intros (e & He & H). apply in_map_iff in H. destruct H as (q & <- & Hq). apply filter_In in Hq.
      destruct Hq as [Hq Eq]. apply N.eqb_eq in Eq. subst q. exists e. auto.
    + intros (e & -> & Hp). exists e. split.
      * destruct (in_dec N.eq_dec e (all_ids ix)) as [|Hn]; auto. rewrite (not_in_ids ix e Hn) in Hp. contradiction.
      * apply in_map_iff. exists p. split; auto. apply filter_In. split; auto. apply N.eqb_refl.
  - intros Hd. apply (NoDup_flat_map (fun r => col 0 r) (fun x => x)); auto.
    + apply all_ids_nodup.
    + intros e _. pose proof (preds_nodup ix e Hd) as Hn. induction Hn as [|q l Hq Hn IH]; simpl; [constructor|].
      destruct (q =? p) eqn:E; auto. simpl. constructor; auto. apply N.eqb_eq in E. subst q.
      intros H. apply in_map_iff in H. destruct H as (z & _ & Hz). apply filter_In in Hz.
      destruct Hz as [Hz Ez]. apply N.eqb_eq in Ez. now subst.
    + intros x y Hy. apply in_map_iff in Hy. destruct Hy as (z & <- & _). reflexivity.
Qed.

Lemma free_o_correct ix e : index_ok ix ->
  compute_free_o ix e = Some (map (fun p => [p]) (predicates_of ix e)).
Proof.
  intros Hok. unfold compute_free_o. pose proof (lookup_ok ix e Hok) as H.
  destruct (lookup ix e) as [ps [k|]| |].
  - destruct H as [-> _]. reflexivity.
  - now rewrite H.
  - now rewrite H.
  - contradiction.
Qed.

Lemma lookup_neither ix e : lookup ix e = Neither ->
  (N.of_nat (length (hasPredicate ix)) <= e)%N /\
  (N.of_nat (length (hasPattern ix)) <= e \/ nth (N.to_nat e) (hasPattern ix) 0 = NO_PATTERN).
Proof.
  unfold lookup. destruct (e <? N.of_nat (length (hasPredicate ix))) eqn:E1.
  - destruct (e <? N.of_nat (length (hasPattern ix))); [|discriminate].
    destruct (_ =? _); [discriminate|]. destruct (nth_error _ _); discriminate.
  - intros H. split; [lia|]. destruct (e <? N.of_nat (length (hasPattern ix))) eqn:E2; [|left; lia].
    right. destruct (nth (N.to_nat e) (hasPattern ix) 0 =? NO_PATTERN) eqn:E3; [lia|].
    destruct (nth_error _ _); discriminate.
Qed.

Lemma subquery_correct ix c input : index_ok ix -> sorted_on c input ->
  (forall r, In r input -> N.of_nat (length (hasPredicate ix)) <= col c r < N.of_nat (length (hasPattern ix)) ->
     nth (N.to_nat (col c r)) (hasPattern ix) 0 <> NO_PATTERN) ->
  compute_subquery_s ix c input =
  Some (flat_map (fun r => map (fun p => r ++ [p]) (predicates_of ix (col c r))) input).
Proof.
  intros Hok Hs. apply sorted_on_strong in Hs.
  induction Hs as [|r input Hs IH Hr]; intros Hk; cbn [compute_subquery_s flat_map]; auto.
  assert (Hk' : forall r0, In r0 input -> N.of_nat (length (hasPredicate ix)) <= col c r0 < N.of_nat (length (hasPattern ix)) ->
     nth (N.to_nat (col c r0)) (hasPattern ix) 0 <> NO_PATTERN) by (intros r0 H0; apply Hk; right; auto).
  specialize (IH Hk'). pose proof (lookup_ok ix (col c r) Hok) as H.
  destruct (lookup ix (col c r)) as [ps [k|]| |] eqn:El.
  - destruct H as [-> _]. rewrite IH. reflexivity.
  - rewrite IH, H. reflexivity.
  - apply lookup_neither in El. destruct El as [H1 H2]. f_equal.
    assert (Hbig : N.of_nat (length (hasPattern ix)) <= col c r).
    { destruct H2 as [H2|H2]; auto. destruct (N.le_gt_cases (N.of_nat (length (hasPattern ix))) (col c r)); auto.
      exfalso. apply (Hk r); [left; auto|lia|auto]. }
    rewrite H. cbn [map app]. clear - Hr H1 Hbig.
    induction Hr as [|s input Hsr Hr IH]; simpl; auto. rewrite <- IH.
    rewrite not_in_ids; auto. rewrite all_ids_spec. lia.
  - contradiction.
Qed.

(* ---- counting ---- *)

Fixpoint get (m : counts) (k : N) : N :=
  match m with [] => 0 | (k', c) :: m' => if k' =? k then c else get m' k end.
Definition keys_ok (m : counts) : Prop := NoDup (map fst m) /\ Forall (fun e => 0 < snd e) m.

Lemma get_incr m k n k' : get (incr m k n) k' = get m k' + (if k =? k' then n else 0).
Proof.
  induction m as [|[x c] m IH]; simpl.
  - destruct (k =? k'); lia.
  - destruct (x =? k) eqn:E; simpl.
    + destruct (x =? k') eqn:E2; destruct (k =? k') eqn:E3; lia.
    + destruct (x =? k') eqn:E2; auto. destruct (k =? k') eqn:E3; lia.
Qed.
Lemma keys_incr m k n x : In x (map fst (incr m k n)) <-> x = k \/ In x (map fst m).
Proof.
  induction m as [|[y c] m IH]; simpl; [intuition|]. destruct (y =? k) eqn:E; simpl.
  - apply N.eqb_eq in E. subst. intuition.
  - rewrite IH. intuition.
Qed.
Lemma incr_keys_ok m k n : 0 < n -> keys_ok m -> keys_ok (incr m k n).
Proof.
  intros Hn [H1 H2]. split.
  - induction m as [|[y c] m IH]; simpl in *; [repeat constructor; auto|].
    inversion H1; inversion H2; subst. destruct (y =? k) eqn:E; simpl.
    + constructor; auto.
    + constructor; auto. rewrite keys_incr. intros [H|H]; [lia|auto].
  - clear H1. induction m as [|[y c] m IH]; simpl in *; [repeat constructor; auto|].
    inversion H2; subst. destruct (y =? k); constructor; auto. simpl in *. lia.
Qed.
Lemma get_In m k c : NoDup (map fst m) -> (In (k, c) m -> get m k = c).
Proof.
  induction m as [|[x d] m IH]; simpl; [tauto|]. intros Hn. inversion Hn; subst.
  intros [H|H].
  - injection H as -> ->. now rewrite N.eqb_refl.
  - destruct (x =? k) eqn:E; auto. apply N.eqb_eq in E. subst x.
    exfalso. apply H1. apply in_map_iff. exists (k, c). auto.
Qed.
Lemma get_pos_In m k : get m k <> 0 -> In (k, get m k) m.
Proof.
  induction m as [|[x d] m IH]; simpl; [congruence|]. destruct (x =? k) eqn:E; auto.
  apply N.eqb_eq in E. subst. auto.
Qed.

Lemma incr_all_get ps n : forall m p, NoDup ps ->
  get (incr_all m ps n) p = get m p + (if mem p ps then n else 0).
Proof.
  unfold incr_all. induction ps as [|q ps IH]; intros m p Hn; simpl; [lia|].
  inversion Hn as [|? ? Hq Hn']; subst. rewrite IH by auto. rewrite get_incr.
  unfold mem. cbn [existsb]. fold (mem p ps). rewrite (N.eqb_sym p q).
  destruct (q =? p) eqn:E; simpl; [|lia]. apply N.eqb_eq in E. subst q.
  apply mem_false in Hq. rewrite Hq. lia.
Qed.
Lemma incr_all_keys_ok ps n : 0 < n -> forall m, keys_ok m -> keys_ok (incr_all m ps n).
Proof.
  intros Hn. unfold incr_all. induction ps as [|q ps IH]; intros m Hm; simpl; auto.
  apply IH. now apply incr_keys_ok.
Qed.

Section Count.
  Variable ix : pattern_index.
  Hypothesis Hok : index_ok ix.
  Hypothesis Hdis : lists_distinct ix.

  (* what the patterns contribute to the count of p *)
  Fixpoint contrib (p : N) (m : counts) : N :=
    match m with
    | [] => 0
    | (k, n) :: m' => (if mem p (nth (N.to_nat k) (patterns ix) []) then n else 0) + contrib p m'
    end.
  Definition pats_ok (m : counts) : Prop :=
    Forall (fun e => 0 < snd e /\ (N.to_nat (fst e) < length (patterns ix))%nat) m.
  Definition has (p e : N) : bool := mem p (predicates_of ix e).
  Definition total (p : N) (st : counts * counts) : N := get (fst st) p + contrib p (snd st).
  Definition st_ok (st : counts * counts) : Prop := keys_ok (fst st) /\ pats_ok (snd st).

  Lemma contrib_incr p m k n : contrib p (incr m k n) =
    contrib p m + (if mem p (nth (N.to_nat k) (patterns ix) []) then n else 0).
  Proof.
    induction m as [|[x c] m IH]; cbn [incr contrib]; [lia|]. destruct (x =? k) eqn:E; cbn [contrib].
    - apply N.eqb_eq in E. subst. destruct (mem p _); lia.
    - rewrite IH. lia.
  Qed.
  Lemma contrib_perm p m m' : Permutation m m' -> contrib p m = contrib p m'.
  Proof.
    induction 1 as [|[k n] m m' _ IH|[k n] [k' n'] m|m1 m2 m3 _ IH1 _ IH2]; cbn [contrib]; auto; try lia.
  Qed.
  Lemma pats_incr m k : (N.to_nat k < length (patterns ix))%nat -> pats_ok m -> pats_ok (incr m k 1).
  Proof.
    intros Hk. unfold pats_ok. induction 1 as [|[x c] m [H1 H2] Hm IH]; cbn [incr]; [repeat constructor; auto|].
    cbn [fst snd] in *. destruct (x =? k) eqn:E; constructor; auto. cbn [fst snd]. split; [lia|auto].
  Qed.

  Lemma count_entity_ok e st : st_ok st -> exists st', count_entity ix e st = Some st' /\ st_ok st' /\
    forall p, total p st' = total p st + (if has p e then 1 else 0).
  Proof.
    intros [H1 H2]. destruct st as [preds pats]. unfold count_entity. cbn [fst snd] in *.
    pose proof (lookup_ok ix e Hok) as Hl. unfold has.
    pose proof (preds_nodup ix e Hdis) as Hnd.
    destruct (lookup ix e) as [ps [k|]| |] eqn:El.
    - destruct Hl as [H3 H4]. exists (preds, incr pats k 1).
      assert (Hk : (N.to_nat k < length (patterns ix))%nat) by (apply nth_error_Some; congruence).
      split; [auto|split].
      + split; auto. now apply pats_incr.
      + intros p. unfold total. cbn [fst snd]. rewrite contrib_incr, H3.
        rewrite (nth_error_nth _ _ [] H4). lia.
    - exists (incr_all preds ps 1, pats). split; [auto|split].
      + split; auto. apply incr_all_keys_ok; [lia|auto].
      + intros p. unfold total. cbn [fst snd]. rewrite Hl in Hnd. rewrite incr_all_get by auto. rewrite Hl. lia.
    - exists (preds, pats). split; [auto|split; [split; auto|]]. intros p. rewrite Hl. cbn. lia.
    - contradiction.
  Qed.

  Definition cnt (p : N) (l : list N) : N := N.of_nat (length (filter (has p) l)).

  Lemma count_ids_ok ids : forall st, st_ok st -> exists st', count_ids ix ids st = Some st' /\ st_ok st' /\
    forall p, total p st' = total p st + cnt p ids.
  Proof.
    induction ids as [|e ids IH]; intros st Hst; cbn [count_ids].
    - exists st. split; [auto|split; [auto|]]. intros p. unfold cnt. simpl. lia.
    - destruct (count_entity_ok e st Hst) as (st1 & -> & H1 & H2).
      destruct (IH st1 H1) as (st2 & -> & H3 & H4). exists st2. split; [auto|split; [auto|]].
      intros p. rewrite H4, H2. unfold cnt. cbn [filter]. destruct (has p e); cbn [length]; lia.
  Qed.

  (* the entities counted by count_rows *)
  Fixpoint counted (last : N) (l : list N) : list N :=
    match l with
    | [] => []
    | s :: l' => if s =? last then counted last l' else s :: counted s l'
    end.
  Lemma count_rows_eq l : forall last st, count_rows ix last l st = count_ids ix (counted last l) st.
  Proof.
    induction l as [|s l IH]; intros last st; cbn [count_rows counted]; auto.
    destruct (s =? last); auto. cbn [count_ids]. destruct (count_entity ix s st); auto.
  Qed.

  Lemma counted_In l : forall last x, In x (counted last l) -> In x l.
  Proof.
    induction l as [|s l IH]; intros last x; cbn [counted]; auto. destruct (s =? last).
    - intros H. right. eauto.
    - intros [H|H]; [left; auto|right; eauto].
  Qed.
  Lemma counted_all l : forall last x, In x l -> x <> last -> In x (counted last l).
  Proof.
    induction l as [|s l IH]; intros last x; cbn [counted]; auto. destruct (s =? last) eqn:E.
    - intros [H|H] Hx; [lia|auto].
    - intros [H|H] Hx; [left; auto|]. destruct (N.eq_dec x s); [left; auto|right; auto].
  Qed.
  Lemma counted_nodup l : StronglySorted N.le l -> forall last, Forall (fun x => last <= x) l ->
    NoDup (counted last l) /\ ~ In last (counted last l).
  Proof.
    induction 1 as [|s l Hl IH Hs]; intros last Hlast; cbn [counted]; [split; [constructor|auto]|].
    inversion Hlast; subst. destruct (s =? last) eqn:E; [apply IH; auto|].
    destruct (IH s Hs) as [H3 H4]. split; [constructor; auto|]. intros [H|H]; [lia|].
    apply counted_In in H. rewrite Forall_forall in Hs. specialize (Hs last H). lia.
  Qed.
  Lemma counted_nodup' l last : StronglySorted N.le l -> NoDup (counted last l).
  Proof.
    induction 1 as [|s l Hl IH Hs]; cbn [counted]; [constructor|]. destruct (s =? last); auto.
    destruct (counted_nodup l Hl s Hs). constructor; auto.
  Qed.

  Lemma resolve_ok entries : forall preds, keys_ok preds -> pats_ok entries ->
    exists preds', resolve ix preds entries = Some preds' /\ keys_ok preds' /\
      forall p, get preds' p = get preds p + contrib p entries.
  Proof.
    induction entries as [|[k n] entries IH]; intros preds Hp He; cbn [resolve contrib].
    - exists preds. split; [auto|split; [auto|]]. intros p. lia.
    - inversion He as [|? ? [H1 H2] H3]; subst. cbn [fst snd] in *.
      rewrite (nth_error_nth' (patterns ix) [] H2).
      destruct (IH (incr_all preds (nth (N.to_nat k) (patterns ix) []) n)) as (preds' & E & H4 & H5); auto.
      { apply incr_all_keys_ok; auto. }
      exists preds'. split; [auto|split; [auto|]]. intros p. rewrite H5, incr_all_get; [lia|].
      destruct Hdis as [Hd _]. rewrite Forall_forall in Hd. apply Hd, nth_In. auto.
  Qed.

  Variable order : map_order.
  Hypothesis Hord : forall m, Permutation (order m) m.

  Lemma finish_ok ids : exists res, finish ix order (count_ids ix ids ([], [])) = Some res /\
    NoDup (map (col 0) res) /\ width 2 res /\
    forall p c, In [p; c] res <-> c = cnt p ids /\ c <> 0.
  Proof.
    destruct (count_ids_ok ids ([], [])) as ([preds pats] & -> & [H1 H2] & H3).
    { split; [split; constructor|constructor]. }
    cbn [fst snd] in *. unfold finish.
    destruct (resolve_ok (order pats) preds H1) as (preds' & -> & H4 & H5).
    { unfold pats_ok in *. rewrite Forall_forall in *. intros x Hx. apply H2.
      eapply Permutation_in; [apply Hord|auto]. }
    eexists. split; [reflexivity|].
    assert (Ht : forall p, get preds' p = cnt p ids).
    { intros p. specialize (H3 p). unfold total in H3. cbn [fst snd] in H3. cbn [get contrib] in H3.
      rewrite H5, (contrib_perm p _ _ (Hord pats)). lia. }
    destruct H4 as [H6 H7]. split; [|split].
    - rewrite map_map. change (fun x : N * N => col 0 [fst x; snd x]) with (fun x : N * N => fst x).
      apply (Permutation_NoDup (l := map fst preds')); auto. apply Permutation_map, Permutation_sym, Hord.
    - apply Forall_forall. intros r Hr. apply in_map_iff in Hr. destruct Hr as (e & <- & _). reflexivity.
    - intros p c. rewrite in_map_iff. split.
      + intros ([k n] & E & Hin). injection E as -> ->. assert (Hin' : In (p, c) preds').
        { eapply Permutation_in; [apply Hord|exact Hin]. }
        rewrite <- Ht. rewrite (get_In preds' p c H6 Hin'). split; auto.
        rewrite Forall_forall in H7. specialize (H7 _ Hin'). cbn in H7. lia.
      + intros [E Hc]. exists (p, c). split; auto. eapply Permutation_in; [apply Permutation_sym, Hord|].
        rewrite <- Ht in E. rewrite E. apply get_pos_In. now rewrite <- E.
  Qed.

  Lemma cnt_perm p a b : NoDup a -> NoDup b -> (forall e, has p e = true -> (In e a <-> In e b)) ->
    cnt p a = cnt p b.
  Proof.
    intros Ha Hb H. unfold cnt. f_equal. apply Permutation_length. apply NoDup_Permutation.
    - now apply NoDup_filter.
    - now apply NoDup_filter.
    - intros e. rewrite !filter_In. split; intros [H1 H2]; split; auto; now apply H.
  Qed.
End Count.

Lemma unbound_no_preds ix : index_small ix -> predicates_of ix UNBOUND = [].
Proof. intros [H1 H2]. apply not_in_ids. rewrite all_ids_spec. lia. Qed.

Lemma sorted_on_map c t : sorted_on c t -> StronglySorted N.le (map (col c) t).
Proof.
  intros H. apply sorted_on_strong in H. induction H as [|r t Ht IH Hr]; simpl; constructor; auto.
  apply Forall_forall. intros x Hx. apply in_map_iff in Hx. destruct Hx as (s & <- & Hs).
  rewrite Forall_forall in Hr. auto.
Qed.

Lemma cnt_counted ix p u l : predicates_of ix u = [] -> StronglySorted N.le l ->
  N.of_nat (entities_with ix p l) = cnt ix p (counted u l).
Proof.
  intros Hu Hs. unfold entities_with.
  change (N.of_nat (length (filter (has ix p) (nodup N.eq_dec l))) = cnt ix p (counted u l)).
  symmetry. apply cnt_perm.
  - now apply counted_nodup'.
  - apply NoDup_nodup.
  - intros e He. rewrite nodup_In. split; [apply counted_In|]. intros Hin. apply counted_all; auto.
    intros ->. unfold has in He. rewrite Hu in He. discriminate.
Qed.

Lemma pattern_trick_correct ix order c input :
  index_ok ix -> lists_distinct ix -> index_small ix -> (forall m, Permutation (order m) m) ->
  sorted_on c input ->
  exists res, pattern_trick ix order c input = Some res /\ NoDup (map (col 0) res) /\ width 2 res /\
    forall p n, In [p; n] res <-> n = N.of_nat (entities_with ix p (map (col c) input)) /\ n <> 0.
Proof.
  intros Hok Hd Hsm Hord Hs. unfold pattern_trick.
  pose proof (unbound_no_preds ix Hsm) as Hu. generalize dependent UNBOUND. intros u Hu.
  rewrite count_rows_eq.
  destruct (finish_ok ix Hok Hd order Hord (counted u (map (col c) input))) as (res & -> & H1 & H2 & H3).
  exists res. split; [auto|split; [auto|split; [auto|]]]. intros p n. rewrite H3.
  rewrite <- (cnt_counted ix p u (map (col c) input) Hu (sorted_on_map c input Hs)). reflexivity.
Qed.

Lemma pattern_trick_all_correct ix order :
  index_ok ix -> lists_distinct ix -> (forall m, Permutation (order m) m) ->
  exists res, pattern_trick_all ix order = Some res /\ NoDup (map (col 0) res) /\ width 2 res /\
    (forall es, (forall e, predicates_of ix e <> [] -> In e es) ->
     forall p n, In [p; n] res <-> n = N.of_nat (entities_with ix p es) /\ n <> 0).
Proof.
  intros Hok Hd Hord. unfold pattern_trick_all.
  destruct (finish_ok ix Hok Hd order Hord (all_ids ix)) as (res & -> & H1 & H2 & H3).
  exists res. split; [auto|split; [auto|split; [auto|]]]. intros es Hes p n. rewrite H3.
  replace (cnt ix p (all_ids ix)) with (N.of_nat (entities_with ix p es)); [reflexivity|].
  unfold entities_with. change (N.of_nat (length (filter (has ix p) (nodup N.eq_dec es))) = cnt ix p (all_ids ix)).
  apply cnt_perm; [apply NoDup_nodup|apply all_ids_nodup|]. intros e He. rewrite nodup_In.
  assert (Hne : predicates_of ix e <> []) by (intros E; unfold has in He; rewrite E in He; discriminate).
  split; auto. intros _. destruct (in_dec N.eq_dec e (all_ids ix)) as [|Hn]; auto.
  now apply not_in_ids in Hn.
Qed.
