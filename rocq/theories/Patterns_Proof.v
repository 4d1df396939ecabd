From Coq Require Import List NArith Arith Bool Lia Permutation Sorted ZifyBool ZifyN ZifyNat.
From Verif Require Import HasPred_Spec HasPred_Proof Bytes Csv_Model Csv_Proof Std_Model Std_Proof
  Ops_Model Ops_Proof ListAux Patterns_Model.
Import ListNotations.
Open Scope N_scope.

Definition keep (lo hi p : N) : Prop := p < lo \/ hi <= p.

(* ---- the groups of triples with the same subject ---- *)
Fixpoint groups (lo hi : N) (cur : N) (pat : pattern) (ts : list triple) : list (N * pattern) :=
  match ts with
  | [] => [(cur, pat)]
  | t :: ts' =>
      if subj t =? cur then groups lo hi cur (add_predicate lo hi pat (pred t)) ts'
      else (cur, pat) :: groups lo hi (subj t) (add_predicate lo hi [] (pred t)) ts'
  end.

Lemma first_pass_eq lo hi ts : forall cur pat m, first_pass lo hi cur pat m ts =
  fold_left pcount (map snd (groups lo hi cur pat ts)) m.
Proof.
  induction ts as [|t ts IH]; intros cur pat m; cbn [first_pass groups]; auto.
  destruct (subj t =? cur); auto. cbn [map fold_left]. apply IH.
Qed.
Lemma second_pass_eq lo hi pats ts : forall cur pat a, second_pass lo hi pats cur pat a ts =
  fold_left (fun a g => assign pats a (fst g) (snd g)) (groups lo hi cur pat ts) a.
Proof.
  induction ts as [|t ts IH]; intros cur pat a; cbn [second_pass groups]; auto.
  destruct (subj t =? cur); auto. cbn [fold_left]. apply IH.
Qed.

Lemma snoc_sorted (l : list N) x : StronglySorted N.lt l -> (forall q, In q l -> q < x) ->
  StronglySorted N.lt (l ++ [x]).
Proof.
  induction 1 as [|a l Hl IH Ha]; intros Hx; cbn [app]; [repeat constructor|].
  constructor; [apply IH; intros q Hq; apply Hx; right; auto|]. apply Forall_app. split; auto.
  constructor; [apply Hx; left; auto|constructor].
Qed.

Lemma add_predicate_spec lo hi pat p : StronglySorted N.lt pat -> (forall q, In q pat -> q <= p) ->
  StronglySorted N.lt (add_predicate lo hi pat p) /\
  (forall q, In q (add_predicate lo hi pat p) -> q <= p) /\
  ((forall q, In q pat -> keep lo hi q) -> (forall q, In q (add_predicate lo hi pat p) <-> In q pat \/ (q = p /\ keep lo hi p))).
Proof.
  intros Hs Hle. unfold add_predicate.
  destruct (match pat with [] => true | _ => negb (last pat 0 =? p) end) eqn:E.
  - assert (Hlt : forall q, In q pat -> q < p).
    { intros q Hq. destruct (N.eq_dec q p) as [->|Hne]; [|specialize (Hle q Hq); lia]. exfalso.
      destruct pat as [|a l]; [contradiction|].
      destruct (exists_last (l := a :: l) ltac:(discriminate)) as (l' & z & El). rewrite El in *.
      rewrite last_last in E.
      assert (z <> p) by (destruct (l' ++ [z]); lia).
      apply in_app_iff in Hq. destruct Hq as [Hq|[Hq|[]]]; [|congruence].
      assert (z <= p) by (apply Hle, in_app_iff; right; left; auto).
      assert (p < z); [|lia]. clear - Hs Hq. induction l' as [|b l' IH]; [contradiction|].
      cbn [app] in Hs. inversion Hs; subst. destruct Hq as [->|Hq]; [|auto].
      rewrite Forall_forall in H2. apply H2, in_app_iff. right. left. auto. }
    destruct ((p <? lo) || (hi <=? p)) eqn:Ek.
    + split; [now apply snoc_sorted|]. split.
      * intros q Hq. apply in_app_iff in Hq. destruct Hq as [Hq|[->|[]]]; [specialize (Hle q Hq)|]; lia.
      * intros Hk q. rewrite in_app_iff. cbn [In]. split.
        -- intros [H|[->|[]]]; [left; auto|]. right. split; auto. unfold keep. lia.
        -- intros [H|[-> _]]; auto.
    + split; [auto|split; [auto|]]. intros Hk q. split; [auto|]. intros [H|[-> H]]; auto. unfold keep in H. lia.
  - split; [auto|split; [auto|]]. intros Hk q. split; [auto|]. intros [H|[-> H]]; auto.
    destruct pat as [|a l]; [discriminate|].
    destruct (exists_last (l := a :: l) ltac:(discriminate)) as (l' & z & El). rewrite El in *.
    rewrite last_last in E. apply in_app_iff. right. left. destruct (l' ++ [z]); lia.
Qed.

Definition spo_le (a b : triple) : Prop := subj a < subj b \/ (subj a = subj b /\ pred a <= pred b).

Lemma groups_spec lo hi ts : StronglySorted spo_le ts -> forall cur pat,
  StronglySorted N.lt pat -> (forall q, In q pat -> keep lo hi q) ->
  (forall t, In t ts -> cur <= subj t) ->
  (forall t q, In t ts -> subj t = cur -> In q pat -> q <= pred t) ->
  let G := groups lo hi cur pat ts in
  StronglySorted N.lt (map fst G) /\
  (forall e, In e (map fst G) <-> e = cur \/ exists t, In t ts /\ subj t = e) /\
  (forall e, In e (map fst G) -> cur <= e) /\
  forall e l, In (e, l) G -> StronglySorted N.lt l /\
    forall p, In p l <-> (e = cur /\ In p pat) \/ (exists t, In t ts /\ subj t = e /\ pred t = p /\ keep lo hi p).
Proof.
  induction 1 as [|t ts Hts IH Ht]; intros cur pat Hs Hk Hcur Hp; cbn [groups].
  - cbn [map fst]. split; [repeat constructor|]. split; [|split].
    + intros e. split; [intros [H|[]]; auto|]. intros [->|(t & [] & _)]. left; auto.
    + intros e [H|[]]. lia.
    + intros e l [H|[]]. injection H as <- <-. split; auto. intros p. split; [auto|].
      intros [[_ H]|(t & [] & _)]; auto.
  - rewrite Forall_forall in Ht. destruct (subj t =? cur) eqn:E.
    + assert (Hle : forall q, In q pat -> q <= pred t) by (intros q Hq; apply (Hp t q); auto; [left; auto|lia]).
      destruct (add_predicate_spec lo hi pat (pred t) Hs Hle) as (A1 & A2 & A3). specialize (A3 Hk).
      destruct (IH cur (add_predicate lo hi pat (pred t))) as (B1 & B2 & B3 & B4); auto.
      { intros q Hq. apply A3 in Hq. destruct Hq as [Hq|[-> Hq]]; auto. }
      { intros t' H'. apply Hcur. right; auto. }
      { intros t' q H' Es Hq. apply A2 in Hq. specialize (Ht t' H'). unfold spo_le in Ht. lia. }
      split; [auto|split; [|split; [auto|]]].
      * intros e. rewrite B2. split; (intros [->|(t' & H1 & H2)]; [left; auto|]).
        -- right. exists t'. split; [right|]; auto.
        -- destruct H1 as [->|H1]; [left; lia|]. right. exists t'. auto.
      * intros e l Hin. destruct (B4 e l Hin) as [C1 C2]. split; auto. intros p. rewrite C2, A3. split.
        -- intros [[-> [H|[-> H]]]|(t' & H1 & H2)].
           ++ left; auto.
           ++ right. exists t. split; [left; auto|]. split; [lia|]. auto.
           ++ right. exists t'. split; [right|]; auto.
        -- intros [[-> H]|(t' & [->|H1] & H2 & H3 & H4)].
           ++ left. auto.
           ++ left. split; [lia|]. right. split; auto. now rewrite H3.
           ++ right. exists t'. auto.
    + assert (Hgt : forall t', In t' (t :: ts) -> cur < subj t').
      { intros t' [<-|H']; [specialize (Hcur t (or_introl eq_refl)); lia|].
        specialize (Ht t' H'). specialize (Hcur t (or_introl eq_refl)). unfold spo_le in Ht. lia. }
      destruct (add_predicate_spec lo hi [] (pred t)) as (A1 & A2 & A3); [constructor|intros q []|].
      specialize (A3 ltac:(intros q [])).
      destruct (IH (subj t) (add_predicate lo hi [] (pred t))) as (B1 & B2 & B3 & B4); auto.
      { intros q Hq. apply A3 in Hq. destruct Hq as [[]|[-> Hq]]; auto. }
      { intros t' H'. specialize (Ht t' H'). unfold spo_le in Ht. lia. }
      { intros t' q H' Es Hq. apply A2 in Hq. specialize (Ht t' H'). unfold spo_le in Ht. lia. }
      cbn [map fst]. split; [|split; [|split]].
      * constructor; auto. apply Forall_forall. intros e He. apply B3 in He.
        specialize (Hgt t (or_introl eq_refl)). lia.
      * intros e. cbn [In]. rewrite B2. split.
        -- intros [->|[->|(t' & H1 & H2)]]; [left; auto|right; exists t; split; [left|]; auto|].
           right. exists t'. split; [right|]; auto.
        -- intros [->|(t' & [->|H1] & H2)]; [left; auto|right; left; auto|].
           right. right. exists t'. auto.
      * intros e [<-|He]; [lia|]. apply B3 in He. specialize (Hgt t (or_introl eq_refl)). lia.
      * intros e l [Hin|Hin].
        -- injection Hin as <- <-. split; auto. intros p. split; [auto|]. intros [[_ H]|(t' & H1 & H2 & _)]; auto.
           specialize (Hgt t' H1). lia.
        -- destruct (B4 e l Hin) as [C1 C2]. split; auto. intros p. rewrite C2, A3. split.
           ++ intros [[-> [[]|[-> H]]]|(t' & H1 & H2)].
              ** right. exists t. split; [left|]; auto.
              ** right. exists t'. split; [right|]; auto.
           ++ intros [[-> H]|(t' & [->|H1] & H2 & H3 & H4)].
              ** exfalso. assert (Hc : In cur (map fst (groups lo hi (subj t) (add_predicate lo hi [] (pred t)) ts))).
                 { apply in_map_iff. exists (cur, l). auto. }
                 apply B3 in Hc. specialize (Hgt t (or_introl eq_refl)). lia.
              ** left. split; auto. right. split; auto. now rewrite H3.
              ** right. exists t'. auto.
Qed.

(* The groups of a non-empty sorted list of triples. *)
Definition all_groups (lo hi : N) (ts : list triple) : list (N * pattern) :=
  match ts with [] => [] | t :: _ => groups lo hi (subj t) [] ts end.

Lemma all_groups_spec lo hi ts : StronglySorted spo_le ts ->
  let G := all_groups lo hi ts in
  StronglySorted N.lt (map fst G) /\
  (forall e, In e (map fst G) <-> exists t, In t ts /\ subj t = e) /\
  forall e l, In (e, l) G -> StronglySorted N.lt l /\
    forall p, In p l <-> exists t, In t ts /\ subj t = e /\ pred t = p /\ keep lo hi p.
Proof.
  intros Hs. destruct ts as [|t ts].
  - cbn. split; [constructor|]. split; [|intros e l []]. intros e. split; [intros []|intros (t & [] & _)].
  - unfold all_groups. destruct (groups_spec lo hi (t :: ts) Hs (subj t) []) as (A & B & _ & C).
    + constructor.
    + intros q [].
    + inversion Hs as [|? ? H1 H2]; subst. rewrite Forall_forall in H2. intros t' [<-|H']; [lia|].
      specialize (H2 t' H'). unfold spo_le in H2. lia.
    + intros t' q _ _ [].
    + split; [auto|split].
      * intros e. rewrite B. split; [intros [->|H]; auto|auto]. exists t. split; [left|]; auto.
      * intros e l Hin. destruct (C e l Hin) as [C1 C2]. split; auto. intros p. rewrite C2.
        split; [intros [[_ []]|H]; auto|auto].
Qed.

(* ---- pattern counts ---- *)
Lemma pattern_eqb_spec a : forall b, pattern_eqb a b = true <-> a = b.
Proof.
  induction a as [|x a IH]; intros [|y b]; cbn [pattern_eqb]; try (split; congruence).
  rewrite andb_true_iff, IH, N.eqb_eq. split; [intros [-> ->]; auto|intros H; injection H; auto].
Qed.
Lemma pattern_eqb_refl a : pattern_eqb a a = true.
Proof. now apply pattern_eqb_spec. Qed.

Definition occurrences (pat : pattern) (l : list pattern) : N :=
  N.of_nat (length (filter (pattern_eqb pat) l)).
Fixpoint pget (m : pattern_counts) (pat : pattern) : N :=
  match m with [] => 0 | (q, c) :: m' => if pattern_eqb q pat then c else pget m' pat end.

Lemma pget_pcount m pat q : pget (pcount m pat) q = pget m q + (if pattern_eqb pat q then 1 else 0).
Proof.
  induction m as [|[r c] m IH]; cbn [pcount pget].
  - destruct (pattern_eqb pat q); lia.
  - destruct (pattern_eqb r pat) eqn:E; cbn [pget].
    + apply pattern_eqb_spec in E. subst. destruct (pattern_eqb pat q) eqn:E2; lia.
    + destruct (pattern_eqb r q) eqn:E2; auto. destruct (pattern_eqb pat q) eqn:E3; [|lia].
      apply pattern_eqb_spec in E2, E3. subst. rewrite pattern_eqb_refl in E. discriminate.
Qed.
Lemma keys_pcount m pat q : In q (map fst (pcount m pat)) <-> q = pat \/ In q (map fst m).
Proof.
  induction m as [|[r c] m IH]; cbn [pcount map fst In]; [intuition|].
  destruct (pattern_eqb r pat) eqn:E; cbn [map fst In].
  - apply pattern_eqb_spec in E. subst. intuition.
  - rewrite IH. intuition.
Qed.
Lemma nodup_pcount m pat : NoDup (map fst m) -> NoDup (map fst (pcount m pat)).
Proof.
  induction m as [|[r c] m IH]; cbn [pcount map fst]; intros H; [repeat constructor; auto|].
  inversion H; subst. destruct (pattern_eqb r pat) eqn:E; cbn [map fst]; constructor; auto.
  rewrite keys_pcount. intros [->|H']; auto. rewrite pattern_eqb_refl in E. discriminate.
Qed.
Lemma counts_spec l : forall m, NoDup (map fst m) ->
  NoDup (map fst (fold_left pcount l m)) /\
  (forall q, In q (map fst (fold_left pcount l m)) <-> In q l \/ In q (map fst m)) /\
  (forall q, pget (fold_left pcount l m) q = pget m q + occurrences q l).
Proof.
  induction l as [|x l IH]; intros m Hm; cbn [fold_left].
  - split; [auto|split]; intros q; [cbn [In]; tauto|]. unfold occurrences. cbn. lia.
  - destruct (IH (pcount m x) (nodup_pcount m x Hm)) as (A & B & C). split; [auto|split].
    + intros q. rewrite B, keys_pcount. cbn [In]. intuition.
    + intros q. rewrite C, pget_pcount. unfold occurrences. cbn [filter].
      destruct (pattern_eqb x q) eqn:E.
      * apply pattern_eqb_spec in E. subst. rewrite pattern_eqb_refl. cbn [length]. lia.
      * destruct (pattern_eqb q x) eqn:E2; [|lia]. apply pattern_eqb_spec in E2. subst.
        rewrite pattern_eqb_refl in E. discriminate.
Qed.
Lemma pget_In m q c : NoDup (map fst m) -> In (q, c) m -> pget m q = c.
Proof.
  induction m as [|[r d] m IH]; cbn [pget map fst]; intros Hn Hin; [contradiction|]. inversion Hn; subst.
  destruct Hin as [H|H].
  - injection H as -> ->. now rewrite pattern_eqb_refl.
  - destruct (pattern_eqb r q) eqn:E; auto. apply pattern_eqb_spec in E. subst.
    exfalso. apply H1. apply in_map_iff. exists (q, c). auto.
Qed.

(* ---- the selection ---- *)
Definition ordered_before (a b : pattern * N) : Prop := more_frequent b a = false.
Definition sort_ok (sort : pattern_counts -> pattern_counts) : Prop :=
  forall l, NoDup (map fst l) -> Permutation (sort l) l /\ StronglySorted ordered_before (sort l).

Lemma pattern_gt_trans a b c : pattern_gt a b = false -> pattern_gt b c = false -> pattern_gt a c = false.
Proof.
  unfold pattern_gt. destruct b as [|y b]; [discriminate|]. destruct c as [|z c]; [discriminate|].
  destruct a as [|x a]; auto. lia.
Qed.
Lemma ordered_trans a b c : ordered_before a b -> ordered_before b c -> ordered_before a c.
Proof.
  unfold ordered_before, more_frequent. intros H1 H2. apply orb_false_iff in H1, H2.
  destruct H1 as [H1 H3], H2 as [H2 H4]. apply orb_false_iff. split; [lia|].
  destruct (snd c =? snd a) eqn:E; [|reflexivity]. cbn [andb].
  replace (snd b =? snd a) with true in H3 by lia. replace (snd c =? snd b) with true in H4 by lia.
  cbn [andb] in *. eapply pattern_gt_trans; eauto.
Qed.
Lemma more_frequent_asym a b : fst a <> fst b -> more_frequent a b = true -> more_frequent b a = false.
Proof.
  unfold more_frequent. intros Hne H. apply orb_true_iff in H. apply orb_false_iff.
  destruct H as [H|H].
  - split; [lia|]. apply andb_false_iff. left. lia.
  - apply andb_true_iff in H. destruct H as [H1 H2]. split; [lia|]. apply andb_false_iff. right.
    unfold pattern_gt in *. destruct (fst a) as [|x u], (fst b) as [|y v]; auto; try discriminate; try congruence. lia.
Qed.
Lemma ordered_count a b : ordered_before a b -> snd b <= snd a.
Proof. unfold ordered_before, more_frequent. intros H. apply orb_false_iff in H. lia. Qed.

Definition select_inv (maxNum : nat) (sp dropped done : pattern_counts) : Prop :=
  Permutation (sp ++ dropped) done /\
  (forall a b, In a sp -> In b dropped -> snd b <= snd a) /\
  (length sp <= maxNum)%nat /\ ((length sp < maxNum)%nat -> dropped = []) /\
  (length sp = maxNum -> StronglySorted ordered_before sp).

Lemma StronglySorted_app_iff {A} (R : A -> A -> Prop) a b : StronglySorted R (a ++ b) <->
  StronglySorted R a /\ StronglySorted R b /\ (forall x y, In x a -> In y b -> R x y).
Proof.
  induction a as [|x a IH]; cbn [app].
  - split; [intros H; split; [constructor|split; [auto|intros x y []]]|tauto].
  - split.
    + intros H. inversion H as [|? ? H1 H2]; subst. apply IH in H1. destruct H1 as (H1 & H3 & H4).
      apply Forall_app in H2. destruct H2 as [H2 H5]. split; [constructor; auto|split; [auto|]].
      intros u v [<-|Hu] Hv; [rewrite Forall_forall in H5; auto|auto].
    + intros (H1 & H2 & H3). inversion H1; subst. constructor.
      * apply IH. split; [auto|split; [auto|]]. intros u v Hu Hv. apply H3; [right|]; auto.
      * apply Forall_app. split; auto. apply Forall_forall. intros v Hv. apply H3; [left|]; auto.
Qed.

Lemma NoDup_app_l {A} (a b : list A) : NoDup (a ++ b) -> NoDup a.
Proof.
  induction a as [|x a IH]; cbn [app]; [constructor|]. inversion 1; subst. constructor; auto.
  intros Hx. apply H2, in_app_iff. auto.
Qed.

Lemma select_spec maxNum sort : (0 < maxNum)%nat -> sort_ok sort -> forall entries sp dropped done,
  select_inv maxNum sp dropped done -> NoDup (map fst (done ++ entries)) ->
  exists sp' dropped', select maxNum sort sp entries = Some sp' /\
    Permutation (sp' ++ dropped') (done ++ entries) /\
    (forall a b, In a sp' -> In b dropped' -> snd b <= snd a) /\
    (length sp' <= maxNum)%nat /\ ((length sp' < maxNum)%nat -> dropped' = []).
Proof.
  intros Hmax Hsort. induction entries as [|it entries IH]; intros sp dropped done (I1 & I2 & I3 & I4 & I5) Hnd.
  - rewrite app_nil_r in *. cbn [select]. destruct (length sp <? maxNum)%nat eqn:E.
    + rewrite (I4 ltac:(lia)) in *. rewrite app_nil_r in I1.
      destruct (Hsort sp) as [H1 H2].
      { eapply Permutation_NoDup; [|exact Hnd]. apply Permutation_sym, Permutation_map, I1. }
      exists (sort sp), []. split; [auto|]. rewrite app_nil_r.
      split; [now transitivity sp|]. split; [intros a b _ []|].
      rewrite (Permutation_length H1). split; auto.
    + exists sp, dropped. split; [auto|split; [auto|split; [auto|split; auto]]].
  - cbn [select].
    assert (Happ : done ++ it :: entries = (done ++ [it]) ++ entries) by (now rewrite <- app_assoc).
    rewrite Happ in *.
    assert (Hnd' : NoDup (map fst (done ++ [it]))).
    { rewrite map_app in Hnd. apply NoDup_app_l in Hnd. auto. }
    destruct (length sp <? maxNum)%nat eqn:E.
    + assert (Hlt : (length sp < maxNum)%nat) by lia. specialize (I4 Hlt). rewrite I4, app_nil_r in I1.
      assert (Hp : Permutation (sp ++ [it]) (done ++ [it])) by (now apply Permutation_app_tail).
      assert (Hn : NoDup (map fst (sp ++ [it]))).
      { eapply Permutation_NoDup; [|exact Hnd']. apply Permutation_sym, Permutation_map, Hp. }
      apply (IH _ []); auto. clear IH. destruct (length (sp ++ [it]) =? maxNum)%nat eqn:E2.
      * destruct (Hsort (sp ++ [it]) Hn) as [H1 H2]. split; [rewrite app_nil_r; now transitivity (sp ++ [it])|].
        split; [intros a b _ []|]. pose proof (Permutation_length H1) as Hl. split; [lia|]. split; auto.
      * split; [now rewrite app_nil_r|]. split; [intros a b _ []|].
        rewrite app_length in *. cbn [length] in *. split; [lia|]. split; [auto|]. intros. lia.
    + assert (Hlen : length sp = maxNum) by lia. specialize (I5 Hlen).
      destruct sp as [|x0 sp0] eqn:Esp; [cbn in Hlen; lia|]. rewrite <- Esp in *.
      destruct (exists_last (l := sp) ltac:(congruence)) as (sp1 & z & Ez).
      assert (Hrl : removelast sp = sp1) by (rewrite Ez; apply removelast_last).
      assert (Hla : last sp ([], 0) = z) by (rewrite Ez; apply last_last).
      rewrite Hrl, Hla. rewrite Ez in I5. apply StronglySorted_app_iff in I5. destruct I5 as (S1 & _ & S3).
      destruct (more_frequent it z) eqn:Em.
      * assert (Hne : forall x, In x sp1 -> fst x <> fst it).
        { intros x Hx He. rewrite map_app in Hnd'. cbn [map] in Hnd'. apply NoDup_remove_2 in Hnd'.
          apply Hnd'. rewrite app_nil_r. rewrite <- He. apply in_map. eapply Permutation_in; [exact I1|].
          apply in_app_iff. left. rewrite Ez. apply in_app_iff. auto. }
        destruct (lower_bound_spec (fun i => more_frequent (nth i sp1 ([], 0)) it) 0 (length sp1))
          as (pos & Hlb & Hpos & Hbelow & Habove); [lia| |].
        { intros i j Hi Hij Hj Hbj. destruct (Nat.eq_dec i j) as [->|Hij']; auto.
          destruct (more_frequent (nth i sp1 ([], 0)) it) eqn:Ei; auto. exfalso.
          assert (Hij2 : ordered_before (nth i sp1 ([], 0)) (nth j sp1 ([], 0))).
          { assert (Hlij : (i < j < length sp1)%nat) by lia. clear - S1 Hlij. revert i j Hlij.
            induction S1 as [|x l Hl IHl Hx]; intros i j Hlij; cbn [length] in Hlij; [lia|].
            destruct j as [|j]; [lia|]. destruct i as [|i]; cbn [nth].
            - rewrite Forall_forall in Hx. apply Hx, nth_In. lia.
            - apply IHl. lia. }
          assert (Hx : ordered_before it (nth j sp1 ([], 0))) by (eapply ordered_trans; [exact Ei|exact Hij2]).
          unfold ordered_before in Hx. congruence. }
        rewrite Hlb. apply (IH _ (z :: dropped)); auto. clear IH.
        pose proof (firstn_skipn pos sp1) as Hfs.
        assert (Hf : forall x, In x (firstn pos sp1) -> ordered_before x it).
        { intros x Hx. destruct (In_nth _ _ ([], 0) Hx) as (i & Hi & Hnx). rewrite firstn_length in Hi.
          assert (Hnx' : nth i sp1 ([], 0) = x).
          { rewrite <- Hnx. rewrite <- Hfs at 1. rewrite app_nth1; auto. rewrite firstn_length. lia. }
          apply more_frequent_asym; [apply Hne; rewrite <- Hfs; apply in_app_iff; auto|].
          rewrite <- Hnx'. apply Hbelow; lia. }
        assert (Hs2 : forall x, In x (skipn pos sp1) -> ordered_before it x).
        { intros x Hx. destruct (In_nth _ _ ([], 0) Hx) as (i & Hi & Hnx). rewrite skipn_length in Hi.
          assert (Hnx' : nth (pos + i) sp1 ([], 0) = x).
          { rewrite <- Hnx. rewrite <- Hfs at 1. rewrite app_nth2; rewrite firstn_length; [f_equal; lia|lia]. }
          unfold ordered_before. rewrite <- Hnx'. apply Habove; lia. }
        assert (Hz : forall x, In x sp1 -> snd z <= snd x).
        { intros x Hx. apply ordered_count, S3; [auto|left; auto]. }
        assert (Hit : snd z <= snd it).
        { unfold more_frequent in Em. apply orb_true_iff in Em. lia. }
        split; [|split; [|split; [|split]]].
        -- rewrite Ez in I1.
           transitivity (it :: (sp1 ++ [z]) ++ dropped).
           ++ rewrite <- Hfs at 3. rewrite <- !app_assoc. cbn [app].
              symmetry. apply Permutation_middle.
           ++ rewrite I1. apply Permutation_cons_append.
        -- intros a b Ha [<-|Hb].
           ++ apply in_app_iff in Ha. destruct Ha as [Ha|[<-|Ha]]; auto; apply Hz; rewrite <- Hfs; apply in_app_iff; auto.
           ++ assert (snd b <= snd z) by (apply I2; auto; rewrite Ez; apply in_app_iff; right; left; auto).
              apply in_app_iff in Ha. destruct Ha as [Ha|[<-|Ha]]; [|lia|];
                (assert (snd z <= snd a) by (apply Hz; rewrite <- Hfs; apply in_app_iff; auto)); lia.
        -- rewrite Ez in Hlen. rewrite app_length in *. cbn [length] in *. rewrite <- (f_equal (@length _) Hfs) in Hlen.
           rewrite app_length in Hlen. lia.
        -- rewrite Ez in Hlen. rewrite app_length in *. cbn [length] in *. rewrite <- (f_equal (@length _) Hfs) in Hlen.
           rewrite app_length in Hlen. intros; lia.
        -- intros _. apply StronglySorted_app_iff. rewrite <- Hfs in S1. apply StronglySorted_app_iff in S1.
           destruct S1 as (T1 & T2 & T3). split; [auto|split].
           ++ constructor; auto. apply Forall_forall. auto.
           ++ intros x y Hx [<-|Hy]; auto.
      * apply (IH _ (it :: dropped)); auto. clear IH. split; [|split; [|split; [|split]]]; auto.
        -- transitivity (it :: sp ++ dropped).
           ++ symmetry. apply Permutation_middle.
           ++ rewrite I1. apply Permutation_cons_append.
        -- intros a b Ha [<-|Hb]; auto. assert (snd z <= snd a).
           { rewrite Ez in Ha. apply in_app_iff in Ha. destruct Ha as [Ha|[<-|[]]]; [|lia].
             apply ordered_count, S3; [auto|left; auto]. }
           assert (snd it <= snd z) by (apply ordered_count; exact Em). lia.
        -- lia.
        -- intros _. rewrite Ez. apply StronglySorted_app_iff. split; [auto|split; [repeat constructor|auto]].
Qed.
