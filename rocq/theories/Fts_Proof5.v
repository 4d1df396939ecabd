(* Proofs about Fts_Model: intersectKWay with and without entities. *)
From Coq Require Import List NArith Arith Bool Lia ZifyBool ZifyN ZifyNat Sorted Permutation.
From Verif Require Import Std_Model Std_Proof Base ListAux Lex_Proof Fts_Model Fts_Spec Fts_Proof Fts_Proof2
  Fts_Proof3 Fts_Proof4.
Import ListNotations.
Open Scope N_scope.

Lemma map_nth_seq {A B} (f : A -> B) (l : list A) d :
  map (fun i => f (nth i l d)) (seq 0 (length l)) = map f l.
Proof.
  induction l as [|x l IH]; simpl; auto. f_equal. rewrite <- IH. rewrite <- seq_shift, map_map. reflexivity.
Qed.
Lemma total_length_sum ll : total_length ll = list_sum (map (@length N) ll).
Proof. induction ll as [|l ll IH]; simpl; auto. Qed.

Lemma rem_init cids : rem cids (repeat 0%nat (length cids)) = total_length cids.
Proof.
  unfold rem. rewrite total_length_sum. rewrite <- (map_nth_seq (@length N) cids []). f_equal.
  apply map_ext_in. intros i Hi. unfold nx. rewrite nth_repeat. lia.
Qed.

Lemma min_length_ge n ll : ll <> [] -> (forall l, In l ll -> (n <= length l)%nat) -> (n <= min_length ll)%nat.
Proof.
  destruct ll as [|l ll]; [easy|]. intros _ H. unfold min_length.
  assert (G : forall (ll : list (list N)) m, (n <= m)%nat -> (forall l, In l ll -> (n <= length l)%nat) ->
    (n <= fold_left (fun m l' => Nat.min m (length l')) ll m)%nat).
  { clear. induction ll as [|l ll IH]; simpl; intros m Hm H; auto. apply IH; auto.
    specialize (H l (or_introl eq_refl)). lia. }
  apply G; [apply H; simpl; auto|]. intros l' Hl'. apply H. simpl. auto.
Qed.

Lemma emit_entities_eq x s es sl : forall b c m,
  (forall y, In y b -> y = x) -> (forall y, In y c -> y <> x) ->
  (m + length b <= length es)%nat -> (m + length b <= length sl)%nat ->
  emit_entities x s es sl (b ++ c) m =
  Ok ((m + length b)%nat,
      map (fun p => (x, p_eid p, add16 s (p_score p)))
          (combine (combine b (firstn (length b) (skipn m es))) (firstn (length b) (skipn m sl)))).
Proof.
  induction b as [|y b IH]; intros c m Hb Hc He Hs; cbn [app].
  - simpl. rewrite Nat.add_0_r. destruct c as [|z c]; cbn [emit_entities]; auto.
    destruct (N.eqb_spec z x) as [E|]; auto. exfalso. apply (Hc z); simpl; auto.
  - cbn [emit_entities length] in *. rewrite (Hb y) by (simpl; auto). rewrite N.eqb_refl.
    rewrite (get_ok es m 0) by lia. rewrite (get_ok sl m 0) by lia. cbn [bind].
    rewrite IH; try lia; auto; [|intros z Hz; apply Hb; simpl; auto]. cbn [bind].
    rewrite (skipn_nth_cons m es 0) by lia. rewrite (skipn_nth_cons m sl 0) by lia.
    cbn [firstn combine map p_eid p_score fst snd]. now rewrite Nat.add_succ_r.
Qed.

Lemma filter_cid_combine x (l e s : list N) :
  (forall y, In y l -> y <> x) ->
  filter (fun p => p_cid p =? x) (combine (combine l e) s) = [].
Proof.
  intros H. apply filter_all_false. intros [[c e'] s'] Hp. apply in_combine_l in Hp.
  apply in_combine_l in Hp. unfold p_cid. cbn [fst]. apply N.eqb_neq. auto.
Qed.
Lemma filter_cid_combine_all x (l e s : list N) :
  (forall y, In y l -> y = x) ->
  filter (fun p => p_cid p =? x) (combine (combine l e) s) = combine (combine l e) s.
Proof.
  intros H. apply filter_all_true. intros [[c e'] s'] Hp. apply in_combine_l in Hp.
  apply in_combine_l in Hp. unfold p_cid. cbn [fst]. apply N.eqb_eq. auto.
Qed.

Lemma combine3_sorted (l e s : list N) : ascending l -> fsorted p_cid (combine (combine l e) s).
Proof.
  intros H. revert e s. induction H as [|x l Hl IH Hx]; intros [|e0 e] [|s0 s]; simpl; try constructor.
  - apply IH.
  - rewrite Forall_forall in *. intros [[c e'] s'] Hp. apply in_combine_l in Hp. apply in_combine_l in Hp.
    unfold p_cid. cbn [fst]. auto.
Qed.

Lemma nodup_ascending l : ascending l -> strictly_ascending (nodup N.eq_dec l).
Proof.
  induction 1 as [|x l Hl IH Hx]; simpl; [constructor|]. destruct (in_dec N.eq_dec x l); auto.
  constructor; auto. rewrite Forall_forall in *. intros y Hy. apply nodup_In in Hy.
  specialize (Hx y Hy). assert (x <> y) by congruence. lia.
Qed.
Lemma strictly_asc l : strictly_ascending l -> ascending l.
Proof.
  induction 1 as [|x l Hl IH Hx]; constructor; auto. eapply Forall_impl; [|exact Hx]. cbv beta. lia.
Qed.
Lemma strictly_nodup l : strictly_ascending l -> NoDup l.
Proof.
  induction 1 as [|x l Hl IH Hx]; constructor; auto. rewrite Forall_forall in Hx. intros C.
  specialize (Hx x C). lia.
Qed.
Lemma strictly_filter p l : strictly_ascending l -> strictly_ascending (filter p l).
Proof.
  induction 1 as [|x l Hl IH Hx]; simpl; [constructor|]. destruct (p x); auto. constructor; auto.
  rewrite Forall_forall in *. intros y Hy. apply filter_In in Hy. apply Hx, Hy.
Qed.
Lemma filter_one x l : NoDup l -> In x l -> filter (fun y => y =? x) l = [x].
Proof.
  induction 1 as [|y l Hy Hl IH]; simpl; [easy|]. intros [->|Hx].
  - rewrite N.eqb_refl. rewrite filter_all_false; auto. intros z Hz. apply N.eqb_neq. congruence.
  - destruct (N.eqb_spec y x) as [->|]; [easy|]. auto.
Qed.
Lemma map_filter_comm {A B} (f : A -> B) p l : filter p (map f l) = map f (filter (fun a => p (f a)) l).
Proof. induction l as [|x l IH]; simpl; auto. destruct (p (f x)); simpl; now rewrite IH. Qed.

Lemma inv_init cids items emit x rest :
  (2 <= length cids)%nat -> ascending (nth (length cids - 1) cids []) ->
  nth (length cids - 1) cids [] = x :: rest ->
  (forall p, In p items -> In (p_cid p) (nth (length cids - 1) cids [])) ->
  inv cids items emit (mk_kstate (length cids - 1) x 0 (repeat 0%nat (length cids)) []).
Proof.
  intros Hk Ha E Hin. unfold inv. cbn [k_list k_context k_streak k_next k_out].
  rewrite repeat_length. repeat split; try lia. left. exists (length cids - 1)%nat.
  repeat split; try lia.
  - rewrite Nat.leb_refl. lia.
  - intros i Hi. unfold visited. rewrite Nat.leb_refl.
    destruct (Nat.leb_spec (length cids - 1) i), (Nat.ltb_spec i (length cids - 1)); try lia;
      cbn [andb]; unfold nx; rewrite nth_repeat; lia.
  - unfold expected. rewrite filter_all_false; auto. intros p Hp. specialize (Hin p Hp).
    rewrite E in *. inversion Ha as [|? ? H1 H2]; subst. rewrite Forall_forall in H2.
    destruct Hin as [Q|Q]; [|specialize (H2 _ Q)]; destruct (N.ltb_spec (p_cid p) x); auto; lia.
Qed.

(* with entities *)
Definition entity_emit (cids scores : list (list N)) (p : posting) : posting :=
  (p_cid p, p_eid p, (base_sum cids scores (length cids - 1) (p_cid p) + p_score p) mod 2 ^ 16).

Lemma kway_entities old cids scores es x rest :
  (2 <= length cids)%nat -> (forall i, (i < length cids)%nat -> ascending (nth i cids [])) ->
  length scores = length cids ->
  (forall i, (i < length cids)%nat -> length (nth i scores []) = length (nth i cids [])) ->
  length es = length (nth (length cids - 1) cids []) ->
  nth (length cids - 1) cids [] = x :: rest ->
  intersectKWay old cids scores (Some es) =
  Ok (map (entity_emit cids scores) (filter (fun p => commonb cids (p_cid p))
        (combine (combine (nth (length cids - 1) cids []) es) (nth (length cids - 1) scores [])))).
Proof.
  intros Hk Ha Hs Hl He E. unfold intersectKWay.
  destruct (length cids) as [|k1] eqn:Ek; [lia|]. 
  replace (S k1 - 1)%nat with k1 in * by lia.
  rewrite (get_ok cids k1 []) by lia. cbn [bind].
  set (items := combine (combine (nth k1 cids []) es) (nth k1 scores [])).
  rewrite E at 1.
  pose proof (inv_init cids items (entity_emit cids scores) x rest) as I0.
  pose proof (kway_loop_ok cids scores (Some es) (length es)) as K0.
  rewrite Ek in I0, K0. replace (S k1 - 1)%nat with k1 in * by lia.
  assert (Hin : forall p, In p items -> In (p_cid p) (nth k1 cids [])).
  { intros [[c e] v] Hp. apply in_combine_l in Hp. apply in_combine_l in Hp. exact Hp. }
  specialize (I0 Hk (Ha k1 (Nat.lt_succ_diag_r k1)) E Hin).
  specialize (K0 Hk Ha Hs Hl He items (entity_emit cids scores)).
  rewrite K0; clear K0; auto.
  - apply combine3_sorted. apply Ha. lia.
  - unfold expected. rewrite map_length. etransitivity; [apply filter_length_le|].
    unfold items. rewrite !combine_length. lia.
  - cbn zeta. intros y Hy.
    assert (Hyl : In y (nth k1 cids [])) by (apply Hy; lia).
    destruct (asc_split y (nth k1 cids [])) as [a [b [c [Eabc [Ya [Yb Yc]]]]]]; [apply Ha; lia|].
    destruct (asc_filter _ _ _ _ _ Eabc Ya Yb Yc) as [B1 B2]. rewrite B1, B2.
    assert (LL : length (nth k1 cids []) = (length a + (length b + length c))%nat).
    { rewrite Eabc, !app_length. lia. }
    specialize (Hl k1 (Nat.lt_succ_diag_r k1)).
    rewrite Eabc at 1. rewrite skipn_app, skipn_all, Nat.sub_diag. cbn [app skipn].
    rewrite emit_entities_eq; auto; try lia.
    2: { intros z Hz. apply Yc in Hz. lia. }
    f_equal. f_equal.
    assert (EI : filter (fun p => p_cid p =? y) items =
      combine (combine b (firstn (length b) (skipn (length a) es)))
              (firstn (length b) (skipn (length a) (nth k1 scores [])))).
    { unfold items. rewrite Eabc at 1.
      rewrite <- (firstn_skipn (length a) es) at 1.
      rewrite <- (firstn_skipn (length b) (skipn (length a) es)) at 1.
      rewrite <- (firstn_skipn (length a) (nth k1 scores [])) at 1.
      rewrite <- (firstn_skipn (length b) (skipn (length a) (nth k1 scores []))) at 1.
      rewrite !combine_app; try (rewrite ?combine_length, ?firstn_length, ?skipn_length; lia).
      rewrite !filter_app. rewrite (filter_cid_combine y a) by (intros z Hz; apply Ya in Hz; lia).
      rewrite (filter_cid_combine y c) by (intros z Hz; apply Yc in Hz; lia).
      rewrite filter_cid_combine_all by auto. cbn [app]. apply app_nil_r. }
    rewrite EI. apply map_ext_in. intros [[c' e'] v'] Hp. apply in_combine_l in Hp.
    apply in_combine_l in Hp. apply Yb in Hp. subst c'. unfold entity_emit, p_cid, p_eid, p_score.
    cbn [fst snd]. rewrite Ek. replace (S k1 - 1)%nat with k1 by lia. f_equal.
    unfold add16. now rewrite N.add_mod_idemp_l by discriminate.
  - unfold measure. rewrite <- Ek. rewrite rem_init. cbn [k_streak]. rewrite Ek.
    destruct (Nat.ltb 0 (S k1)); lia.
Qed.

(* without entities *)
Definition word_emit (cids scores : list (list N)) (p : posting) : posting :=
  (p_cid p, 0, base_sum cids scores (length cids) (p_cid p) mod 2 ^ 16).

Lemma kway_words old cids scores :
  (2 <= length cids)%nat -> (forall i, (i < length cids)%nat -> ascending (nth i cids [])) ->
  length scores = length cids ->
  (forall i, (i < length cids)%nat -> length (nth i scores []) = length (nth i cids [])) ->
  (forall l, In l cids -> l <> []) ->
  intersectKWay old cids scores None =
  Ok (map (fun x => (x, 0, base_sum cids scores (length cids) x mod 2 ^ 16))
          (filter (commonb cids) (nodup N.eq_dec (nth (length cids - 1) cids [])))).
Proof.
  intros Hk Ha Hs Hl Hne. unfold intersectKWay.
  destruct (length cids) as [|k1] eqn:Ek; [lia|]. 
  replace (S k1 - 1)%nat with k1 in * by lia.
  rewrite (get_ok cids k1 []) by lia. cbn [bind].
  assert (HinL : In (nth k1 cids []) cids) by (apply nth_In; lia).
  destruct (nth k1 cids []) as [|x rest] eqn:E; [exfalso; now apply (Hne [])|].
  assert (EX : existsb (fun l : list N => match l with [] => true | _ => false end) cids = false).
  { destruct (existsb _ cids) eqn:Q; auto. apply existsb_exists in Q. destruct Q as [[|y l] [Q1 Q2]];
      [exfalso; now apply (Hne [])|discriminate Q2]. }
  rewrite EX. rewrite <- E.
  set (items := map (fun x => (x, 0, 0)) (nodup N.eq_dec (nth k1 cids [])) : list posting).
  pose proof (inv_init cids items (word_emit cids scores) x rest) as I0.
  pose proof (kway_loop_ok cids scores None (min_length cids)) as K0.
  rewrite Ek in I0, K0. replace (S k1 - 1)%nat with k1 in * by lia.
  assert (Hin : forall p, In p items -> In (p_cid p) (nth k1 cids [])).
  { intros p Hp. unfold items in Hp. apply in_map_iff in Hp. destruct Hp as [y [<- Hy]].
    apply nodup_In in Hy. exact Hy. }
  pose proof (Ha k1 (Nat.lt_succ_diag_r k1)) as Hak.
  pose proof (nodup_ascending _ Hak) as Hnd.
  specialize (I0 Hk Hak E Hin).
  specialize (K0 Hk Ha Hs Hl I items (word_emit cids scores)).
  rewrite K0; clear K0; auto.
  - f_equal. unfold expected, items. rewrite map_filter_comm, map_map. unfold word_emit.
    rewrite Ek. cbn [p_cid fst andb]. reflexivity.
  - unfold items. apply strictly_asc in Hnd. clear -Hnd. induction Hnd as [|y l Hl IH Hy]; simpl; constructor; auto.
    apply Forall_forall. intros p Hp. apply in_map_iff in Hp. destruct Hp as [z [<- Hz]].
    rewrite Forall_forall in Hy. apply (Hy z Hz).
  - apply min_length_ge; [intros ->; discriminate Ek|]. intros l Hlin.
    unfold expected, items. rewrite map_length, map_filter_comm, map_length. cbn [p_cid fst andb].
    apply NoDup_incl_length.
    + apply NoDup_filter, NoDup_nodup.
    + intros y Hy. apply filter_In in Hy. destruct Hy as [_ Hy]. unfold commonb in Hy.
      rewrite forallb_forall in Hy. apply member_in. now apply Hy.
  - intros y Hy. unfold items. rewrite map_filter_comm, map_map. cbn [p_cid fst].
    rewrite filter_one; [|apply NoDup_nodup|apply nodup_In; apply Hy; lia].
    cbn [map]. unfold word_emit. rewrite Ek. reflexivity.
  - unfold measure. rewrite <- Ek. rewrite rem_init. cbn [k_streak]. rewrite Ek.
    destruct (Nat.ltb 0 (S k1)); lia.
Qed.
