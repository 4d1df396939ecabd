(* Proofs about Fts_Model: intersectTwoPostingLists. *)
From Coq Require Import List NArith Arith Bool Lia ZifyBool ZifyN ZifyNat Sorted Permutation.
From Verif Require Import Std_Model Std_Proof Base ListAux Lex_Proof Fts_Model Fts_Spec Fts_Proof.
Import ListNotations.
Open Scope N_scope.

Lemma combine_app {A B} (a1 a2 : list A) (b1 b2 : list B) : length a1 = length b1 ->
  combine (a1 ++ a2) (b1 ++ b2) = combine a1 b1 ++ combine a2 b2.
Proof.
  revert b1. induction a1 as [|x a1 IH]; intros [|y b1] H; simpl in *; try discriminate; auto.
  rewrite IH; auto.
Qed.
Lemma scores_of_app x l1 l2 s1 s2 : length l1 = length s1 ->
  scores_of x (l1 ++ l2) (s1 ++ s2) = scores_of x l1 s1 ++ scores_of x l2 s2.
Proof. intros H. unfold scores_of. now rewrite combine_app, filter_app, map_app. Qed.
Lemma scores_of_cons x y l v s :
  scores_of x (y :: l) (v :: s) = (if y =? x then [v] else []) ++ scores_of x l s.
Proof. unfold scores_of. cbn [combine filter fst]. destruct (y =? x); reflexivity. Qed.
Lemma scores_of_none x l s : ~ In x l -> scores_of x l s = [].
Proof.
  intros H. unfold scores_of. rewrite filter_all_false; auto. intros [y v] Hp.
  apply in_combine_l in Hp. cbn [fst]. apply N.eqb_neq. congruence.
Qed.
Lemma zip_add_nil_r a : zip_add a [] = [].
Proof. destruct a; reflexivity. Qed.
Lemma zip_add_app a1 a2 b1 b2 : length a1 = length b1 ->
  zip_add (a1 ++ a2) (b1 ++ b2) = zip_add a1 b1 ++ zip_add a2 b2.
Proof.
  revert b1. induction a1 as [|x a1 IH]; intros [|y b1] H; simpl in *; try discriminate; auto.
  rewrite IH; auto.
Qed.
Lemma add16_sum a b : add16 a b = score_sum [a; b].
Proof. unfold add16, score_sum. cbn [fold_right]. now rewrite N.add_0_r. Qed.

Lemma skip_below_eq x l : forall i,
  skip_below x l i = (drop_while (fun y => y <? x) l, Nat.add i (length (take_while (fun y => y <? x) l))).
Proof.
  induction l as [|y l IH]; intros i; cbn [skip_below drop_while take_while].
  - simpl. now rewrite Nat.add_0_r.
  - destruct (y <? x); [rewrite IH; simpl; f_equal; lia|]. simpl. now rewrite Nat.add_0_r.
Qed.

(* the contribution of two posting lists to context x *)
Definition both (l1 s1 l2 s2 : list N) (x : N) : list N :=
  zip_add (scores_of x l1 s1) (scores_of x l2 s2).
Definition by_context (x : N) (d : list (N * N)) : list N :=
  map snd (filter (fun p => fst p =? x) d).
Lemma by_context_app x d1 d2 : by_context x (d1 ++ d2) = by_context x d1 ++ by_context x d2.
Proof. unfold by_context. now rewrite filter_app, map_app. Qed.

Lemma take_equal_eq s1 s2 : forall l1 l2 i j res,
  length l1 = length (skipn i s1) -> length l2 = length (skipn j s2) ->
  exists n d, take_equal s1 s2 l1 l2 i j res =
              Ok (skipn n l1, (i + n)%nat, (skipn n l2, (j + n)%nat), res ++ d) /\
    (n <= length l1)%nat /\ (n <= length l2)%nat /\
    map fst d = firstn n l1 /\ firstn n l1 = firstn n l2 /\
    (forall x, by_context x d = both (firstn n l1) (firstn n (skipn i s1))
                                  (firstn n l2) (firstn n (skipn j s2)) x) /\
    match l1, l2 with x :: _, y :: _ => x = y -> (0 < n)%nat | _, _ => True end.
Proof.
  induction l1 as [|x l1 IH]; intros l2 i j res H1 H2.
  { exists 0%nat, []. cbn. rewrite !Nat.add_0_r, app_nil_r. repeat split; auto; lia. }
  destruct l2 as [|y l2].
  { exists 0%nat, []. cbn. rewrite !Nat.add_0_r, app_nil_r. repeat split; auto; lia. }
  cbn [take_equal]. destruct (N.eqb_spec x y) as [->|Hxy].
  - assert (Hi : (i < length s1)%nat).
    { rewrite skipn_length in H1. simpl in H1. lia. }
    assert (Hj : (j < length s2)%nat).
    { rewrite skipn_length in H2. simpl in H2. lia. }
    unfold get. rewrite (nth_error_nth' s1 0 Hi), (nth_error_nth' s2 0 Hj). cbn [bind].
    rewrite (skipn_nth_cons i s1 0 Hi) in *. rewrite (skipn_nth_cons j s2 0 Hj) in *.
    set (a := nth i s1 0) in *. set (b := nth j s2 0) in *.
    destruct (IH l2 (S i) (S j) (res ++ [(y, add16 a b)])) as [n [d [E [L1 [L2 [M1 [M2 [B _]]]]]]]].
    { cbn [length] in H1. lia. } { cbn [length] in H2. lia. }
    exists (S n), ((y, add16 a b) :: d). rewrite E. repeat split; try (cbn [length]; lia).
    + rewrite <- app_assoc. cbn [skipn app]. now rewrite !Nat.add_succ_r.
    + cbn [map firstn fst]. now rewrite M1.
    + cbn [firstn]. now rewrite M2.
    + intros z. cbn [firstn].
      change (by_context z ((y, add16 a b) :: d)) with (by_context z ([(y, add16 a b)] ++ d)).
      rewrite by_context_app, B. unfold both. rewrite !scores_of_cons.
      rewrite zip_add_app by (destruct (y =? z); reflexivity). f_equal.
      unfold by_context. cbn [filter fst]. destruct (y =? z); [|reflexivity].
      cbn [map snd zip_add]. now rewrite add16_sum.
  - exists 0%nat, []. cbn [skipn firstn]. rewrite !Nat.add_0_r, app_nil_r.
    repeat split; auto; try lia.
Qed.

Lemma skipn_len {A} (l : list A) n : length (skipn n l) = (length l - n)%nat.
Proof. apply skipn_length. Qed.

(* dropping what lies below all contexts of the other list changes nothing *)
Lemma both_skip_l l1 s1 l2 s2 y x : ascending l1 -> length l1 = length s1 ->
  Forall (fun z => y <= z) l2 ->
  both l1 s1 l2 s2 x =
  both (drop_while (fun z => z <? y) l1) (skipn (length (take_while (fun z => z <? y) l1)) s1) l2 s2 x.
Proof.
  intros Hs Hl H2. unfold both. 
  set (T := take_while (fun z => z <? y) l1). set (D := drop_while (fun z => z <? y) l1).
  assert (E1 : l1 = T ++ D) by (symmetry; apply take_drop_while).
  assert (LT : (length T <= length s1)%nat).
  { rewrite <- Hl. rewrite E1. rewrite app_length. lia. }
  assert (E2 : s1 = firstn (length T) s1 ++ skipn (length T) s1) by (symmetry; apply firstn_skipn).
  assert (E : scores_of x l1 s1 = scores_of x T (firstn (length T) s1) ++ scores_of x D (skipn (length T) s1)).
  { rewrite <- scores_of_app by (rewrite firstn_length; lia). now rewrite <- E1, <- E2. }
  rewrite E. destruct (N.ltb_spec x y) as [Hxy|Hxy].
  - rewrite (scores_of_none x l2 s2); [now rewrite !zip_add_nil_r|].
    rewrite Forall_forall in H2. intros C. specialize (H2 _ C). lia.
  - rewrite (scores_of_none x T); [reflexivity|].
    pose proof (take_below_lt (fun z => z) y l1) as Q. rewrite Forall_forall in Q.
    intros C. specialize (Q _ C). lia.
Qed.
Lemma both_skip_r l1 s1 l2 s2 y x : ascending l2 -> length l2 = length s2 ->
  Forall (fun z => y <= z) l1 ->
  both l1 s1 l2 s2 x =
  both l1 s1 (drop_while (fun z => z <? y) l2) (skipn (length (take_while (fun z => z <? y) l2)) s2) x.
Proof.
  intros Hs Hl H2. unfold both. 
  set (T := take_while (fun z => z <? y) l2). set (D := drop_while (fun z => z <? y) l2).
  assert (E1 : l2 = T ++ D) by (symmetry; apply take_drop_while).
  assert (LT : (length T <= length s2)%nat).
  { rewrite <- Hl. rewrite E1. rewrite app_length. lia. }
  assert (E2 : s2 = firstn (length T) s2 ++ skipn (length T) s2) by (symmetry; apply firstn_skipn).
  assert (E : scores_of x l2 s2 = scores_of x T (firstn (length T) s2) ++ scores_of x D (skipn (length T) s2)).
  { rewrite <- scores_of_app by (rewrite firstn_length; lia). now rewrite <- E1, <- E2. }
  rewrite E. destruct (N.ltb_spec x y) as [Hxy|Hxy].
  - rewrite (scores_of_none x l1 s1); [reflexivity|].
    rewrite Forall_forall in H2. intros C. specialize (H2 _ C). lia.
  - rewrite (scores_of_none x T); [reflexivity|].
    pose proof (take_below_lt (fun z => z) y l2) as Q. rewrite Forall_forall in Q.
    intros C. specialize (Q _ C). lia.
Qed.
Lemma both_nil_l s1 l2 s2 x : both [] s1 l2 s2 x = [].
Proof. reflexivity. Qed.
Lemma both_nil_r l1 s1 s2 x : both l1 s1 [] s2 x = [].
Proof. unfold both. apply zip_add_nil_r. Qed.

Lemma ascending_split n l : ascending l ->
  ascending (firstn n l) /\ ascending (skipn n l) /\
  (forall a b, In a (firstn n l) -> In b (skipn n l) -> a <= b).
Proof.
  intros H. rewrite <- (firstn_skipn n l) in H. apply (fsorted_app (fun x => x)). exact H.
Qed.
Lemma ascending_app l1 l2 : ascending l1 -> ascending l2 ->
  (forall a b, In a l1 -> In b l2 -> a <= b) -> ascending (l1 ++ l2).
Proof.
  induction 1 as [|x l1 H1 IH H2]; simpl; intros Hl2 Hc; auto. constructor.
  - apply IH; auto.
  - apply Forall_app. split; auto. rewrite Forall_forall. auto.
Qed.

Definition two_ok (l1 s1 l2 s2 : list N) (d : list (N * N)) : Prop :=
  (forall x, by_context x d = both l1 s1 l2 s2 x) /\
  ascending (map fst d) /\ (forall c, In c (map fst d) -> In c l1).

Lemma two_loop_eq s1 s2 : forall fuel l1 l2 i j res,
  ascending l1 -> ascending l2 ->
  length l1 = length (skipn i s1) -> length l2 = length (skipn j s2) ->
  (length l1 + length l2 <= fuel)%nat ->
  exists d, two_loop fuel s1 s2 l1 l2 i j res = Ok (res ++ d) /\
            two_ok l1 (skipn i s1) l2 (skipn j s2) d.
Proof.
  induction fuel as [|fuel IH]; intros l1 l2 i j res A1 A2 H1 H2 Hf.
  { destruct l1; destruct l2; simpl in Hf; try lia. exists []. cbn. rewrite app_nil_r.
    repeat split; auto; try constructor. }
  destruct l1 as [|x0 l1'] eqn:E1.
  { exists []. cbn. rewrite app_nil_r. repeat split; auto; try constructor. }
  destruct l2 as [|y l2'] eqn:E2.
  { exists []. cbn [two_loop]. rewrite app_nil_r. split; auto. split; [|split].
    - intros x. rewrite both_nil_r. reflexivity.
    - constructor.
    - intros c []. }
  rewrite <- E1, <- E2 in *.
  assert (EQ : two_loop (S fuel) s1 s2 l1 l2 i j res =
    match skip_below y l1 i with
    | ([], _) => Ok res
    | (x :: m1', i') =>
        match skip_below x l2 j with
        | ([], _) => Ok res
        | (m2', j') =>
            bind (take_equal s1 s2 (x :: m1') m2' i' j' res)
              (fun '(m1, a, (m2, b), res') => two_loop fuel s1 s2 m1 m2 a b res')
        end
    end) by (rewrite E1, E2; reflexivity).
  rewrite EQ. clear EQ. rewrite skip_below_eq.
  assert (Hy : Forall (fun z => y <= z) l2).
  { rewrite E2. rewrite E2 in A2. inversion A2; subst. constructor; [lia|auto]. }
  pose proof (take_drop_while (fun z => z <? y) l1) as S1.
  pose proof (fun x => both_skip_l l1 (skipn i s1) l2 (skipn j s2) y x A1 H1 Hy) as B1.
  pose proof (drop_below_ge (fun z => z) y l1 A1) as D1. cbv beta in D1.
  pose proof (fsorted_drop (fun z => z) (fun z => z <? y) l1 A1) as F1.
  set (t1 := length (take_while (fun z => z <? y) l1)) in *.
  assert (LD1 : length l1 = Nat.add t1 (length (drop_while (fun z => z <? y) l1))).
  { rewrite <- S1 at 1. now rewrite app_length. }
  assert (ND1 : forall c, In c (drop_while (fun z => z <? y) l1) -> In c l1).
  { intros c Hc. rewrite <- S1. apply in_or_app. auto. }
  destruct (drop_while (fun z => z <? y) l1) as [|x m1'] eqn:Em1.
  { exists []. rewrite app_nil_r. split; auto. split; [|split].
    - intros x. rewrite B1. rewrite both_nil_l. reflexivity.
    - constructor.
    - intros c []. }
  rewrite skip_below_eq.
  assert (Hx : Forall (fun z => x <= z) (x :: m1')).
  { apply StronglySorted_inv in F1. destruct F1 as [_ F1]. constructor; [lia|auto]. }
  rewrite <- skipn_add in B1.
  pose proof (fun z => both_skip_r (x :: m1') (skipn (i + t1) s1) l2 (skipn j s2) x z A2 H2 Hx) as B2.
  pose proof (take_drop_while (fun z => z <? x) l2) as S2.
  pose proof (fsorted_drop (fun z => z) (fun z => z <? x) l2 A2) as F2.
  pose proof (drop_below_ge (fun z => z) x l2 A2) as D2. cbv beta in D2.
  set (t2 := length (take_while (fun z => z <? x) l2)) in *.
  assert (LD2 : length l2 = Nat.add t2 (length (drop_while (fun z => z <? x) l2))).
  { rewrite <- S2 at 1. now rewrite app_length. }
  rewrite <- skipn_add in B2.
  destruct (drop_while (fun z => z <? x) l2) as [|y' m2'] eqn:Em2.
  { exists []. rewrite app_nil_r. split; auto. split; [|split].
    - intros z. rewrite B1, B2. rewrite both_nil_r. reflexivity.
    - constructor.
    - intros c []. }
  assert (Q1 : length (x :: m1') = length (skipn (i + t1) s1)) by (rewrite skipn_len in *; lia).
  assert (Q2 : length (y' :: m2') = length (skipn (j + t2) s2)) by (rewrite skipn_len in *; lia).
  destruct (take_equal_eq s1 s2 (x :: m1') (y' :: m2') (i + t1) (j + t2) res Q1 Q2)
    as [n [d [E [L1 [L2 [M1 [M2 [B3 P]]]]]]]].
  rewrite E. cbn [bind].
  destruct (ascending_split n (x :: m1') F1) as [G1 [G2 G3]].
  destruct (ascending_split n (y' :: m2') F2) as [G4 [G5 G6]].
  (* progress *)
  assert (Hprog : (0 < n \/ 0 < t1 \/ 0 < t2)%nat).
  { destruct (Nat.eq_dec t1 0) as [Z1|]; [|lia]. destruct (Nat.eq_dec t2 0) as [Z2|]; [|lia].
    left. apply P.
    assert (TE : forall (A : Type) (p : A -> bool) l, length (take_while p l) = 0%nat -> drop_while p l = l).
    { intros A p l. destruct l as [|u l]; simpl; auto. destruct (p u); simpl; [lia|auto]. }
    pose proof (TE _ _ _ Z2) as C2. rewrite Em2, E2 in C2. injection C2 as -> _.
    inversion D1; subst. inversion D2; subst.
    pose proof (TE _ _ _ Z1) as C1. rewrite Em1 in C1.
    inversion D2; subst. lia. }
  destruct (IH (skipn n (x :: m1')) (skipn n (y' :: m2')) (i + t1 + n)%nat (j + t2 + n)%nat (res ++ d))
    as [d' [E' [K1 [K2 K3]]]]; auto.
  { rewrite !skipn_len in *. lia. }
  { rewrite !skipn_len in *. lia. }
  { rewrite !skipn_len. lia. }
  exists (d ++ d'). rewrite E', app_assoc. split; auto. split; [|split].
  - intros z. rewrite by_context_app, B3, K1, B1, B2. unfold both.
    rewrite !(skipn_add _ n).
    set (u1 := skipn (i + t1) s1) in *. set (u2 := skipn (j + t2) s2) in *.
    assert (X1 : scores_of z (x :: m1') u1 =
                 scores_of z (firstn n (x :: m1')) (firstn n u1) ++ scores_of z (skipn n (x :: m1')) (skipn n u1)).
    { rewrite <- scores_of_app by (rewrite !firstn_length; lia). now rewrite !firstn_skipn. }
    assert (X2 : scores_of z (y' :: m2') u2 =
                 scores_of z (firstn n (y' :: m2')) (firstn n u2) ++ scores_of z (skipn n (y' :: m2')) (skipn n u2)).
    { rewrite <- scores_of_app by (rewrite !firstn_length; lia). now rewrite !firstn_skipn. }
    rewrite X1, X2. rewrite zip_add_app; auto.
    rewrite M2. assert (Y : forall l a b, length l = length a -> length l = length b ->
      length (scores_of z l a) = length (scores_of z l b)).
    { clear. intros l. induction l as [|v l IHl]; intros [|a0 a] [|b0 b] Ha Hb; simpl in Ha, Hb;
        try discriminate; auto. rewrite !scores_of_cons, !app_length.
      rewrite (IHl a b) by lia. destruct (v =? z); reflexivity. }
    apply Y; rewrite !firstn_length; lia.
  - rewrite map_app, M1. apply ascending_app; auto.
  - intros c. rewrite map_app, M1, in_app_iff. intros [Hc|Hc]; apply ND1.
    + rewrite <- (firstn_skipn n). apply in_or_app. auto.
    + rewrite <- (firstn_skipn n). apply in_or_app. auto.
Qed.
