(* Proofs about Fts_Model: intersectKWay. *)
From Coq Require Import List NArith Arith Bool Lia ZifyBool ZifyN ZifyNat Sorted Permutation.
From Verif Require Import Std_Model Std_Proof Base ListAux Lex_Proof Fts_Model Fts_Spec Fts_Proof Fts_Proof2.
Import ListNotations.
Open Scope N_scope.

Lemma get_ok {A} (l : list A) i d : (i < length l)%nat -> get l i = Ok (nth i l d).
Proof. intros H. unfold get. now rewrite (nth_error_nth' l d H). Qed.

Lemma list_set_length {A} (l : list A) i x : length (list_set l i x) = length l.
Proof. revert i. induction l as [|y l IH]; intros [|i]; simpl; auto. Qed.
Lemma nth_list_set {A} (l : list A) i x j d : (i < length l)%nat ->
  nth j (list_set l i x) d = if Nat.eqb j i then x else nth j l d.
Proof.
  revert i j. induction l as [|y l IH]; intros [|i] [|j] H; simpl in *; try lia; auto.
  apply IH. lia.
Qed.

(* number of elements below x, and number of elements up to x *)
Definition bl (x : N) (l : list N) : nat := length (filter (fun y => y <? x) l).
Definition ble (x : N) (l : list N) : nat := length (filter (fun y => y <=? x) l).

Lemma filter_length_le {A} (p : A -> bool) l : (length (filter p l) <= length l)%nat.
Proof. induction l as [|x l IH]; simpl; auto. destruct (p x); simpl; lia. Qed.
Lemma bl_le x l : (bl x l <= length l)%nat.
Proof. apply filter_length_le. Qed.
Lemma ble_le x l : (ble x l <= length l)%nat.
Proof. apply filter_length_le. Qed.

Lemma asc_split x l : ascending l ->
  exists a b c, l = a ++ b ++ c /\ (forall y, In y a -> y < x) /\ (forall y, In y b -> y = x) /\
    (forall y, In y c -> x < y).
Proof.
  induction 1 as [|z l Hl [a [b [c [-> [Ha [Hb Hc]]]]]] Hz].
  { exists [], [], []. repeat split; auto; intros y []. }
  rewrite Forall_forall in Hz.
  destruct (N.compare_spec z x) as [->|Hlt|Hgt].
  - assert (a = []) as ->.
    { destruct a as [|u a]; auto. specialize (Ha u (or_introl eq_refl)).
      specialize (Hz u (or_introl eq_refl)). lia. }
    exists [], (x :: b), c. repeat split; auto. intros y [<-|Hy]; auto.
  - exists (z :: a), b, c. repeat split; auto. intros y [<-|Hy]; auto.
  - assert (a = []) as ->.
    { destruct a as [|u a]; auto. specialize (Ha u (or_introl eq_refl)).
      specialize (Hz u (or_introl eq_refl)). lia. }
    assert (b = []) as ->.
    { destruct b as [|u b]; auto. specialize (Hb u (or_introl eq_refl)).
      specialize (Hz u (or_introl eq_refl)). lia. }
    exists [], [], (z :: c). repeat split; auto; try (intros y []; fail). intros y [<-|Hy]; auto.
Qed.

Lemma asc_filter x l a b c : l = a ++ b ++ c -> (forall y, In y a -> y < x) ->
  (forall y, In y b -> y = x) -> (forall y, In y c -> x < y) ->
  bl x l = length a /\ ble x l = (length a + length b)%nat.
Proof.
  intros -> Ha Hb Hc. unfold bl, ble. rewrite !filter_app, !app_length.
  rewrite !(filter_all_true _ a), (filter_all_false _ b), !(filter_all_false _ c), (filter_all_true _ b);
    simpl; try lia; intros y Hy.
  - apply Hb in Hy. lia.
  - apply Hc in Hy. lia.
  - apply Hc in Hy. lia.
  - apply Hb in Hy. lia.
  - apply Ha in Hy. lia.
  - apply Ha in Hy. lia.
Qed.

Lemma nth_below x l j : ascending l -> (j < length l)%nat -> (nth j l 0 < x <-> (j < bl x l)%nat).
Proof.
  intros H Hj. destruct (asc_split x l H) as [a [b [c [E [Ha [Hb Hc]]]]]].
  destruct (asc_filter x l a b c E Ha Hb Hc) as [E1 E2]. rewrite E1. rewrite E in *.
  destruct (Nat.ltb_spec j (length a)) as [L|L].
  - split; [auto|intros _]. rewrite app_nth1 by auto. apply Ha. now apply nth_In.
  - split; [|lia]. rewrite app_nth2 by auto. intros C. exfalso.
    assert (Q : In (nth (j - length a) (b ++ c) 0) (b ++ c)).
    { apply nth_In. rewrite !app_length in *. lia. }
    apply in_app_or in Q. destruct Q as [Q|Q]; [apply Hb in Q|apply Hc in Q]; lia.
Qed.
Lemma nth_below_eq x l j : ascending l -> (j < length l)%nat -> (nth j l 0 <= x <-> (j < ble x l)%nat).
Proof.
  intros H Hj. destruct (asc_split x l H) as [a [b [c [E [Ha [Hb Hc]]]]]].
  destruct (asc_filter x l a b c E Ha Hb Hc) as [E1 E2]. rewrite E2. rewrite E in *.
  destruct (Nat.ltb_spec j (length a + length b)) as [L|L].
  - split; [auto|intros _]. rewrite app_assoc. rewrite app_nth1 by (rewrite app_length; lia).
    assert (Q : In (nth j (a ++ b) 0) (a ++ b)) by (apply nth_In; rewrite app_length; lia).
    apply in_app_or in Q. destruct Q as [Q|Q]; [apply Ha in Q|apply Hb in Q]; lia.
  - split; [|lia]. rewrite app_assoc. rewrite app_nth2 by (rewrite app_length; lia). intros C. exfalso.
    assert (Q : In (nth (j - length (a ++ b)) c 0) c).
    { apply nth_In. rewrite !app_length in *. lia. }
    apply Hc in Q. lia.
Qed.
Lemma bl_ble x l : (bl x l <= ble x l)%nat.
Proof.
  unfold bl, ble. induction l as [|y l IH]; simpl; auto.
  destruct (N.ltb_spec y x), (N.leb_spec y x); simpl; lia.
Qed.
Lemma bl_member x l : ascending l -> In x l -> (bl x l < ble x l)%nat /\ nth (bl x l) l 0 = x.
Proof.
  intros H Hx. destruct (asc_split x l H) as [a [b [c [E [Ha [Hb Hc]]]]]].
  destruct (asc_filter x l a b c E Ha Hb Hc) as [E1 E2]. rewrite E1, E2. rewrite E in *.
  destruct b as [|u b].
  - exfalso. apply in_app_or in Hx. destruct Hx as [Hx|Hx]; [apply Ha in Hx; lia|].
    simpl in Hx. apply Hc in Hx. lia.
  - split; [simpl; lia|]. rewrite app_nth2 by lia. rewrite Nat.sub_diag. simpl.
    apply Hb. simpl. auto.
Qed.
Lemma bl_nth_member x l : ascending l -> (bl x l < length l)%nat -> nth (bl x l) l 0 = x -> In x l.
Proof. intros _ H E. rewrite <- E. now apply nth_In. Qed.
Lemma bl_mono x y l : x <= y -> (bl x l <= bl y l)%nat.
Proof.
  intros H. unfold bl. induction l as [|z l IH]; simpl; auto.
  destruct (N.ltb_spec z x), (N.ltb_spec z y); simpl; lia.
Qed.
Lemma ble_bl x y l : x < y -> (ble x l <= bl y l)%nat.
Proof.
  intros H. unfold bl, ble. induction l as [|z l IH]; simpl; auto.
  destruct (N.leb_spec z x), (N.ltb_spec z y); simpl; lia.
Qed.

Lemma advance_to_eq x l n : ascending l -> (n <= length l)%nat -> advance_to x l n = Nat.max n (bl x l).
Proof.
  intros H Hn. unfold advance_to.
  destruct (asc_split x l H) as [a [b [c [E [Ha [Hb Hc]]]]]].
  destruct (asc_filter x l a b c E Ha Hb Hc) as [E1 E2]. rewrite E1.
  assert (T : forall u v, (forall y, In y u -> y < x) -> (forall y, In y v -> x <= y) ->
    take_while (fun y => y <? x) (u ++ v) = u).
  { induction u as [|w u IH]; simpl; intros v Hu Hv.
    - destruct v as [|w v]; simpl; auto. specialize (Hv w (or_introl eq_refl)).
      destruct (N.ltb_spec w x); [lia|auto].
    - pose proof (Hu w (or_introl eq_refl)). destruct (N.ltb_spec w x); [|lia]. rewrite IH; auto. }
  assert (BC : forall y, In y (b ++ c) -> x <= y).
  { intros y Hy. apply in_app_or in Hy. destruct Hy as [Hy|Hy]; [apply Hb in Hy|apply Hc in Hy]; lia. }
  rewrite E, skipn_app.
  destruct (Nat.leb_spec n (length a)) as [L|L].
  - replace (n - length a)%nat with 0%nat by lia. cbn [skipn]. rewrite T; auto.
    + rewrite skipn_length. lia.
    + intros y Hy. apply Ha. rewrite <- (firstn_skipn n a). apply in_or_app. auto.
  - rewrite (skipn_all2 a) by lia. rewrite T; simpl; try lia; try (intros y []; fail).
    intros y Hy. apply BC. rewrite <- (firstn_skipn (n - length a) (b ++ c)). apply in_or_app. auto.
Qed.

(* sums over the lists *)
Lemma sum_le (f g : nat -> nat) l : (forall i, In i l -> f i <= g i)%nat ->
  (list_sum (map f l) <= list_sum (map g l))%nat.
Proof.
  induction l as [|x l IH]; simpl; intros H; auto. pose proof (H x (or_introl eq_refl)).
  specialize (IH (fun i Hi => H i (or_intror Hi))). lia.
Qed.
Lemma sum_lt (f g : nat -> nat) l c : (forall i, In i l -> f i <= g i)%nat -> In c l ->
  (f c < g c)%nat -> (list_sum (map f l) < list_sum (map g l))%nat.
Proof.
  induction l as [|x l IH]; simpl; intros H Hc Hlt; [easy|].
  destruct Hc as [->|Hc].
  - pose proof (sum_le f g l (fun i Hi => H i (or_intror Hi))). lia.
  - pose proof (H x (or_introl eq_refl)). specialize (IH (fun i Hi => H i (or_intror Hi)) Hc Hlt). lia.
Qed.

Lemma add16_add16 a b c : add16 (add16 a b) c = (a + b + c) mod 2 ^ 16.
Proof. unfold add16. now rewrite N.add_mod_idemp_l by discriminate. Qed.

Lemma scores_of_first x l s : ascending l -> length s = length l -> In x l ->
  first_score x (l, s) = nth (bl x l) s 0.
Proof.
  intros H Hl Hx. unfold first_score. cbn [fst snd].
  destruct (asc_split x l H) as [a [b [c [E [Ha [Hb Hc]]]]]].
  destruct (asc_filter x l a b c E Ha Hb Hc) as [E1 E2]. rewrite E1.
  rewrite <- (firstn_skipn (length a) s). rewrite E.
  assert (LA : length a = length (firstn (length a) s)).
  { rewrite firstn_length. rewrite Hl, E, app_length. lia. }
  rewrite scores_of_app by auto. rewrite scores_of_none by (intros C; apply Ha in C; lia).
  rewrite app_nth2 by lia. rewrite <- LA, Nat.sub_diag.
  destruct b as [|u b].
  { exfalso. rewrite E in Hx. apply in_app_or in Hx. destruct Hx as [Hx|Hx]; [apply Ha in Hx; lia|].
    simpl in Hx. apply Hc in Hx. lia. }
  rewrite (Hb u) by (simpl; auto).
  assert (LS : (length a < length s)%nat). { rewrite Hl, E, !app_length. simpl. lia. }
  rewrite (skipn_nth_cons (length a) s 0 LS). cbn [app nth]. rewrite scores_of_cons, N.eqb_refl.
  reflexivity.
Qed.
