(* Digits and their order. *)
From Coq Require Import List NArith ZArith Arith Bool Lia ZifyN ZifyNat ZifyBool.
From Verif Require Import Table_Spec Lex_Proof Std_Model Std_Proof Strings_Model Strings_Proof Collate_Model Conv_Model Conv_Spec.
Import ListNotations.
Open Scope N_scope.

Notation len l := (N.of_nat (length l)).
Lemma add_compare p a b : (p + a ?= p + b) = (a ?= b).
Proof. destruct (N.compare_spec a b); [apply N.compare_eq_iff|apply N.compare_lt_iff|apply N.compare_gt_iff]; lia. Qed.
Lemma mul_compare p a b : 0 < p -> (a * p ?= b * p) = (a ?= b).
Proof. intros P. destruct (N.compare_spec a b); [apply N.compare_eq_iff|apply N.compare_lt_iff|apply N.compare_gt_iff]; nia. Qed.
(* ---- lexicographic comparison ---- *)
Lemma lex_app a : forall b c d, length a = length b -> lex_cmp (a ++ c) (b ++ d) = or_else (lex_cmp a b) (lex_cmp c d).
Proof.
  induction a as [|x a IH]; intros [|y b] c d L; try discriminate; cbn [app lex_cmp]; [reflexivity|].
  destruct (x ?= y); [|reflexivity|reflexivity]. apply IH. now injection L.
Qed.
Lemma lex_same a c d : lex_cmp (a ++ c) (a ++ d) = lex_cmp c d.
Proof. rewrite lex_app by reflexivity. now rewrite lex_cmp_refl. Qed.
Lemma lex_cons x a y b : lex_cmp (x :: a) (y :: b) = or_else (x ?= y) (lex_cmp a b).
Proof. cbn [lex_cmp or_else]. now destruct (x ?= y). Qed.
Lemma lex_map_mono f a : (forall x y, In x a -> (f x ?= f y) = (x ?= y)) -> forall b, lex_cmp (map f a) (map f b) = lex_cmp a b.
Proof.
  induction a as [|x a IH]; intros H [|y b]; cbn [map lex_cmp]; try reflexivity. rewrite H by now left.
  destruct (x ?= y); [|reflexivity|reflexivity]. apply IH. intros; apply H. now right.
Qed.
Lemma lex_chars a b : lex_cmp (chars a) (chars b) = lex_cmp a b.
Proof. apply lex_map_mono. intros x y _. now rewrite add_compare. Qed.
Lemma lex_firstn k : forall a b, lex_cmp a b <> Gt -> lex_cmp (firstn k a) (firstn k b) <> Gt.
Proof.
  induction k as [|k IH]; intros a b H; [discriminate|]. destruct a as [|x a], b as [|y b]; cbn [firstn lex_cmp] in *; try discriminate; [now contradiction H|].
  destruct (x ?= y); [|discriminate|assumption]. now apply IH.
Qed.

(* ---- digits ---- *)
Lemma number_app a b : number_of (a ++ b) = number_of a * 10 ^ len b + number_of b.
Proof.
  induction a as [|d a IH]; cbn [app number_of]; [lia|]. rewrite IH, app_length, Nat2N.inj_add, N.pow_add_r. lia.
Qed.
Lemma pow10_pos n : 0 < 10 ^ n.
Proof. apply N.neq_0_lt_0. now apply N.pow_nonzero. Qed.
Lemma pow10_S n : 10 ^ N.of_nat (S n) = 10 * 10 ^ N.of_nat n.
Proof. now rewrite Nat2N.inj_succ, N.pow_succ_r'. Qed.
Lemma number_lt a : digits a -> number_of a < 10 ^ len a.
Proof.
  induction 1 as [|d a D H IH]; [reflexivity|]. cbn [number_of length]. rewrite pow10_S. pose proof (pow10_pos (len a)). nia.
Qed.
Lemma number_zeros n : number_of (repeat 0 n) = 0.
Proof. induction n as [|n IH]; [reflexivity|]. cbn [repeat number_of]. now rewrite IH. Qed.
Lemma lex_number a : forall b, digits a -> digits b -> length a = length b -> lex_cmp a b = (number_of a ?= number_of b).
Proof.
  induction a as [|x a IH]; intros [|y b] A B L; try discriminate; [reflexivity|]. inversion A; inversion B; subst. injection L as L.
  rewrite lex_cons, (IH b) by auto. cbn [number_of]. rewrite <- L.
  pose proof (number_lt a H2) as LA. pose proof (number_lt b H6) as LB. rewrite <- L in LB. set (p := 10 ^ len a) in *.
  destruct (N.compare_spec x y) as [E|E|E]; cbn [or_else].
  - subst y. now rewrite add_compare.
  - symmetry. apply N.compare_lt_iff. nia.
  - symmetry. apply N.compare_gt_iff. nia.
Qed.
(* nines' complement *)
Definition nines (l : list N) : list N := map (fun d => 9 - d) l.
Lemma digit_char d : d < 10 -> digit (48 + d) = d.
Proof. intros D. unfold digit, isdigit. replace (48 <=? 48 + d) with true by lia. replace (48 + d <=? 57) with true by lia. cbn [andb]. lia. Qed.
Lemma complement_chars l : digits l -> getBase10ComplementOfIntegerString (chars l) = chars (nines l).
Proof.
  intros D. unfold getBase10ComplementOfIntegerString, chars, nines. rewrite !map_map. apply map_ext_in. intros d I. unfold digits in D. rewrite Forall_forall in D.
  now rewrite digit_char by auto.
Qed.
Lemma nines_digits l : digits (nines l).
Proof. unfold nines, digits. apply Forall_forall. intros x I. apply in_map_iff in I as (d & <- & _). lia. Qed.
Lemma nines_nines l : digits l -> nines (nines l) = l.
Proof. intros D. unfold nines. rewrite map_map. rewrite <- (map_id l) at 2. apply map_ext_in. intros d I. unfold digits in D. rewrite Forall_forall in D. specialize (D d I). lia. Qed.
Lemma lex_nines a : forall b, digits a -> digits b -> length a = length b -> lex_cmp (nines a) (nines b) = lex_cmp b a.
Proof.
  induction a as [|x a IH]; intros [|y b] A B L; try discriminate; [reflexivity|]. inversion A; inversion B; subst. injection L as L. unfold nines in *. cbn [map]. rewrite !lex_cons, (IH b) by auto. f_equal.
  destruct (N.compare_spec y x); [apply N.compare_eq_iff|apply N.compare_lt_iff|apply N.compare_gt_iff]; lia.
Qed.
Lemma digits_app a b : digits a -> digits b -> digits (a ++ b).
Proof. intros A B. apply Forall_app. auto. Qed.
Lemma digits_repeat n d : d < 10 -> digits (repeat d n).
Proof. intros D. apply Forall_forall. intros x I. apply repeat_spec in I. now subst. Qed.
Lemma digits_firstn k l : digits l -> digits (firstn k l).
Proof. intros D. rewrite <- (firstn_skipn k l) in D. now apply Forall_app in D. Qed.
Lemma chars_repeat n d : chars (repeat d n) = repeat (48 + d) n.
Proof. unfold chars. induction n as [|n IH]; cbn [repeat map]; [reflexivity|]. now rewrite IH. Qed.
Lemma nines_repeat n d : nines (repeat d n) = repeat (9 - d) n.
Proof. unfold nines. induction n as [|n IH]; cbn [repeat map]; [reflexivity|]. now rewrite IH. Qed.

(* ---- a fixed number of digits ---- *)
Fixpoint fixed (w : nat) (n : N) : list N := match w with O => [] | S w' => fixed w' (n / 10) ++ [n mod 10] end.
Lemma fixed_length w : forall n, length (fixed w n) = w.
Proof. induction w as [|w IH]; intros n; cbn [fixed]; [reflexivity|]. rewrite app_length, IH. cbn. lia. Qed.
Lemma fixed_digits w : forall n, digits (fixed w n).
Proof. induction w as [|w IH]; intros n; cbn [fixed]; [constructor|]. apply digits_app; [apply IH|]. constructor; [|constructor]. now apply N.mod_lt. Qed.
Lemma fixed_number w : forall n, n < 10 ^ N.of_nat w -> number_of (fixed w n) = n.
Proof.
  induction w as [|w IH]; intros n L; [cbn in *; lia|]. rewrite pow10_S in L. cbn [fixed]. rewrite number_app, IH by (apply N.div_lt_upper_bound; lia).
  cbn [length number_of N.of_nat]. change (10 ^ N.of_nat 1) with 10. change (10 ^ N.of_nat 0) with 1. pose proof (N.div_mod n 10). lia.
Qed.
Lemma lex_fixed w n m : n < 10 ^ N.of_nat w -> m < 10 ^ N.of_nat w -> lex_cmp (fixed w n) (fixed w m) = (n ?= m).
Proof. intros A B. rewrite lex_number by (try apply fixed_digits; now rewrite !fixed_length). now rewrite !fixed_number. Qed.
Lemma fixed_zero w : fixed w 0 = repeat 0 w.
Proof. induction w as [|w IH]; [reflexivity|]. cbn [fixed]. change (0 / 10) with 0. change (0 mod 10) with 0. rewrite IH. symmetry. apply repeat_cons. Qed.
(* the output of a number *)
Lemma decimal_loop_fixed fuel : forall n, n < 2 ^ N.of_nat fuel -> (0 < fuel)%nat -> exists k, (0 < k)%nat /\ decimal_loop fuel n = chars (fixed k n) /\ n < 10 ^ N.of_nat k /\ (forall j, n < 10 ^ N.of_nat j -> (k <= Nat.max j 1)%nat).
Proof.
  induction fuel as [|fuel IH]; intros n L F; [lia|]. cbn [decimal_loop]. destruct (n <? 10) eqn:T.
  - exists 1%nat. split; [lia|]. cbn [fixed app]. rewrite N.mod_small by lia. split; [reflexivity|]. split; [cbn; lia|]. lia.
  - assert (F2 : (0 < fuel)%nat) by (destruct fuel; [cbn in L; lia|lia]).
    assert (L2 : n / 10 < 2 ^ N.of_nat fuel).
    { rewrite Nat2N.inj_succ, N.pow_succ_r' in L. apply N.div_lt_upper_bound; lia. }
    destruct (IH (n / 10) L2 F2) as (k & K & E & B & M). exists (S k). split; [lia|]. rewrite E. cbn [fixed]. unfold chars. rewrite map_app. split; [reflexivity|]. split.
    + rewrite pow10_S. pose proof (N.div_mod n 10). pose proof (N.mod_lt n 10). lia.
    + intros j J. destruct j as [|j]; [cbn in J; lia|]. rewrite pow10_S in J. specialize (M j). assert (n / 10 < 10 ^ N.of_nat j) by (apply N.div_lt_upper_bound; lia). specialize (M H).
      destruct j as [|j]; [cbn in J; lia|lia].
Qed.
Lemma decimal_fixed n : exists k, (0 < k)%nat /\ decimal n = chars (fixed k n) /\ n < 10 ^ N.of_nat k /\ forall j, n < 10 ^ N.of_nat j -> (k <= Nat.max j 1)%nat.
Proof.
  apply decimal_loop_fixed; [|lia]. rewrite Nat2N.inj_add. change (N.of_nat 1) with 1. rewrite N.pow_add_r.
  pose proof (N.size_gt n) as SG. replace (N.of_nat (N.size_nat n)) with (N.size n); [lia|]. destruct n; [reflexivity|]. cbn. clear. induction p; cbn; rewrite ?IHp; lia.
Qed.
Lemma fixed_more k n : n < 10 ^ N.of_nat k -> forall w, fixed (w + k) n = repeat 0 w ++ fixed k n.
Proof.
  revert n. induction k as [|k IH]; intros n L w.
  - assert (n = 0) by (cbn in L; lia). subst. rewrite Nat.add_0_r. cbn [fixed]. now rewrite app_nil_r, fixed_zero.
  - rewrite Nat.add_succ_r. cbn [fixed]. rewrite IH; [now rewrite app_assoc|]. rewrite pow10_S in L. apply N.div_lt_upper_bound; lia.
Qed.
Lemma decimal_padded w n : (0 < w)%nat -> n < 10 ^ N.of_nat w -> (length (decimal n) <= w)%nat /\ replicate (w - length (decimal n)) 48 ++ decimal n = chars (fixed w n) /\
  replicate (w - length (decimal n)) 57 ++ getBase10ComplementOfIntegerString (decimal n) = chars (nines (fixed w n)).
Proof.
  intros W L. destruct (decimal_fixed n) as (k & K & E & B & M). specialize (M w L). rewrite E. unfold chars at 1 2 5. rewrite map_length, fixed_length. split; [lia|].
  replace (fixed w n) with (fixed (w - k + k) n) by (f_equal; lia). rewrite fixed_more by assumption. split.
  - unfold chars. rewrite map_app. f_equal. change (map (N.add 48)) with chars. now rewrite chars_repeat.
  - rewrite complement_chars by apply fixed_digits. unfold nines, chars. rewrite !map_app. f_equal.
    + change (map (fun d => 9 - d)) with nines. change (map (N.add 48)) with chars. now rewrite nines_repeat, chars_repeat.
Qed.

(* ---- thirty digits ---- *)
Definition fit (k : nat) (l : list N) : list N := firstn k l ++ repeat 0 (k - length l).
Lemma fit_length k l : length (fit k l) = k.
Proof. unfold fit. rewrite app_length, firstn_length, repeat_length. lia. Qed.
Lemma fit_digits k l : digits l -> digits (fit k l).
Proof. intros D. apply digits_app; [now apply digits_firstn|]. now apply digits_repeat. Qed.
Lemma fit_fit k m l : (k <= m)%nat -> fit k l = firstn k (fit m l).
Proof.
  intros L. unfold fit. rewrite firstn_app, firstn_firstn, Nat.min_l by assumption. f_equal. rewrite firstn_length.
  assert (R : forall a b, firstn a (repeat 0 b) = repeat 0 (Nat.min a b)) by (induction a as [|a IH]; intros [|b]; cbn; try rewrite IH; reflexivity).
  rewrite R. f_equal. lia.
Qed.
Lemma fit_number k l : (length l <= k)%nat -> number_of (fit k l) = number_of l * 10 ^ N.of_nat (k - length l).
Proof. intros L. unfold fit. rewrite firstn_all2 by assumption. rewrite number_app, number_zeros, repeat_length. lia. Qed.
Lemma fit_short k m l : (k <= m)%nat -> Forall (fun d => d = 0) (skipn k l) -> fit m l = fit k l ++ repeat 0 (m - k).
Proof.
  intros L Z. rewrite <- (firstn_skipn k (fit m l)). rewrite <- fit_fit by assumption. f_equal.
  assert (RZ : forall x, Forall (fun d => d = 0) x -> x = repeat 0 (length x)) by (induction 1 as [|? ? E H IH]; cbn; congruence).
  replace (m - k)%nat with (length (skipn k (fit m l))) by (rewrite skipn_length, fit_length; reflexivity). apply RZ.
  unfold fit. rewrite skipn_app. apply Forall_app. split.
  - rewrite skipn_firstn_comm. rewrite <- (firstn_skipn (m - k) (skipn k l)) in Z. now apply Forall_app in Z.
  - apply Forall_forall. intros x I. assert (In x (repeat 0 (m - length l))) by (rewrite <- (firstn_skipn (k - length (firstn m l)) (repeat 0 (m - length l))); apply in_app_iff; now right). now apply repeat_spec in H.
Qed.
(* digits with the same position of the point: the order of the values *)
Lemma lex_fit_values k a b pa pb : digits a -> digits b -> (length a <= k)%nat -> (length b <= k)%nat -> (length a + pb = length b + pa)%nat ->
  lex_cmp (fit k a) (fit k b) = (number_of a * 10 ^ N.of_nat pb ?= number_of b * 10 ^ N.of_nat pa).
Proof.
  intros A B LA LB P. rewrite lex_number by (try (now apply fit_digits); now rewrite !fit_length). rewrite !fit_number by assumption.
  destruct (Nat.le_ge_cases (k - length a) pb) as [H|H].
  - replace (N.of_nat pb) with (N.of_nat (k - length a) + N.of_nat (pb - (k - length a))) by lia. replace (N.of_nat pa) with (N.of_nat (k - length b) + N.of_nat (pb - (k - length a))) by lia.
    rewrite !N.pow_add_r, !N.mul_assoc. symmetry. apply mul_compare. apply N.neq_0_lt_0, N.pow_nonzero. lia.
  - replace (N.of_nat (k - length a)) with (N.of_nat pb + N.of_nat (k - length a - pb)) by lia. replace (N.of_nat (k - length b)) with (N.of_nat pa + N.of_nat (k - length a - pb)) by lia.
    rewrite !N.pow_add_r, !N.mul_assoc. apply mul_compare. apply N.neq_0_lt_0, N.pow_nonzero. lia.
Qed.
