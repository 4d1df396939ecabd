(* Proofs about cache keys: reading back the pieces of a key. *)
From Coq Require Import Ascii String List NArith Bool Lia ZifyBool ZifyN ZifyNat.
From Verif Require Import Conv_Model Keys_Model Keys_Spec.
Import ListNotations.
Open Scope N_scope.

Definition nondigit (r : text) : Prop := match r with c :: _ => isdigit c = false | [] => True end.

Lemma atoi_loop_digit acc d r : d < 10 -> atoi_loop acc ((48 + d) :: r) = atoi_loop (acc * 10 + d) r.
Proof.
  intros H. cbn [atoi_loop]. unfold isdigit.
  replace (48 <=? 48 + d) with true by lia. replace (48 + d <=? 57) with true by lia. cbn [andb].
  f_equal. lia.
Qed.

Lemma atoi_decimal_loop fuel : forall n r, n < 2 ^ N.of_nat fuel -> (0 < fuel)%nat ->
  atoi_loop 0 (decimal_loop fuel n ++ r) = atoi_loop n r.
Proof.
  induction fuel as [|f IH]; intros n r Hn Hf; [lia|].
  cbn [decimal_loop]. destruct (N.ltb_spec n 10) as [H|H].
  - cbn [app]. now rewrite atoi_loop_digit by assumption.
  - rewrite <- app_assoc. cbn [app].
    assert (Hlt : n / 10 < 2 ^ N.of_nat f).
    { apply N.div_lt_upper_bound; [lia|]. replace (N.of_nat (S f)) with (N.succ (N.of_nat f)) in Hn by lia.
      rewrite N.pow_succ_r' in Hn. lia. }
    destruct f as [|f'].
    { change (n < 2) in Hn. lia. }
    rewrite IH by (try assumption; lia).
    rewrite atoi_loop_digit by (apply N.mod_lt; lia). f_equal.
    pose proof (N.div_mod n 10). lia.
Qed.

Lemma atoi_decimal n r : nondigit r -> atoi (decimal n ++ r) = n.
Proof.
  intros H. unfold atoi, decimal. rewrite atoi_decimal_loop; [|apply N.lt_le_trans with (2 ^ N.of_nat (N.size_nat n))|lia].
  - destruct r as [|c r]; [reflexivity|]. cbn in H |- *. now rewrite H.
  - destruct n as [|p]; [reflexivity|].
    pose proof (N.size_gt (N.pos p)). replace (N.of_nat (N.size_nat (N.pos p))) with (N.size (N.pos p)); [assumption|].
    cbn. clear. induction p; cbn; lia.
  - apply N.pow_le_mono_r; lia.
Qed.

Lemma read_number a b r s : decimal a ++ r = decimal b ++ s -> nondigit r -> nondigit s -> a = b /\ r = s.
Proof.
  intros H Hr Hs. assert (a = b).
  { rewrite <- (atoi_decimal a r Hr), <- (atoi_decimal b s Hs). now rewrite H. }
  subst. split; [reflexivity|]. now apply app_inv_head in H.
Qed.

Lemma decimal_first n : exists c r, decimal n = c :: r /\ isdigit c = true.
Proof.
  unfold decimal. replace (N.size_nat n + 1)%nat with (S (N.size_nat n)) by lia.
  generalize (N.size_nat n). intros f. revert n. induction f as [|f IH]; intros n.
  - cbn [decimal_loop]. destruct (N.ltb_spec n 10) as [H|H].
    + exists (48 + n), []. split; [reflexivity|]. unfold isdigit. lia.
    + exists (48 + n mod 10), []. split; [reflexivity|]. unfold isdigit.
      pose proof (N.mod_lt n 10). lia.
  - change (decimal_loop (S (S f)) n) with (if n <? 10 then [48 + n] else decimal_loop (S f) (n / 10) ++ [48 + n mod 10]).
    destruct (N.ltb_spec n 10) as [H|H].
    + exists (48 + n), []. split; [reflexivity|]. unfold isdigit. lia.
    + destruct (IH (n / 10)) as (c & r & E & D). rewrite E. exists c, (r ++ [48 + n mod 10]). now split.
Qed.

Lemma decimal_digits n : Forall (fun c => isdigit c = true) (decimal n).
Proof.
  unfold decimal. generalize (N.size_nat n + 1)%nat as f. intros f. revert n.
  induction f as [|f IH]; intros n; [constructor|].
  cbn [decimal_loop]. destruct (N.ltb_spec n 10) as [H|H].
  - constructor; [unfold isdigit; lia|constructor].
  - apply Forall_app. split; [apply IH|]. constructor; [|constructor].
    pose proof (N.mod_lt n 10). unfold isdigit. lia.
Qed.

(* Text up to a character it does not contain. *)
Lemma read_until c : forall a b r s, free_of c a -> free_of c b -> a ++ c :: r = b ++ c :: s -> a = b /\ r = s.
Proof.
  induction a as [|x a IH]; intros [|y b] r s Ha Hb H; cbn in H.
  - injection H as H. now subst.
  - injection H as E H'. subst. exfalso. apply Hb. now left.
  - injection H as E H'. subst. exfalso. apply Ha. now left.
  - injection H as E H'. subst. apply IH in H' as [-> ->]; [auto| |]; intros HH; [apply Ha|apply Hb]; now right.
Qed.

Lemma read_until_app c a b r s : free_of c a -> free_of c b -> a ++ [c] ++ r = b ++ [c] ++ s -> a = b /\ r = s.
Proof. apply read_until. Qed.

(* Two texts that differ at some position. *)
Fixpoint clash (a b : text) : bool :=
  match a, b with
  | x :: a', y :: b' => if x =? y then clash a' b' else true
  | _, _ => false
  end.
Lemma clash_ok : forall a b r s, clash a b = true -> a ++ r <> b ++ s.
Proof.
  induction a as [|x a IH]; intros [|y b] r s H E; cbn in H; try discriminate.
  cbn in E. injection E as Exy E. subst y. rewrite N.eqb_refl in H. now apply IH in E.
Qed.

Lemma free_nil c : free_of c []. Proof. intros []. Qed.
Lemma free_app c a b : free_of c a -> free_of c b -> free_of c (a ++ b).
Proof. intros Ha Hb H. apply in_app_iff in H as [H|H]; auto. Qed.
Lemma free_decimal c n : isdigit c = false -> free_of c (decimal n).
Proof.
  intros Hc H. pose proof (decimal_digits n) as D. rewrite Forall_forall in D. apply D in H. congruence.
Qed.

(* A list printed element by element. *)
Lemma columns_cons c l r : columns_text (c :: l) ++ r = decimal c ++ match l with [] => r | _ => bytes " & " ++ columns_text l ++ r end.
Proof. destruct l; cbn [columns_text]; now rewrite <- ?app_assoc. Qed.

Lemma read_columns : forall l1 l2 r s, columns_text l1 ++ bytes "]" ++ r = columns_text l2 ++ bytes "]" ++ s -> l1 = l2 /\ r = s.
Proof.
  induction l1 as [|a l1 IH]; intros [|b l2] r s H.
  - cbn in H. injection H as H. now subst.
  - exfalso. rewrite columns_cons in H. destruct (decimal_first b) as (c & t & E & D). rewrite E in H.
    cbn in H. injection H as H _. now subst.
  - exfalso. rewrite columns_cons in H. destruct (decimal_first a) as (c & t & E & D). rewrite E in H.
    cbn in H. injection H as H _. now subst.
  - rewrite !columns_cons in H. apply read_number in H as [-> H].
    + destruct l1 as [|x l1], l2 as [|y l2].
      * cbn in H. injection H as H. now subst.
      * now apply clash_ok in H.
      * now apply clash_ok in H.
      * apply app_inv_head in H. apply IH in H as [E ->]. now rewrite E.
    + destruct l1; reflexivity.
    + destruct l2; reflexivity.
Qed.

Lemma read_order : forall l1 l2 r s, order_text l1 ++ nl ++ r = order_text l2 ++ nl ++ s -> l1 = l2 /\ r = s.
Proof.
  induction l1 as [|[a d] l1 IH]; intros [|[b e] l2] r s H.
  - cbn in H. injection H as H. now subst.
  - exfalso. cbn [order_text] in H. destruct e; cbn in H; discriminate.
  - exfalso. cbn [order_text] in H. destruct d; cbn in H; discriminate.
  - cbn [order_text] in H. rewrite <- !app_assoc in H.
    destruct d, e; try (exfalso; cbn in H; discriminate);
      (apply app_inv_head in H; apply read_number in H as [-> H]; [|reflexivity|reflexivity];
       apply app_inv_head in H; apply IH in H as [-> ->]; auto).
Qed.
