(* Proofs about cache keys: the lists inside a key. *)
From Coq Require Import Ascii String List NArith Bool Lia ZifyBool ZifyN ZifyNat.
From Verif Require Import Conv_Model Keys_Model Keys_Spec Keys_Proof.
Import ListNotations.
Open Scope N_scope.

Lemma read_until2 c d : forall a b x y r s,
  free_of c a -> free_of d a -> free_of c b -> free_of d b -> x = c \/ x = d -> y = c \/ y = d ->
  a ++ x :: r = b ++ y :: s -> a = b /\ x = y /\ r = s.
Proof.
  induction a as [|z a IH]; intros [|w b] x y r s Hca Hda Hcb Hdb Hx Hy H; cbn in H; injection H as E H'.
  - now subst.
  - subst. exfalso. destruct Hx as [->| ->]; [apply Hcb|apply Hdb]; now left.
  - subst. exfalso. destruct Hy as [->| ->]; [apply Hca|apply Hda]; now left.
  - subst. apply IH in H' as (-> & -> & ->); auto; intros HH;
      [apply Hca|apply Hda|apply Hcb|apply Hdb]; now right.
Qed.

(* Text without digits before a digit. *)
Lemma read_digit_free : forall a b x y r s, digit_free a -> digit_free b -> isdigit x = true -> isdigit y = true ->
  a ++ x :: r = b ++ y :: s -> a = b /\ x :: r = y :: s.
Proof.
  induction a as [|z a IH]; intros [|w b] x y r s Ha Hb Hx Hy H; cbn in H.
  - now split.
  - injection H as E H'. inversion Hb; subst. congruence.
  - injection H as E H'. inversion Ha; subst. congruence.
  - injection H as E H'. inversion Ha; inversion Hb; subst. eapply IH in H' as [-> HE]; eauto.
Qed.

Lemma read_delimiter d1 d2 n1 n2 r s : digit_free d1 -> digit_free d2 ->
  d1 ++ [32] ++ decimal n1 ++ r = d2 ++ [32] ++ decimal n2 ++ s ->
  d1 = d2 /\ decimal n1 ++ r = decimal n2 ++ s.
Proof.
  intros H1 H2 H. rewrite !app_assoc in H.
  destruct (decimal_first n1) as (x & t & E & D), (decimal_first n2) as (y & u & E' & D').
  rewrite <- !app_assoc in H. rewrite E, E' in *. rewrite !(app_assoc _ [32]) in H. cbn [app] in H |- *.
  apply read_digit_free in H as [HE ->]; try assumption.
  - apply app_inj_tail in HE as [-> _]. now split.
  - apply Forall_app. split; [assumption|]. now constructor.
  - apply Forall_app. split; [assumption|]. now constructor.
Qed.

Lemma read_group m1 m2 : forall g1 g2 r s, nondigit r -> nondigit s ->
  group_text m1 g1 ++ r = group_text m2 g2 ++ s ->
  map (lookup_at m1) g1 = map (lookup_at m2) g2 /\ r = s.
Proof.
  induction g1 as [|a g1 IH]; intros [|b g2] r s Hr Hs H.
  - now split.
  - exfalso. cbn [group_text] in H. rewrite <- !app_assoc in H.
    destruct (decimal_first (lookup_at m2 b)) as (c & t & E & D). rewrite E in H. cbn in H. subst r.
    cbn in Hr. congruence.
  - exfalso. cbn [group_text] in H. rewrite <- !app_assoc in H.
    destruct (decimal_first (lookup_at m1 a)) as (c & t & E & D). rewrite E in H. cbn in H. subst s.
    cbn in Hs. congruence.
  - cbn [group_text] in H. rewrite <- !app_assoc in H. apply read_number in H as [E H]; [|reflexivity|reflexivity].
    apply app_inv_head in H. apply IH in H as [E' ->]; try assumption. cbn [map]. now rewrite E, E'.
Qed.

(* What the key shows of an aggregate. *)
Definition alias_shown (input m : vars) (a : alias) : aggregate * text * N * N :=
  (al_type a, (if is_concat (al_type a) then al_delimiter a else []), lookup_at input (al_in a),
   lookup_at m (al_out a)).

Lemma aliases_nondigit input m l r : nondigit (aliases_text input m l ++ nl ++ r).
Proof. destruct l as [|a l]; [reflexivity|]. cbn [aliases_text]. destruct (al_type a); reflexivity. Qed.

Lemma read_aliases i1 i2 m1 m2 : forall l1 l2 r s,
  Forall (fun a => digit_free (al_delimiter a)) l1 -> Forall (fun a => digit_free (al_delimiter a)) l2 ->
  aliases_text i1 m1 l1 ++ nl ++ r = aliases_text i2 m2 l2 ++ nl ++ s ->
  map (alias_shown i1 m1) l1 = map (alias_shown i2 m2) l2 /\ r = s.
Proof.
  induction l1 as [|a l1 IH]; intros [|b l2] r s H1 H2 H.
  - cbn in H. injection H as H. now split.
  - exfalso. cbn [aliases_text] in H. destruct (al_type b); cbn in H; discriminate.
  - exfalso. cbn [aliases_text] in H. destruct (al_type a); cbn in H; discriminate.
  - inversion H1 as [|? ? D1 H1']; inversion H2 as [|? ? D2 H2']; subst.
    cbn [aliases_text] in H. rewrite <- !app_assoc in H. cbn [map]. unfold alias_shown at 1 3.
    assert (E : al_type a = al_type b).
    { destruct (al_type a), (al_type b); try reflexivity; exfalso; cbn in H; discriminate. }
    rewrite E in *. apply app_inv_head in H.
    apply read_delimiter in H as [Ed H].
    + apply read_number in H as [Ei H]; [|reflexivity|reflexivity].
      apply app_inv_head in H. apply read_number in H as [Eo H]; [|apply aliases_nondigit|apply aliases_nondigit].
      apply IH in H as [El ->]; try assumption. rewrite Ed, Ei, Eo, El. now split.
    + destruct (is_concat (al_type b)); [assumption|constructor].
    + destruct (is_concat (al_type b)); [assumption|constructor].
Qed.

(* Words separated by spaces and ended by a parenthesis. *)
Definition word_sep (x : N) : Prop := x = 32 \/ x = 41.
Definition readable (P : text -> Prop) : Prop :=
  forall t1 t2 x y r s, P t1 -> P t2 -> word_sep x -> word_sep y -> t1 ++ x :: r = t2 ++ y :: s ->
  t1 = t2 /\ x = y /\ r = s.

Lemma words_cons w l r : words_text (w :: l) ++ [41] ++ r =
  w ++ match l with [] => [41] ++ r | _ => [32] ++ words_text l ++ [41] ++ r end.
Proof. destruct l; cbn [words_text]; now rewrite <- ?app_assoc. Qed.

Lemma read_words P : readable P -> forall l1 l2 r s, Forall P l1 -> Forall P l2 -> l1 <> [] -> l2 <> [] ->
  words_text l1 ++ [41] ++ r = words_text l2 ++ [41] ++ s -> l1 = l2 /\ r = s.
Proof.
  intros HP. induction l1 as [|a l1 IH]; intros [|b l2] r s H1 H2 N1 N2 H; try congruence.
  inversion H1 as [|? ? Pa H1']; inversion H2 as [|? ? Pb H2']; subst.
  rewrite !words_cons in H.
  destruct l1 as [|a' l1], l2 as [|b' l2]; cbn [app] in H;
    apply HP in H; try assumption; try (now left); try (now right); destruct H as (-> & E & H); try discriminate.
  - now subst.
  - apply IH in H as [-> ->]; auto; discriminate.
Qed.

Lemma readable_variable : readable (fun v => free_of 32 v /\ free_of 41 v).
Proof. intros t1 t2 x y r s [A1 B1] [A2 B2] Hx Hy E. eapply (read_until2 32 41); eauto. Qed.

Lemma readable_token : readable token_ok.
Proof.
  intros t1 t2 x y r s H1 H2 Hx Hy H.
  assert (Sep : forall z, word_sep z -> z <> 60 /\ z <> 34) by (intros z [->| ->]; split; discriminate).
  destruct H1 as [(b1 & -> & F1)|[(b1 & u1 & -> & F1 & U1 & V1)|(U1 & V1 & B1 & C1)]],
           H2 as [(b2 & -> & F2)|[(b2 & u2 & -> & F2 & U2 & V2)|(U2 & V2 & B2 & C2)]].
  - rewrite <- !app_assoc in H. cbn [app] in H. injection H as H. apply read_until in H as [-> H]; try assumption.
    injection H as -> ->. now repeat split.
  - exfalso. cbn in H. discriminate.
  - exfalso. rewrite <- !app_assoc in H. destruct t2 as [|c t2].
    + cbn in H. injection H as E _. destruct (Sep _ Hy). congruence.
    + cbn in H. injection H as E _. apply B2. exists t2. now subst.
  - exfalso. cbn in H. discriminate.
  - rewrite <- !app_assoc in H. cbn [app] in H. injection H as H. apply read_until in H as [-> H]; try assumption.
    apply (read_until2 32 41) in H as (-> & -> & ->); auto.
  - exfalso. rewrite <- !app_assoc in H. destruct t2 as [|c t2].
    + cbn in H. injection H as E _. destruct (Sep _ Hy). congruence.
    + cbn in H. injection H as E _. apply C2. exists t2. now subst.
  - exfalso. rewrite <- !app_assoc in H. destruct t1 as [|c t1].
    + cbn in H. injection H as E _. destruct (Sep _ Hx). congruence.
    + cbn in H. injection H as E _. apply B1. exists t1. now subst.
  - exfalso. rewrite <- !app_assoc in H. destruct t1 as [|c t1].
    + cbn in H. injection H as E _. destruct (Sep _ Hx). congruence.
    + cbn in H. injection H as E _. apply C1. exists t1. now subst.
  - apply (read_until2 32 41) in H; auto.
Qed.

Lemma read_rows n : (0 < n)%nat -> forall l1 l2 i r s,
  Forall (fun r => length r = n /\ Forall token_ok r) l1 -> Forall (fun r => length r = n /\ Forall token_ok r) l2 ->
  rows_text n i l1 ++ bytes "}" ++ r = rows_text n i l2 ++ bytes "}" ++ s -> l1 = l2 /\ r = s.
Proof.
  intros Hn. induction l1 as [|a l1 IH]; intros [|b l2] i r s H1 H2 H.
  - cbn in H. injection H as H. now split.
  - exfalso. cbn in H. discriminate.
  - exfalso. cbn in H. discriminate.
  - inversion H1 as [|? ? [La Ta] H1']; inversion H2 as [|? ? [Lb Tb] H2']; subst.
    cbn [rows_text] in H. rewrite <- !app_assoc in H. apply app_inv_head in H.
    apply (read_words token_ok readable_token) in H as [-> H]; try assumption.
    + apply app_inv_head in H. apply IH in H as [-> ->]; auto.
    + intros ->. cbn in *. lia.
    + intros ->. cbn in *. lia.
Qed.

(* The value and the further prefixes of a prefix filter. *)
Lemma additional_cons p v q l r :
  p ++ additional_text ((v, q) :: l) ++ nl ++ r = (p ++ [32]) ++ 124 :: bytes "| " ++ v ++ [32] ++ q ++ additional_text l ++ nl ++ r.
Proof. cbn [additional_text]. rewrite <- !app_assoc. reflexivity. Qed.

Lemma read_additional : forall l1 l2 p1 p2 r s,
  free_of 124 p1 -> free_of 10 p1 -> free_of 124 p2 -> free_of 10 p2 ->
  Forall (fun vp => free_of 32 (fst vp) /\ free_of 124 (snd vp) /\ free_of 10 (snd vp)) l1 ->
  Forall (fun vp => free_of 32 (fst vp) /\ free_of 124 (snd vp) /\ free_of 10 (snd vp)) l2 ->
  p1 ++ additional_text l1 ++ nl ++ r = p2 ++ additional_text l2 ++ nl ++ s ->
  p1 = p2 /\ l1 = l2 /\ r = s.
Proof.
  assert (F : forall p, free_of 124 p -> free_of 124 (p ++ [32]))
    by (intros; apply free_app; [assumption|intros [|[]]; discriminate]).
  assert (G : forall p, free_of 10 p -> free_of 10 (p ++ [32]))
    by (intros; apply free_app; [assumption|intros [|[]]; discriminate]).
  induction l1 as [|[v1 q1] l1 IH]; intros [|[v2 q2] l2] p1 p2 r s A1 B1 A2 B2 H1 H2 H.
  - cbn [additional_text app] in H. unfold nl in H. cbn [app] in H.
    apply (read_until2 124 10) in H as (-> & _ & ->); auto.
  - exfalso. rewrite additional_cons in H. cbn [additional_text app] in H. unfold nl in H at 1. cbn [app] in H.
    apply (read_until2 124 10) in H as (_ & E & _); auto. discriminate.
  - exfalso. rewrite additional_cons in H. cbn [additional_text app] in H. unfold nl in H at 2. cbn [app] in H.
    apply (read_until2 124 10) in H as (_ & E & _); auto. discriminate.
  - rewrite !additional_cons in H. inversion H1 as [|? ? (V1 & Q1 & T1) H1']; inversion H2 as [|? ? (V2 & Q2 & T2) H2']; subst.
    cbn [fst snd] in *.
    apply (read_until2 124 10) in H as (E & _ & H); auto.
    apply app_inj_tail in E as [-> _]. apply app_inv_head in H.
    apply read_until_app in H as [-> H]; try assumption.
    apply IH in H as (-> & -> & ->); auto.
Qed.
