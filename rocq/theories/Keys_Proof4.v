(* Proofs about cache keys: induction over the operations. *)
From Coq Require Import Ascii String List NArith Bool Lia ZifyBool ZifyN ZifyNat.
From Verif Require Import Conv_Model Keys_Model Keys_Spec Keys_Proof Keys_Proof2 Keys_Proof3.
Import ListNotations.
Open Scope N_scope.

Ltac open H :=
  let T := fresh "T" in
  pose proof (same_tag _ _ _ _ _ H) as T; cbn [asString] in H; rewrite <- ?app_assoc in H.

Lemma text_eqb_refl a : text_eqb a a = true.
Proof. induction a; cbn; [reflexivity|]. now rewrite N.eqb_refl. Qed.
Lemma text_eqb_eq : forall a b, text_eqb a b = true <-> a = b.
Proof.
  split; [|intros ->; apply text_eqb_refl].
  revert b. induction a as [|x a IH]; intros [|y b] H; cbn in H; try discriminate; [reflexivity|].
  apply andb_true_iff in H as [E H]. apply N.eqb_eq in E. apply IH in H. now subst.
Qed.
Lemma text_eqb_neq a b : a <> b -> text_eqb a b = false.
Proof. intros H. destruct (text_eqb a b) eqn:E; [|reflexivity]. apply text_eqb_eq in E. contradiction. Qed.

Lemma bind_lookup t target v : bind_var_ok t target v ->
  bind_string (bind_columns t target) v = bytes "(col " ++ decimal (lookup_at (tree_vars t) v) ++ bytes ") ".
Proof.
  intros (Q & D & _). unfold bind_string. rewrite Q. unfold bind_columns, lookup_at. cbn [lookup].
  now rewrite text_eqb_neq by congruence.
Qed.

Definition bind_ok (t : tree) (target : text) (e : bind_expr) : Prop :=
  match e with
  | Rename v => bind_var_ok t target v
  | ConstInt _ => True
  | ConstKb w => free_of 10 w /\ starts_with_question w = false /\
                 match w with c :: _ => isdigit c = false | [] => True end
  | Binary v1 v2 o => bind_var_ok t target v1 /\ bind_var_ok t target v2 /\ free_of 10 o /\
                      starts_with_question o = false
  end.

Lemma decimal_no_question n : starts_with_question (decimal n) = false.
Proof.
  destruct (decimal_first n) as (c & r & E & D). rewrite E. cbn. unfold isdigit in D. lia.
Qed.

Lemma read_bind t1 t2 g1 g2 e1 e2 r s : bind_ok t1 g1 e1 -> bind_ok t2 g2 e2 ->
  bind_name e1 ++ bytes ") on" ++ concat (map (bind_string (bind_columns t1 g1)) (bind_strings e1)) ++ nl ++ r =
  bind_name e2 ++ bytes ") on" ++ concat (map (bind_string (bind_columns t2 g2)) (bind_strings e2)) ++ nl ++ s ->
  bind_argument t1 e1 = bind_argument t2 e2 /\ r = s.
Proof.
  intros H1 H2 H. unfold nl in H.
  assert (F : forall w, free_of 10 w -> free_of 10 (w ++ [32]))
    by (intros; apply free_app; [assumption|intros [|[]]; discriminate]).
  destruct e1 as [v1|n1|w1|u1 v1 o1], e2 as [v2|n2|w2|u2 v2 o2]; cbn [bind_ok] in H1, H2;
    cbn [bind_name bind_strings map concat bind_argument] in H |- *;
    try (exfalso; revert H; apply clash_ok; reflexivity);
    step H; step H.
  - rewrite (bind_lookup t1 g1 v1), (bind_lookup t2 g2 v2) in H by assumption. rewrite !app_nil_r, <- !app_assoc in H. repeat step H.
    now rewrite E.
  - unfold bind_string in H. rewrite !decimal_no_question in H. rewrite !app_nil_r, <- !app_assoc in H.
    repeat step H. auto.
  - exfalso. destruct H2 as (F2 & Q2 & D2). unfold bind_string in H. rewrite decimal_no_question, Q2 in H.
    rewrite !app_nil_r, <- !app_assoc in H. destruct (decimal_first n1) as (c & t & E & D). rewrite E in H.
    destruct w2 as [|x w2]; cbn in H; injection H as Ec _; subst; [discriminate D|congruence].
  - exfalso. destruct H1 as (F1 & Q1 & D1). unfold bind_string in H. rewrite decimal_no_question, Q1 in H.
    rewrite !app_nil_r, <- !app_assoc in H. destruct (decimal_first n2) as (c & t & E & D). rewrite E in H.
    destruct w1 as [|x w1]; cbn in H; injection H as Ec _; subst; [discriminate D|congruence].
  - destruct H1 as (F1 & Q1 & D1), H2 as (F2 & Q2 & D2). unfold bind_string in H. rewrite Q1, Q2 in H.
    rewrite !app_nil_r in H. apply read_until_app in H as [E ->]; auto.
    apply app_inj_tail in E as [-> _]. auto.
  - destruct H1 as (A1 & B1 & F1 & Q1), H2 as (A2 & B2 & F2 & Q2).
    rewrite (bind_lookup t1 g1 u1), (bind_lookup t1 g1 v1), (bind_lookup t2 g2 u2), (bind_lookup t2 g2 v2) in H by assumption.
    unfold bind_string in H. rewrite Q1, Q2 in H.
    rewrite !app_nil_r, <- !app_assoc in H. do 6 step H.
    rewrite !(app_assoc _ [32]) in H. apply read_until_app in H as [E' ->]; auto.
    apply app_inj_tail in E' as [-> _]. rewrite E, E0. auto.
Qed.

Lemma filter_text_clash ty1 ty2 ic1 ic2 r s : filter_text ty1 ic1 ++ r = filter_text ty2 ic2 ++ s -> ty1 = ty2.
Proof.
  intros H. destruct ty1, ty2; try reflexivity; exfalso; revert H; apply clash_ok; destruct ic1, ic2; reflexivity.
Qed.

Definition filter_ok (ty : filter_type) (lhs rhs : text) (add : list (text * text)) : Prop :=
  free_of 32 lhs /\ free_of 10 rhs /\
  ~ begins_with (bytes "ignoring case ") rhs /\ ~ begins_with (bytes "LHS_AS_STR ") rhs /\
  match ty with
  | PREFIX => free_of 124 rhs /\
              Forall (fun vp => free_of 32 (fst vp) /\ free_of 124 (snd vp) /\ free_of 10 (snd vp)) add
  | _ => add = []
  end.

Definition effective (ty : filter_type) (ic : bool) : bool := match ty with REGEX => ic | _ => false end.


Definition flags_text (ty : filter_type) (ic str : bool) : text :=
  (if effective ty ic then bytes "ignoring case " else []) ++ (if str then bytes "LHS_AS_STR " else []).

Lemma filter_text_flags (ty : filter_type) (ic str : bool) (r : text) :
  filter_text ty ic ++ (if str then bytes "LHS_AS_STR " else []) ++ r = filter_text ty false ++ flags_text ty ic str ++ r.
Proof. unfold flags_text. destruct ty; cbn [filter_text effective]; destruct ic, str; reflexivity. Qed.

Lemma flags_free c ty ic str : c = 10 \/ c = 124 -> free_of c (flags_text ty ic str).
Proof.
  intros Hc. unfold flags_text. destruct (effective ty ic), str; intros H; cbn in H;
    repeat destruct H as [H|H]; destruct Hc; subst; try discriminate; try contradiction.
Qed.

Lemma flags_eq ty ic1 ic2 st1 st2 r1 r2 :
  ~ begins_with (bytes "ignoring case ") r1 -> ~ begins_with (bytes "LHS_AS_STR ") r1 ->
  ~ begins_with (bytes "ignoring case ") r2 -> ~ begins_with (bytes "LHS_AS_STR ") r2 ->
  flags_text ty ic1 st1 ++ r1 = flags_text ty ic2 st2 ++ r2 ->
  effective ty ic1 = effective ty ic2 /\ st1 = st2 /\ r1 = r2.
Proof.
  intros A1 B1 A2 B2 H. unfold flags_text in H. rewrite <- !app_assoc in H.
  destruct (effective ty ic1), (effective ty ic2), st1, st2; rewrite ?app_nil_l in H;
    try (repeat step H; now subst);
    try (exfalso; revert H; apply clash_ok; reflexivity);
    exfalso;
    repeat step H;
    match type of H with
    | _ = ?r => first [apply A1; eexists; symmetry; exact H | apply A2; eexists; symmetry; exact H
                      | apply B1; eexists; symmetry; exact H | apply B2; eexists; symmetry; exact H
                      | apply A1; eexists; exact H | apply A2; eexists; exact H
                      | apply B1; eexists; exact H | apply B2; eexists; exact H]
    end.
Qed.

Lemma read_filter ty1 ty2 lhs1 lhs2 rhs1 rhs2 ic1 ic2 add1 add2 (st1 st2 : bool) r s :
  filter_ok ty1 lhs1 rhs1 add1 -> filter_ok ty2 lhs2 rhs2 add2 ->
  lhs1 ++ filter_text ty1 ic1 ++ (if st1 then bytes "LHS_AS_STR " else []) ++ rhs1 ++ additional_text add1 ++ nl ++ r =
  lhs2 ++ filter_text ty2 ic2 ++ (if st2 then bytes "LHS_AS_STR " else []) ++ rhs2 ++ additional_text add2 ++ nl ++ s ->
  lhs1 = lhs2 /\ ty1 = ty2 /\ effective ty1 ic1 = effective ty2 ic2 /\ st1 = st2 /\ rhs1 = rhs2 /\ add1 = add2 /\ r = s.
Proof.
  intros (L1 & N1 & A1 & B1 & P1) (L2 & N2 & A2 & B2 & P2) H.
  rewrite !filter_text_flags in H.
  assert (K : forall ty, exists x : text, filter_text ty false = [32] ++ x) by (intros []; eexists; reflexivity).
  destruct (K ty1) as (x1 & E1), (K ty2) as (x2 & E2). pose proof H as H'. rewrite E1, E2, <- !app_assoc in H'.
  apply read_until_app in H' as [-> _]; try assumption. apply app_inv_head in H. clear x1 x2 E1 E2.
  pose proof (filter_text_clash _ _ _ _ _ _ H) as <-. apply app_inv_head in H.
  assert (G : flags_text ty1 ic1 st1 ++ rhs1 = flags_text ty1 ic2 st2 ++ rhs2 /\ add1 = add2 /\ r = s).
  { rewrite !(app_assoc (flags_text _ _ _)) in H.
    assert (F1 : free_of 10 (flags_text ty1 ic1 st1 ++ rhs1)) by (apply free_app; [apply flags_free; auto|assumption]).
    assert (F2 : free_of 10 (flags_text ty1 ic2 st2 ++ rhs2)) by (apply free_app; [apply flags_free; auto|assumption]).
    destruct ty1;
      try (subst; cbn [additional_text app] in H; apply read_until_app in H as [-> ->]; auto; fail).
    destruct P1 as [P1 Q1], P2 as [P2 Q2]. apply read_additional in H as (-> & -> & ->); auto;
      apply free_app; auto; apply flags_free; auto. }
  destruct G as (G & -> & ->). apply flags_eq in G as (-> & -> & ->); auto. repeat split.
Qed.

Lemma tree_begins i t : exists rest, treeString i t = spaces i ++ [123] ++ rest.
Proof. destruct t. cbn [treeString]. eexists. reflexivity. Qed.

Lemma tree_first i t : exists c rest, treeString i t = c :: rest /\ (c = 32 \/ c = 123).
Proof.
  destruct (tree_begins i t) as (r & E). rewrite E. destruct i; cbn; eexists; eexists; split; eauto.
Qed.
