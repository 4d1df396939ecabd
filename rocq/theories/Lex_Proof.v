(* Facts about the lexicographic order and lexicographically sorted tables. *)
From Coq Require Import List NArith Arith Lia Bool Sorted Permutation.
From Coq Require Import ZifyBool ZifyN ZifyNat.
From Verif Require Import Base Table_Spec.
Import ListNotations.
Open Scope N_scope.

Lemma lex_cmp_refl x : lex_cmp x x = Eq.
Proof. induction x; simpl; auto. now rewrite N.compare_refl. Qed.

Lemma lex_cmp_eq x : forall y, lex_cmp x y = Eq <-> x = y.
Proof.
  induction x as [|a x IH]; intros [|b y]; simpl; split; try discriminate; auto.
  - destruct (a ?= b) eqn:E; try discriminate. apply N.compare_eq in E.
    intros H. apply IH in H. congruence.
  - intros H. injection H; intros; subst. rewrite N.compare_refl. now apply IH.
Qed.

Lemma lex_cmp_antisym x : forall y, lex_cmp y x = CompOpp (lex_cmp x y).
Proof.
  induction x as [|a x IH]; intros [|b y]; simpl; auto.
  rewrite (N.compare_antisym a b). destruct (a ?= b); simpl; auto.
Qed.

Definition lex_lt (x y : list N) : Prop := lex_cmp x y = Lt.

Lemma lex_lt_trans x : forall y z, lex_lt x y -> lex_lt y z -> lex_lt x z.
Proof.
  unfold lex_lt.
  induction x as [|a x IH]; intros [|b y] [|c z]; simpl; try discriminate; auto.
  destruct (N.compare_spec a b), (N.compare_spec b c); subst; try discriminate; auto.
  - rewrite N.compare_refl. apply IH.
  - intros _ _. destruct (N.compare_spec b c); auto; lia.
  - intros _ _. destruct (N.compare_spec a c); auto; lia.
  - intros _ _. destruct (N.compare_spec a c); auto; lia.
Qed.

Lemma lex_lt_irrefl x : ~ lex_lt x x.
Proof. unfold lex_lt. rewrite lex_cmp_refl. discriminate. Qed.

Lemma lex_le_cases x y : lex_le x y <-> lex_lt x y \/ x = y.
Proof.
  unfold lex_le, lex_lt. rewrite <- lex_cmp_eq. destruct (lex_cmp x y); intuition congruence.
Qed.

Lemma lex_le_refl x : lex_le x x.
Proof. apply lex_le_cases. auto. Qed.

Lemma lex_le_trans x y z : lex_le x y -> lex_le y z -> lex_le x z.
Proof.
  rewrite !lex_le_cases. intros [H| ->] [H'| ->]; auto. left. eapply lex_lt_trans; eauto.
Qed.

Lemma lex_lt_le_trans x y z : lex_lt x y -> lex_le y z -> lex_lt x z.
Proof. rewrite lex_le_cases. intros H [H'| <-]; auto. eapply lex_lt_trans; eauto. Qed.

Lemma lex_le_lt_trans x y z : lex_le x y -> lex_lt y z -> lex_lt x z.
Proof. rewrite lex_le_cases. intros [H| ->] H'; auto. eapply lex_lt_trans; eauto. Qed.

Lemma lex_lt_le x y : lex_lt x y -> lex_le x y.
Proof. rewrite lex_le_cases. auto. Qed.

Lemma lex_gt_lt x y : lex_cmp x y = Gt <-> lex_lt y x.
Proof.
  unfold lex_lt. rewrite (lex_cmp_antisym x y). destruct (lex_cmp x y); simpl; intuition congruence.
Qed.

Lemma lex_total x y : lex_lt x y \/ x = y \/ lex_lt y x.
Proof.
  destruct (lex_cmp x y) eqn:E; auto.
  - apply lex_cmp_eq in E. auto.
  - apply lex_gt_lt in E. auto.
Qed.

Lemma lex_le_antisym x y : lex_le x y -> lex_le y x -> x = y.
Proof.
  rewrite !lex_le_cases. intros [H|H] [H'|H']; auto.
  exfalso. apply (lex_lt_irrefl x). eapply lex_lt_trans; eauto.
Qed.

Lemma lex_not_lt x y : ~ lex_lt x y <-> lex_le y x.
Proof.
  rewrite lex_le_cases. destruct (lex_total x y) as [H|[H|H]]; subst.
  - split; [tauto|]. intros [H'|H']; subst; [|now apply lex_lt_irrefl].
    exfalso. apply (lex_lt_irrefl x). eapply lex_lt_trans; eauto.
  - split; auto. intros _. apply lex_lt_irrefl.
  - split; auto. intros _ H'. apply (lex_lt_irrefl x). eapply lex_lt_trans; eauto.
Qed.

(* tables sorted by an arbitrary key *)
Definition ksorted {A} (k : A -> list N) (t : list A) : Prop :=
  StronglySorted (fun r s => lex_le (k r) (k s)) t.

Lemma sorted_lex_ksorted cs t : sorted_lex cs t -> ksorted (cols cs) t.
Proof. apply Sorted_StronglySorted. intros x y z. apply lex_le_trans. Qed.

Lemma ksorted_sorted_lex cs t : ksorted (cols cs) t -> sorted_lex cs t.
Proof. apply StronglySorted_Sorted. Qed.

Lemma ksorted_app_inv {A} (k : A -> list N) p t : ksorted k (p ++ t) ->
  ksorted k p /\ ksorted k t /\ (forall r s, In r p -> In s t -> lex_le (k r) (k s)).
Proof.
  induction p as [|r p IH]; simpl; intros H.
  - split; [constructor|]. split; auto. intros ? ? [].
  - inversion H as [|? ? H1 H2]; subst. destruct (IH H1) as (A1 & B1 & C1).
    rewrite Forall_app in H2. destruct H2 as [H2 H3].
    split; [constructor; auto|]. split; auto.
    intros x y [<-|Hx] Hy; auto. rewrite Forall_forall in H3. auto.
Qed.

Lemma ksorted_app_r {A} (k : A -> list N) p t : ksorted k (p ++ t) -> ksorted k t.
Proof. intros H. apply ksorted_app_inv in H. tauto. Qed.

Lemma ksorted_app {A} (k : A -> list N) p t : ksorted k p -> ksorted k t ->
  (forall r s, In r p -> In s t -> lex_le (k r) (k s)) -> ksorted k (p ++ t).
Proof.
  induction p as [|r p IH]; simpl; intros Hp Ht Hf; auto.
  inversion Hp as [|? ? H1 H2]; subst. constructor.
  - apply IH; auto.
  - apply Forall_app. split; auto. apply Forall_forall. auto.
Qed.

Lemma ksorted_head {A} (k : A -> list N) r t s : ksorted k (r :: t) -> In s (r :: t) -> lex_le (k r) (k s).
Proof.
  intros H [<-|Hs]; [apply lex_le_refl|]. inversion H as [|? ? H1 H2]; subst.
  rewrite Forall_forall in H2. auto.
Qed.

Lemma ksorted_tail {A} (k : A -> list N) r t : ksorted k (r :: t) -> ksorted k t.
Proof. intros H. now inversion H. Qed.

Lemma ksorted_filter {A} (k : A -> list N) f t : ksorted k t -> ksorted k (filter f t).
Proof.
  induction 1 as [|r t Hs IH Hf]; simpl; [constructor|].
  destruct (f r); auto. constructor; auto.
  apply Forall_forall. intros s Hsi. apply filter_In in Hsi. rewrite Forall_forall in Hf.
  apply Hf. tauto.
Qed.

Lemma filter_none_iff {A} (f : A -> bool) l : (forall x, In x l -> f x = false) -> filter f l = [].
Proof.
  induction l as [|x l IH]; simpl; intros H; auto. rewrite (H x) by auto. apply IH. auto.
Qed.

Lemma filter_ext_In {A} (f g : A -> bool) l : (forall x, In x l -> f x = g x) -> filter f l = filter g l.
Proof.
  induction l as [|x l IH]; simpl; intros H; auto. rewrite (H x) by auto.
  destruct (g x); rewrite IH; auto.
Qed.

Lemma existsb_false_iff {A} (f : A -> bool) l : existsb f l = false <-> forall x, In x l -> f x = false.
Proof.
  induction l as [|x l IH]; simpl; [intuition|]. rewrite orb_false_iff, IH. split.
  - intros [H1 H2] y [<-|Hy]; auto.
  - intros H. split; auto.
Qed.

Lemma flat_map_ext_In {A B} (f g : A -> list B) l : (forall x, In x l -> f x = g x) -> flat_map f l = flat_map g l.
Proof.
  induction l as [|x l IH]; simpl; intros H; auto. rewrite (H x), IH; auto.
Qed.

Lemma flat_map_nil {A B} (f : A -> list B) l : (forall x, In x l -> f x = []) -> flat_map f l = [].
Proof. induction l as [|x l IH]; simpl; intros H; auto. rewrite (H x), IH; auto. Qed.
