(* Generic facts about lists and arithmetic used all over the development.
   Nothing here refers to QLever. *)
From Coq Require Import List NArith ZArith Lia Permutation Sorted Bool Arith.
From Coq Require Import ZifyBool ZifyN ZifyNat.
Import ListNotations.

Lemma firstn_app_le {A} (n : nat) (l1 l2 : list A) :
  n <= length l1 -> firstn n (l1 ++ l2) = firstn n l1.
Proof.
  intros. rewrite firstn_app. replace (n - length l1) with 0 by lia.
  simpl. now rewrite app_nil_r.
Qed.

Lemma firstn_length_app {A} (l1 l2 : list A) :
  firstn (length l1) (l1 ++ l2) = l1.
Proof. rewrite firstn_app_le by lia. apply firstn_all. Qed.

Lemma skipn_length_app {A} (l1 l2 : list A) :
  skipn (length l1) (l1 ++ l2) = l2.
Proof. rewrite skipn_app, skipn_all, Nat.sub_diag. reflexivity. Qed.

Lemma Forall_firstn {A} (P : A -> Prop) n l : Forall P l -> Forall P (firstn n l).
Proof. revert n; induction l; intros [|n] H; simpl; auto; inversion H; auto. Qed.

Lemma Forall_skipn {A} (P : A -> Prop) n l : Forall P l -> Forall P (skipn n l).
Proof. revert n; induction l; intros [|n] H; simpl; auto; inversion H; auto. Qed.

Lemma skipn_skipn' {A} n m (l : list A) : skipn n (skipn m l) = skipn (m + n) l.
Proof.
  revert l; induction m; intros l; simpl; auto. destruct l; auto. now rewrite skipn_nil.
Qed.
