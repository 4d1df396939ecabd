(* General facts on lists. *)
From Coq Require Import List Arith Lia.
Import ListNotations.

Lemma skipn_add {A} a b (l : list A) : skipn (a + b) l = skipn b (skipn a l).
Proof.
  revert l. induction a as [|a IH]; intros l; simpl; auto. destruct l; simpl; auto.
  now rewrite skipn_nil.
Qed.

Lemma firstn_add {A} a b (l : list A) : firstn (a + b) l = firstn a l ++ firstn b (skipn a l).
Proof.
  revert l. induction a as [|a IH]; intros l; simpl; auto. destruct l; simpl; [now rewrite firstn_nil|].
  now rewrite IH.
Qed.

Lemma NoDup_app_intro {A} (l l' : list A) : NoDup l -> NoDup l' ->
  (forall x, In x l -> In x l' -> False) -> NoDup (l ++ l').
Proof.
  induction 1 as [|x l Hx Hl IH]; simpl; auto. intros Hl' Hd. constructor.
  - rewrite in_app_iff. intros [H|H]; [auto|]. apply (Hd x); simpl; auto.
  - apply IH; auto. intros y Hy1 Hy2. apply (Hd y); simpl; auto.
Qed.

Lemma skipn_nth_cons {A} i (l : list A) d : i < length l -> skipn i l = nth i l d :: skipn (S i) l.
Proof.
  revert l. induction i as [|i IH]; intros [|x l] H; simpl in *; try lia; auto.
  rewrite IH by lia. reflexivity.
Qed.
