(* Memory and files as lists of bytes; little-endian machine words. *)
From Coq Require Import List NArith Arith Lia ZifyN ZifyNat.
Import ListNotations.
Open Scope N_scope.

(* the n bytes of v *)
Fixpoint le (n : nat) (v : N) : list N :=
  match n with O => [] | S n' => v mod 256 :: le n' (v / 256) end.
Fixpoint of_le (bs : list N) : N :=
  match bs with [] => 0 | b :: bs' => b + 256 * of_le bs' end.

(* memcpy / fread from position off; None: outside of the memory (or short read). *)
Definition load (mem : list N) (off n : nat) : option (list N) :=
  if (off + n <=? length mem)%nat then Some (firstn n (skipn off mem)) else None.
Definition store (mem : list N) (off : nat) (bs : list N) : option (list N) :=
  if (off + length bs <=? length mem)%nat
  then Some (firstn off mem ++ bs ++ skipn (off + length bs) mem) else None.
Definition load_word (mem : list N) (off n : nat) : option N := option_map of_le (load mem off n).

(* an array of words *)
Definition words (n : nat) (vs : list N) : list N := flat_map (le n) vs.
Fixpoint load_words (mem : list N) (off n : nat) (k : nat) : option (list N) :=
  match k with
  | O => Some []
  | S k' => match load_word mem off n, load_words mem (off + n) n k' with
            | Some v, Some vs => Some (v :: vs)
            | _, _ => None
            end
  end.

Lemma le_length n : forall v, length (le n v) = n.
Proof. induction n; intros; simpl; auto. Qed.

Lemma of_le_le n : forall v, v < 256 ^ N.of_nat n -> of_le (le n v) = v.
Proof.
  induction n as [|n IH]; intros v Hv.
  - simpl in *. lia.
  - cbn [le of_le]. rewrite IH.
    + pose proof (N.div_mod v 256). lia.
    + rewrite Nat2N.inj_succ, N.pow_succ_r' in Hv. apply N.div_lt_upper_bound; lia.
Qed.

Lemma words_length n vs : length (words n vs) = (n * length vs)%nat.
Proof.
  induction vs as [|v vs IH]; [simpl; lia|]. unfold words in *. cbn [flat_map length].
  rewrite app_length, le_length, IH. lia.
Qed.
Lemma words_app n a b : words n (a ++ b) = words n a ++ words n b.
Proof. apply flat_map_app. Qed.

(* ---- reading what is at a known place ---- *)
Lemma load_at pre bs post : load (pre ++ bs ++ post) (length pre) (length bs) = Some bs.
Proof.
  unfold load. rewrite !app_length.
  replace (length pre + length bs <=? length pre + (length bs + length post))%nat with true
    by (symmetry; apply Nat.leb_le; lia).
  f_equal. rewrite skipn_app, skipn_all, Nat.sub_diag. cbn [skipn app].
  rewrite firstn_app, firstn_all, Nat.sub_diag. cbn [firstn]. apply app_nil_r.
Qed.
Lemma load_at' mem off n pre bs post : mem = pre ++ bs ++ post -> off = length pre -> n = length bs ->
  load mem off n = Some bs.
Proof. intros -> -> ->. apply load_at. Qed.
Lemma load_word_at mem off n v pre post : mem = pre ++ le n v ++ post -> off = length pre ->
  v < 256 ^ N.of_nat n -> load_word mem off n = Some v.
Proof.
  intros H1 H2 H3. unfold load_word. rewrite (load_at' mem off n pre (le n v) post); auto.
  - simpl. now rewrite of_le_le.
  - now rewrite le_length.
Qed.
Lemma load_words_at n vs : forall mem off pre post, mem = pre ++ words n vs ++ post ->
  off = length pre -> Forall (fun v => v < 256 ^ N.of_nat n) vs ->
  load_words mem off n (length vs) = Some vs.
Proof.
  induction vs as [|v vs IH]; intros mem off pre post H1 H2 Hv; auto. cbn [length load_words].
  inversion Hv; subst. unfold words. cbn [flat_map]. fold (words n vs).
  rewrite (load_word_at _ _ n v pre (words n vs ++ post)); auto; [|now rewrite <- app_assoc].
  rewrite (IH _ _ (pre ++ le n v) post); auto.
  - now rewrite <- !app_assoc.
  - now rewrite app_length, le_length.
Qed.

Lemma store_at pre old post bs : length bs = length old ->
  store (pre ++ old ++ post) (length pre) bs = Some (pre ++ bs ++ post).
Proof.
  intros H. unfold store. rewrite !app_length.
  replace (length pre + length bs <=? length pre + (length old + length post))%nat with true
    by (symmetry; apply Nat.leb_le; lia).
  f_equal. rewrite firstn_app, firstn_all, Nat.sub_diag. cbn [firstn]. rewrite app_nil_r.
  f_equal. f_equal. rewrite H, app_assoc, skipn_app, skipn_all2 by (rewrite app_length; lia).
  rewrite app_length. replace (length pre + length old - (length pre + length old))%nat with 0%nat by lia.
  reflexivity.
Qed.
Lemma store_at' mem off pre old post bs : mem = pre ++ old ++ post -> off = length pre ->
  length bs = length old -> store mem off bs = Some (pre ++ bs ++ post).
Proof. intros -> ->. apply store_at. Qed.
