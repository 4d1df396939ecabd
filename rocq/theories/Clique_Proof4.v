(* Proofs: the words of a clique, and its variables are a set. *)
From Coq Require Import String Ascii List NArith Arith Bool Lia Permutation.
From Verif Require Import Plan_Spec Clique_Spec Clique_Model Clique_Proof Clique_Proof2 Clique_Proof3 Strings_Spec Strings_Proof.
From Verif Require Strings_Model Strings_Thm Conv_Model Plan_Model.
Import ListNotations.
Local Open Scope nat_scope.

(* ---------- the variables ---------- *)
Lemma string_trans : forall a b c, String.compare a b = Lt -> String.compare b c = Lt -> String.compare a c = Lt.
Proof.
  induction a as [|x a IH]; intros [|y b] [|z c]; cbn; try congruence. unfold Ascii.compare.
  destruct (N.compare_spec (N_of_ascii x) (N_of_ascii y)) as [H1|H1|H1]; try congruence;
  destruct (N.compare_spec (N_of_ascii y) (N_of_ascii z)) as [H2|H2|H2]; try congruence; intros Q1 Q2;
  destruct (N.compare_spec (N_of_ascii x) (N_of_ascii z)) as [H3|H3|H3]; try lia; auto.
  eauto.
Qed.
Inductive sorted : list string -> Prop :=
| sorted_nil : sorted []
| sorted_cons x l : Forall (fun y => String.compare x y = Lt) l -> sorted l -> sorted (x :: l).
Lemma string_gt v x : String.compare v x = Gt -> String.compare x v = Lt.
Proof. intros H. rewrite String.compare_antisym, H. reflexivity. Qed.
Lemma set_insert_sorted v l : sorted l -> sorted (set_insert v l).
Proof.
  induction 1 as [|x l F S IH]; cbn [set_insert]; [repeat constructor|].
  destruct (String.compare v x) eqn:E.
  - now constructor.
  - constructor; [|now constructor]. constructor; auto. revert F. apply Forall_impl. intros y Hy. eapply string_trans; eauto.
  - constructor; auto. apply Forall_forall. intros y Hy. apply set_insert_in in Hy. destruct Hy as [->|Hy]; [now apply string_gt|].
    rewrite Forall_forall in F. auto.
Qed.
Lemma sorted_nodup l : sorted l -> NoDup l.
Proof.
  induction 1 as [|x l F S IH]; constructor; auto. intros H. rewrite Forall_forall in F. apply F in H.
  assert (C : String.compare x x = Eq) by (pose proof (String.compare_antisym x x) as A; destruct (String.compare x x); auto; discriminate).
  congruence.
Qed.
Lemma insert_vars_sorted vs t : sorted vs -> sorted (insert_vars vs t).
Proof.
  destruct t as [[s p] o]. unfold insert_vars. intros H.
  repeat match goal with |- context [if ?b then _ else _] => destruct b end; repeat apply set_insert_sorted; auto.
Qed.
Lemma insert_all_sorted ts : forall vs, sorted vs -> sorted (fold_left insert_vars ts vs).
Proof. induction ts as [|t ts IH]; intros vs H; cbn; auto. apply IH. now apply insert_vars_sorted. Qed.

(* ---------- the triples of a clique ---------- *)
Lemma is_varb s : Plan_Model.is_var s = variableb s.
Proof. destruct s; reflexivity. Qed.
Lemma variableb_iff s : variableb s = true <-> variable s.
Proof. rewrite <- is_varb. apply is_var_variable. Qed.
Lemma text_pred_triple t : text_predicate (predicate t) = text_triple t.
Proof. destruct t as [[s p] o]. unfold text_predicate, text_triple. cbn [predicate fst snd existsb text_predicates].
  change CONTAINS_ENTITY with contains_entity. change CONTAINS_WORD with contains_word. change TEXT_MATCH with "<QLever-internal-function/text>"%string.
  now rewrite orb_false_r, orb_assoc. Qed.
Lemma triples_about ts c : triples ts (filter (sel ts c) (seq 0 (length ts))) = about c ts.
Proof.
  unfold triples, about. assert (G : forall pre l, flat_map (fun i => match nth_error (pre ++ l) i with Some t => [t] | None => [] end)
      (filter (sel (pre ++ l) c) (seq (length pre) (length l))) = filter (fun t => text_triple t && String.eqb (fst (fst t)) c) l).
  { intros pre l. revert pre. induction l as [|x l IH]; intros pre; cbn [length seq filter]; auto.
    assert (E : nth_error (pre ++ x :: l) (length pre) = Some x) by (rewrite nth_error_app2, Nat.sub_diag by lia; reflexivity).
    specialize (IH (pre ++ [x])). rewrite app_length in IH. cbn [length] in IH. rewrite Nat.add_1_r, <- app_assoc in IH. cbn [app] in IH.
    unfold sel at 1. rewrite E, text_pred_triple. unfold subject. destruct (text_triple x && String.eqb (fst (fst x)) c); auto.
    cbn [flat_map]. rewrite E. cbn [app]. f_equal. exact IH. }
  apply (G [] ts).
Qed.

(* ---------- the words ---------- *)
Fixpoint spaced (l : list string) : string :=
  match l with [] => "" | [x] => x | x :: l' => x ++ " " ++ spaced l' end%string.
Lemma spaced_concat l : spaced l = String.concat " " l.
Proof. induction l as [|x l IH]; auto. cbn [spaced String.concat]. destruct l; auto. now rewrite IH. Qed.
Lemma string_app_assoc (a b c : string) : ((a ++ b) ++ c = a ++ (b ++ c))%string.
Proof. induction a as [|x a IH]; cbn; auto. now rewrite IH. Qed.
Lemma spaced_snoc l w : l <> [] -> spaced (l ++ [w]) = (spaced l ++ " " ++ w)%string.
Proof.
  induction l as [|x l IH]; [congruence|]. intros _. destruct l as [|y l]; auto.
  change ((x :: y :: l) ++ [w]) with (x :: (y :: l) ++ [w]). assert (E : spaced (x :: (y :: l) ++ [w]) = (x ++ " " ++ spaced ((y :: l) ++ [w]))%string) by reflexivity.
  rewrite E, IH by discriminate. change (spaced (x :: y :: l)) with (x ++ " " ++ spaced (y :: l))%string. rewrite !string_app_assoc. reflexivity.
Qed.
Lemma spaced_nonempty l : l <> [] -> Forall (fun w => w <> ""%string) l -> Nat.ltb 0 (String.length (spaced l)) = true.
Proof.
  destruct l as [|x l]; [congruence|]. intros _ F. inversion F; subst. destruct x as [|a x]; [congruence|]. destruct l; reflexivity.
Qed.
Lemma string_app_nil_l w : ("" ++ w = w)%string.
Proof. reflexivity. Qed.
Lemma words_spaced c trips : variable c -> Forall (fun t => subject t = c /\ (variableb (object t) = false -> object t <> ""%string)) trips ->
  fold_left (clique_word c) trips ""%string = spaced (constants trips).
Proof.
  intros V F. assert (G : forall done, Forall (fun w => w <> ""%string) done ->
    fold_left (clique_word c) trips (spaced done) = spaced (done ++ constants trips)); [|apply (G [] (Forall_nil _))].
  induction F as [|t trips [Hs Ho] F IH]; intros done Fd; cbn [fold_left]; [unfold constants; cbn; now rewrite app_nil_r|].
  unfold clique_word at 2. rewrite Hs, String.eqb_refl. cbn [andb]. rewrite (is_varb (object t)), (is_varb c).
  rewrite (proj2 (variableb_iff c) V). cbn [negb]. rewrite andb_false_r.
  unfold constants. cbn [map filter]. change (snd t) with (object t). destruct (variableb (object t)) eqn:E; cbn [negb].
  - apply IH. exact Fd.
  - assert (Q : add_word (spaced done) (object t) = spaced (done ++ [object t])).
    { unfold add_word. destruct done as [|d done']; [reflexivity|]. set (d0 := d :: done') in *.
      rewrite spaced_nonempty, spaced_snoc by (auto; unfold d0; discriminate). now rewrite string_app_assoc. }
    rewrite Q, IH by (apply Forall_app; split; auto). unfold constants. now rewrite <- app_assoc.
Qed.

(* ---------- the search terms ---------- *)
Lemma chars_bytes s : chars s = Conv_Model.bytes s.
Proof. induction s as [|a s IH]; cbn; [auto|now rewrite IH]. Qed.
Lemma chars_app a b : chars (a ++ b)%string = chars a ++ chars b.
Proof. induction a as [|x a IH]; cbn; auto. now rewrite IH. Qed.
Lemma cut_nonempty l : cut l <> [].
Proof. destruct l as [|x l]; cbn; [discriminate|]. destruct (N.eqb x 32); [discriminate|]. destruct (cut l); discriminate. Qed.
Lemma cut_no_space l : Forall (fun p => ~ In 32%N p) (cut l).
Proof.
  induction l as [|x l IH]; cbn [cut]; [repeat constructor; auto|]. destruct (N.eqb_spec x 32) as [->|D]; [constructor; auto|].
  pose proof (cut_nonempty l). destruct (cut l) as [|w ws]; [congruence|]. inversion IH as [|? ? H1 H2]; subst. constructor; auto.
  intros [Q|Q]; auto.
Qed.
Lemma cut_glue l : glue [32%N] (cut l) = l.
Proof.
  induction l as [|x l IH]; cbn [cut]; auto. pose proof (cut_nonempty l) as N. destruct (N.eqb_spec x 32) as [->|D].
  - rewrite glue_cons by auto. now rewrite IH.
  - destruct (cut l) as [|w ws]; [congruence|]. destruct ws as [|w' ws]; cbn in *; now rewrite IH.
Qed.
Lemma glue_app {A} (j : list A) a b : a <> [] -> b <> [] -> glue j (a ++ b) = glue j a ++ j ++ glue j b.
Proof.
  intros Ha Hb. induction a as [|x a IH]; [congruence|]. cbn [app]. destruct a as [|y a].
  - cbn [app]. now rewrite glue_cons.
  - rewrite !glue_cons by (try discriminate; destruct a; discriminate). rewrite IH by discriminate. now rewrite <- !app_assoc.
Qed.
Lemma spaced_split l : l <> [] -> Forall (fun w => w <> ""%string) l ->
  Strings_Model.split (Conv_Model.bytes (spaced l)) 32 = Some (concat (map words_of l)).
Proof.
  intros Hl F. rewrite <- chars_bytes.
  assert (E : chars (spaced l) = glue [32%N] (concat (map words_of l)) /\ concat (map words_of l) <> []).
  { clear F. induction l as [|x l IH]; [congruence|]. cbn [map concat]. pose proof (cut_nonempty (chars x)) as Nx. fold (words_of x) in Nx.
    split; [|destruct (words_of x); [congruence|discriminate]].
    destruct l as [|y l]; [cbn; rewrite app_nil_r; symmetry; apply cut_glue|].
    destruct IH as [I1 I2]; [discriminate|]. rewrite glue_app by auto. rewrite <- I1.
    change (spaced (x :: y :: l)) with (x ++ " " ++ spaced (y :: l))%string. rewrite !chars_app. unfold words_of at 1. rewrite cut_glue. reflexivity. }
  destruct E as [E1 E2]. rewrite E1, <- join_glue. apply Strings_Thm.C39_split_join; auto.
  - intros Q. rewrite Q in E1. cbn in E1. pose proof (spaced_nonempty l Hl F) as L. destruct (spaced l); [discriminate L|discriminate E1].
  - clear. induction l as [|x l IH]; cbn; [constructor|]. apply Forall_app. split; auto. apply cut_no_space.
Qed.
