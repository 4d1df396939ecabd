(* Proofs about the SPARQL lexer: the expressions of the tokens. *)
From Coq Require Import Ascii String List NArith Arith Bool Lia ZifyBool ZifyN ZifyNat.
From Verif Require Import Strings_Model Strings_Spec SLex_Model SLex_Spec.
From Verif Require Strings_Proof Conv_Proof5 Turtle_Model Turtle_Spec Turtle_Proof Turtle_Proof2 Turtle_Proof3.
Import ListNotations.
Open Scope N_scope.
Open Scope list_scope.

Notation unit_of := Turtle_Proof.unit_of.

(* ---- words ---- *)
Definition low (k : N) : bool := (97 <=? k) && (k <=? 122) || (k =? 95).
Lemma same_low c k : low k = true -> same_letter c k -> tolower c = k.
Proof.
  unfold low, same_letter, tolower, Turtle_Spec.is_letter, Turtle_Spec.range. intros L [->|(A & B & C)].
  - destruct ((65 <=? k) && (k <=? 90)) eqn:E; lia.
  - destruct ((65 <=? c) && (c <=? 90)) eqn:E; lia.
Qed.
Lemma written_lower w k : written w k -> Forall (fun c => low c = true) k -> lowercase w = k.
Proof.
  induction 1 as [|c x w k S _ IH]; intros H; [reflexivity|]. inversion_clear H as [|? ? L H'].
  change (lowercase (c :: w)) with (tolower c :: lowercase w). now rewrite (same_low c x), IH.
Qed.
Lemma written_length w k : written w k -> length w = length k.
Proof. induction 1; cbn; congruence. Qed.

Lemma written_cons w a k : written w (a :: k) -> exists c r, w = c :: r /\ same_letter c a /\ written r k.
Proof. intros W. inversion W; subst. eauto. Qed.

Inductive verdict := Yes | No | Perhaps.
(* does the word k match a text that begins with w and then has no letter? *)
Fixpoint compare (k w : text) : verdict :=
  match k, w with
  | [], _ => Yes
  | a :: k', b :: w' => if b =? a then compare k' w' else No
  | a :: _, [] => if (97 <=? a) && (a <=? 122) then No else Perhaps
  end.
Lemma word_compare k w d : head_not is_letter d ->
  match compare k (lowercase w) with
  | Yes => word_i k (w ++ d) = Some (length k)
  | No => word_i k (w ++ d) = None
  | Perhaps => True
  end.
Proof.
  intros D. revert w. induction k as [|a k IH]; intros w; [reflexivity|]. destruct w as [|b w]; cbn [lowercase map compare app].
  - destruct ((97 <=? a) && (a <=? 122)) eqn:E; [|exact I]. destruct d as [|c d]; [reflexivity|]. cbn [word_i].
    destruct (N.eqb_spec (tolower c) a) as [K|K]; [|reflexivity]. exfalso. apply (D c d eq_refl). clear D.
    unfold tolower in K. unfold Turtle_Spec.is_letter, Turtle_Spec.range.
    destruct ((65 <=? c) && (c <=? 90)) eqn:F; lia.
  - cbn [word_i]. destruct (tolower b =? a); [|reflexivity]. specialize (IH w). fold (lowercase w).
    destruct (compare k (lowercase w)); auto; now rewrite IH.
Qed.
Fixpoint first_compare (ks : list text) (w : text) : option (option text) :=
  match ks with
  | [] => Some None
  | k :: ks' => match compare k w with Yes => Some (Some k) | No => first_compare ks' w | Perhaps => None end
  end.
Lemma first_of_compare ks w d : head_not is_letter d ->
  match first_compare ks (lowercase w) with
  | Some (Some k) => first_of ks (w ++ d) = Some (length k)
  | Some None => first_of ks (w ++ d) = None
  | None => True
  end.
Proof.
  intros D. induction ks as [|k ks IH]; [reflexivity|]. cbn [first_compare first_of].
  assert (K := word_compare k w d D). destruct (compare k (lowercase w)); [now rewrite K | now rewrite K | exact I].
Qed.
Lemma firstn_exact {A} (a b : list A) : firstn (length a) (a ++ b) = a.
Proof. rewrite firstn_app, Nat.sub_diag, firstn_all. apply app_nil_r. Qed.

Lemma words_low k : In k words \/ In k aggregate_words -> Forall (fun c => low c = true) k.
Proof.
  intros H. apply Forall_forall. intros c C.
  assert (G : forallb (forallb low) (words ++ aggregate_words) = true) by (vm_compute; reflexivity).
  rewrite forallb_forall in G. assert (H' : In k (words ++ aggregate_words)) by (apply in_or_app; tauto).
  specialize (G k H'). rewrite forallb_forall in G. auto.
Qed.
Definition is_word_ok (k : text) : bool :=
  match first_compare keywords k with Some (Some k') => text_eqb k' k | _ => false end.
Definition is_aggregate_ok (k : text) : bool :=
  match first_compare keywords k, first_compare aggregates k with
  | Some None, Some (Some k') =>
    text_eqb k' k && match compare (bytes "order") k with No => true | _ => false end &&
    match compare (bytes "group") k with No => true | Yes => text_eqb k (bytes "group_concat") | Perhaps => false end
  | _, _ => false
  end.
Lemma text_eqb_ok a b : text_eqb a b = true <-> a = b.
Proof. unfold text_eqb. destruct (list_eq_dec N.eq_dec a b); split; congruence. Qed.
Lemma match_word k w d : In k words -> written w k -> head_not is_letter d -> match_token (w ++ d) = Some (KEYWORD, length w).
Proof.
  intros I W D. assert (L := written_lower w k W (words_low k (or_introl I))).
  assert (G : forallb is_word_ok words = true) by (vm_compute; reflexivity). rewrite forallb_forall in G. specialize (G k I).
  assert (F := first_of_compare keywords w d D). rewrite L in F. unfold is_word_ok in G.
  destruct (first_compare keywords k) as [[k'|]|]; try discriminate. apply text_eqb_ok in G. subst k'.
  unfold match_token. rewrite F. now rewrite (written_length w k W).
Qed.
Lemma match_aggregate k w d : In k aggregate_words -> written w k -> head_not is_letter d ->
  match_token (w ++ d) = Some (AGGREGATE, length w).
Proof.
  intros I W D. assert (L := written_lower w k W (words_low k (or_intror I))).
  assert (G : forallb is_aggregate_ok aggregate_words = true) by (vm_compute; reflexivity). rewrite forallb_forall in G. specialize (G k I).
  assert (F := first_of_compare keywords w d D). assert (F' := first_of_compare aggregates w d D).
  assert (C := word_compare (bytes "order") w d D). assert (C' := word_compare (bytes "group") w d D).
  rewrite L in F, F', C, C'. unfold is_aggregate_ok in G.
  destruct (first_compare keywords k) as [[k'|]|]; try discriminate.
  destruct (first_compare aggregates k) as [[k'|]|]; try discriminate.
  apply andb_true_iff in G as [G G3]. apply andb_true_iff in G as [G1 G2]. apply text_eqb_ok in G1. subst k'.
  unfold match_token. rewrite F.
  assert (O1 : words_by (bytes "order") (w ++ d) = None).
  { unfold words_by. destruct (compare (bytes "order") k); try discriminate. now rewrite C. }
  assert (O2 : words_by (bytes "group") (w ++ d) = None).
  { unfold words_by. destruct (compare (bytes "group") k); try discriminate; [|now rewrite C'].
    rewrite C'. apply text_eqb_ok in G3. rewrite G3 in W. clear - W.
    assert (exists w1 w2, w = w1 ++ [95] ++ w2 /\ length w1 = 5%nat) as (w1 & w2 & -> & E).
    { let v := eval vm_compute in (bytes "group_concat") in change (bytes "group_concat") with v in W.
      apply written_cons in W as (c1 & r1 & -> & S1 & W).
      apply written_cons in W as (c2 & r2 & -> & S2 & W).
      apply written_cons in W as (c3 & r3 & -> & S3 & W).
      apply written_cons in W as (c4 & r4 & -> & S4 & W).
      apply written_cons in W as (c5 & r5 & -> & S5 & W).
      apply written_cons in W as (c6 & r6 & -> & S6 & W).
      assert (c6 = 95) as ->. { destruct S6 as [H|(_ & H & _)]; [exact H|]. exfalso. vm_compute in H. destruct H as [[A B]|[A B]]; [now apply B | now apply A]. }
      exists [c1; c2; c3; c4; c5], r6. split; reflexivity. }
    change (length (bytes "group")) with 5%nat. rewrite <- !app_assoc.
    assert (S : skipn 5 (w1 ++ [95] ++ w2 ++ d) = 95 :: w2 ++ d).
    { rewrite <- E. apply Strings_Proof.skipn_len. }
    rewrite S. change (span re_space (95 :: w2 ++ d)) with O. rewrite Nat.add_0_r, S. reflexivity. }
  rewrite O2, O1, F'. now rewrite (written_length w k W).
Qed.
Fixpoint mismatch (k w : text) : bool :=
  match k, w with a :: k', b :: w' => if b =? a then mismatch k' w' else true | _, _ => false end.
Lemma word_mismatch k w d : mismatch k (lowercase w) = true -> word_i k (w ++ d) = None.
Proof.
  revert w. induction k as [|a k IH]; intros [|b w] M; try discriminate. cbn [lowercase map mismatch] in M. cbn [app word_i].
  destruct (tolower b =? a); [|reflexivity]. fold (lowercase w) in M. now rewrite IH.
Qed.
Lemma first_of_mismatch ks w d : forallb (fun k => mismatch k (lowercase w)) ks = true -> first_of ks (w ++ d) = None.
Proof.
  induction ks as [|k ks IH]; [reflexivity|]. cbn [forallb first_of]. intros H. apply andb_true_iff in H as [H1 H2].
  now rewrite word_mismatch, IH.
Qed.
Lemma word_full w d : word_i (lowercase w) (w ++ d) = Some (length w).
Proof.
  induction w as [|c w IH]; [reflexivity|]. change (lowercase (c :: w)) with (tolower c :: lowercase w).
  cbn [app word_i length]. now rewrite N.eqb_refl, IH.
Qed.
Lemma space_blank c : is_blank c -> re_space c = true.
Proof. unfold Turtle_Spec.is_blank, re_space. cbn [In]. lia. Qed.
Lemma words_by_full k a s b d : lowercase a = k -> Forall is_blank s -> written b (bytes "by") ->
  words_by k (a ++ s ++ b ++ d) = Some (length (a ++ s ++ b)).
Proof.
  intros <- S B. unfold words_by. rewrite word_full, Strings_Proof.skipn_len.
  assert (L : lowercase b = bytes "by").
  { apply written_lower; auto. vm_compute. repeat constructor. }
  assert (B2 := B). apply written_cons in B2 as (c & r & E & C & _).
  rewrite Turtle_Proof2.span_app.
  - rewrite app_assoc, <- app_length, Strings_Proof.skipn_len. rewrite <- L, word_full. cbn [option_map].
    rewrite !app_length. f_equal. lia.
  - eapply Forall_impl; [|exact S]. apply space_blank.
  - intros c' r' E'. subst b. cbn [app] in E'. injection E' as -> _. apply same_low in C; [|reflexivity].
    change (tolower c' = 98) in C. unfold tolower in C. unfold re_space. destruct ((65 <=? c') && (c' <=? 90)) eqn:F; lia.
Qed.
Lemma match_group a s b d : written a (bytes "group") -> Forall is_blank s -> written b (bytes "by") ->
  match_token (a ++ s ++ b ++ d) = Some (GROUP_BY, length (a ++ s ++ b)).
Proof.
  intros A S B. assert (L : lowercase a = bytes "group").
  { apply written_lower; auto. vm_compute. repeat constructor. }
  unfold match_token. rewrite first_of_mismatch by (rewrite L; vm_compute; reflexivity).
  now rewrite (words_by_full (bytes "group")).
Qed.
Lemma match_order a s b d : written a (bytes "order") -> Forall is_blank s -> written b (bytes "by") ->
  match_token (a ++ s ++ b ++ d) = Some (ORDER_BY, length (a ++ s ++ b)).
Proof.
  intros A S B. assert (L : lowercase a = bytes "order").
  { apply written_lower; auto. vm_compute. repeat constructor. }
  unfold match_token. rewrite first_of_mismatch by (rewrite L; vm_compute; reflexivity).
  unfold words_by at 1. rewrite (word_mismatch (bytes "group")) by (rewrite L; reflexivity).
  now rewrite (words_by_full (bytes "order")).
Qed.
Lemma lower_app a b : lowercase (a ++ b) = lowercase a ++ lowercase b.
Proof. apply map_app. Qed.
Lemma lower_blanks s : Forall is_blank s -> lowercase s = s.
Proof.
  induction 1 as [|c s H _ IH]; [reflexivity|]. change (lowercase (c :: s)) with (tolower c :: lowercase s). rewrite IH.
  f_equal. unfold tolower, Turtle_Spec.is_blank in *. cbn [In] in H. destruct ((65 <=? c) && (c <=? 90)) eqn:E; lia.
Qed.

(* texts that do not begin with a letter *)
Definition first_letters : list N := bytes "abcdefghijklmnopqrstuvwxyz".
Definition no_word (d : text) : Prop :=
  first_of keywords d = None /\ words_by (bytes "group") d = None /\ words_by (bytes "order") d = None /\
  first_of aggregates d = None.
Lemma no_letter_no_word c d : ~ is_letter c -> no_word (c :: d).
Proof.
  intros H. assert (M : forall k, match k with a :: _ => (97 <=? a) && (a <=? 122) = true | [] => False end -> word_i k (c :: d) = None).
  { intros [|a k] A; [contradiction|]. cbn [word_i]. replace (tolower c =? a) with false; [reflexivity|].
    unfold Turtle_Spec.is_letter, Turtle_Spec.range in H. unfold tolower. destruct ((65 <=? c) && (c <=? 90)) eqn:E; lia. }
  assert (F : forall ks, Forall (fun k => match k with a :: _ => (97 <=? a) && (a <=? 122) = true | [] => False end) ks ->
    first_of ks (c :: d) = None).
  { induction 1 as [|k ks K _ IH]; [reflexivity|]. cbn [first_of]. now rewrite M. }
  repeat split.
  - apply F. repeat constructor.
  - unfold words_by. rewrite M by reflexivity. reflexivity.
  - unfold words_by. rewrite M by reflexivity. reflexivity.
  - apply F. repeat constructor.
Qed.
Lemma no_word_match d : no_word d -> match_token d =
  match word [124; 124] d with Some n => Some (LOGICAL_OR, n) | None =>
  match variable_re d with Some n => Some (VARIABLE, n) | None =>
  match iri_re d with Some n => Some (IRI, n) | None =>
  match literal_re d with Some n => Some (RDFLITERAL, n) | None =>
  match float_re d with Some n => Some (FLOAT, n) | None =>
  match integer_re d with Some n => Some (INTEGER, n) | None =>
  match symbol_re d with Some n => Some (SYMBOL, n) | None =>
  match ws_re d with Some n => Some (WS, n) | None => None end end end end end end end end.
Proof. intros (A & B & C & D). unfold match_token. now rewrite A, B, C, D. Qed.
