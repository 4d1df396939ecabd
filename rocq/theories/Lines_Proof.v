(* Proofs about files with one record per line. *)
From Coq Require Import List NArith ZArith Arith Bool Lia ZifyBool ZifyN ZifyNat.
From Verif Require Import Strings_Model Lines_Model Lines_Spec.
From Verif Require Strings_Proof Docs_Model Docs_Spec Docs_Thm.
Import ListNotations.
Open Scope N_scope.

(* ---- lines ---- *)
Lemma lines_line l : ~ In 10 l -> forall a file, lines_of a (l ++ 10 :: file) = (a ++ l) :: lines_of [] file.
Proof.
  induction l as [|c l IH]; intros H a file; cbn [app lines_of].
  - now rewrite app_nil_r.
  - cbn [In] in H. replace (c =? 10) with false by lia. rewrite IH by tauto. now rewrite <- app_assoc.
Qed.
Lemma lines_last l : ~ In 10 l -> forall a, a ++ l <> [] -> lines_of a l = [a ++ l].
Proof.
  induction l as [|c l IH]; intros H a N; cbn [lines_of].
  - rewrite app_nil_r in *. now destruct a.
  - cbn [In] in H. replace (c =? 10) with false by lia. rewrite IH; [|tauto|destruct a; discriminate]. now rewrite <- app_assoc.
Qed.
Lemma lines_full ls : Forall (fun l => ~ In 10 l) ls -> lines_of [] (concat (map (fun l => l ++ [10]) ls)) = ls.
Proof.
  induction 1 as [|l ls H _ IH]; [reflexivity|]. cbn [map concat]. rewrite <- app_assoc. cbn [app].
  rewrite lines_line by auto. now rewrite IH.
Qed.
Lemma lines_file nl ls : Forall (fun l => ~ In 10 l /\ l <> []) ls -> lines_of [] (file_of ls nl) = ls.
Proof.
  intros H. assert (F : Forall (fun l => ~ In 10 l) ls) by (eapply Forall_impl; [|exact H]; cbn; tauto).
  destruct nl; cbn [file_of]; [now apply lines_full|].
  induction H as [|l ls (H1 & H2) H IH]; [reflexivity|]. inversion_clear F as [|? ? F1 F2]. specialize (IH F2).
  cbn [map concat]. destruct ls as [|l' ls].
  - cbn [map concat]. rewrite app_nil_r, removelast_last. now apply (lines_last l).
  - assert (E : concat (map (fun l => l ++ [10]) (l' :: ls)) <> []).
    { cbn [map concat]. intros E. apply app_eq_nil in E as [E _]. now apply app_eq_nil in E as [_ E]. }
    rewrite removelast_app by exact E. rewrite <- app_assoc. cbn [app]. rewrite lines_line by auto. now rewrite IH.
Qed.
Lemma all_ok {A} (f : text -> option A) (P : text -> A -> Prop) : (forall l r, P l r -> f l = Some r) ->
  forall ls rs, Forall2 P ls rs -> all_lines f ls = Some rs.
Proof. intros H ls rs. induction 1 as [|l r ls rs K _ IH]; [reflexivity|]. cbn [all_lines]. now rewrite (H _ _ K), IH. Qed.
Lemma forall2_left {A B} (P : A -> B -> Prop) (Q : A -> Prop) : (forall a b, P a b -> Q a) ->
  forall l r, Forall2 P l r -> Forall Q l.
Proof. intros H l r. induction 1; eauto. Qed.

(* ---- N-Triples ---- *)
Lemma span_app p w d : Forall (fun c => p c = true) w -> (forall c r, d = c :: r -> p c = false) -> span p (w ++ d) = length w.
Proof.
  intros H K. induction H as [|c w H _ IH]; cbn [app span length].
  - destruct d as [|c d]; [reflexivity|]. cbn. now rewrite (K c d).
  - now rewrite H, IH.
Qed.
Lemma blank_iff c : blank c = true <-> is_blank c.
Proof. unfold blank, is_blank. lia. Qed.
Lemma skip_ok a w c r : Forall is_blank w -> ~ is_blank c ->
  skip_blanks (a ++ w ++ c :: r) (length a) = length (a ++ w).
Proof.
  intros H K. unfold skip_blanks. rewrite Strings_Proof.skipn_len, span_app, app_length; auto.
  - eapply Forall_impl; [|exact H]. intros. now apply blank_iff.
  - intros c' r' E. injection E as <- <-. destruct (blank c) eqn:Q; auto. now apply blank_iff in Q.
Qed.
Lemma to_ok a u c r : no_blank u -> is_blank c -> to_blank (a ++ u ++ c :: r) (length a) = length (a ++ u).
Proof.
  intros H K. unfold to_blank. rewrite Strings_Proof.skipn_len, span_app, app_length; auto.
  - eapply Forall_impl; [|exact H]. cbn. intros x N. destruct (blank x) eqn:Q; auto. now apply blank_iff in Q.
  - intros c' r' E. injection E as <- <-. apply blank_iff in K. now rewrite K.
Qed.
(* to the end of a token that starts with h *)
Lemma to_token a h u c r : no_blank u -> is_blank c -> to_blank (a ++ (h :: u) ++ c :: r) (S (length a)) = length (a ++ h :: u).
Proof.
  intros H K. replace (a ++ (h :: u) ++ c :: r) with ((a ++ [h]) ++ u ++ c :: r) by (rewrite <- app_assoc; reflexivity).
  replace (S (length a)) with (length (a ++ [h])) by (rewrite app_length; cbn; lia). rewrite to_ok by auto.
  rewrite <- app_assoc. reflexivity.
Qed.
Lemma at_mid a c r : at_ (a ++ c :: r) (length a) = c.
Proof. apply Strings_Proof.at_app. Qed.
Lemma at_last a t c r : at_ (a ++ (t ++ [c]) ++ r) (length (a ++ t ++ [c]) - 1) = c.
Proof.
  replace (a ++ (t ++ [c]) ++ r) with ((a ++ t) ++ c :: r) by (rewrite <- !app_assoc; reflexivity).
  replace (length (a ++ t ++ [c]) - 1)%nat with (length (a ++ t)) by (rewrite !app_length; cbn; lia). apply at_mid.
Qed.
Lemma substr_mid a t r : substr (a ++ t ++ r) (length a) (length (a ++ t) - length a) = t.
Proof.
  unfold substr. rewrite Strings_Proof.skipn_len, app_length. replace (length a + length t - length a)%nat with (length t) by lia.
  apply Strings_Proof.firstn_len.
Qed.
Lemma find_mid a u c r : ~ In c u -> find_from (N.eqb c) (a ++ u ++ c :: r) (length a) = Some (length (a ++ u)).
Proof.
  intros H. unfold find_from. rewrite Strings_Proof.skipn_len, Strings_Proof.find_char_app, app_length; auto.
  - rewrite Forall_forall. intros x I. destruct (N.eqb_spec c x); congruence.
  - apply N.eqb_refl.
Qed.
Lemma no_blank_app a b : no_blank a -> no_blank b -> no_blank (a ++ b).
Proof. intros. now apply Forall_app. Qed.
Lemma iri_shape t : iri t -> exists u, t = 60 :: u ++ [62] /\ no_blank (u ++ [62]) /\ ~ In 62 u.
Proof.
  intros [u H K]. exists u. split; [reflexivity|]. split; [|exact K]. apply no_blank_app; auto. constructor; [|constructor]. unfold is_blank. lia.
Qed.
Lemma label_shape t : label t -> exists u, t = 95 :: 58 :: u /\ no_blank (58 :: u).
Proof. intros [u H]. exists u. split; [reflexivity|]. constructor; auto. unfold is_blank. lia. Qed.

(* what the code takes for an object *)
Definition object_like (o : text) : Prop :=
  iri o \/ label o \/ exists u suffix, ~ In 34 u /\ no_blank suffix /\ o = [34] ++ u ++ [34] ++ suffix.
Lemma object_is_like o : object False o -> object_like o.
Proof. intros [H|[H|[u suffix B Q K]]]; [now left | now right; left|]. right. right. exists u, suffix. auto. Qed.
(* an object at position |a|, followed by a blank *)
Lemma object_end a o c r : object_like o -> is_blank c -> nt_object_end (a ++ o ++ c :: r) (length a) = Some (length (a ++ o)).
Proof.
  intros O K. unfold nt_object_end. destruct O as [O|[O|O]].
  - destruct (iri_shape o O) as (u & -> & NB & NI). cbn [app]. rewrite at_mid.
    replace (a ++ 60 :: (u ++ [62]) ++ c :: r) with ((a ++ [60]) ++ u ++ 62 :: c :: r) by (rewrite <- !app_assoc; reflexivity).
    replace (S (length a)) with (length (a ++ [60])) by (rewrite app_length; cbn; lia).
    change (60 =? 60) with true. cbn iota. rewrite find_mid by exact NI. cbn [option_map]. f_equal. rewrite !app_length. cbn [length app]. rewrite ?app_length. cbn [length]. lia.
  - destruct (label_shape o O) as (u & -> & NB). cbn [app]. rewrite at_mid.
    change (95 =? 60) with false. cbn iota. change (95 =? 95) with true.
    replace (Nat.ltb (S (length a)) (length (a ++ 95 :: 58 :: u ++ c :: r))) with true by (symmetry; apply Nat.ltb_lt; rewrite app_length; cbn [length]; lia).
    replace (at_ (a ++ 95 :: 58 :: u ++ c :: r) (S (length a))) with 58.
    2:{ replace (a ++ 95 :: 58 :: u ++ c :: r) with ((a ++ [95]) ++ 58 :: u ++ c :: r) by (rewrite <- app_assoc; reflexivity).
        replace (S (length a)) with (length (a ++ [95])) by (rewrite app_length; cbn; lia). now rewrite at_mid. }
    change (58 =? 58) with true. cbn [andb]. f_equal. exact (to_token a 95 (58 :: u) c r NB K).
  - destruct O as (u & suffix & Q & NB & ->). cbn [app]. rewrite at_mid. change (34 =? 60) with false. change (34 =? 95) with false. cbn [andb].
    replace (a ++ 34 :: (u ++ 34 :: suffix) ++ c :: r) with ((a ++ [34]) ++ u ++ 34 :: suffix ++ c :: r) by (rewrite <- !app_assoc; reflexivity).
    replace (S (length a)) with (length (a ++ [34])) by (rewrite app_length; cbn; lia).
    rewrite find_mid by exact Q. rewrite (app_assoc (a ++ [34])), Strings_Proof.skipn_len.
    cbn [scan_literal]. change (34 =? 92) with false. change (34 =? 34) with true. cbn [negb andb].
    replace (Nat.eqb (length ((a ++ [34]) ++ u)) (length (((a ++ [34]) ++ u) ++ 34 :: suffix ++ c :: r))) with false.
    2:{ symmetry. apply Nat.eqb_neq. rewrite (app_length ((a ++ [34]) ++ u)). cbn [length]. lia. }
    f_equal. transitivity (length (((a ++ [34]) ++ u) ++ 34 :: suffix)); [exact (to_token ((a ++ [34]) ++ u) 34 suffix c r NB K)|].
    rewrite <- !app_assoc. reflexivity.
Qed.
Lemma object_head o : object_like o -> exists h u, o = h :: u /\ ~ is_blank h.
Proof.
  unfold is_blank. intros [[u _ _]|[[u _]|(u & suffix & _ & _ & ->)]]; cbn [app]; eexists; eexists; split; try reflexivity; lia.
Qed.

Lemma nt_like w0 s w1 p w2 o c rest : Forall is_blank w0 -> subject s -> blanks w1 -> iri p -> blanks w2 -> object_like o ->
  is_blank c -> nt_line (w0 ++ s ++ w1 ++ p ++ w2 ++ o ++ [c] ++ rest) = Some (s, p, o).
Proof.
  intros W0 S_ [W1n W1] P_ [W2n W2] O C.
  set (line_ := w0 ++ s ++ w1 ++ p ++ w2 ++ o ++ [c] ++ rest). unfold nt_line.
  assert (Sh : exists h u, s = h :: u /\ ~ is_blank h /\ no_blank u).
  { destruct S_ as [S_|S_].
    - destruct (iri_shape s S_) as (u & -> & H & _). exists 60, (u ++ [62]). split; [reflexivity|]. split; auto. unfold is_blank. lia.
    - destruct (label_shape s S_) as (u & -> & H). exists 95, (58 :: u). split; [reflexivity|]. split; auto. unfold is_blank. lia. }
  destruct Sh as (h & u & Es & Hh & Nu).
  destruct w1 as [|b1 w1]; [contradiction|]. inversion_clear W1 as [|? ? B1 W1'].
  destruct w2 as [|b2 w2]; [contradiction|]. inversion_clear W2 as [|? ? B2 W2'].
  destruct (iri_shape p P_) as (pu & Ep & Np & _).
  destruct (object_head o O) as (oh & ou & Eo & Ho).
  (* the positions *)
  assert (L0 : line_ = [] ++ w0 ++ h :: u ++ (b1 :: w1) ++ p ++ (b2 :: w2) ++ o ++ [c] ++ rest) by (unfold line_; now rewrite Es).
  assert (I0 : skip_blanks line_ 0 = length w0).
  { rewrite L0. exact (skip_ok [] w0 h _ W0 Hh). }
  rewrite I0.
  assert (L1 : line_ = w0 ++ (h :: u) ++ b1 :: w1 ++ p ++ (b2 :: w2) ++ o ++ [c] ++ rest) by (unfold line_; rewrite Es; reflexivity).
  assert (J0 : to_blank line_ (S (length w0)) = length (w0 ++ s)).
  { rewrite L1, Es. now apply to_token. }
  rewrite J0.
  assert (Len : (length line_ = length (w0 ++ s) + length (b1 :: w1) + length (p ++ (b2 :: w2)) + length (o ++ [c] ++ rest))%nat).
  { unfold line_. rewrite !app_length. cbn [length]. lia. }
  replace (Nat.leb (length line_) (length w0)) with false by (symmetry; apply Nat.leb_gt; rewrite Len, app_length; cbn [length]; lia).
  replace (Nat.leb (length line_) (length (w0 ++ s))) with false by (symmetry; apply Nat.leb_gt; rewrite Len; cbn [length]; lia).
  assert (Ck : (at_ line_ (length w0) =? 60) && (at_ line_ (length (w0 ++ s) - 1) =? 62)
                || Nat.ltb (S (length w0)) (length line_) && (at_ line_ (length w0) =? 95) && (at_ line_ (S (length w0)) =? 58) = true).
  { destruct S_ as [S_|S_].
    - destruct (iri_shape s S_) as (v & E & _ & _).
      assert (A1 : at_ line_ (length w0) = 60) by (unfold line_; rewrite E; apply at_mid).
      assert (A2 : at_ line_ (length (w0 ++ s) - 1) = 62).
      { unfold line_. rewrite E. exact (at_last w0 (60 :: v) 62 _). }
      now rewrite A1, A2.
    - destruct (label_shape s S_) as (v & E & _).
      assert (A1 : at_ line_ (length w0) = 95) by (unfold line_; rewrite E; apply at_mid).
      assert (A2 : at_ line_ (S (length w0)) = 58).
      { unfold line_. rewrite E. replace (S (length w0)) with (length (w0 ++ [95])) by (rewrite app_length; cbn; lia).
        transitivity (at_ ((w0 ++ [95]) ++ 58 :: v ++ (b1 :: w1) ++ p ++ (b2 :: w2) ++ o ++ [c] ++ rest) (length (w0 ++ [95]))); [|apply at_mid].
        f_equal. rewrite <- app_assoc. reflexivity. }
      rewrite A1, A2. replace (Nat.ltb (S (length w0)) (length line_)) with true; [reflexivity|].
      symmetry. apply Nat.ltb_lt. rewrite Len, E, app_length. cbn [length]. lia. }
  rewrite Ck. cbn [orb negb].
  assert (R0 : substr line_ (length w0) (length (w0 ++ s) - length w0) = s) by (unfold line_; apply substr_mid).
  rewrite R0.
  assert (I1 : skip_blanks line_ (length (w0 ++ s)) = length ((w0 ++ s) ++ b1 :: w1)).
  { replace line_ with ((w0 ++ s) ++ (b1 :: w1) ++ 60 :: (pu ++ [62]) ++ (b2 :: w2) ++ o ++ [c] ++ rest).
    2:{ unfold line_. rewrite Ep. cbn [app]. rewrite <- !app_assoc. cbn [app]. rewrite <- ?app_assoc. reflexivity. }
    apply skip_ok; [constructor; auto|]. unfold is_blank. lia. }
  rewrite I1. set (a1 := (w0 ++ s) ++ b1 :: w1) in *.
  assert (L2 : line_ = a1 ++ p ++ (b2 :: w2) ++ o ++ [c] ++ rest) by (unfold a1, line_; rewrite <- !app_assoc; reflexivity).
  assert (J1 : to_blank line_ (S (length a1)) = length (a1 ++ p)).
  { rewrite L2, Ep. exact (to_token a1 60 (pu ++ [62]) b2 _ Np B2). }
  rewrite J1.
  replace (Nat.leb (length line_) (length (a1 ++ p))) with false.
  2:{ symmetry. apply Nat.leb_gt. rewrite L2, !app_length. cbn [length]. lia. }
  replace (at_ line_ (length a1)) with 60 by (rewrite L2, Ep; symmetry; apply at_mid).
  replace (at_ line_ (length (a1 ++ p) - 1)) with 62 by (rewrite L2, Ep; symmetry; exact (at_last a1 (60 :: pu) 62 _)).
  change (60 =? 60) with true. change (62 =? 62) with true. cbn [andb orb negb].
  replace (substr line_ (length a1) (length (a1 ++ p) - length a1)) with p by (rewrite L2; symmetry; apply substr_mid).
  assert (I2 : skip_blanks line_ (length (a1 ++ p)) = length ((a1 ++ p) ++ b2 :: w2)).
  { replace line_ with ((a1 ++ p) ++ (b2 :: w2) ++ oh :: ou ++ [c] ++ rest).
    2:{ rewrite L2, Eo, <- !app_assoc. reflexivity. }
    apply skip_ok; auto. }
  rewrite I2. set (a2 := (a1 ++ p) ++ b2 :: w2) in *.
  assert (L3 : line_ = a2 ++ o ++ c :: rest) by (unfold a2; rewrite L2, <- !app_assoc; reflexivity).
  replace (Nat.leb (length line_) (length a2)) with false.
  2:{ symmetry. apply Nat.leb_gt. rewrite L3, !app_length. cbn [length]. lia. }
  replace (nt_object_end line_ (length a2)) with (Some (length (a2 ++ o))) by (rewrite L3; symmetry; now apply object_end).
  replace (Nat.leb (length line_) (length (a2 ++ o))) with false.
  2:{ symmetry. apply Nat.leb_gt. rewrite L3, !app_length. cbn [length]. lia. }
  replace (at_ line_ (length (a2 ++ o))) with c by (rewrite L3, app_assoc; symmetry; apply at_mid).
  replace (blank c) with true by (symmetry; now apply blank_iff). cbn [orb negb].
  replace (Nat.ltb (length (a2 ++ o)) (length a2)) with false by (symmetry; apply Nat.ltb_ge; rewrite app_length; lia).
  replace (substr line_ (length a2) (length (a2 ++ o) - length a2)) with o by (rewrite L3; symmetry; apply substr_mid).
  reflexivity.
Qed.
Lemma nt_ok line t : nt False line t -> nt_line line = Some t.
Proof. intros []. apply nt_like; auto using object_is_like. Qed.

(* ---- tab-separated values ---- *)
Lemma find_tab_at a u r : ~ In 9 u -> size (a ++ u ++ 9 :: r) < npos -> find_tab (a ++ u ++ 9 :: r) (size a) = size (a ++ u).
Proof.
  intros H L. unfold find_tab. replace (size (a ++ u ++ 9 :: r) <? size a) with false.
  2:{ symmetry. apply N.ltb_ge. unfold size. rewrite app_length. lia. }
  unfold size at 1. rewrite Nat2N.id, find_mid by exact H. reflexivity.
Qed.
Lemma find_tab_none a u : ~ In 9 u -> find_tab (a ++ u) (size a) = npos.
Proof.
  intros H. unfold find_tab. replace (size (a ++ u) <? size a) with false.
  2:{ symmetry. apply N.ltb_ge. unfold size. rewrite app_length. lia. }
  unfold size. rewrite Nat2N.id. unfold find_from. rewrite Strings_Proof.skipn_len, Strings_Proof.find_char_all; auto.
  rewrite Forall_forall. intros x I. destruct (N.eqb_spec 9 x); congruence.
Qed.
Lemma size_app a b : size (a ++ b) = size a + size b.
Proof. unfold size. rewrite app_length. lia. Qed.
Lemma substr_at a u r n : n < 2 ^ 64 -> n = size u \/ (r = [] /\ size u <= n) -> substr_ (a ++ u ++ r) (size a) n = Some u.
Proof.
  intros L H. unfold substr_. replace (size (a ++ u ++ r) <? size a) with false by (rewrite !size_app; lia).
  unfold size at 2. rewrite Nat2N.id, Strings_Proof.skipn_len. f_equal. destruct H as [->|(-> & H)].
  - replace (N.to_nat (N.min (size u) (size (a ++ u ++ r)))) with (length u) by (rewrite !size_app; unfold size; lia).
    apply Strings_Proof.firstn_len.
  - rewrite app_nil_r. apply firstn_all2. rewrite size_app. unfold size in *. lia.
Qed.
Lemma add_small a b : a + b < 2 ^ 64 -> add a b = a + b.
Proof. intros. now apply N.mod_small. Qed.
Lemma sub_small a b : b <= a -> a < 2 ^ 64 -> sub a b = a - b.
Proof.
  intros. unfold sub. replace (a + 2 ^ 64 - b) with ((a - b) + 1 * 2 ^ 64) by lia. rewrite N.mod_add by discriminate.
  apply N.mod_small. lia.
Qed.
Lemma assert_true {A} d (x : option A) : assert_ d true x = x.
Proof. unfold assert_. now rewrite andb_false_r. Qed.
Lemma tsv_ok debug x t : tsv (debug = false) x t -> size x < 2 ^ 64 - 1 -> tsv_line debug x = Some t.
Proof.
  intros [a b c rest [A _] [B _] [C _] NR|a b c D [A _] [B _] [C _]] L; unfold tsv_line.
  - assert (E1 : find_tab (a ++ [9] ++ b ++ [9] ++ c ++ [9] ++ rest) 0 = size a) by (apply (find_tab_at [] a _ A); exact L).
    rewrite E1. set (line := a ++ [9] ++ b ++ [9] ++ c ++ [9] ++ rest) in *.
    assert (Ll : line = (a ++ [9]) ++ b ++ 9 :: c ++ 9 :: rest) by (unfold line; rewrite <- app_assoc; reflexivity).
    assert (Ll2 : line = (a ++ [9] ++ b ++ [9]) ++ c ++ 9 :: rest) by (unfold line; rewrite <- !app_assoc; reflexivity).
    assert (Sz : size line = size a + size b + size c + size rest + 3) by (unfold line; rewrite !size_app; unfold size; cbn [length]; lia).
    assert (P1 : add (size a) 1 = size (a ++ [9])) by (rewrite add_small by lia; rewrite size_app; reflexivity).
    assert (E2 : find_tab line (add (size a) 1) = size a + 1 + size b).
    { rewrite P1, Ll, find_tab_at; auto; [|now rewrite <- Ll]. rewrite !size_app. unfold size. cbn [length]. lia. }
    rewrite E2.
    assert (P2 : add (size a + 1 + size b) 1 = size (a ++ [9] ++ b ++ [9])) by (rewrite add_small by lia; rewrite !size_app; unfold size; cbn [length]; lia).
    assert (E3 : find_tab line (add (size a + 1 + size b) 1) = size a + 2 + size b + size c).
    { rewrite P2, Ll2, find_tab_at; auto; [|now rewrite <- Ll2]. rewrite !size_app. unfold size. cbn [length]. lia. }
    rewrite E3. unfold npos.
    replace (negb (size a =? 2 ^ 64 - 1)) with true by lia.
    replace (negb (size a + 1 + size b =? 2 ^ 64 - 1)) with true by lia.
    replace (negb (size a + 2 + size b + size c =? 2 ^ 64 - 1)) with true by lia. rewrite !assert_true.
    assert (R0 : substr_ line 0 (size a) = Some a) by (apply (substr_at [] a); [lia | now left]).
    assert (R1 : substr_ line (add (size a) 1) (sub (size a + 1 + size b) (add (size a) 1)) = Some b).
    { rewrite P1, sub_small; rewrite ?size_app; change (size [9]) with 1; try lia.
      replace (size a + 1) with (size (a ++ [9])) by (rewrite size_app; reflexivity). rewrite Ll.
      apply substr_at; [|left]; rewrite ?size_app; change (size [9]) with 1; lia. }
    assert (R2 : substr_ line (add (size a + 1 + size b) 1) (sub (size a + 2 + size b + size c) (add (size a + 1 + size b) 1)) = Some c).
    { rewrite P2, Ll2. rewrite sub_small; rewrite ?size_app; change (size [9]) with 1; try lia.
      replace (size a + (1 + (size b + 1))) with (size (a ++ [9] ++ b ++ [9])) by (rewrite !size_app; reflexivity).
      apply substr_at; [|left]; rewrite ?size_app; change (size [9]) with 1; lia. }
    rewrite R0, R1, R2. reflexivity.
  - subst debug. assert (E1 : find_tab (a ++ [9] ++ b ++ [9] ++ c) 0 = size a) by (apply (find_tab_at [] a _ A); exact L).
    rewrite E1. set (line := a ++ [9] ++ b ++ [9] ++ c) in *. unfold assert_. cbn [andb].
    assert (Ll : line = (a ++ [9]) ++ b ++ 9 :: c) by (unfold line; rewrite <- app_assoc; reflexivity).
    assert (Ll2 : line = (a ++ [9] ++ b ++ [9]) ++ c) by (unfold line; rewrite <- !app_assoc; reflexivity).
    assert (Sz : size line = size a + size b + size c + 2) by (unfold line; rewrite !size_app; unfold size; cbn [length]; lia).
    assert (P1 : add (size a) 1 = size (a ++ [9])) by (rewrite add_small by lia; rewrite size_app; reflexivity).
    assert (E2 : find_tab line (add (size a) 1) = size a + 1 + size b).
    { rewrite P1, Ll, find_tab_at; auto; [|now rewrite <- Ll]. rewrite !size_app. unfold size. cbn [length]. lia. }
    rewrite E2.
    assert (P2 : add (size a + 1 + size b) 1 = size (a ++ [9] ++ b ++ [9])) by (rewrite add_small by lia; rewrite !size_app; unfold size; cbn [length]; lia).
    assert (E3 : find_tab line (add (size a + 1 + size b) 1) = npos) by (rewrite P2, Ll2; now apply find_tab_none).
    rewrite E3. unfold npos.
    assert (R0 : substr_ line 0 (size a) = Some a) by (apply (substr_at [] a); [lia | now left]).
    assert (R1 : substr_ line (add (size a) 1) (sub (size a + 1 + size b) (add (size a) 1)) = Some b).
    { rewrite P1, sub_small; rewrite ?size_app; change (size [9]) with 1; try lia.
      replace (size a + 1) with (size (a ++ [9])) by (rewrite size_app; reflexivity). rewrite Ll.
      apply substr_at; [|left]; rewrite ?size_app; change (size [9]) with 1; lia. }
    assert (R2 : substr_ line (add (size a + 1 + size b) 1) (sub (2 ^ 64 - 1) (add (size a + 1 + size b) 1)) = Some c).
    { rewrite P2, Ll2. rewrite sub_small; rewrite ?size_app; change (size [9]) with 1; try lia.
      replace (size a + (1 + (size b + 1))) with (size (a ++ [9] ++ b ++ [9])) by (rewrite !size_app; reflexivity).
      rewrite <- (app_nil_r c) at 1.
      apply substr_at; [|right; split; auto]; rewrite ?size_app; change (size [9]) with 1; lia. }
    rewrite R0, R1, R2. reflexivity.
Qed.

(* ---- context file ---- *)
Lemma context_ok lower debug x0 w e cid sc : context x0 (w, e, cid, sc) -> size x0 < 2 ^ 64 - 1 ->
  context_line lower debug x0 = Some (Lines_Model.L (if e then w else lower w) e cid sc).
Proof.
  intros H L. inversion H as [w' e' cs ss [A _] [Cn C] [Sn S_] Rc Rs E1]. subst w' e' cid sc. clear H.
  assert (N9 : forall ds, Forall (fun c => 48 <= c <= 57) ds -> ~ In 9 ds).
  { intros ds F I. rewrite Forall_forall in F. specialize (F _ I). lia. }
  unfold context_line. rewrite <- E1 in L. set (x := if e then 49 else 48) in *.
  assert (F1 : find_tab (w ++ [9] ++ [x] ++ [9] ++ cs ++ [9] ++ ss) 0 = size w) by (apply (find_tab_at [] w _ A); exact L).
  rewrite F1. set (l := w ++ [9] ++ [x] ++ [9] ++ cs ++ [9] ++ ss) in *.
  assert (Sz : size l = size w + size cs + size ss + 4) by (unfold l; rewrite !size_app; unfold size; cbn [length]; lia).
  assert (Pc : 0 < size cs) by (unfold size; destruct cs; [contradiction | cbn [length]; lia]).
  assert (Ps : 0 < size ss) by (unfold size; destruct ss; [contradiction | cbn [length]; lia]).
  rewrite (add_small (size w) 2) by lia. rewrite (add_small (size w) 1) by lia. rewrite (add_small (size w + 2) 3) by lia.
  rewrite (add_small (size w + 2) 2) by lia. rewrite (add_small (size w + 2) 1) by lia.
  destruct cs as [|c1 cs]; [contradiction|].
  assert (Ll : l = (w ++ [9; x; 9; c1]) ++ cs ++ 9 :: ss) by (unfold l; rewrite <- !app_assoc; reflexivity).
  assert (F2 : find_tab l (size w + 2 + 2) = size w + 3 + size (c1 :: cs)).
  { rewrite Ll. replace (size w + 2 + 2) with (size (w ++ [9; x; 9; c1])) by (rewrite size_app; unfold size; cbn [length]; lia).
    rewrite find_tab_at.
    - rewrite !size_app. unfold size. cbn [length]. lia.
    - apply N9. now inversion_clear C.
    - now rewrite <- Ll. }
  rewrite F2. unfold npos. set (c1cs := c1 :: cs) in *.
  replace (negb (size w =? 2 ^ 64 - 1)) with true by lia.
  replace (size w + 2 + 3 <? size l) with true by lia.
  replace (negb (size w + 3 + size c1cs =? 2 ^ 64 - 1)) with true by lia. rewrite !assert_true.
  replace (size w + 1 <? size l) with true by lia. cbn [bind].
  assert (At : at_ l (N.to_nat (size w + 1)) = x).
  { unfold l. replace (N.to_nat (size w + 1)) with (length (w ++ [9])) by (rewrite app_length; unfold size; cbn [length]; lia).
    transitivity (at_ ((w ++ [9]) ++ x :: [9] ++ c1cs ++ [9] ++ ss) (length (w ++ [9]))); [|apply at_mid].
    f_equal. rewrite <- app_assoc. reflexivity. }
  rewrite At. replace (x =? 49) with e by (unfold x; destruct e; reflexivity).
  assert (R0 : substr_ l 0 (size w) = Some w) by (apply (substr_at [] w); [lia | now left]).
  assert (R1 : substr_ l (size w + 2 + 1) (sub (sub (size w + 3 + size c1cs) (size w + 2)) 1) = Some c1cs).
  { rewrite (sub_small (size w + 3 + size c1cs)) by lia. rewrite sub_small by lia.
    replace (size w + 2 + 1) with (size (w ++ [9; x; 9])) by (rewrite size_app; unfold size; cbn [length]; lia).
    replace l with ((w ++ [9; x; 9]) ++ c1cs ++ 9 :: ss) by (unfold l; rewrite <- !app_assoc; reflexivity).
    apply substr_at; [lia|left; lia]. }
  assert (R2 : substr_ l (add (size w + 3 + size c1cs) 1) (2 ^ 64 - 1) = Some ss).
  { rewrite add_small by lia.
    replace (size w + 3 + size c1cs + 1) with (size (w ++ [9; x; 9] ++ c1cs ++ [9])) by (rewrite !size_app; unfold size; cbn [length]; lia).
    replace l with ((w ++ [9; x; 9] ++ c1cs ++ [9]) ++ ss ++ []) by (unfold l; rewrite app_nil_r, <- !app_assoc; reflexivity).
    apply substr_at; [lia|]. right. split; auto. lia. }
  rewrite R0. cbn [bind]. rewrite R1. cbn [bind]. rewrite R2. cbn [bind].
  rewrite !Docs_Thm.atol_value by auto. unfold Docs_Model.to_id.
  rewrite !Z.mod_small by lia. rewrite !N2Z.id, (N.mod_small (Docs_Spec.value ss)) by lia. reflexivity.
Qed.
Lemma context_file_ok lower debug ls rs : Forall2 context ls rs -> Forall (fun l => size l < 2 ^ 64 - 1) ls ->
  forall last, (debug = true -> forall a r b, rs = a ++ r :: b -> Forall (fun r' => snd (fst r') <= snd (fst r)) a /\ last <= snd (fst r)) ->
  context_loop lower debug last ls = Some (map (fun r => let '(w, e, c, s) := r in L (if e : bool then w else lower w) e c s) rs).
Proof.
  induction 1 as [|l [[[w e] cid] sc] ls rs H _ IH]; intros Sz last O; [reflexivity|]. inversion_clear Sz as [|? ? S1 S2].
  cbn [context_loop map]. rewrite (context_ok lower debug l w e cid sc H S1). cbn [bind contextId].
  replace (debug && (cid <? last)) with false.
  2:{ destruct debug; auto. destruct (O eq_refl [] (w, e, cid, sc) rs eq_refl) as [_ K]. cbn [fst snd] in K. cbn [andb]. lia. }
  rewrite IH; auto. intros D a r b E. destruct (O D ((w, e, cid, sc) :: a) r b) as [K1 K2]; [now rewrite E|].
  inversion_clear K1 as [|? ? K3 K4]. auto.
Qed.
