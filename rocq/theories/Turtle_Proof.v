(* Proofs about the Turtle parser: the regular expressions of the tokens. *)
From Coq Require Import Ascii String List NArith Arith Bool Lia ZifyBool ZifyN ZifyNat.
From Verif Require Import Strings_Model Strings_Spec Turtle_Model Turtle_Spec.
From Verif Require Strings_Proof Strings_Proof3 Strings_Proof4.
Import ListNotations.
Open Scope N_scope.
Open Scope list_scope.

Notation sk := skipWhitespaceAndComments.

(* ---- starts of texts ---- *)
Lemma cut_app {A} (x y a b : list A) : x ++ y = a ++ b -> y <> [] ->
  (exists x', x = a ++ x' /\ x' ++ y = b) \/ (exists y', x ++ y' = a /\ y' <> [] /\ y = y' ++ b).
Proof.
  revert x; induction a as [|c a IH]; intros x E Y.
  - left; exists x; auto.
  - destruct x as [|d x].
    + right. exists (c :: a). repeat split; auto. discriminate.
    + cbn in E; injection E as -> E. destruct (IH x E Y) as [(x' & -> & F)|(y' & F & G & H)].
      * left; exists x'; auto.
      * right; exists y'. repeat split; auto. cbn; now rewrite F.
Qed.

(* ---- white space ---- *)
Definition head_ok (d : text) : Prop := match d with [] => True | c :: _ => blank c = false /\ c <> 35 end.
Definition unfinished (d : text) : Prop := exists r, d = 35 :: r /\ ~ In 10 r.
Lemma blank_iff c : blank c = true <-> is_blank c.
Proof. unfold blank, is_blank; cbn [In]. lia. Qed.
Lemma skipWhitespace_app a d : Forall is_blank a -> skipWhitespace (a ++ d) = skipWhitespace d.
Proof. induction 1 as [|c a H _ IH]; [reflexivity|]. cbn. apply blank_iff in H. now rewrite H. Qed.
Lemma skipWhitespace_head d : head_ok d -> skipWhitespace d = d.
Proof. destruct d as [|c d]; [reflexivity|]. intros [H _]. cbn. now rewrite H. Qed.
Lemma skipWhitespace_hash r : skipWhitespace (35 :: r) = 35 :: r.
Proof. reflexivity. Qed.
Lemma skipComments_other d : (forall r, d <> 35 :: r) -> skipComments d = d.
Proof.
  destruct d as [|c d]; [reflexivity|]. intros H. unfold skipComments.
  destruct (N.eq_dec c 35) as [->|E]; [now contradiction (H d)|].
  destruct c as [|p]; auto. repeat (destruct p as [p|p|]; auto). congruence.
Qed.
Lemma skipComments_head d : head_ok d -> skipComments d = d.
Proof. intros H. apply skipComments_other. intros r ->. now destruct H. Qed.
Lemma find_newline c d : ~ In 10 c -> find_char (N.eqb 10) (c ++ 10 :: d) = Some (length c).
Proof.
  induction c as [|x c IH]; intros H; [reflexivity|]. cbn [app find_char length].
  replace (10 =? x) with false by (cbn in H; lia). rewrite IH; auto. intros K; apply H; now right.
Qed.
Lemma find_newline_none c : ~ In 10 c -> find_char (N.eqb 10) c = None.
Proof.
  induction c as [|x c IH]; intros H; [reflexivity|]. cbn [find_char].
  replace (10 =? x) with false by (cbn in H; lia). rewrite IH; auto. intros K; apply H; now right.
Qed.
Lemma skipComments_comment c d : ~ In 10 c -> skipComments (35 :: c ++ 10 :: d) = d.
Proof.
  intros H. unfold skipComments. change (35 :: c ++ 10 :: d) with ((35 :: c) ++ 10 :: d).
  rewrite find_newline by (cbn; intros [K|K]; [discriminate | auto]).
  change (10 :: d) with ([10] ++ d). rewrite app_assoc.
  replace (Nat.add (length (35 :: c)) 1) with (length ((35 :: c) ++ [10])) by (rewrite app_length; reflexivity).
  apply Strings_Proof.skipn_len.
Qed.
Lemma skipComments_unfinished r : ~ In 10 r -> skipComments (35 :: r) = 35 :: r.
Proof. intros H. unfold skipComments. now rewrite find_newline_none by (cbn; intros [K|K]; [discriminate | auto]). Qed.
Lemma sk_head d : head_ok d -> sk d = d.
Proof.
  intros H. unfold sk. rewrite (skipWhitespace_head d), (skipComments_head d) by auto. now apply skipWhitespace_head.
Qed.
Lemma sk_unfinished d : unfinished d -> sk d = d.
Proof.
  intros (r & -> & H). unfold sk. rewrite skipWhitespace_hash, skipComments_unfinished by auto. reflexivity.
Qed.
Lemma sk_gap g d : gap g -> head_ok d -> sk (g ++ d) = d.
Proof.
  intros [a A|a c b A C B] H; unfold sk.
  - rewrite skipWhitespace_app, (skipWhitespace_head d), (skipComments_head d) by auto. now apply skipWhitespace_head.
  - rewrite <- ?app_assoc. rewrite skipWhitespace_app by auto. cbn [app]. rewrite skipWhitespace_hash.
    rewrite <- ?app_assoc. cbn [app]. rewrite skipComments_comment by auto.
    rewrite skipWhitespace_app by auto. now apply skipWhitespace_head.
Qed.
Lemma skipWhitespace_blanks a : Forall is_blank a -> skipWhitespace a = [].
Proof. intros H. rewrite <- (app_nil_r a). now rewrite skipWhitespace_app. Qed.
Lemma sk_blanks a : Forall is_blank a -> sk a = [].
Proof. intros H. unfold sk. rewrite (skipWhitespace_blanks a) by auto. reflexivity. Qed.
Lemma forall_cut {A} (P : A -> Prop) x y a : Forall P a -> x ++ y = a -> Forall P x.
Proof. intros H <-. now apply Forall_app in H as [? _]. Qed.
Lemma sk_cut g x y : gap g -> x ++ y = g -> sk x = [] \/ unfinished (sk x).
Proof.
  intros [a A|a c b A C B] E.
  - left. apply sk_blanks. eapply forall_cut; eauto.
  - destruct y as [|y0 y].
    { left. rewrite app_nil_r in E. subst x.
      assert (G := sk_gap _ [] (gap_comment a c b A C B) I). rewrite app_nil_r in G.
      exact G. }
    destruct (cut_app _ _ _ _ E ltac:(discriminate)) as [(x' & -> & F)|(y' & F & _)].
    2:{ left. apply sk_blanks. exact (forall_cut _ _ _ _ A F). }
    destruct (cut_app _ _ _ _ F ltac:(discriminate)) as [(x1 & -> & F1)|(y' & F1 & G & _)].
    2:{ destruct x' as [|d x']; [|cbn in F1; injection F1 as _ F1; now destruct x', y']. left.
        rewrite app_nil_r. now apply sk_blanks. }
    destruct (cut_app _ _ _ _ F1 ltac:(discriminate)) as [(x2 & -> & F2)|(y' & F2 & G & _)].
    + destruct (cut_app _ _ _ _ F2 ltac:(discriminate)) as [(x3 & -> & F3)|(y' & F3 & G & _)].
      * left. change (a ++ [35] ++ c ++ [10] ++ x3) with (a ++ [35] ++ c ++ [10] ++ x3).
        assert (G : gap (a ++ [35] ++ c ++ [10] ++ x3)) by (constructor; auto; eapply forall_cut; eauto).
        rewrite <- (app_nil_r (a ++ _)). now apply (sk_gap _ []).
      * destruct x2 as [|d x2]; [|cbn in F3; injection F3 as _ F3; now destruct x2, y'].
        right. rewrite app_nil_r. unfold sk. rewrite skipWhitespace_app by auto. cbn [app].
        rewrite skipWhitespace_hash, skipComments_unfinished by auto. exists c; auto.
    + right. unfold sk. rewrite skipWhitespace_app by auto. cbn [app].
      assert (K : ~ In 10 x1) by (intros K; apply C; rewrite <- F2; apply in_or_app; auto).
      rewrite skipWhitespace_hash, skipComments_unfinished by auto. exists x1; auto.
Qed.

(* ---- characters ---- *)
Ltac lit := repeat match goal with
  | |- context [?a <? ?b] => first [replace (a <? b) with true by lia | replace (a <? b) with false by lia]
  | |- context [?a <=? ?b] => first [replace (a <=? b) with true by lia | replace (a <=? b) with false by lia]
  end.
Lemma cont_ok b : b < 64 -> cont (128 + b) = true.
Proof. unfold cont; lia. Qed.
Lemma char_utf8 x u r : utf8_of x u -> char (u ++ r) = Some (x, length u).
Proof.
  intros [y H|a b A B|a b c A B C M Q|a b c d A B C D M Q]; cbn [app length]; unfold char.
  - now lit.
  - rewrite cont_ok by lia. lit. cbn [negb]. f_equal. f_equal. lia.
  - rewrite !cont_ok by lia. lit. cbn [negb]. f_equal. f_equal. lia.
  - rewrite !cont_ok by lia. lit. cbn [negb andb]. f_equal. f_equal. lia.
Qed.
(* the bytes of a character: a first byte that tells their number, and the others *)
Lemma utf8_shape x u : utf8_of x u -> (exists a, u = [a] /\ a < 128) \/ (exists a b, u = [a; b] /\ 192 <= a < 224 /\ cont b = true) \/
  (exists a b c, u = [a; b; c] /\ 224 <= a < 240 /\ cont b = true /\ cont c = true) \/
  (exists a b c d, u = [a; b; c; d] /\ 240 <= a /\ cont b = true /\ cont c = true /\ cont d = true).
Proof.
  intros [w H|a b A B|a b c A B C M Q|a b c d A B C D M Q].
  - left; eauto.
  - right; left. exists (192 + a), (128 + b). rewrite !cont_ok by lia. repeat split; lia.
  - right; right; left. exists (224 + a), (128 + b), (128 + c). rewrite !cont_ok by lia. repeat split; lia.
  - right; right; right. exists (240 + a), (128 + b), (128 + c), (128 + d). rewrite !cont_ok by lia. repeat split; lia.
Qed.
Ltac split_cut E := repeat match type of E with
  | ?y ++ ?z = _ => destruct y as [|?e y]; cbn [app] in E; [|first [discriminate E | injection E as ?E E; subst]]
  end.
Lemma char_cut x u y z : utf8_of x u -> y ++ z = u -> z <> [] -> char y = None.
Proof.
  intros U E Z. destruct (utf8_shape x u U) as [(a & -> & H)|[(a & b & -> & H & B)|[(a & b & c & -> & H & B & C)|(a & b & c & d & -> & H & B & C & D)]]];
    split_cut E; try (subst; contradiction); unfold char; try reflexivity; rewrite ?B, ?C; now lit.
Qed.
(* a cut character is nothing or starts with a byte of its own *)
Lemma char_cut_head x u y z : utf8_of x u -> y ++ z = u -> z <> [] -> y = [] \/ exists c r, y = c :: r /\ 192 <= c.
Proof.
  intros U E Z. destruct y as [|e y]; [now left|].
  destruct (utf8_shape x u U) as [(a & -> & H)|[(a & b & -> & H & B)|[(a & b & c & -> & H & B & C)|(a & b & c & d & -> & H & B & C & D)]]];
    cbn [app] in E; injection E as -> E; try (right; do 2 eexists; split; [reflexivity | lia]).
  apply app_eq_nil in E as [_ ->]. contradiction.
Qed.
Lemma utf8_head x u : utf8_of x u -> exists c r, u = c :: r /\ (c = x /\ x < 128 /\ r = [] \/ 192 <= c /\ 128 <= x).
Proof. intros [y H|a b A B|a b c A B C M Q|a b c d A B C D M Q]; do 2 eexists; (split; [reflexivity|]); [left; auto | right; lia..]. Qed.
Lemma utf8_bytes_high x u : utf8_of x u -> u = [x] \/ Forall (fun c => 128 <= c) u.
Proof.
  intros [y H|a b A B|a b c A B C M Q|a b c d A B C D M Q]; auto; right; repeat constructor; lia.
Qed.
Lemma encoded_nonempty p u : encoded p u -> u <> [].
Proof. intros (x & _ & H). destruct (utf8_head x u H) as (c & r & -> & _). discriminate. Qed.

Ltac classes := unfold is_hex, name_char, name_start, name_base, is_letter, is_digit, range, uchar_digit, hexdigit,
  pn_chars, pn_u, pn_base, letter, digit, between in *.
Lemma base_ok x : name_base x -> pn_base x = true.
Proof. classes. lia. Qed.
Lemma start_ok x : name_start x -> pn_u x = true.
Proof. intros [H|H]; unfold pn_u; [rewrite base_ok by auto; reflexivity | lia]. Qed.
Lemma digit_ok x : is_digit x <-> digit x = true.
Proof. classes. lia. Qed.
Lemma letter_ok x : is_letter x <-> letter x = true.
Proof. classes. lia. Qed.
Lemma hex_ok x : is_hex x -> hexdigit x = true /\ uchar_digit x = true.
Proof. unfold uchar_digit. classes. lia. Qed.
Lemma chars_ok x : name_char x -> pn_chars x = true.
Proof.
  unfold pn_chars. intros [H|H]; [rewrite start_ok by auto; reflexivity|].
  destruct H as [H|[H|[H|[H|H]]]]; [|apply digit_ok in H|..]; unfold range, between in *; lia.
Qed.
Lemma base_low x : x < 128 -> pn_base x = letter x.
Proof. intros H. classes. lia. Qed.

Lemma one_ok p (P : N -> Prop) u r : encoded P u -> (forall x, P x -> p x = true) -> one p (u ++ r) = Some (length u).
Proof. intros (x & H & U) K. unfold one. rewrite (char_utf8 x) by auto. now rewrite K. Qed.
Lemma one_cut p P u y z : encoded P u -> y ++ z = u -> z <> [] -> one p y = None.
Proof. intros (x & H & U) E Z. unfold one. now rewrite (char_cut x u y z). Qed.
Lemma one_low p c r : c < 128 -> one p (c :: r) = if p c then Some 1%nat else None.
Proof. intros H. unfold one, char. now lit. Qed.
Lemma one_nil p : one p [] = None.
Proof. reflexivity. Qed.

(* ---- repetitions ---- *)
Definition unit_of (r : text -> option nat) (u : text) : Prop := u <> [] /\ forall d, r (u ++ d) = Some (length u).
Lemma star_units r us rest : Forall (unit_of r) us -> r rest = None -> forall fuel,
  (length (concat us) <= fuel)%nat -> star fuel r (concat us ++ rest) = length (concat us).
Proof.
  intros H N. induction H as [|u us [U R] _ IH]; intros fuel F.
  - cbn [concat app length]. destruct fuel; cbn [star]; [reflexivity | now rewrite N].
  - cbn [concat] in *. rewrite app_length in *. destruct u as [|c u]; [contradiction|].
    destruct fuel as [|fuel]; [cbn in F; lia|]. cbn [star].
    rewrite <- app_assoc, R. change (length (c :: u)) with (S (length u)). cbv iota.
    change (S (length u)) with (length (c :: u)). rewrite Strings_Proof.skipn_len, IH; [reflexivity|].
    cbn in F. lia.
Qed.
Lemma many_units r us rest : Forall (unit_of r) us -> r rest = None -> many r (concat us ++ rest) = length (concat us).
Proof. intros. unfold many. apply star_units; auto. rewrite app_length. lia. Qed.

(* a unit of which no start is matched *)
Definition solid (r : text -> option nat) (u : text) : Prop :=
  unit_of r u /\ forall y z, y ++ z = u -> z <> [] -> r y = None.
Lemma concat_cut (us : list text) x y : x ++ y = concat us -> y <> [] ->
  exists us1 z u us2, x = concat us1 ++ z /\ us = us1 ++ u :: us2 /\ exists w, z ++ w = u /\ w <> [].
Proof.
  revert x; induction us as [|u us IH]; intros x E Y.
  - destruct x, y; try discriminate. contradiction.
  - cbn [concat] in E. destruct (cut_app _ _ _ _ E Y) as [(x' & -> & F)|(y' & F & G & _)].
    + destruct (IH x' F Y) as (us1 & z & v & us2 & -> & -> & w & ? & ?).
      exists (u :: us1), z, v, us2. cbn [concat]. rewrite app_assoc. eauto 10.
    + exists [], x, u, us. eauto 10.
Qed.
Lemma many_cut r us x y : Forall (solid r) us -> x ++ y = concat us -> y <> [] ->
  exists us1 z u w us2, x = concat us1 ++ z /\ us = us1 ++ u :: us2 /\ z ++ w = u /\ w <> [] /\
    many r x = length (concat us1).
Proof.
  intros H E Y. destruct (concat_cut us x y E Y) as (us1 & z & u & us2 & -> & -> & w & W & V).
  exists us1, z, u, w, us2. repeat split; auto. apply Forall_app in H as [H1 H2]. inversion_clear H2 as [|? ? Hu _].
  apply many_units.
  - eapply Forall_impl; [|exact H1]. now intros v [? _].
  - destruct Hu as [_ Hu]. eapply Hu; eauto.
Qed.

(* ---- the first byte of a token ---- *)
Definition first (t : tok) (c : N) : bool :=
  match t with
  | TurtlePrefix | TurtleBase | Langtag => c =? 64
  | SparqlPrefix => c =? 80
  | SparqlBase => c =? 66
  | Dot => c =? 46
  | Comma => c =? 44
  | Semicolon => c =? 59
  | OpenSquared | Anon => c =? 91
  | CloseSquared => c =? 93
  | OpenRound => c =? 40
  | A => c =? 97
  | DoubleCircumflex => c =? 94
  | True_ => c =? 116
  | False_ => c =? 102
  | Integer => sign c || digit c
  | Decimal => sign c || digit c || (c =? 46)
  | Double => sign c || digit c || (c =? 101) || (c =? 69)
  | Iriref => c =? 60
  | PnameNS => letter c || (192 <=? c)
  | PnLocal => letter c || digit c || (192 <=? c) || existsb (N.eqb c) [95; 58; 37; 92]
  | BlankNodeLabel => c =? 95
  end.
Lemma regex_nil t : regex t [] = None.
Proof. destruct t; reflexivity. Qed.
Lemma word_first w k c r : hd_error w = Some k -> (c =? k) = false -> word w (c :: r) = None.
Proof. destruct w as [|x w]; [discriminate|]. cbn. intros H E; injection H as ->. unfold word; cbn. now rewrite E. Qed.
Ltac not_lit c := destruct c as [|?p]; auto; repeat (match goal with p : positive |- _ => destruct p as [p|p|]; auto end); try congruence.
Lemma one_first p c r : c <> 192 -> (c < 128 -> p c = false) -> c < 192 -> one p (c :: r) = None.
Proof.
  intros _ H L. destruct (N.lt_ge_cases c 128).
  - rewrite one_low, H by auto. reflexivity.
  - unfold one, char. now lit.
Qed.
Lemma regex_first t c r : first t c = false -> regex t (c :: r) = None.
Proof.
  intros F. destruct t; cbn [first regex] in *; try (eapply word_first; [reflexivity | exact F]).
  - (* Langtag *) unfold langtag_re. assert (c <> 64) by lia. not_lit c.
  - (* Integer *) unfold integer_re, opt. assert (E : sign c = false) by lia; rewrite E in *. cbn [skipn].
    unfold plus; cbn [span]. cbn [orb] in F. now rewrite F.
  - (* Decimal *) unfold decimal_re, opt. assert (E : sign c = false) by lia; rewrite E in *. cbn [skipn span plus Nat.add].
    assert (D : digit c = false) by lia; rewrite D in *. cbn [orb] in F. cbn [skipn]. assert (K : c <> 46) by lia. clear - K. not_lit c.
  - (* Double *) unfold double_re, opt. assert (E : sign c = false) by lia; rewrite E in *. cbn [skipn].
    unfold plus; cbn [span]. assert (D : digit c = false) by lia; rewrite D in *. cbn [orb] in F.
    unfold exponent. now rewrite F.
  - (* Iriref *) unfold iriref_re. assert (c <> 60) by lia. not_lit c.
  - (* PnameNS *) unfold pname_ns_re. rewrite one_first; auto; [lia| |lia]. intros L. rewrite base_low by auto. lia.
  - (* PnLocal *) unfold pn_local_re, pn_local_first, alt. cbn [existsb] in F. rewrite one_first; [|lia| |lia].
    + unfold plx. assert (c <> 37 /\ c <> 92) as [G H] by lia. clear - G H. not_lit c.
    + intros L. unfold pn_u. rewrite base_low by auto. lia.
  - (* BlankNodeLabel *) unfold blank_re. assert (c <> 95) by lia. not_lit c.
  - (* Anon *) unfold anon_re. assert (c <> 91) by lia. not_lit c.
Qed.
