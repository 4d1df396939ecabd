(* Proofs about the SPARQL lexer: IRIs, variables, literals, numbers and symbols. *)
From Coq Require Import Ascii String List NArith Arith Bool Lia ZifyBool ZifyN ZifyNat.
From Verif Require Import Strings_Model Strings_Spec SLex_Model SLex_Spec SLex_Proof.
From Verif Require Strings_Proof Conv_Proof5 Turtle_Model Turtle_Spec Turtle_Proof Turtle_Proof2 Turtle_Proof3.
Import ListNotations.
Open Scope N_scope.
Open Scope list_scope.
Import Turtle_Proof Turtle_Proof2.
Ltac not_lit c := destruct c as [|?p]; auto; repeat (match goal with p : positive |- _ => destruct p as [p|p|]; auto end); try congruence.

(* ---- IRIs in angle brackets ---- *)
Lemma body_units_ u : iri_body u -> exists us, u = concat us /\ Forall (unit_of (one iri_char)) us.
Proof.
  induction 1 as [|u r H _ (us & -> & IH)].
  - exists []. auto.
  - exists (u :: us). split; auto. constructor; auto. split; [eapply encoded_nonempty; eauto|].
    intros d. eapply one_ok; eauto. intros x [X Y]. unfold iri_char. unfold iri_forbidden in Y.
    cbn [In existsb] in *. lia.
Qed.
Lemma iriref_ok u d : iri_body u -> iriref_re ([60] ++ u ++ [62] ++ d) = Some (length ([60] ++ u ++ [62])).
Proof.
  intros H. destruct (body_units_ u H) as (us & -> & F). cbn [app iriref_re].
  rewrite many_units; auto. rewrite Strings_Proof.skipn_len. f_equal. cbn [length]. rewrite app_length. cbn [length]. lia.
Qed.
Lemma iriref_other c d : c <> 60 -> iriref_re (c :: d) = None.
Proof. intros H. unfold iriref_re. not_lit c. Qed.
Definition iri_byte (b : N) : Prop := 128 <= b \/ iri_char b = true.
Lemma one_bytes d n : one iri_char d = Some n -> Forall iri_byte (firstn n d) /\ (n <= length d)%nat.
Proof.
  unfold one. destruct (Turtle_Model.char d) as [[x m]|] eqn:C; [|discriminate].
  destruct (iri_char x) eqn:X; [|discriminate]. intros E; injection E as <-. revert C.
  destruct d as [|a r]; [discriminate|]. unfold Turtle_Model.char.
  destruct (a <? 128) eqn:A; [intros E; injection E as <- <-; split; [cbn [firstn]; apply Forall_cons; [now right | apply Forall_nil] | cbn; lia]|].
  destruct (a <? 192); [discriminate|]. destruct r as [|b r]; [discriminate|].
  destruct (Turtle_Model.cont b) eqn:B; cbn [negb]; [|discriminate].
  assert (B' : 128 <= b) by (unfold Turtle_Model.cont in B; lia).
  destruct (a <? 224). { destruct (128 <=? _); [|discriminate]. intros E; injection E as _ <-. split; [cbn [firstn]; repeat (apply Forall_cons; [left; lia|]); apply Forall_nil | cbn; lia]. }
  destruct r as [|c r]; [discriminate|]. destruct (Turtle_Model.cont c) eqn:C; cbn [negb]; [|discriminate].
  assert (C' : 128 <= c) by (unfold Turtle_Model.cont in C; lia).
  destruct (a <? 240). { destruct (2048 <=? _); [|discriminate]. intros E; injection E as _ <-. split; [cbn [firstn]; repeat (apply Forall_cons; [left; lia|]); apply Forall_nil | cbn; lia]. }
  destruct r as [|e r]; [discriminate|]. destruct (Turtle_Model.cont e) eqn:F; cbn [negb]; [|discriminate].
  assert (E' : 128 <= e) by (unfold Turtle_Model.cont in F; lia).
  destruct (a <? 248); [|discriminate]. destruct (_ && _); [|discriminate].
  intros E; injection E as _ <-. split; [cbn [firstn]; repeat (apply Forall_cons; [left; lia|]); apply Forall_nil | cbn; lia].
Qed.
Lemma star_bytes fuel : forall d, Forall iri_byte (firstn (Turtle_Model.star fuel (one iri_char) d) d).
Proof.
  induction fuel as [|fuel IH]; intros d; cbn [Turtle_Model.star]; [constructor|].
  destruct (one iri_char d) as [[|n]|] eqn:E; try constructor.
  destruct (one_bytes d (S n) E) as [F L].
  replace (firstn (S n + _) d) with (firstn (S n) d ++ firstn (Turtle_Model.star fuel (one iri_char) (skipn (S n) d)) (skipn (S n) d)).
  - apply Forall_app. split; auto.
  - clear. generalize (S n) as k, (Turtle_Model.star fuel (one iri_char) (skipn (S n) d)) as m.
    intros k m; revert d. induction k as [|k IH]; intros d; [reflexivity|].
    destruct d as [|c d]; [now rewrite !skipn_nil, !firstn_nil|]. cbn [firstn skipn app Nat.add]. now rewrite IH.
Qed.
Lemma iriref_none d : (forall u r, d = u ++ 62 :: r -> exists c, In c u /\ (c <= 32 \/ In c iri_forbidden)) ->
  iriref_re (60 :: d) = None.
Proof.
  intros H. cbn [iriref_re]. unfold Turtle_Model.many. set (n := Turtle_Model.star _ _ d).
  rewrite match_62. destruct (heads 62 (skipn n d)) eqn:E; [exfalso|reflexivity].
  destruct (skipn n d) as [|k r] eqn:R; [discriminate|]. cbn [heads] in E. apply N.eqb_eq in E. subst k.
  destruct (H (firstn n d) r) as (c & I & C). { rewrite <- R. now rewrite firstn_skipn. }
  assert (B := star_bytes (length d) d). fold n in B. rewrite Forall_forall in B. specialize (B c I).
  unfold iri_byte, iri_char in B. unfold iri_forbidden in C. cbn [In existsb] in *. lia.
Qed.

(* ---- names ---- *)
Lemma name_label r : name_rest r -> Turtle_Spec.label_rest True r.
Proof. induction 1 as [|k u r H _ IH]; [constructor|]. apply Turtle_Spec.la_more; auto. Qed.
Lemma head_not_58 P u d : encoded P u -> ~ P 58 -> forall r, u ++ d <> 58 :: r.
Proof.
  intros U N r E. destruct (encoded_head P u U) as (c & r' & -> & [(C & _ & _)|C]); cbn [app] in E; injection E as -> _; auto; lia.
Qed.
Lemma pname_58 (d : text) (a b : option nat) : (forall r, d <> 58 :: r) -> match d with 58 :: _ => a | _ => b end = b.
Proof. intros H. rewrite match_58. destruct d as [|c d]; [reflexivity|]. cbn [heads]. destruct (N.eqb_spec c 58) as [->|E]; auto. now contradiction (H d). Qed.
Lemma pname_ok p d : prefix p -> pname_ns_re (p ++ [58] ++ d) = Some (length (p ++ [58])).
Proof.
  intros [->|(u & r & U & R & ->)]; [reflexivity|]. unfold pname_ns_re.
  destruct (label_units True r (name_label r R)) as (us & -> & F & _).
  rewrite pname_58.
  2:{ intros r. rewrite <- app_assoc. eapply head_not_58; eauto. unfold Turtle_Spec.name_base, Turtle_Spec.is_letter, Turtle_Spec.range. lia. }
  rewrite <- !app_assoc. rewrite (one_ok _ _ u _ U base_ok). cbv iota. rewrite Strings_Proof.skipn_len.
  rewrite many_units; auto. rewrite (app_assoc u), <- app_length, Strings_Proof.skipn_len. cbn [app].
  rewrite !app_length. cbn [length]. f_equal. lia.
Qed.
Definition lunit (u : text) : Prop := encoded (fun x => name_char x \/ x = 58) u \/ name_escape u.
Definition lstart (u : text) : Prop := encoded (fun x => name_start x \/ x = 58 \/ is_digit x) u \/ name_escape u.
Lemma escape_head u : name_escape u -> exists c r, u = c :: r /\ (c = 37 \/ c = 92).
Proof. intros [(a & b & _ & _ & ->)|(c & _ & _ & ->)]; do 2 eexists; (split; [reflexivity | auto]). Qed.
Lemma lunit_head u : lunit u -> exists c r, u = c :: r /\ c <> 46.
Proof.
  intros [H|H].
  - destruct (encoded_head _ u H) as (c & r & -> & G). do 2 eexists; split; [reflexivity|].
    destruct G as [(G & _ & _)|G]; [|lia]. intros ->. destruct G as [G|G]; [now apply name_char_dot | discriminate].
  - destruct (escape_head u H) as (c & r & -> & E). do 2 eexists; split; [reflexivity | lia].
Qed.
Lemma escape_ok u d : name_escape u -> plx (u ++ d) = Some (length u).
Proof.
  intros [(a & b & A & B & ->)|(c & [_ C] & D & ->)]; cbn [app length].
  - unfold plx. apply hex_ok in A as [-> _]. apply hex_ok in B as [-> _]. reflexivity.
  - unfold plx. cbv iota. replace (existsb _ _) with true; [reflexivity|]. symmetry.
    cbn [In existsb] in *. lia.
Qed.
Lemma lmore_ok u d : lunit u -> local_more (u ++ d) = Some (length u).
Proof.
  intros [H|H]; unfold local_more, Turtle_Model.alt.
  - erewrite one_ok; eauto. intros x [K|K]; [rewrite chars_ok by auto; reflexivity | lia].
  - destruct (escape_head u H) as (c & r & E & C).
    assert (O : one (fun x => pn_chars x || (x =? 58)) (u ++ d) = None).
    { subst u. cbn [app]. rewrite one_low by lia. destruct C as [-> | ->]; reflexivity. }
    rewrite O. now apply escape_ok.
Qed.
Lemma lfirst_ok u d : lstart u -> local_first (u ++ d) = Some (length u).
Proof.
  intros [H|H]; unfold local_first, Turtle_Model.alt.
  - erewrite one_ok; eauto. intros x [K|[K|K]]; [rewrite start_ok by auto; reflexivity | lia | apply digit_ok in K; rewrite K; lia].
  - destruct (escape_head u H) as (c & r & E & C).
    assert (O : one (fun x => pn_u x || (x =? 58) || Turtle_Model.digit x) (u ++ d) = None).
    { subst u. cbn [app]. rewrite one_low by lia. destruct C as [-> | ->]; reflexivity. }
    rewrite O. now apply escape_ok.
Qed.
Lemma lrest_units r : local_rest r -> exists us, r = concat us /\ Forall (unit_of (Turtle_Model.dots local_more)) us.
Proof.
  induction 1 as [|k u r H _ (us & -> & F)].
  - exists []. auto.
  - exists ((repeat 46 k ++ u) :: us). cbn [concat]. split; [now rewrite app_assoc|].
    constructor; auto. destruct (lunit_head u H) as (c & r & Q & _). split.
    + subst u. now destruct k.
    + intros d. apply dots_ok; [now apply lunit_head | now apply lmore_ok].
Qed.
Lemma low_chars c : c < 128 -> ~ name_char c -> pn_chars c = false /\ pn_u c = false /\ Turtle_Model.digit c = false.
Proof. intros L H. classes. lia. Qed.
Lemma plx_other c r : c <> 37 -> c <> 92 -> plx (c :: r) = None.
Proof. intros A B. unfold plx. not_lit c. Qed.
Lemma after_more d : after_name d -> Turtle_Model.dots local_more d = None.
Proof.
  intros H. unfold Turtle_Model.dots. assert (E : local_more (skipn (span (N.eqb 46) d) d) = None).
  { induction H as [|c r L C I|r _ IH]; [reflexivity| |].
    - cbn [span]. cbn [In] in I. replace (46 =? c) with false by lia. cbn [skipn]. unfold local_more, Turtle_Model.alt.
      rewrite one_low by lia. destruct (low_chars c L C) as (-> & _ & _). replace (c =? 58) with false by lia. cbn [orb].
      apply plx_other; lia.
    - exact IH. }
  now rewrite E.
Qed.
Lemma after_first d : after_name d -> local_re d = None.
Proof.
  intros [|c r L C I|r _]; [reflexivity| |reflexivity]. unfold local_re, local_first, Turtle_Model.alt. cbn [In] in I.
  rewrite one_low by lia. destruct (low_chars c L C) as (_ & -> & ->). replace (c =? 58) with false by lia. cbn [orb].
  rewrite plx_other by lia. reflexivity.
Qed.
Lemma local_ok l d : local_name l -> after_name d -> local_re (l ++ d) = Some (length l).
Proof.
  intros (u & r & H & R & ->) D. destruct (lrest_units r R) as (us & -> & F). unfold local_re.
  rewrite <- app_assoc, lfirst_ok by exact H. rewrite Strings_Proof.skipn_len.
  rewrite many_units; auto; [now rewrite app_length | now apply after_more].
Qed.
Lemma prefix_head p d : prefix p -> exists c r, p ++ [58] ++ d = c :: r /\ (c = 58 \/ is_letter c \/ 192 <= c).
Proof.
  intros [->|(u & r & U & _ & ->)]; [do 2 eexists; split; [reflexivity | auto]|].
  destruct (encoded_head _ u U) as (c & r' & -> & [(C & L & _)|C]); do 2 eexists; (split; [reflexivity|]); [|auto].
  right; left. apply base_ok in C. rewrite base_low in C by auto. now apply letter_ok.
Qed.
Lemma iri_body_ok i f d : iri_text i f -> f d -> iri_body_re (i ++ d) = Some (length i).
Proof.
  intros [u U|p l P L] D; unfold iri_body_re, Turtle_Model.alt.
  - rewrite <- !app_assoc. now rewrite iriref_ok.
  - assert (E : iriref_re ((p ++ [58] ++ l) ++ d) = None).
    { rewrite <- !app_assoc. destruct (prefix_head p (l ++ d) P) as (c & r & -> & C). apply iriref_other.
      unfold Turtle_Spec.is_letter, Turtle_Spec.range in C. lia. }
    rewrite E. unfold Turtle_Model.seq2. rewrite <- !app_assoc. rewrite !pname_ok by auto.
    rewrite (app_assoc p), Strings_Proof.skipn_len. destruct L as [->|L].
    + cbn [app]. rewrite after_first by auto. reflexivity.
    + rewrite local_ok by auto. cbn [option_map]. now rewrite <- app_length, <- app_assoc.
Qed.
Lemma langtag_other c d : c <> 64 -> langtag_re (c :: d) = None.
Proof. intros H. unfold langtag_re. not_lit c. Qed.
Lemma iri_head i f d : iri_text i f -> exists c r, i ++ d = c :: r /\ (c = 60 \/ c = 58 \/ is_letter c \/ 192 <= c).
Proof.
  intros [u U|p l P L].
  - do 2 eexists; split; [reflexivity | auto].
  - rewrite <- !app_assoc. destruct (prefix_head p (l ++ d) P) as (c & r & -> & C). do 2 eexists; split; [reflexivity | tauto].
Qed.
Lemma iri_re_head c d : c <> 64 -> iri_re (c :: d) = iri_body_re (c :: d).
Proof. intros H. unfold iri_re, Turtle_Model.alt, Turtle_Model.seq2. now rewrite langtag_other. Qed.
Lemma iri_ok i f d : iri_text i f -> f d -> iri_re (i ++ d) = Some (length i).
Proof.
  intros I D. rewrite <- (iri_body_ok i f d I D). destruct (iri_head i f d I) as (c & r & -> & C).
  apply iri_re_head. unfold Turtle_Spec.is_letter, Turtle_Spec.range in C. lia.
Qed.
(* a tag ends before a byte that is no letter, digit or hyphen *)
Definition tag_end : text -> Prop := head_not (fun c => is_letter c \/ is_digit c \/ c = 45).
Lemma tag_end_head r d : Turtle_Spec.lang_rest r -> tag_end d -> forall c t, r ++ d = c :: t -> Turtle_Proof3.alnum c = false.
Proof.
  intros [|w r' W A R] D c t E.
  - assert (K := D c t E). unfold Turtle_Proof3.alnum. cbv beta in K. classes. lia.
  - cbn [app] in E. injection E as <- _. reflexivity.
Qed.
Lemma tag_star r d : Turtle_Spec.lang_rest r -> tag_end d -> forall fuel, (length r <= fuel)%nat ->
  Turtle_Model.star fuel Turtle_Model.langtag_more (r ++ d) = length r.
Proof.
  intros R D. induction R as [|w r W A R IH]; intros fuel F.
  - apply Turtle_Proof3.star_end. cbn [app]. destruct d as [|c d]; [reflexivity|].
    assert (K := D c d eq_refl). unfold Turtle_Model.langtag_more. assert (c <> 45) by (intros ->; apply K; auto). clear K. not_lit c.
  - cbn [app length] in *. rewrite app_length in *. destruct fuel as [|fuel]; [lia|].
    replace (45 :: (w ++ r) ++ d) with ((45 :: w) ++ (r ++ d)) by (cbn [app]; now rewrite app_assoc).
    rewrite Turtle_Proof3.star_next; [|discriminate|]; [rewrite IH by lia; cbn [length]; lia|].
    apply Turtle_Proof3.more_unit; auto. now apply tag_end_head.
Qed.
Lemma langtag_ok l d : language l -> tag_end d -> langtag_re ([64] ++ l ++ d) = Some (length ([64] ++ l)).
Proof.
  intros (w & r & W & A & R & ->) D. cbn [app langtag_re]. rewrite <- app_assoc.
  assert (A' : Forall (fun c => Turtle_Model.letter c = true) w) by (eapply Forall_impl; [|exact A]; intros; now apply letter_ok).
  rewrite plus_app; auto.
  - rewrite Strings_Proof.skipn_len. unfold Turtle_Model.many. rewrite tag_star; auto; [|rewrite app_length; lia].
    cbn [length]. now rewrite app_length.
  - intros c t E. apply Turtle_Proof3.letter_alnum. eapply tag_end_head; eauto.
Qed.
Lemma tagged_ok l i f d : language l -> iri_text i f -> f d ->
  iri_re (([64] ++ l ++ [64] ++ i) ++ d) = Some (length ([64] ++ l ++ [64] ++ i)).
Proof.
  intros L I D. unfold iri_re, Turtle_Model.alt. unfold Turtle_Model.seq2 at 1. rewrite <- !app_assoc.
  rewrite langtag_ok; auto. 2:{ intros c r E. cbn [app] in E. injection E as <- _. unfold Turtle_Spec.is_letter, Turtle_Spec.is_digit, Turtle_Spec.range. lia. }
  rewrite (app_assoc [64] l), Strings_Proof.skipn_len. unfold Turtle_Model.seq2. rewrite word_app, Strings_Proof.skipn_len.
  rewrite (iri_body_ok i f) by auto. cbn [option_map]. rewrite !app_length. reflexivity.
Qed.
