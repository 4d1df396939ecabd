(* Proofs about the Turtle parser: complete statements. *)
From Coq Require Import Ascii String List NArith Arith Bool Lia ZifyBool ZifyN ZifyNat.
From Verif Require Import Strings_Model Strings_Spec Turtle_Model Turtle_Spec Turtle_Proof Turtle_Proof2 Turtle_Proof3.
From Verif Require Strings_Proof Strings_Proof3 Strings_Proof4 Strings_Thm.
Import ListNotations.
Open Scope N_scope.
Open Scope list_scope.

(* ---- one token ---- *)
Lemma term_yes t d l m ap sb pr n ts u r : sk d = u ++ r -> regex t (u ++ r) = Some (length u) ->
  parseTerminal t (P d l m ap sb pr n ts) = Yes (P r u m ap sb pr n ts).
Proof.
  intros E R. unfold parseTerminal, next, skip_ws, set_data; cbn [data]. rewrite E, R.
  now rewrite Strings_Proof.firstn_len, Strings_Proof.skipn_len.
Qed.
Lemma term_no t d l m ap sb pr n ts : regex t (sk d) = None ->
  parseTerminal t (P d l m ap sb pr n ts) = No (P (sk d) l m ap sb pr n ts).
Proof. intros R. unfold parseTerminal, next, skip_ws, set_data; cbn [data]. now rewrite R. Qed.
Lemma skip_yes t d l m ap sb pr n ts u r : sk d = u ++ r -> regex t (u ++ r) = Some (length u) ->
  skip t (P d l m ap sb pr n ts) = Yes (P r l m ap sb pr n ts).
Proof.
  intros E R. unfold skip, skip_ws, set_data; cbn [data]. rewrite E, R. now rewrite Strings_Proof.skipn_len.
Qed.
Lemma skip_no t d l m ap sb pr n ts : regex t (sk d) = None ->
  skip t (P d l m ap sb pr n ts) = No (P (sk d) l m ap sb pr n ts).
Proof. intros R. unfold skip, skip_ws, set_data; cbn [data]. now rewrite R. Qed.

Definition covers (pm : prefix_map) (m : list (text * text)) : Prop :=
  forall p v, pm p = Some v -> find_prefix m p = Some v.

(* ---- heads ---- *)
Definition begins_with (p : N -> Prop) (t : text) : Prop := exists c r, t = c :: r /\ p c.
Definition iri_first (c : N) : Prop := c = 60 \/ is_letter c \/ 192 <= c.
Lemma iri_head dotted pm t v c : iri_text dotted pm t v c -> begins_with iri_first t.
Proof.
  intros [u s B E|p w l s B C L E].
  - exists 60, (u ++ [62]). split; auto. now left.
  - destruct (prefix_head p B) as (k & r & -> & H). exists k, (r ++ [58] ++ l). split; auto. now right.
Qed.
Lemma iri_first_ok c r : iri_first c -> head_ok (c :: r).
Proof. unfold iri_first, head_ok, blank. classes. lia. Qed.
Lemma head_ok_app t r : t <> [] -> head_ok t -> head_ok (t ++ r).
Proof. destruct t; [contradiction|]. auto. Qed.
Lemma name_first_none t c r : (is_letter c \/ 192 <= c) -> In t [Iriref; BlankNodeLabel; Anon; Integer; Decimal; OpenRound; OpenSquared;
  TurtlePrefix; TurtleBase; Dot; Comma; Semicolon; CloseSquared; Langtag; DoubleCircumflex] -> regex t (c :: r) = None.
Proof.
  intros H I. apply regex_first. cbn [In] in I. classes. unfold sign.
  repeat (destruct I as [<-|I]; [cbn [first]; unfold sign, digit, between; lia|]). destruct I.
Qed.
Lemma iri_first_none t c r : iri_first c -> In t [BlankNodeLabel; Anon; Integer; Decimal; OpenRound; OpenSquared;
  TurtlePrefix; TurtleBase; Dot; Comma; Semicolon; CloseSquared; Langtag; DoubleCircumflex] -> regex t (c :: r) = None.
Proof.
  intros [->|H] I; [|apply name_first_none; [exact H | right; exact I]].
  apply regex_first. cbn [In] in I. repeat (destruct I as [<-|I]; [reflexivity|]). destruct I.
Qed.

(* ---- IRIs ---- *)
Lemma iri_full dotted pm t v c d r l m ap sb pr n ts : iri_text dotted pm t v c -> covers pm m -> sk d = t ++ r ->
  (c = false -> stop r) -> exists ap', iri (P d l m ap sb pr n ts) = Yes (P r v m ap' sb pr n ts).
Proof.
  intros H C E St. unfold iri, iriref. destruct H as [u s B Es|p w k s B Hp L Es].
  - exists ap. rewrite (term_yes _ _ _ _ _ _ _ _ _ ([60] ++ u ++ [62]) r);
      [|exact E|rewrite <- !app_assoc; now apply iriref_full].
    cbn [and_ last]. apply Strings_Thm.C51_iri_partial in Es. rewrite Es. reflexivity.
  - exists p. destruct (prefix_head p B) as (k0 & r0 & Q & Hk). rewrite term_no.
    2:{ rewrite E, Q. cbn [app]. apply name_first_none; [exact Hk | now left]. }
    cbn [and_ or_]. unfold prefixedName, pnameNS.
    rewrite (term_yes _ _ _ _ _ _ _ _ _ (p ++ [58]) (k ++ r)).
    + cbn [and_ last set_aPrefix set_last data prefixes aPrefix aSubject aPredicate blanks triples].
      rewrite removelast_last. unfold next, set_last, set_aPrefix, set_data; cbn [data last prefixes aPrefix aSubject aPredicate blanks triples]. specialize (St eq_refl).
      apply Strings_Thm.C51_prefixed_name in Es. apply C in Hp. destruct L as [->|L].
      * cbn [app]. rewrite local_none by auto. cbn [prefixes aPrefix last]. rewrite Hp, Es. reflexivity.
      * rewrite (local_full dotted) by auto. rewrite Strings_Proof.firstn_len, Strings_Proof.skipn_len.
        cbn [prefixes aPrefix last]. rewrite Hp, Es. reflexivity.
    + rewrite E, sk_head by (rewrite Q; apply iri_first_ok; now right). now rewrite <- !app_assoc.
    + rewrite <- app_assoc. now apply pname_full.
Qed.

(* ---- what may follow ---- *)
Definition ends (cs : list N) (c : bool) (r : text) : Prop :=
  (c = false -> stop r) /\ not_quote r /\ (sk r = [] \/ unfinished (sk r) \/ exists k e, sk r = k :: e /\ In k cs).
Definition punctuation : list N := [44; 59; 46; 93].
Lemma punctuation_ok k e : In k punctuation -> head_ok (k :: e).
Proof. unfold punctuation, head_ok, blank. cbn [In]. lia. Qed.
Lemma ends_fixed cs c r : incl cs punctuation -> ends cs c r -> sk (sk r) = sk r.
Proof.
  intros I (_ & _ & [E|[E|(k & e & E & K)]]).
  - now rewrite E.
  - now apply sk_unfinished.
  - rewrite E. apply sk_head, punctuation_ok. auto.
Qed.
Lemma ends_none cs c r t : ends cs c r -> (forall k, In k (35 :: cs) -> first t k = false) -> regex t (sk r) = None.
Proof.
  intros (_ & _ & [E|[(e & E & _)|(k & e & E & K)]]) F; rewrite E.
  - apply regex_nil.
  - apply regex_first, F. now left.
  - apply regex_first, F. now right.
Qed.
Lemma ends_incl cs cs' c r : incl cs cs' -> ends cs c r -> ends cs' c r.
Proof. intros I (A & B & [E|[E|(k & e & E & K)]]); (split; [|split]); auto. right; right. eauto. Qed.
Lemma ends_closed cs r c : ends cs c r -> ends cs true r.
Proof. intros (A & B & C). split; [discriminate | split]; auto. Qed.
Lemma gap_head g c r : gap g -> g = c :: r -> In c [9; 10; 13; 32; 35].
Proof.
  intros [a A|a k b A K B] E.
  - subst a. inversion_clear A as [|? ? H _]. unfold is_blank in H. cbn [In] in *. lia.
  - destruct a as [|c' a]; cbn [app] in E; injection E as -> _.
    + cbn [In]; auto 10.
    + inversion_clear A as [|? ? H _]. unfold is_blank in H. cbn [In] in *. lia.
Qed.
Lemma ends_gap cs g k e c : gap g -> In k cs -> incl cs punctuation -> (g <> [] \/ c = true \/ k <> 46) ->
  ends cs c (g ++ k :: e).
Proof.
  intros G K I H. assert (KP : In k punctuation) by auto. unfold punctuation in KP. cbn [In] in KP. split; [|split].
  - intros ->. destruct g as [|x g].
    + cbn [app stop In]. destruct H as [H|[H|H]]; [contradiction | discriminate | lia].
    + apply (gap_head _ x g) in G; auto. cbn [app stop In] in *. lia.
  - intros y z Q. destruct g as [|x g]; cbn [app] in Q; injection Q as <- _; [lia|].
    apply (gap_head _ x g) in G; auto. cbn [In] in G. lia.
  - right; right. exists k, e. split; auto. apply sk_gap; auto. apply punctuation_ok; auto.
Qed.
Lemma ends_cut cs g x y c : gap g -> x ++ y = g -> ends cs c x.
Proof.
  intros G E. assert (H : forall k r, x = k :: r -> In k [9; 10; 13; 32; 35]).
  { intros k r ->. apply (gap_head g k (r ++ y)); auto. }
  split; [|split].
  - intros _. destruct x as [|k x]; [exact I|]. specialize (H k x eq_refl). cbn [stop In] in *. lia.
  - intros k r Q. specialize (H _ _ Q). cbn [In] in H. lia.
  - destruct (sk_cut g x y G E); auto.
Qed.

(* ---- terms ---- *)
Lemma opening_none c r : c <> 34 -> c <> 39 -> opening quotes4 (c :: r) = None.
Proof.
  intros H K. unfold quotes4. cbn [opening startsWith].
  replace (c =? 34) with false by lia. replace (c =? 39) with false by lia. reflexivity.
Qed.
Lemma string_no c r l m ap sb pr n ts : c <> 34 -> c <> 39 ->
  rdfLiteral (P (c :: r) l m ap sb pr n ts) = No (P (c :: r) l m ap sb pr n ts).
Proof. intros H K. unfold rdfLiteral, stringParse. cbn [data]. now rewrite opening_none. Qed.
Lemma blankNode_no d l m ap sb pr n ts : sk (sk d) = sk d -> regex BlankNodeLabel (sk d) = None -> regex Anon (sk d) = None ->
  blankNode (P d l m ap sb pr n ts) = No (P (sk d) l m ap sb pr n ts).
Proof. intros F A B. unfold blankNode, anon. rewrite term_no by auto. cbn [or_ and_]. rewrite term_no by now rewrite F. now rewrite F. Qed.
Lemma numeric_no d l m ap sb pr n ts : sk d = d -> regex Integer d = None -> regex Decimal d = None -> regex Double d = None ->
  numericLiteral (P d l m ap sb pr n ts) = No (P d l m ap sb pr n ts).
Proof. intros F A B C. unfold numericLiteral. rewrite !term_no by (now rewrite F). cbn [or_]. rewrite !term_no; cbn [or_]; rewrite ?F; auto.
  rewrite !term_no; rewrite ?F; auto.
Qed.
Lemma boolean_no d l m ap sb pr n ts : sk d = d -> regex True_ d = None -> regex False_ d = None ->
  booleanLiteral (P d l m ap sb pr n ts) = No (P d l m ap sb pr n ts).
Proof. intros F A B. unfold booleanLiteral. rewrite term_no by (now rewrite F). cbn [or_]. rewrite !term_no; rewrite ?F; auto. Qed.

Definition term_parser (s : parser) : out := or_ (blankNode s) (fun s => or_ (literal s) iri).

Lemma startsWith_begins w t r : startsWith (t ++ r) w = true -> begins w t \/ exists y, w = t ++ y.
Proof.
  intros H. apply Strings_Proof3.startsWith_iff in H as [b H].
  revert w H; induction t as [|c t IH]; intros w H; [right; now exists w|].
  destruct w as [|k w]; [left; now exists (c :: t)|]. cbn [app] in H. injection H as -> H.
  destruct (IH w H) as [[b' ->]|[y ->]]; [left; now exists b' | right; now exists y].
Qed.
Lemma plus_some p d n : plus p d = Some n -> exists c r, d = c :: r /\ p c = true.
Proof. unfold plus. destruct d as [|c d]; [discriminate|]. cbn [span]. destruct (p c) eqn:E; [eauto | discriminate]. Qed.
Lemma exponent_looks d n : exponent d = Some n -> looks_like_exponent d.
Proof.
  destruct d as [|c r]; [discriminate|]. unfold exponent. destruct ((c =? 101) || (c =? 69)) eqn:E; [|discriminate].
  cbv zeta. destruct r as [|s r']; [discriminate|]. cbn [opt]. destruct (sign s) eqn:S; cbn [skipn].
  - destruct (plus digit r') as [k|] eqn:Q; [|discriminate]. intros _. apply plus_some in Q as (e & r2 & -> & D).
    exists c, [s], e, r2. split; [lia|]. split; [|split; [now apply digit_ok | reflexivity]].
    unfold sign in S. destruct (N.eqb_spec s 43) as [->|]; auto. destruct (N.eqb_spec s 45) as [->|]; auto. discriminate.
  - destruct (plus digit (s :: r')) as [k|] eqn:Q; [|discriminate]. intros _. apply plus_some in Q as (e & r2 & Q & D).
    injection Q as <- <-. exists c, [], s, r'. split; [lia|]. split; [auto|]. split; [now apply digit_ok | reflexivity].
Qed.
Lemma double_looks c r n : is_letter c \/ 192 <= c -> regex Double (c :: r) = Some n -> looks_like_exponent (c :: r).
Proof.
  intros H. cbn [regex]. unfold double_re, opt.
  assert (S : sign c = false) by (unfold sign; classes; lia). assert (D : digit c = false) by (classes; lia).
  rewrite S. cbn [skipn]. unfold plus. cbn [span]. rewrite D. destruct (exponent (c :: r)) as [k|] eqn:E; [|discriminate].
  intros _. eapply exponent_looks; eauto.
Qed.
Lemma looks_more x y : looks_like_exponent x -> looks_like_exponent (x ++ y).
Proof. intros (e & sg & d & r & A & B & C & ->). exists e, sg, d, (r ++ y). split; [|split; [|split]]; auto. now rewrite <- !app_assoc. Qed.
Lemma looks_less t r : looks_like_exponent (t ++ r) -> In 58 t -> looks_like_exponent t.
Proof.
  intros (e & sg & d & r0 & A & B & C & E) I. exists e, sg, d.
  assert (Q : exists y, t = ([e] ++ sg ++ [d]) ++ y).
  { destruct r0 as [|x r0].
    - exfalso. rewrite app_nil_r in E. assert (K : In 58 (t ++ r)) by (apply in_or_app; auto). rewrite E in K.
      unfold is_digit, range in C. destruct B as [->|[->| ->]]; cbn [app In] in K; lia.
    - replace ([e] ++ sg ++ [d] ++ x :: r0) with (([e] ++ sg ++ [d]) ++ x :: r0) in E by now rewrite <- !app_assoc.
      symmetry in E. destruct r as [|y r].
      { rewrite app_nil_r in E. eauto. }
      symmetry in E. destruct (cut_app t (y :: r) _ _ E) as [(x' & -> & _)|(y' & F & _)]; [discriminate|eauto|].
      exfalso. assert (K : In 58 ([e] ++ sg ++ [d])) by (rewrite <- F; apply in_or_app; auto).
      unfold is_digit, range in C. destruct B as [->|[->| ->]]; cbn [app In] in K; lia. }
  destruct Q as [y ->]. exists y. split; [|split; [|split]]; auto. now rewrite <- !app_assoc.
Qed.
Lemma iri_colon dotted pm t v c : iri_text dotted pm t v c -> (exists r, t = 60 :: r) \/ In 58 t.
Proof. intros [u s B E|p w l s B C L E]; [left; cbn; eauto | right; apply in_or_app; right; now left]. Qed.

(* a text that starts like an IRI and is no other term goes to iri *)
Lemma term_iri d l m ap sb pr n ts c r : sk d = c :: r -> iri_first c -> regex Double (c :: r) = None ->
  regex True_ (c :: r) = None -> regex False_ (c :: r) = None ->
  term_parser (P d l m ap sb pr n ts) = iri (P (c :: r) l m ap sb pr n ts).
Proof.
  intros E H D T F. assert (X : sk (c :: r) = c :: r) by (apply sk_head, iri_first_ok; auto).
  unfold term_parser. rewrite blankNode_no; rewrite ?E; auto; try (apply iri_first_none; cbn; auto).
  cbn [or_]. unfold literal. rewrite string_no.
  2,3: unfold iri_first in H; classes; lia.
  cbn [or_]. rewrite numeric_no; auto; try (apply iri_first_none; cbn; auto). cbn [or_].
  rewrite boolean_no; auto.
Qed.
Lemma iri_regex_none dotted pm t v c r k e : iri_text dotted pm t v c -> t ++ r = k :: e ->
  ~ begins w_true t -> ~ begins w_false t -> ~ looks_like_exponent t ->
  regex Double (k :: e) = None /\ regex True_ (k :: e) = None /\ regex False_ (k :: e) = None.
Proof.
  intros H E T F L. destruct (iri_head _ _ _ _ _ H) as (k' & e' & Q & K).
  assert (k' = k) by (rewrite Q in E; cbn in E; congruence). subst k'.
  destruct K as [->|K]; [repeat split; apply regex_first; reflexivity|].
  destruct (iri_colon _ _ _ _ _ H) as [(q & Z)|Col].
  { exfalso. rewrite Z in Q. injection Q as <- _. destruct K; [classes|]; lia. }
  repeat split.
  - destruct (regex Double (k :: e)) as [j|] eqn:R; [|reflexivity]. exfalso. apply double_looks in R; auto.
    rewrite <- E in R. apply L. now apply looks_less in R.
  - cbn [regex]. unfold word. fold bytes in *. rewrite <- E. destruct (startsWith (t ++ r) _) eqn:R; [|reflexivity].
    exfalso. apply startsWith_begins in R as [R|(y & R)]; [now apply T|].
    assert (Z : In 58 (bytes "true")) by (rewrite R; apply in_or_app; auto). vm_compute in Z. intuition discriminate.
  - cbn [regex]. unfold word. rewrite <- E. destruct (startsWith (t ++ r) _) eqn:R; [|reflexivity].
    exfalso. apply startsWith_begins in R as [R|(y & R)]; [now apply F|].
    assert (Z : In 58 (bytes "false")) by (rewrite R; apply in_or_app; auto). vm_compute in Z. intuition discriminate.
Qed.
Lemma label_head dotted t : label dotted t -> exists r, t = 95 :: r.
Proof. intros (u & r & _ & _ & ->). cbn; eauto. Qed.
Ltac none := apply regex_first; reflexivity.
(* the end of a string: nothing, a language or a type *)
Definition suffix_ (lit : text) (s : parser) : out :=
  match parseTerminal Langtag s with
  | Yes s => Yes (set_last (lit ++ last s) s)
  | No s =>
    match skip DoubleCircumflex s with
    | Yes s => and_ (check (iri s)) (fun s => Yes (set_last (lit ++ [94; 94] ++ last s) s))
    | No s => Yes s
    | x => x
    end
  | x => x
  end.
Lemma term_string d l m ap sb pr n ts t v r : quoted t v -> not_quote r -> sk d = t ++ r ->
  term_parser (P d l m ap sb pr n ts) =
  or_ (or_ (suffix_ ([34] ++ v ++ [34]) (P r ([34] ++ v ++ [34]) m ap sb pr n ts)) (fun s => or_ (numericLiteral s) booleanLiteral)) iri.
Proof.
  intros H NQ E. destruct (quoted_head t v H) as (q & r' & Q & I).
  assert (X : sk (t ++ r) = t ++ r).
  { apply sk_head. rewrite Q. cbn [app head_ok In] in *. unfold blank. lia. }
  unfold term_parser. rewrite blankNode_no; rewrite ?E; auto.
  2,3: rewrite Q; cbn [app]; destruct I as [<-|[<-|[]]]; none.
  cbn [or_]. unfold literal, rdfLiteral. rewrite (string_full t v r); auto.
  cbn [and_]. unfold after_string. cbn [last set_last set_data]. rewrite (string_value t v) by auto. reflexivity.
Qed.
Lemma term_full dotted pm t v c cs d r l m ap sb pr n ts : term_text dotted pm t v c -> covers pm m -> sk d = t ++ r ->
  incl cs punctuation -> ends cs c r -> exists ap' r', (r' = r \/ r' = sk r) /\
  term_parser (P d l m ap sb pr n ts) = Yes (P r' v m ap' sb pr n ts).
Proof.
  intros H C E I En. destruct H as [t v c H Nt Nf Nl|t s H|t s la H L|t s i v c H Hi|t H| | |t H].
  - destruct (iri_head _ _ _ _ _ H) as (k & e & Q & K).
    assert (X : t ++ r = k :: e ++ r) by now rewrite Q.
    destruct (iri_regex_none _ _ _ _ _ r k (e ++ r) H X Nt Nf Nl) as (A & B & D).
    rewrite X in E. rewrite (term_iri _ _ _ _ _ _ _ _ k (e ++ r)); auto.
    destruct (iri_full dotted pm t v c (k :: e ++ r) r l m ap sb pr n ts) as (ap' & R); auto.
    + rewrite <- E. rewrite E at 1. rewrite sk_head; [auto | now apply iri_first_ok].
    + destruct En as [S _]; auto.
    + exists ap', r. auto.
  - exists ap, (sk r). split; auto. rewrite (term_string _ _ _ _ _ _ _ _ t s r); auto; [|apply En].
    unfold suffix_. assert (F := ends_fixed _ _ _ I En).
    assert (N1 : regex Langtag (sk r) = None).
    { eapply ends_none; eauto. intros k [<-|K]; [reflexivity|]. apply I in K. unfold punctuation in K. cbn [In] in K.
      cbn [first]. lia. }
    assert (N2 : regex DoubleCircumflex (sk r) = None).
    { eapply ends_none; eauto. intros k [<-|K]; [reflexivity|]. apply I in K. unfold punctuation in K. cbn [In] in K.
      cbn [first]. lia. }
    rewrite term_no by auto. rewrite skip_no by now rewrite F. rewrite F. reflexivity.
  - exists ap, r. split; auto.
    assert (NQ : not_quote ([64] ++ la ++ r)) by (intros k e Q; cbn [app] in Q; injection Q as <- _; lia).
    rewrite (term_string _ _ _ _ _ _ _ _ t s ([64] ++ la ++ r)); auto; [|now rewrite E, <- !app_assoc].
    unfold suffix_. rewrite (term_yes _ _ _ _ _ _ _ _ _ ([64] ++ la) r).
    + cbn [or_ last set_last]. unfold set_last. cbn. now rewrite <- ?app_assoc.
    + rewrite <- app_assoc. apply sk_head. cbn [app head_ok]. split; [reflexivity | lia].
    + rewrite <- app_assoc. apply langtag_full; auto. now apply En.
  - assert (NQ : not_quote ([94; 94] ++ i ++ r)) by (intros k e Q; cbn [app] in Q; injection Q as <- _; lia).
    rewrite (term_string _ _ _ _ _ _ _ _ t s ([94; 94] ++ i ++ r)); auto; [|now rewrite E, <- !app_assoc].
    assert (X : sk ([94; 94] ++ i ++ r) = [94; 94] ++ i ++ r).
    { apply sk_head. cbn [app head_ok]. split; [reflexivity | lia]. }
    unfold suffix_. rewrite term_no by (rewrite X; none).
    rewrite X. rewrite (skip_yes _ _ _ _ _ _ _ _ _ [94; 94] (i ++ r)); auto; [|apply (word_app [94; 94])].
    destruct (iri_head _ _ _ _ _ Hi) as (k & e & Q & K).
    destruct (iri_full dotted pm i v c (i ++ r) r ([34] ++ s ++ [34]) m ap sb pr n ts) as (ap' & R); auto.
    + apply sk_head. rewrite Q. now apply iri_first_ok.
    + apply En.
    + rewrite R. exists ap', r. split; auto. cbn [check and_ or_ last set_last]. unfold set_last. cbn [data last prefixes aPrefix aSubject aPredicate blanks triples].
      now rewrite <- !app_assoc.
  - exists ap, r. split; auto. destruct (number_head t H) as (k & e & Q & K).
    assert (X : sk (t ++ r) = t ++ r).
    { apply sk_head. rewrite Q. cbn [app head_ok]. unfold blank. classes. lia. }
    unfold term_parser. rewrite blankNode_no; rewrite ?E; auto.
    2,3: rewrite Q; apply regex_first; cbn [first]; classes; lia.
    cbn [or_]. unfold literal. replace (rdfLiteral _) with (No (P (t ++ r) l m ap sb pr n ts)).
    2:{ rewrite Q. cbn [app]. symmetry. apply string_no; classes; lia. }
    cbn [or_]. unfold numericLiteral. rewrite (term_yes _ _ _ _ _ _ _ _ _ t r); auto.
    apply integer_full; auto. now apply En.
  - exists ap, r. split; auto.
    assert (X : sk (w_true ++ r) = w_true ++ r) by (apply sk_head; split; [reflexivity | discriminate]).
    unfold term_parser. rewrite blankNode_no; rewrite ?E; auto; try none.
    cbn [or_]. unfold literal. change (w_true ++ r) with (116 :: bytes "rue" ++ r). rewrite string_no by lia.
    change (116 :: bytes "rue" ++ r) with (w_true ++ r).
    cbn [or_]. rewrite numeric_no; auto; try none. cbn [or_]. unfold booleanLiteral.
    rewrite (term_yes _ _ _ _ _ _ _ _ _ w_true r); auto. apply (word_app w_true).
  - exists ap, r. split; auto.
    assert (X : sk (w_false ++ r) = w_false ++ r) by (apply sk_head; split; [reflexivity | discriminate]).
    unfold term_parser. rewrite blankNode_no; rewrite ?E; auto; try none.
    cbn [or_]. unfold literal. change (w_false ++ r) with (102 :: bytes "alse" ++ r). rewrite string_no by lia.
    change (102 :: bytes "alse" ++ r) with (w_false ++ r).
    cbn [or_]. rewrite numeric_no; auto; try none. cbn [or_]. unfold booleanLiteral.
    rewrite term_no by (rewrite X; none). cbn [or_]. rewrite X.
    rewrite (term_yes _ _ _ _ _ _ _ _ _ w_false r); auto. apply (word_app w_false).
  - exists ap, r. split; auto. unfold term_parser, blankNode.
    rewrite (term_yes _ _ _ _ _ _ _ _ _ t r); auto. apply (label_full dotted); auto. now apply En.
Qed.
