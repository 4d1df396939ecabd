(* Proofs about the Turtle parser: statements that are cut. *)
From Coq Require Import Ascii String List NArith Arith Bool Lia ZifyBool ZifyN ZifyNat.
From Verif Require Import Strings_Model Strings_Spec Turtle_Model Turtle_Spec Turtle_Proof Turtle_Proof2 Turtle_Proof3 Turtle_Proof4 Turtle_Proof5 Turtle_Proof6.
From Verif Require Strings_Proof Strings_Proof3 Strings_Proof4 Strings_Thm.
Import ListNotations.
Open Scope N_scope.
Open Scope list_scope.

Lemma inert_statement d l m ap sb pr n ts : inert d -> statement (P d l m ap sb pr n ts) = No (P (sk d) l m ap sb pr n ts).
Proof.
  intros I. assert (I' := inert_sk d I). destruct I as [F [M O]].
  unfold statement, skip_ws, set_data. cbn [data last prefixes aPrefix aSubject aPredicate blanks triples].
  rewrite directive_no; auto; try muted M. cbn [or_]. unfold triples_, subject.
  rewrite blankNode_no; rewrite ?F; auto; try muted M. cbn [or_]. rewrite inert_iri by auto. rewrite F. cbn [or_].
  unfold collection. rewrite skip_no by (rewrite F; muted M). cbn [and_].
  unfold blankNodePropertyList. rewrite skip_no by (rewrite !F; muted M). cbn [and_]. now rewrite !F.
Qed.
Lemma prefix_name_cut p x y : prefix_name p -> x ++ y = p -> sk x = x.
Proof.
  intros H E. destruct (prefix_head p H) as (k & r & Q & K). destruct x as [|c x]; [reflexivity|].
  apply sk_head. rewrite Q in E. cbn [app] in E. injection E as -> _. apply iri_first_ok. now right.
Qed.
(* subjects *)
Lemma subject_cut (dotted : Prop) pm n t v c n' x y l m ap sb pr ts : (dotted -> False) -> subject_text dotted pm n t v c n' -> covers pm m ->
  x ++ y = t -> y <> [] -> x <> [] -> (forall w, t <> [91] ++ w ++ [93]) ->
  (sk x = x /\ regex TurtlePrefix x = None /\ regex TurtleBase x = None /\ regex SparqlPrefix x = None /\ regex SparqlBase x = None) /\
  after inert m ts (subject (P x l m ap sb pr n ts)).
Proof.
  intros ND H C E Y X NB. destruct x as [|k x]; [contradiction|]. clear X.
  destruct H as [n t v c H NP NBa|n t H|n w W]; [| |exfalso; now apply (NB w)].
  - destruct (iri_head _ _ _ _ _ H) as (k' & e' & Q & K).
    assert (k' = k) by (rewrite Q in E; cbn in E; congruence). subst k'.
    assert (F : sk (k :: x) = k :: x) by (apply sk_head; now apply iri_first_ok).
    assert (NW : forall w, ~ begins w t -> word w (k :: x) = None).
    { intros w B. unfold word. destruct (startsWith (k :: x) w) eqn:R; [|reflexivity]. exfalso. apply B.
      apply Strings_Proof3.startsWith_iff in R as [b R]. exists (b ++ y). rewrite <- E, R. now rewrite <- app_assoc. }
    split.
    + split; auto. split; [apply iri_first_none; auto; cbn [In]; tauto|]. split; [apply iri_first_none; auto; cbn [In]; tauto|].
      split; [now apply NW | now apply NW].
    + unfold subject. rewrite blankNode_no; rewrite ?F; auto; try (apply iri_first_none; auto; cbn [In]; tauto). cbn [or_].
      assert (R := iri_cut dotted pm t v c (k :: x) y (k :: x) l m ap sb pr n ts ND H C E Y F).
      destruct (iri _) as [s'|s'|s'| |]; cbn [or_ and_]; auto. cbn [after] in R. destruct R as (A & (e & B) & [D1 D2]).
      rewrite (state_eta s'). unfold collection. rewrite skip_no by (apply D2; cbn; tauto). cbn [and_ after data prefixes triples].
      split; auto. split; [eauto|]. now apply dead_sk.
  - destruct (label_head _ _ H) as (e & Q). assert (k = 95) by (rewrite Q in E; cbn in E; congruence). subst k.
    assert (F : sk (95 :: x) = 95 :: x) by (apply sk_head; split; [reflexivity | lia]).
    split; [split; auto; repeat split; none|]. unfold subject.
    destruct (label_cut dotted t (95 :: x) y ND H E Y) as [(R & _)|(a & z & Ea & Z & R & (r & Qa))].
    + rewrite blankNode_no; rewrite ?F; auto; try none. cbn [or_]. unfold iri, iriref. rewrite term_no by (rewrite F; none).
      cbn [and_ or_]. rewrite F. unfold prefixedName, pnameNS. rewrite term_no by (rewrite F; none). cbn [and_ or_]. rewrite F.
      unfold collection. rewrite skip_no by (rewrite F; none). cbn [and_]. apply after_no. rewrite F.
      split; rewrite !F; auto. intros t0 I. cbn [In] in I. repeat (destruct I as [<-|I]; [none|]). destruct I.
    + unfold blankNode. rewrite (term_yes _ _ _ _ _ _ _ _ _ a z); rewrite ?F; auto; [|now rewrite <- Ea].
      cbn [or_ and_]. unfold set_subject. cbn [data last prefixes aPrefix aSubject aPredicate blanks triples].
      apply after_yes. now apply bits_inert.
Qed.
Ltac gapcut := match goal with G : gap ?g, E : ?x ++ _ = ?g |- quiet ?x => exact (cut_gap _ _ _ G E) end.
Ltac endscut := match goal with G : gap ?g, E : ?x ++ _ = ?g |- ends _ _ ?x => exact (ends_cut _ _ _ _ _ G E) end.
Lemma before_last (x y g : text) k : x ++ y = g ++ [k] -> y <> [] -> exists y', x ++ y' = g.
Proof.
  intros E Y. destruct (cut_app _ _ _ _ E Y) as [(x' & -> & E')|(y' & E' & _)]; [|eauto].
  destruct x' as [|k0 x']; [exists []; now rewrite !app_nil_r|].
  cbn [app] in E'. injection E' as _ E'. apply app_eq_nil in E' as [_ ->]. contradiction.
Qed.
Definition nothing (d : text) : Prop := False.
Lemma quiet_iriref d l m ap sb pr n ts : quiet d -> iriref (P d l m ap sb pr n ts) = No (P (sk d) l m ap sb pr n ts).
Proof. intros Q. destruct (quiet_inert d Q) as [F [M O]]. unfold iriref. now rewrite term_no by muted M. Qed.

Lemma statement_cut (dotted redeclared : Prop) pm n t pm' n' ts s x y : (dotted -> False) ->
  statement_text dotted redeclared pm n t pm' n' ts -> covers pm (prefixes s) -> x ++ y = t -> y <> [] ->
  data s = x -> blanks s = n -> after nothing (prefixes s) (triples s) (statement s).
Proof.
  destruct s as [d l m ap sb pr b ts0]. cbn [data prefixes blanks triples]. intros ND H C E Y -> ->.
  assert (Inr : forall d, inert d -> after nothing m ts0 (statement (P d l m ap sb pr n ts0))).
  { intros d0 I. rewrite inert_statement by auto. apply after_no. now apply inert_dead, inert_sk. }
  destruct H as [pm n g0 g1 p g2 u v g3 G0 G1 Hp G2 Hu Ev G3 _|pm n g0 t v c n1 g1 tl_ c2 n2 ts g2 G0 Hs G1 Sep Hl G2 Sep2].
  - destruct (cut_app _ _ _ _ E Y) as [(x1 & -> & E1)|(y' & E1 & _)].
    2:{ apply Inr, quiet_inert. gapcut. }
    destruct (cut_app _ _ _ _ E1 Y) as [(x2 & -> & E2)|(y' & E2 & Y2 & _)].
    2:{ apply Inr. assert (X : inert x1).
        { change w_prefix with [64; 112; 114; 101; 102; 105; 120] in E2. split_cut E2; try (subst; contradiction);
          try apply inert_nil; (apply inert_head; [split; [reflexivity | lia]|]; split; [all_toks | reflexivity]). }
        assert (F : head_ok x1) by (destruct x1 as [|k x1]; [exact I|]; cbn in E2; injection E2 as -> _; split; [reflexivity | lia]).
        assert (F2 := sk_gap g0 x1 G0 F). destruct X as [X1 X2]. rewrite (sk_head x1 F) in *. split; rewrite F2; auto. }
    unfold statement, skip_ws, set_data. cbn [data last prefixes aPrefix aSubject aPredicate blanks triples].
    rewrite (sk_gap g0) by (first [exact G0 | split; [reflexivity | discriminate]]).
    unfold directive, prefixID. rewrite (skip_yes _ _ _ _ _ _ _ _ _ w_prefix x2).
    2:{ apply sk_head. split; [reflexivity | discriminate]. }
    2:{ apply (word_app w_prefix). }
    cbn [and_].
    assert (Raise : forall o, after nothing m ts0 o -> forall f, after nothing m ts0 (or_ (and_ (check o) f) (fun s => or_ (base_ TurtleBase s) (fun s => or_ (sparqlPrefix s) (base_ SparqlBase))))).
    { intros o A f. destruct o; cbn [check and_ or_ after] in *; unfold nothing in *; tauto. }
    assert (NoName : forall d, regex PnameNS (sk d) = None -> forall f g, after nothing m ts0
      (or_ (or_ (and_ (check (pnameNS (P d l m ap sb pr n ts0))) f) (fun s => or_ (base_ TurtleBase s) (fun s => or_ (sparqlPrefix s) (base_ SparqlBase)))) g)).
    { intros d R f g. unfold pnameNS. rewrite term_no by auto. cbn [and_ check or_]. apply after_raised. }
    destruct (cut_app _ _ _ _ E2 Y) as [(x3 & -> & E3)|(y' & E3 & _)].
    2:{ apply NoName. destruct (quiet_inert x2) as [F [M O]]; [gapcut|]. muted M. }
    destruct (prefix_head p Hp) as (k0 & r0 & Q & Hk).
    assert (F3 : head_ok x3).
    { destruct x3 as [|k x3]; [exact I|]. rewrite Q in E3. cbn [app] in E3. injection E3 as -> _. apply (iri_first_ok k0 x3). now right. }
    assert (F4 := sk_gap g1 x3 G1 F3).
    destruct (cut_app _ _ _ _ E3 Y) as [(x4 & -> & E4)|(y' & E4 & _)].
    2:{ apply NoName. rewrite F4. eapply pname_cut; eauto. }
    destruct x4 as [|k x4]; [apply NoName; rewrite F4, app_nil_r; apply (pname_cut p p []); auto using app_nil_r|].
    cbn [app] in E4. injection E4 as -> E4. unfold pnameNS.
    rewrite (term_yes _ _ _ _ _ _ _ _ _ (p ++ [58]) x4).
    2:{ rewrite F4. now rewrite <- app_assoc. }
    2:{ rewrite <- app_assoc. now apply pname_full. }
    cbn [and_ check]. unfold set_aPrefix, set_data, set_last. cbn [data last prefixes aPrefix aSubject aPredicate blanks triples].
    assert (NoIri : forall d l ap, regex Iriref (sk d) = None -> forall f g, after nothing m ts0
      (or_ (or_ (and_ (check (iriref (P d l m ap sb pr n ts0))) f) (fun s => or_ (base_ TurtleBase s) (fun s => or_ (sparqlPrefix s) (base_ SparqlBase)))) g)).
    { intros d l1 ap1 R f g. unfold iriref. rewrite term_no by auto. cbn [and_ check or_]. apply after_raised. }
    destruct (cut_app _ _ _ _ E4 Y) as [(x5 & -> & E5)|(y' & E5 & _)].
    2:{ apply NoIri. destruct (quiet_inert x4) as [F [M O]]; [gapcut|]. muted M. }
    assert (F5 : head_ok x5).
    { destruct x5 as [|k x5]; [exact I|]. cbn [app] in E5. injection E5 as -> _. split; [reflexivity | lia]. }
    assert (F6 := sk_gap g2 x5 G2 F5).
    replace (60 :: u ++ 62 :: g3 ++ [46]) with (([60] ++ u ++ [62]) ++ g3 ++ [46]) in E5 by (cbn [app]; now rewrite <- !app_assoc).
    destruct (cut_app x5 y ([60] ++ u ++ [62]) (g3 ++ [46]) E5 Y) as [(x6 & -> & E6)|(y' & E6 & Y6 & _)].
    2:{ apply NoIri. rewrite F6. eapply iriref_cut; eauto. }
    unfold iriref. rewrite (term_yes _ _ _ _ _ _ _ _ _ ([60] ++ u ++ [62]) x6).
    2:{ rewrite F6. now rewrite <- !app_assoc. }
    2:{ rewrite <- !app_assoc. now apply iriref_full. }
    cbn [and_ check last]. apply Strings_Thm.C51_iri_partial in Ev. rewrite Ev. cbn [escaping check and_].
    unfold set_last. cbn [data last prefixes aPrefix aSubject aPredicate blanks triples].
    destruct (before_last _ _ _ _ E6 Y) as (y' & E7).
    destruct (quiet_inert x6) as [F [M O]]; [gapcut|].
    rewrite skip_no by muted M. cbn [check and_ or_]. apply after_raised.
  - destruct (cut_app _ _ _ _ E Y) as [(x1 & -> & E1)|(y' & E1 & _)].
    2:{ apply Inr, quiet_inert. gapcut. }
    assert (Hh : x1 = [] \/ (exists w, t = [91] ++ w ++ [93] /\ Forall is_blank w) /\ (exists r, x1 = 91 :: r) \/ (forall w, t <> [91] ++ w ++ [93]) /\ x1 <> [] /\ head_ok x1).
    { destruct x1 as [|k x1]; auto. right.
      destruct Hs as [n t v c Hi NP NB|n t Hlb|n w W].
      - right. split; [|split; [discriminate|]].
        + intros w Q. destruct (iri_head _ _ _ _ _ Hi) as (k' & e' & Q' & K). rewrite Q in Q'. injection Q' as <- _.
          unfold iri_first in K. classes. lia.
        + destruct (iri_head _ _ _ _ _ Hi) as (k' & e' & Q' & K). rewrite Q' in E1. cbn [app] in E1. injection E1 as -> _.
          now apply (iri_first_ok k' x1).
      - right. destruct (label_head _ _ Hlb) as (e & Q). split; [|split; [discriminate|]].
        + intros w Q'. rewrite Q in Q'. discriminate.
        + rewrite Q in E1. cbn [app] in E1. injection E1 as -> _. split; [reflexivity | lia].
      - left. split; [eauto|]. cbn [app] in E1. injection E1 as -> _. eauto. }
    assert (F1 : head_ok x1) by (destruct Hh as [->|[(_ & r & ->)|(_ & _ & Hh)]]; [exact I | split; [reflexivity | lia] | exact Hh]).
    assert (F2 := sk_gap g0 x1 G0 F1).
    destruct Hh as [->|Hh].
    { apply Inr. apply quiet_inert. now left. }
    unfold statement, skip_ws, set_data. cbn [data last prefixes aPrefix aSubject aPredicate blanks triples]. rewrite F2.
    set (fuel := S (length (g0 ++ x1))).
    assert (Lf : (length x1 < fuel)%nat) by (unfold fuel; rewrite app_length; lia).
    destruct (cut_app _ _ _ _ E1 Y) as [(x2 & -> & E2)|(y' & E2 & Y2 & _)].
    2:{ destruct Hh as [((w & Ht & W) & (r & Q))|(NB & X & _)].
        - rewrite Q, Ht in E2. cbn [app] in E2. injection E2 as E2. rewrite Q in *.
          destruct (before_last _ _ _ _ E2 Y2) as (y2 & E3).
          assert (X : sk (91 :: r) = 91 :: r) by now apply sk_head.
          rewrite directive_no; auto; try none. cbn [or_]. unfold triples_, subject.
          rewrite blankNode_no; rewrite ?X; auto; try none; [|eapply blanks_anon; eauto]. cbn [or_].
          unfold iri, iriref. rewrite term_no by (rewrite X; none). cbn [and_ or_]. rewrite X.
          unfold prefixedName, pnameNS. rewrite term_no by (rewrite X; none). cbn [and_ or_]. rewrite X.
          unfold collection. rewrite skip_no by (rewrite X; none). cbn [and_]. rewrite X.
          unfold blankNodePropertyList. rewrite (skip_yes _ _ _ _ _ _ _ _ _ [91] r); auto; [|apply (word_app [91])].
          cbn [and_]. unfold createAnonNode, emitTriple, set_subject. cbn [data last prefixes aPrefix aSubject aPredicate blanks triples].
          destruct (inert_list fuel r (anonNode n) m ap (anonNode n) pr (n + 1) (ts0 ++ [(sb, pr, anonNode n)])) as [R|R].
          + apply quiet_inert. left. apply sk_blanks. eapply forall_cut; eauto.
          + rewrite R. cbn [check and_]. eapply after_ext. apply after_raised.
          + rewrite R. exact I.
        - destruct (subject_cut dotted pm n t v c n1 x1 y' l m ap sb pr ts0 ND Hs C E2 Y2 X NB) as ((D0 & D1 & D2 & D3 & D4) & R).
          rewrite directive_no by auto. cbn [or_]. unfold triples_.
          destruct (subject _) as [s'|s'|s'| |]; cbn [after] in R; auto.
          + destruct R as (A & (e & B) & K). rewrite (state_eta s'), A, B.
            destruct (inert_list fuel (data s') (last s') m (aPrefix s') (aSubject s') (aPredicate s') (blanks s') (ts0 ++ e) K) as [R|R]; rewrite R.
            * cbn [check and_]. eapply after_ext. apply after_raised.
            * exact I.
          + destruct R as (A & (e & B) & K). rewrite (state_eta s'), A, B. unfold blankNodePropertyList.
            assert (K' := K). destruct K' as [_ K2]. rewrite skip_no by (apply K2; cbn; tauto). cbn [and_]. eapply after_ext. apply after_no. now apply dead_sk. }
    destruct (subject_no_directive _ _ _ _ _ _ _ x2 Hs) as (D0 & D1 & D2 & D3 & D4).
    rewrite directive_no by auto. cbn [or_]. unfold triples_.
    destruct (subject_full dotted pm n t v c n1 (t ++ x2) x2 l m ap sb pr ts0) as (ap' & R); auto.
    { intros ->. destruct Sep as [Sep|Sep]; [|discriminate]. destruct g1 as [|a g1]; [contradiction|].
      apply (gap_head _ a g1) in G1; auto. destruct x2 as [|b x2]; [exact I|]. cbn [app] in E2. injection E2 as -> _.
      cbn [stop In] in *. lia. }
    rewrite R. rewrite app_length in Lf.
    assert (Gl := good_list _ _ _ _ _ _ _ _ Hl).
    destruct (cut_app _ _ _ _ E2 Y) as [(x3 & -> & E3)|(y' & E3 & _)].
    2:{ destruct (inert_list fuel x2 v m ap' v pr n1 ts0) as [R1|R1]; [apply quiet_inert; gapcut|..]; rewrite R1.
        - cbn [check and_]. apply after_raised.
        - exact I. }
    destruct (cut_app _ _ _ _ E3 Y) as [(x4 & -> & E4)|(y' & E4 & Y4 & _)].
    + destruct (before_last _ _ _ _ E4 Y) as (y' & E5).
      destruct (full_all dotted pm m C) as (_ & _ & _ & _ & FL).
      destruct (FL _ _ _ _ _ _ Hl fuel (g1 ++ tl_ ++ x4) x4 v ap' pr ts0) as (l' & ap2 & p' & Q); auto.
      * rewrite !app_length in Lf. lia.
      * now apply good_gap.
      * endscut.
      * rewrite Q. cbn [check and_]. destruct (quiet_inert x4) as [F [M O]]; [gapcut|].
        rewrite skip_no by (rewrite F; muted M). eapply after_ext. apply after_no. rewrite F. apply inert_dead. split; rewrite !F; auto. now split.
    + destruct (cut_all dotted ND pm m C) as (_ & _ & _ & _ & CL).
      assert (R1 := CL _ _ _ _ _ _ Hl x3 y' fuel (g1 ++ x3) v ap' pr ts0 E4 Y4).
      assert (R2 : after dead m ts0 (check (predicateObjectList fuel (P (g1 ++ x3) v m ap' v pr n1 ts0)))).
      { apply after_check. apply R1.
        - rewrite app_length in Lf. lia.
        - rewrite sk_gap; auto. destruct x3 as [|k0 x3]; [exact I|]. destruct Gl as [Gt1 Gt2]. specialize (Gt2 [] Gt1). rewrite app_nil_r, <- E4 in Gt2. exact Gt2. }
      eapply after_and; [exact R2|]. intros s' e A B K. rewrite (state_eta s'), A, B.
      assert (K' := K). destruct K' as [_ K2]. rewrite skip_no by (apply K2; cbn; tauto). apply after_no. now apply dead_sk.
Qed.
