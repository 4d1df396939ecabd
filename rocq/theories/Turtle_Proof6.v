(* Proofs about the Turtle parser: texts that are cut. *)
From Coq Require Import Ascii String List NArith Arith Bool Lia ZifyBool ZifyN ZifyNat.
From Verif Require Import Strings_Model Strings_Spec Turtle_Model Turtle_Spec Turtle_Proof Turtle_Proof2 Turtle_Proof3 Turtle_Proof4 Turtle_Proof5.
From Verif Require Strings_Proof Strings_Proof3 Strings_Proof4 Strings_Thm.
Import ListNotations.
Open Scope N_scope.
Open Scope list_scope.

(* texts in which no token starts, except the tokens that continue a term *)
Definition mute (e : text) : Prop :=
  (forall t, ~ In t [PnLocal; Langtag; DoubleCircumflex] -> regex t e = None) /\ opening quotes4 e = None.
Definition inert (d : text) : Prop := sk (sk d) = sk d /\ mute (sk d).
Definition dead (d : text) : Prop := sk (sk d) = sk d /\
  forall t, In t [OpenRound; OpenSquared; Dot; Comma; Semicolon; CloseSquared] -> regex t (sk d) = None.
Definition quiet (d : text) : Prop := sk d = [] \/ unfinished (sk d).

Lemma inert_dead d : inert d -> dead d.
Proof.
  intros [A [B _]]. split; auto. intros t I. apply B. cbn [In] in *. intuition (subst; discriminate).
Qed.
Lemma mute_head c r : (forall t, ~ In t [PnLocal; Langtag; DoubleCircumflex] -> first t c = false) -> c <> 34 -> c <> 39 ->
  mute (c :: r).
Proof. intros H A B. split; [intros t N0; now apply regex_first, H | now apply opening_none]. Qed.
Ltac all_toks := let t := fresh "t" in let N0 := fresh "N0" in intros t N0; destruct t; try reflexivity; exfalso; apply N0; cbn; tauto.
Lemma mute_nil : mute [].
Proof. split; [intros; apply regex_nil | reflexivity]. Qed.
Lemma quiet_inert d : quiet d -> inert d.
Proof.
  intros [E|E].
  - split; rewrite E; [reflexivity | apply mute_nil].
  - split; [now apply sk_unfinished|]. destruct E as (r & -> & _). apply mute_head; [all_toks | lia | lia].
Qed.
Lemma inert_nil : inert [].
Proof. apply quiet_inert. now left. Qed.
Lemma inert_head c r : head_ok (c :: r) -> mute (c :: r) -> inert (c :: r).
Proof. intros H M. split; rewrite !(sk_head (c :: r)); auto. Qed.
Lemma bits_inert z : bits z -> inert z.
Proof.
  intros [->|[(c & r & -> & L & N0)|[->|(r & ->)]]].
  - apply inert_nil.
  - apply inert_head; [split; [unfold blank|]; lia|]. split; [|apply opening_none; lia].
    intros t N1. destruct t; try (apply regex_first; cbn [first]; unfold sign, digit, between; lia); try (exfalso; apply N1; cbn; tauto).
    cbn [regex]. unfold pname_ns_re, one. now rewrite N0.
  - apply inert_head; [split; [reflexivity | lia]|]. apply mute_head; [all_toks | lia | lia].
  - apply inert_head; [split; [reflexivity | lia]|]. apply mute_head; [all_toks | lia | lia].
Qed.
Lemma inert_45 : inert [45].
Proof. apply inert_head; [split; [reflexivity | lia]|]. split; [all_toks | reflexivity]. Qed.
Lemma inert_43 : inert [43].
Proof. apply inert_head; [split; [reflexivity | lia]|]. split; [all_toks | reflexivity]. Qed.
Lemma inert_64 : inert [64].
Proof. apply inert_head; [split; [reflexivity | lia]|]. split; [all_toks | reflexivity]. Qed.
Lemma inert_94 : inert [94].
Proof. apply inert_head; [split; [reflexivity | lia]|]. split; [all_toks | reflexivity]. Qed.
Lemma dead_iri c r : iri_first c -> dead (c :: r).
Proof.
  intros H. assert (X := iri_first_ok c r H). split; rewrite !(sk_head (c :: r)) by auto; auto.
  intros t I. apply iri_first_none; auto. cbn [In] in *. intuition (subst; auto 20).
Qed.

(* the outcome for a text that is cut *)
Definition after (Q : text -> Prop) (m : list (text * text)) (ts0 : list triple) (o : out) : Prop :=
  match o with
  | Yes s => prefixes s = m /\ (exists e, triples s = ts0 ++ e) /\ Q (data s)
  | No s => prefixes s = m /\ (exists e, triples s = ts0 ++ e) /\ dead (data s)
  | Raised s => prefixes s = m /\ (exists e, triples s = ts0 ++ e)
  | Fatal => False
  | NoFuel => True
  end.
Lemma after_check Q m ts0 o : after Q m ts0 o -> after Q m ts0 (check o).
Proof. destruct o; cbn [after check]; intuition. Qed.
Lemma after_ext Q m ts0 e o : after Q m (ts0 ++ e) o -> after Q m ts0 o.
Proof.
  destruct o; cbn [after]; auto.
  - intros (A & (e' & B) & K). split; auto. split; auto. exists (e ++ e'). now rewrite app_assoc.
  - intros (A & (e' & B) & K). split; auto. split; auto. exists (e ++ e'). now rewrite app_assoc.
  - intros (A & (e' & B)). split; auto. exists (e ++ e'). now rewrite app_assoc.
Qed.
Lemma after_weaken (Q Q' : text -> Prop) m ts0 o : (forall d, Q d -> Q' d) -> after Q m ts0 o -> after Q' m ts0 o.
Proof. intros H. destruct o; cbn [after]; intuition. Qed.
Lemma after_and (Q Q' : text -> Prop) m ts0 o f : after Q m ts0 o ->
  (forall s e, prefixes s = m -> triples s = ts0 ++ e -> Q (data s) -> after Q' m (ts0 ++ e) (f s)) -> after Q' m ts0 (and_ o f).
Proof.
  destruct o as [s|s|s| |]; cbn [after and_]; auto. intros (A & (e & B) & C) H. specialize (H s e A B C).
  destruct (f s) as [s'|s'|s'| |]; cbn [after] in *; auto.
  - destruct H as (H1 & (e' & H2) & H3). split; auto. split; auto. exists (e ++ e'). now rewrite H2, app_assoc.
  - destruct H as (H1 & (e' & H2) & H3). split; auto. split; auto. exists (e ++ e'). now rewrite H2, app_assoc.
  - destruct H as (H1 & (e' & H2)). split; auto. exists (e ++ e'). now rewrite H2, app_assoc.
Qed.
Lemma after_and_check Q m ts0 o f : after Q m ts0 (and_ o f) -> after Q m ts0 (and_ (check o) f).
Proof. destruct o; cbn [after check and_]; intuition. Qed.
Lemma after_yes (Q : text -> Prop) d l m ap sb pr n ts : Q d -> after Q m ts (Yes (P d l m ap sb pr n ts)).
Proof. intros H. cbn [after prefixes triples data]. split; auto. split; auto. exists []. now rewrite app_nil_r. Qed.
Lemma after_no Q d l m ap sb pr n ts : dead d -> after Q m ts (No (P d l m ap sb pr n ts)).
Proof. intros H. cbn [after prefixes triples data]. split; auto. split; auto. exists []. now rewrite app_nil_r. Qed.
Lemma after_raised Q d l m ap sb pr n ts : after Q m ts (Raised (P d l m ap sb pr n ts)).
Proof. cbn [after prefixes triples]. split; auto. exists []. now rewrite app_nil_r. Qed.

(* ---- inert and dead texts ---- *)
Ltac muted M := apply M; cbn [In]; intuition discriminate.
Lemma inert_iri d l m ap sb pr n ts : inert d -> iri (P d l m ap sb pr n ts) = No (P (sk d) l m ap sb pr n ts).
Proof.
  intros [F [M O]]. unfold iri, iriref. rewrite term_no by muted M. cbn [and_ or_].
  unfold prefixedName, pnameNS. rewrite term_no by (rewrite F; muted M). cbn [and_]. now rewrite F.
Qed.
Lemma inert_sk d : inert d -> inert (sk d).
Proof. intros [F M]. split; rewrite ?F; auto. Qed.
Lemma dead_sk d : dead d -> dead (sk d).
Proof. intros [F M]. split; rewrite ?F; auto. Qed.
Lemma inert_term d l m ap sb pr n ts : inert d -> term_parser (P d l m ap sb pr n ts) = No (P (sk d) l m ap sb pr n ts).
Proof.
  intros I. assert (I' := inert_sk d I). destruct I as [F [M O]]. unfold term_parser. rewrite blankNode_no; auto; try muted M.
  cbn [or_]. unfold literal, rdfLiteral, stringParse. cbn [data]. rewrite O. cbn [and_ or_].
  rewrite numeric_no; auto; try muted M. cbn [or_]. rewrite boolean_no; auto; try muted M. cbn [or_].
  rewrite inert_iri by auto. now rewrite F.
Qed.
Lemma dead_collection list_ d l m ap sb pr n ts : dead d ->
  or_ (collection (P d l m ap sb pr n ts)) (blankNodePropertyList list_) = No (P (sk d) l m ap sb pr n ts).
Proof.
  intros [F M]. unfold collection. rewrite skip_no by (apply M; cbn; tauto). cbn [or_]. unfold blankNodePropertyList.
  rewrite skip_no by (rewrite F; apply M; cbn; tauto). cbn [and_]. now rewrite F.
Qed.
Lemma inert_object f d l m ap sb pr n ts : inert d -> obj f (P d l m ap sb pr n ts) = No (P (sk d) l m ap sb pr n ts).
Proof.
  intros I. unfold obj, object. fold (term_parser (P d l m ap sb pr n ts)). rewrite inert_term by auto.
  rewrite dead_collection by now apply inert_dead, inert_sk. destruct I as [F _]. now rewrite F.
Qed.
Lemma inert_verb d l m ap sb pr n ts : inert d -> verb (P d l m ap sb pr n ts) = No (P (sk d) l m ap sb pr n ts).
Proof. intros [F [M _]]. apply verb_no; auto; muted M. Qed.
Lemma dead_moreObjects k ob d l m ap sb pr n ts : dead d -> after dead m ts (moreObjects k ob (P d l m ap sb pr n ts)).
Proof.
  intros [F M]. destruct k as [|k]; [exact I|]. cbn [moreObjects]. rewrite skip_no by (apply M; cbn; tauto).
  apply after_yes. now apply dead_sk.
Qed.
Lemma dead_moreVerbs k it d l m ap sb pr n ts : dead d -> after dead m ts (moreVerbs k it (P d l m ap sb pr n ts)).
Proof.
  intros [F M]. destruct k as [|k]; [exact I|]. cbn [moreVerbs]. rewrite skip_no by (apply M; cbn; tauto).
  apply after_yes. now apply dead_sk.
Qed.
Lemma inert_item f d l m ap sb pr n ts : inert d -> verbAndObjects f (obj f) (P d l m ap sb pr n ts) = No (P (sk d) l m ap sb pr n ts).
Proof. intros I. unfold verbAndObjects. now rewrite inert_verb. Qed.
Lemma inert_list f d l m ap sb pr n ts : inert d ->
  predicateObjectList f (P d l m ap sb pr n ts) = No (P (sk d) l m ap sb pr n ts) \/
  predicateObjectList f (P d l m ap sb pr n ts) = NoFuel.
Proof.
  intros I. destruct f as [|f]; [now right|]. left. cbn [predicateObjectList]. fold (obj f). now rewrite inert_item.
Qed.
Lemma state_eta s : s = P (data s) (last s) (prefixes s) (aPrefix s) (aSubject s) (aPredicate s) (blanks s) (triples s).
Proof. now destruct s. Qed.

Lemma good_cut t x y : good t -> x ++ y = t -> sk x = x.
Proof.
  intros [G1 G2] E. destruct x as [|c x]; [reflexivity|]. apply sk_head.
  specialize (G2 [] G1). rewrite app_nil_r, <- E in G2. exact G2.
Qed.

(* ---- terms ---- *)
Lemma iri_cut (dotted : Prop) pm t v c x y d l m ap sb pr n ts : (dotted -> False) -> iri_text dotted pm t v c -> covers pm m ->
  x ++ y = t -> y <> [] -> sk d = x -> after inert m ts (iri (P d l m ap sb pr n ts)).
Proof.
  intros ND H C E Y D. unfold iri, iriref. destruct H as [u s B Es|p w k s B Hp L Es].
  - rewrite term_no by (rewrite D; eapply iriref_cut; eauto). cbn [and_ or_]. rewrite D.
    destruct x as [|c0 x].
    + unfold prefixedName, pnameNS. rewrite term_no by apply regex_nil. apply after_no. apply inert_dead, inert_nil.
    + injection E as -> E. unfold prefixedName, pnameNS. rewrite term_no.
      * apply after_no. rewrite sk_head by (split; [reflexivity | lia]). apply dead_iri. now left.
      * rewrite sk_head by (split; [reflexivity | lia]). none.
  - destruct (prefix_head p B) as (k0 & r0 & Q & Hk).
    assert (X : x = [] \/ exists r, x = k0 :: r).
    { destruct x as [|c0 x]; auto. right. exists x. f_equal. rewrite Q in E. cbn [app] in E. congruence. }
    assert (F : sk x = x).
    { destruct X as [->|(r & ->)]; [reflexivity|]. apply sk_head, iri_first_ok. now right. }
    rewrite term_no.
    2:{ rewrite D. destruct X as [->|(r & ->)]; [apply regex_nil|]. apply name_first_none; [exact Hk | now left]. }
    cbn [and_ or_]. rewrite D. unfold prefixedName, pnameNS.
    assert (K : regex PnameNS x = None -> after inert m ts (and_ (and_ (parseTerminal PnameNS (P x l m ap sb pr n ts))
      (fun s0 : parser => Yes (set_last [] (set_aPrefix (removelast (last s0)) s0))))
      (fun s0 : parser => let s1 := match next PnLocal s0 with Yes s' => s' | _ => s0 end in
        match find_prefix (prefixes s1) (aPrefix s1) with
        | Some v0 => escaping (unescapePrefixedIri (last s1)) (fun l0 : text => Yes (set_last ([60] ++ v0 ++ l0 ++ [62]) s1))
        | None => Raised s1 end))).
    { intros R. rewrite term_no by now rewrite F. cbn [and_]. apply after_no. rewrite F.
      destruct X as [->|(r & ->)]; [apply inert_dead, inert_nil|]. apply dead_iri. now right. }
    destruct (cut_app _ _ _ _ E Y) as [(x' & -> & E')|(y' & E' & Y' & _)]; [|apply K; eapply pname_cut; eauto].
    destruct x' as [|c0 x']; [rewrite app_nil_r in *; apply K; apply (pname_cut p p []); auto using app_nil_r|].
    cbn [app] in E'. injection E' as -> E'. clear K.
    rewrite (term_yes _ _ _ _ _ _ _ _ _ (p ++ [58]) x').
    2:{ rewrite F. now rewrite <- app_assoc. }
    2:{ rewrite <- app_assoc. now apply pname_full. }
    cbn [and_ last set_aPrefix set_last data prefixes aPrefix aSubject aPredicate blanks triples].
    rewrite removelast_last. unfold next, set_last, set_aPrefix, set_data; cbn [data last prefixes aPrefix aSubject aPredicate blanks triples].
    destruct L as [->|L]; [apply app_eq_nil in E' as [_ ->]; contradiction|]. apply C in Hp.
    destruct (local_cut dotted k x' y ND L E' Y) as (a & z & s' & -> & Z & Ea & [R|[R ->]]); rewrite R.
    + cbn [prefixes aPrefix last]. rewrite Hp. rewrite Strings_Proof.firstn_len, Strings_Proof.skipn_len.
      apply Strings_Thm.C51_prefixed_name in Ea. rewrite Ea. cbn [escaping data last prefixes aPrefix aSubject aPredicate blanks triples].
      apply after_yes. now apply bits_inert.
    + cbn [prefixes aPrefix last]. rewrite Hp. cbn [escaping app data last prefixes aPrefix aSubject aPredicate blanks triples].
      apply Strings_Thm.C51_prefixed_name in Ea. rewrite Ea. cbn [escaping data last prefixes aPrefix aSubject aPredicate blanks triples].
      apply after_yes. now apply bits_inert.
Qed.
Lemma string_term_cut t v x y d l m ap sb pr n ts : quoted t v -> x ++ y = t -> y <> [] -> sk d = x ->
  after inert m ts (term_parser (P d l m ap sb pr n ts)).
Proof.
  intros H E Y D. destruct (string_cut t v x y (P x l m ap sb pr n ts) H E Y eq_refl) as [(-> & R)|((q & r & -> & I) & R)].
  - assert (In_ : inert d) by (apply quiet_inert; now left).
    rewrite inert_term by auto. apply after_no. now apply inert_dead, inert_sk.
  - assert (X : sk (q :: r) = q :: r) by (apply sk_head; cbn [In head_ok] in *; unfold blank; lia).
    unfold term_parser. rewrite blankNode_no; rewrite ?D; auto; try (destruct I as [<-|[<-|[]]]; none).
    cbn [or_]. unfold literal, rdfLiteral.
    destruct R as [->|(q' & I' & ->)]; [apply after_raised|].
    cbn [and_]. unfold after_string, set_last, set_data. cbn [data last prefixes aPrefix aSubject aPredicate blanks triples].
    replace (normalizeRDFLiteral [q'; q']) with (Val [34; 34]) by (destruct I' as [<-|[<-|[]]]; reflexivity).
    cbn [escaping]. unfold set_last. cbn [data last prefixes aPrefix aSubject aPredicate blanks triples].
    rewrite term_no by apply regex_nil. cbv iota. rewrite skip_no by apply regex_nil. cbn [or_].
    apply after_yes. apply inert_nil.
Qed.
Lemma term_cut (dotted : Prop) pm t v c x y d l m ap sb pr n ts : (dotted -> False) -> term_text dotted pm t v c -> covers pm m ->
  x ++ y = t -> y <> [] -> sk d = x -> after inert m ts (term_parser (P d l m ap sb pr n ts)).
Proof.
  intros ND H C E Y D.
  assert (Inr : inert d -> after inert m ts (term_parser (P d l m ap sb pr n ts))).
  { intros I. rewrite inert_term by auto. apply after_no. now apply inert_dead, inert_sk. }
  assert (Inx : inert x -> after inert m ts (term_parser (P d l m ap sb pr n ts))).
  { intros I. apply Inr. assert (F := good_cut _ _ _ (good_term _ _ _ _ _ H) E). destruct I as [_ M]. split; rewrite D; auto. now rewrite F in M. }
  assert (Nil : x = [] -> after inert m ts (term_parser (P d l m ap sb pr n ts))).
  { intros ->. apply Inx, inert_nil. }
  destruct H as [t v c H Nt Nf Nl|t s H|t s la H L|t s i v c H Hi|t H| | |t H].
  - destruct x as [|k e]; [now apply Nil|].
    destruct (iri_head _ _ _ _ _ H) as (k' & e' & Q & K).
    assert (k' = k) by (rewrite Q in E; cbn in E; congruence). subst k'.
    rewrite (term_iri _ _ _ _ _ _ _ _ k e); auto.
    + refine (iri_cut dotted pm t v c (k :: e) y (k :: e) l m ap sb pr n ts ND H C E Y _). apply sk_head. now apply iri_first_ok.
    + destruct K as [->|K]; [none|]. destruct (regex Double (k :: e)) as [j|] eqn:R; [|reflexivity].
      exfalso. apply double_looks in R; auto. apply Nl. rewrite <- E. now apply looks_more.
    + cbn [regex]. unfold word. destruct (startsWith (k :: e) _) eqn:R; [|reflexivity]. exfalso. apply Nt.
      apply Strings_Proof3.startsWith_iff in R as [b R]. exists (b ++ y). rewrite <- E, R. now rewrite <- app_assoc.
    + cbn [regex]. unfold word. destruct (startsWith (k :: e) _) eqn:R; [|reflexivity]. exfalso. apply Nf.
      apply Strings_Proof3.startsWith_iff in R as [b R]. exists (b ++ y). rewrite <- E, R. now rewrite <- app_assoc.
  - eapply string_term_cut; eauto.
  - destruct (cut_app _ _ _ _ E Y) as [(x' & -> & E')|(y' & E' & Y' & _)]; [|eapply string_term_cut; eauto].
    assert (NQ : not_quote x').
    { intros k e ->. cbn [app] in E'. injection E' as -> _. lia. }
    rewrite (term_string _ _ _ _ _ _ _ _ t s x'); auto. unfold suffix_.
    assert (X : sk x' = x').
    { destruct x' as [|k e]; [reflexivity|]. cbn [app] in E'. injection E' as -> _. apply sk_head; split; [reflexivity | lia]. }
    destruct (langtag_cut la x' y L E' Y) as [([->| ->] & R)|(a & z & -> & Z & R)].
    + rewrite term_no by auto. rewrite skip_no by reflexivity. cbn [or_]. apply after_yes. apply inert_nil.
    + rewrite term_no by now rewrite X. rewrite skip_no by reflexivity. cbn [or_]. apply after_yes. apply inert_64.
    + rewrite (term_yes _ _ _ _ _ _ _ _ _ a z); auto. cbn [or_]. unfold set_last. cbn [data last prefixes aPrefix aSubject aPredicate blanks triples].
      apply after_yes. destruct Z as [->| ->]; [apply inert_nil | apply inert_45].
  - destruct (cut_app _ _ _ _ E Y) as [(x' & -> & E')|(y' & E' & Y' & _)]; [|eapply string_term_cut; eauto].
    assert (NQ : not_quote x').
    { intros k e ->. cbn [app] in E'. injection E' as -> _. lia. }
    rewrite (term_string _ _ _ _ _ _ _ _ t s x'); auto. unfold suffix_.
    destruct x' as [|k x']; [|cbn [app] in E'; injection E' as -> E'; destruct x' as [|k x']].
    + rewrite term_no by reflexivity. rewrite skip_no by reflexivity. cbn [or_]. apply after_yes. apply inert_nil.
    + rewrite term_no by reflexivity. rewrite skip_no by reflexivity. cbn [or_]. apply after_yes. apply inert_94.
    + cbn [app] in E'. injection E' as -> E'. assert (X : sk (94 :: 94 :: x') = 94 :: 94 :: x') by (apply sk_head; split; [reflexivity | lia]).
      rewrite term_no by (rewrite X; none). rewrite X. rewrite (skip_yes _ _ _ _ _ _ _ _ _ [94; 94] x'); auto; [|apply (word_app [94; 94])].
      assert (G := good_iri _ _ _ _ _ Hi).
      assert (F : sk x' = x').
      { destruct x' as [|k e]; [reflexivity|]. apply sk_head. destruct G as [G1 G2].
        destruct (iri_head _ _ _ _ _ Hi) as (k' & e' & Q & K). rewrite Q in E'. cbn in E'. injection E' as -> _. now apply iri_first_ok. }
      assert (R := iri_cut dotted pm i v c x' y x' ([34] ++ s ++ [34]) m ap sb pr n ts ND Hi C E' Y F).
      destruct (iri _) as [s'|s'|s'| |]; cbn [check and_ or_]; auto; cbn [after] in *; tauto.
  - destruct (integer_cut t x y H E Y) as [->|[->|[->|R]]].
    + now apply Nil.
    + apply Inx, inert_43.
    + apply Inx, inert_45.
    + destruct x as [|k e]; [now apply Nil|].
      destruct (number_head t H) as (k' & e' & Q & K). assert (k' = k) by (rewrite Q in E; cbn in E; congruence). subst k'.
      assert (X : sk (k :: e) = k :: e) by (apply sk_head; unfold head_ok, blank; classes; lia).
      unfold term_parser. rewrite blankNode_no; rewrite ?D; auto; try (apply regex_first; cbn [first]; classes; lia).
      cbn [or_]. unfold literal. rewrite string_no by (classes; lia). cbn [or_]. unfold numericLiteral.
      rewrite (term_yes _ _ _ _ _ _ _ _ _ (k :: e) []); rewrite ?app_nil_r; auto. cbn [or_]. apply after_yes. apply inert_nil.
  - change w_true with [116; 114; 117; 101] in E. apply Inx. split_cut E; try (subst; contradiction);
      try apply inert_nil; (apply inert_head; [split; [reflexivity | lia]|]; split; [all_toks | reflexivity]).
  - change w_false with [102; 97; 108; 115; 101] in E. apply Inx. split_cut E; try (subst; contradiction);
      try apply inert_nil; (apply inert_head; [split; [reflexivity | lia]|]; split; [all_toks | reflexivity]).
  - destruct (label_cut dotted t x y ND H E Y) as [(R & X)|(a & z & -> & Z & R & (r & Q))].
    + apply Inx. destruct X as [->|(r & ->)]; [apply inert_nil|]. apply inert_head; [split; [reflexivity | lia]|].
      split; [|apply opening_none; lia]. intros t0 N0. destruct t0; try none; auto; exfalso; apply N0; cbn; tauto.
    + unfold term_parser, blankNode. rewrite (term_yes _ _ _ _ _ _ _ _ _ a z); auto. cbn [or_]. apply after_yes. now apply bits_inert.
Qed.

(* ---- verbs ---- *)
Lemma verb_cut (dotted : Prop) pm v p c x y d l m ap sb pr n ts : (dotted -> False) -> verb_text dotted pm v p c -> covers pm m ->
  x ++ y = v -> y <> [] -> sk d = x -> after inert m ts (verb (P d l m ap sb pr n ts)).
Proof.
  intros ND H C E Y D. assert (F := good_cut _ _ _ (good_verb _ _ _ _ _ H) E).
  destruct x as [|k x].
  { rewrite inert_verb by (apply quiet_inert; now left). apply after_no. rewrite D. apply inert_dead, inert_nil. }
  destruct H as [|v p c H NA].
  { cbn [app] in E. injection E as -> E. apply app_eq_nil in E as [_ ->]. contradiction. }
  unfold verb, predicateSpecialA, skip_ws, set_data. cbn [data last prefixes aPrefix aSubject aPredicate blanks triples].
  rewrite D. replace (regex A (k :: x)) with (@None nat).
  2:{ symmetry. apply regex_first. cbn [first]. destruct (N.eqb_spec k 97) as [->|]; auto.
      exfalso. apply NA. exists (x ++ y). now rewrite <- E. }
  cbn [or_]. unfold predicate.
  assert (R := iri_cut dotted pm v p c (k :: x) y (k :: x) l m ap sb pr n ts ND H C E Y F).
  destruct (iri _) as [s'|s'|s'| |]; cbn [and_]; auto.
Qed.

Section Cut.
  Variable dotted : Prop.
  Hypothesis ND : dotted -> False.
  Variable pm : prefix_map.
  Variable m : list (text * text).
  Hypothesis C : covers pm m.

  Definition cut_object s p n (t : text) := forall x y f d l ap ts0, x ++ y = t -> y <> [] -> (length x <= f)%nat -> sk d = x ->
    after dead m ts0 (obj f (P d l m ap s p n ts0)).
  Definition cut_objects s p n (t : text) := forall x y f k d l ap ts0, x ++ y = t -> y <> [] -> (length x <= f)%nat -> sk d = x ->
    after dead m ts0 (and_ (obj f (P d l m ap s p n ts0)) (moreObjects k (obj f))).
  Definition cut_item s n (t : text) := forall x y f d l ap p ts0, x ++ y = t -> y <> [] -> (length x <= f)%nat -> sk d = x ->
    after dead m ts0 (verbAndObjects f (obj f) (P d l m ap s p n ts0)).
  Definition cut_tail s n (t : text) := forall x y f k d l ap p ts0, x ++ y = t -> y <> [] -> (length x <= f)%nat -> sk d = sk x ->
    after dead m ts0 (moreVerbs k (verbAndObjects f (obj f)) (P d l m ap s p n ts0)).
  Definition cut_list s n (t : text) := forall x y f d l ap p ts0, x ++ y = t -> y <> [] -> (length x < f)%nat -> sk d = x ->
    after dead m ts0 (predicateObjectList f (P d l m ap s p n ts0)).

  Lemma cut_gap g x y : gap g -> x ++ y = g -> quiet x.
  Proof. intros G E. eapply sk_cut; eauto. Qed.
  Lemma gap_quiet g : gap g -> quiet g.
  Proof. intros G. apply (cut_gap g g []); auto using app_nil_r. Qed.
  Lemma tail_start s c n t c' n' ts x y c0 : tail_text dotted pm s c n t c' n' ts -> x ++ y = t -> ends [59; 46; 93] c0 x.
  Proof.
    assert (G : forall g u, gap g -> x ++ y = g ++ 59 :: u -> ends [59; 46; 93] c0 x).
    { intros g u G E. destruct y as [|b y].
      - rewrite app_nil_r in E. rewrite E. apply ends_gap; auto; [now left | apply incl_1 | right; right; lia].
      - destruct (cut_app _ _ _ _ E) as [(x' & -> & E')|(y' & E' & _)]; [discriminate| |eapply ends_cut; eauto].
        destruct x' as [|k x']; [rewrite app_nil_r; apply (ends_cut _ g g []); auto using app_nil_r|].
        cbn [app] in E'. injection E' as -> _. apply ends_gap; auto; [now left | apply incl_1 | right; right; lia]. }
    intros [? ? ?|? ? ? g u ? ? ? Hg _|? ? ? g1 g2 ? ? ? ? ? ? ? ? Hg _ _ _] E.
    - apply app_eq_nil in E as [-> _]. apply (ends_cut _ [] [] []); auto. apply (gap_blanks []). constructor.
    - eapply G; eauto.
    - eapply G; eauto.
  Qed.
  Lemma ends_quiet d : quiet d -> inert d.
  Proof. apply quiet_inert. Qed.

  (* the opening bracket, and then a list that is not complete *)
  Lemma bracket x f d l ap s p n ts0 : sk d = 91 :: x -> regex Anon (91 :: x) = None ->
    (forall l p ts1, after dead m ts1 (check (predicateObjectList f (P x l m ap (node n) p (n + 1) ts1)))) ->
    after dead m ts0 (obj f (P d l m ap s p n ts0)).
  Proof.
    intros D NA H. assert (X : sk (91 :: x) = 91 :: x) by (apply sk_head; split; [reflexivity | lia]).
    unfold obj, object. rewrite blankNode_no; rewrite ?D; auto; try none.
    cbn [or_]. unfold literal. rewrite string_no by lia. cbn [or_].
    rewrite numeric_no; auto; try none. cbn [or_]. rewrite boolean_no; auto; try none. cbn [or_].
    unfold iri, iriref. rewrite term_no by (rewrite X; none). cbn [and_ or_]. rewrite X.
    unfold prefixedName, pnameNS. rewrite term_no by (rewrite X; none). cbn [and_]. rewrite X.
    unfold collection. rewrite skip_no by (rewrite X; none). cbn [or_]. rewrite X.
    unfold blankNodePropertyList. rewrite (skip_yes _ _ _ _ _ _ _ _ _ [91] x); auto; [|apply (word_app [91])].
    cbn [and_]. unfold createAnonNode, emitTriple, set_subject. cbn [data last prefixes aPrefix aSubject aPredicate blanks triples].
    specialize (H (anonNode n) p (ts0 ++ [(s, p, anonNode n)])).
    assert (W : forall o, after dead m (ts0 ++ [(s, p, anonNode n)]) o -> after dead m ts0 o).
    { intros o. destruct o; cbn [after]; auto.
      - intros (A & (e & B) & K). split; auto. split; auto. exists ([(s, p, anonNode n)] ++ e). now rewrite app_assoc.
      - intros (A & (e & B) & K). split; auto. split; auto. exists ([(s, p, anonNode n)] ++ e). now rewrite app_assoc.
      - intros (A & (e & B)). split; auto. exists ([(s, p, anonNode n)] ++ e). now rewrite app_assoc. }
    apply W. eapply after_and; [exact H|]. intros s' e P1 T1 [F1 M1].
    rewrite (state_eta s'). rewrite skip_no by (apply M1; cbn; tauto). cbn [check and_]. rewrite P1, <- T1. apply after_raised.
  Qed.
  Lemma blanks_anon w x y : Forall is_blank w -> x ++ y = w -> regex Anon (91 :: x) = None.
  Proof.
    intros W E. apply anon_none. rewrite skipWhitespace_blanks; [reflexivity|]. eapply forall_cut; eauto.
  Qed.
  Lemma skipWhitespace_more x y : heads 93 (skipWhitespace x) = true -> heads 93 (skipWhitespace (x ++ y)) = true.
  Proof.
    induction x as [|c x IH]; cbn [app skipWhitespace]; [discriminate|]. destruct (blank c); [exact IH | auto].
  Qed.
  Lemma nested_anon s n g t c n' ts x y z : gap g -> list_text dotted pm s n t c n' ts -> x ++ y = g ++ t ++ z ->
    regex Anon (91 :: x) = None.
  Proof.
    intros G Hl E. apply anon_none. destruct (heads 93 (skipWhitespace x)) eqn:Hd; [|reflexivity]. exfalso.
    apply (skipWhitespace_more x y) in Hd. rewrite E in Hd.
    destruct (list_head_ok _ _ _ _ _ _ _ _ Hl) as (k0 & e & Q & K0).
    destruct G as [a A|a k b A K B].
    - rewrite skipWhitespace_app in Hd by auto. rewrite Q in Hd. cbn [app] in Hd.
      rewrite skipWhitespace_head in Hd by now apply iri_first_ok. cbn [heads] in Hd. unfold iri_first in K0. classes. lia.
    - rewrite <- !app_assoc in Hd. rewrite skipWhitespace_app in Hd by auto. discriminate.
  Qed.
  Lemma quiet_list f d l ap s p n ts1 : quiet d -> after dead m ts1 (check (predicateObjectList f (P d l m ap s p n ts1))).
  Proof.
    intros Q. destruct (inert_list f d l m ap s p n ts1) as [E|E]; [now apply quiet_inert|..]; rewrite E.
    - apply after_raised.
    - exact I.
  Qed.

  Ltac gapcut := match goal with G : gap ?g, E : ?x ++ _ = ?g |- quiet ?x => exact (cut_gap _ _ _ G E) end.
  Ltac endscut := match goal with G : gap ?g, E : ?x ++ _ = ?g |- ends _ _ ?x => exact (ends_cut _ _ _ _ _ G E) end.
  Lemma cut_all :
    (forall s p n t c n' ts, object_text dotted pm s p n t c n' ts -> cut_object s p n t) /\
    (forall s p n t c n' ts, objects_text dotted pm s p n t c n' ts -> cut_objects s p n t) /\
    (forall s n t c n' ts, item_text dotted pm s n t c n' ts -> cut_item s n t) /\
    (forall s c0 n t c n' ts, tail_text dotted pm s c0 n t c n' ts -> cut_tail s n t) /\
    (forall s n t c n' ts, list_text dotted pm s n t c n' ts -> cut_list s n t).
  Proof.
    destruct (full_all dotted pm m C) as (FO & FOs & FI & FT & FL).
    apply (texts_ind dotted pm
      (fun s p n t c n' ts _ => cut_object s p n t) (fun s p n t c n' ts _ => cut_objects s p n t)
      (fun s n t c n' ts _ => cut_item s n t) (fun s c0 n t c n' ts _ => cut_tail s n t)
      (fun s n t c n' ts _ => cut_list s n t)).
    - (* term *)
      intros s p n t v c H x y f d l ap ts0 E Y L D.
      assert (R := term_cut dotted pm t v c x y d l m ap s p n ts0 ND H C E Y D).
      unfold obj, object. fold (term_parser (P d l m ap s p n ts0)).
      destruct (term_parser _) as [s'|s'|s'| |]; cbn [after] in R; auto.
      + destruct R as (A & (e & B) & K). unfold emitTriple. cbn [after data prefixes triples]. split; auto. split.
        * exists (e ++ [(aSubject s', aPredicate s', last s')]). now rewrite B, <- app_assoc.
        * now apply inert_dead.
      + destruct R as (A & (e & B) & K). rewrite (state_eta s'), dead_collection by auto. cbn [after data prefixes triples].
        split; auto. split; [eauto|]. now apply dead_sk.
    - (* anon *)
      intros s p n w W x y f d l ap ts0 E Y L D. destruct x as [|k x].
      { rewrite inert_object by (apply quiet_inert; now left). apply after_no. rewrite D. apply inert_dead, inert_nil. }
      cbn [app] in E. injection E as -> E.
      assert (E' : exists y', x ++ y' = w).
      { destruct (cut_app _ _ _ _ E Y) as [(x' & -> & E')|(y' & E' & _)]; [|eauto]. destruct x' as [|k x']; [exists []; now rewrite !app_nil_r|].
        cbn [app] in E'. injection E' as _ E'. apply app_eq_nil in E' as [_ ->]. contradiction. }
      destruct E' as (y' & E'). apply (bracket x); [exact D | |].
      + eapply blanks_anon; eauto.
      + intros l1 p1 ts1. apply quiet_list. left. apply sk_blanks. eapply forall_cut; eauto.
    - (* nested *)
      intros s p n g1 t c n' ts g2 G1 Hl IH G2 x y f d l ap ts0 E Y L D. destruct x as [|k x].
      { rewrite inert_object by (apply quiet_inert; now left). apply after_no. rewrite D. apply inert_dead, inert_nil. }
      cbn [app] in E. injection E as -> E. cbn [length] in L. assert (Gt := good_list _ _ _ _ _ _ _ _ Hl).
      apply (bracket x); [exact D | exact (nested_anon _ _ _ _ _ _ _ _ _ _ G1 Hl E) |]. intros l1 p1 ts1.
      destruct (cut_app _ _ _ _ E Y) as [(x1 & -> & E1)|(y' & E1 & _)].
      2:{ apply quiet_list. gapcut. }
      destruct (cut_app _ _ _ _ E1 Y) as [(x2 & -> & E2)|(y' & E2 & Y2 & _)].
      + assert (E3 : exists y', x2 ++ y' = g2).
        { destruct (cut_app _ _ _ _ E2 Y) as [(x' & -> & E')|(y' & E' & _)]; [|eauto]. destruct x' as [|k x']; [exists []; now rewrite !app_nil_r|].
          cbn [app] in E'. injection E' as _ E'. apply app_eq_nil in E' as [_ ->]. contradiction. }
        destruct E3 as (y' & E3).
        destruct (FL _ _ _ _ _ _ Hl f (g1 ++ t ++ x2) x2 l1 ap p1 ts1) as (l' & ap' & p' & Q).
        * rewrite !app_length in L. lia.
        * now apply good_gap.
        * endscut.
        * rewrite Q. cbn [check after data prefixes triples]. split; auto. split; [eauto|].
          apply inert_dead, inert_sk, quiet_inert. gapcut.
      + apply after_check. eapply IH; eauto.
        * rewrite app_length in L. lia.
        * rewrite sk_gap; auto. assert (F := good_cut _ _ _ Gt E2).
          destruct x1 as [|k x1]; [exact I|]. destruct Gt as [Gt1 Gt2]. specialize (Gt2 [] Gt1). rewrite app_nil_r, <- E2 in Gt2. exact Gt2.
    - (* the last object *)
      intros s p n t c n' ts H IH x y f k d l ap ts0 E Y L D. eapply after_and; [eapply IH; eauto|].
      intros s' e P1 T1 D1. rewrite (state_eta s'), P1, T1. now apply dead_moreObjects.
    - (* more objects *)
      intros s p n t1 c1 n1 ts1 g1 g2 t2 c2 n2 ts2 H1 IH1 G1 G2 H2 IH2 x y f k d l ap ts0 E Y L D.
      destruct (cut_app _ _ _ _ E Y) as [(x1 & -> & E1)|(y' & E1 & Y1 & _)].
      2:{ eapply after_and; [eapply IH1; eauto|]. intros s' e P1 T1 D1. rewrite (state_eta s'), P1, T1. now apply dead_moreObjects. }
      assert (Hg : (exists y', x1 ++ y' = g1) \/ exists x2, x1 = g1 ++ 44 :: x2 /\ x2 ++ y = g2 ++ t2).
      { destruct (cut_app _ _ _ _ E1 Y) as [(x' & -> & E')|(y' & E' & _)]; [|eauto]. destruct x' as [|k0 x']; [left; exists []; now rewrite !app_nil_r|].
        cbn [app] in E'. injection E' as -> E'. right. eauto. }
      rewrite app_length in L. destruct Hg as [(y' & Hg)|(x2 & -> & E2)].
      + destruct (FO _ _ _ _ _ _ _ H1 f d x1 l ap ts0) as (l1 & ap1 & r1 & R & Q); auto; [lia | endscut|].
        rewrite Q. cbn [and_]. assert (Dd : dead r1).
        { assert (Qx : inert x1) by (apply quiet_inert; gapcut). destruct R as [->| ->]; [now apply inert_dead | now apply inert_dead, inert_sk]. }
        assert (R2 := dead_moreObjects k (obj f) r1 l1 m ap1 s p n1 (ts0 ++ ts1) Dd).
        eapply after_ext; exact R2.
      + assert (E3 : ends punctuation c1 (g1 ++ 44 :: x2)).
        { apply ends_gap; auto; [now left | apply incl_0 | right; right; lia]. }
        destruct (FO _ _ _ _ _ _ _ H1 f d (g1 ++ 44 :: x2) l ap ts0) as (l1 & ap1 & r1 & R & Q); auto; [lia|].
        rewrite Q. cbn [and_]. destruct k as [|k]; [exact I|]. cbn [moreObjects].
        assert (F : sk (g1 ++ 44 :: x2) = 44 :: x2) by (apply sk_gap; auto; split; [reflexivity | lia]).
        rewrite (skip_yes _ _ _ _ _ _ _ _ _ [44] x2).
        2:{ destruct R as [->| ->]; rewrite ?F; [reflexivity | apply sk_head; split; [reflexivity | lia]]. }
        2:{ apply (word_app [44]). }
        assert (R2 : after dead m (ts0 ++ ts1) (and_ (check (obj f (P x2 l1 m ap1 s p n1 (ts0 ++ ts1)))) (moreObjects k (obj f)))).
        { destruct (cut_app _ _ _ _ E2 Y) as [(x3 & -> & E4)|(y' & E4 & Y4 & _)].
          - apply after_and_check. eapply IH2; eauto; [rewrite !app_length in L; cbn [length] in L; rewrite app_length in L; lia|].
            assert (Gt := good_objects _ _ _ _ _ _ _ _ _ H2).
            rewrite sk_gap; auto. destruct x3 as [|k0 x3]; [exact I|]. destruct Gt as [Gt1 Gt2]. specialize (Gt2 [] Gt1). rewrite app_nil_r, <- E4 in Gt2. exact Gt2.
          - rewrite inert_object by (apply quiet_inert; gapcut). cbn [check and_]. apply after_raised. }
        eapply after_ext; exact R2.
    - (* an item *)
      intros s n v p vc g t c n' ts Hv G Sep Ho IH x y f d l ap p0 ts0 E Y L D.
      unfold verbAndObjects, objectList.
      destruct (cut_app _ _ _ _ E Y) as [(x1 & -> & E1)|(y' & E1 & Y1 & _)].
      2:{ eapply after_and; [exact (verb_cut dotted pm v p vc x y' d l m ap s p0 n ts0 ND Hv C E1 Y1 D)|]. intros s' e P1 T1 D1. rewrite (state_eta s'), P1, T1.
          rewrite inert_object by auto. cbn [check and_]. apply after_raised. }
      rewrite app_length in L.
      assert (St : vc = false -> stop x1).
      { intros ->. destruct Sep as [Sep|Sep]; [|discriminate]. destruct g as [|a g]; [contradiction|].
        apply (gap_head _ a g) in G; auto. destruct x1 as [|b x1]; [exact I|]. cbn [app] in E1. injection E1 as -> _.
        cbn [stop In] in *. lia. }
      destruct (verb_full dotted pm v p vc d x1 l m ap s p0 n ts0) as (l1 & ap1 & Q); auto.
      rewrite Q. cbn [and_]. apply after_check.
      destruct (cut_app _ _ _ _ E1 Y) as [(x2 & -> & E2)|(y' & E2 & Y2 & _)].
      + eapply IH; eauto; [rewrite app_length in L; lia|]. assert (Gt := good_objects _ _ _ _ _ _ _ _ _ Ho).
        rewrite sk_gap; auto. destruct x2 as [|k0 x2]; [exact I|]. destruct Gt as [Gt1 Gt2]. specialize (Gt2 [] Gt1). rewrite app_nil_r, <- E2 in Gt2. exact Gt2.
      + assert (Qx : inert x1) by (apply quiet_inert; gapcut).
        rewrite inert_object by auto. cbn [and_]. apply after_no. now apply inert_dead, inert_sk.
    - (* the end *)
      intros s c n x y f k d l ap p ts0 E Y. apply app_eq_nil in E as [_ ->]. contradiction.
    - (* a semicolon and nothing *)
      intros s c n g t c' n' ts G H IH x y f k d l ap p ts0 E Y L D.
      assert (Hg : (exists y', x ++ y' = g) \/ exists x2, x = g ++ 59 :: x2 /\ x2 ++ y = t).
      { destruct (cut_app _ _ _ _ E Y) as [(x' & -> & E')|(y' & E' & _)]; [|eauto]. destruct x' as [|k0 x']; [left; exists []; now rewrite !app_nil_r|].
        cbn [app] in E'. injection E' as -> E'. right. eauto. }
      destruct Hg as [(y' & Hg)|(x2 & -> & E2)].
      + apply dead_moreVerbs. assert (Qx := quiet_inert _ (cut_gap _ _ _ G Hg)). apply inert_dead. destruct Qx as [F M]. split; rewrite D; auto.
      + destruct k as [|k]; [exact I|]. cbn [moreVerbs]. rewrite (sk_gap g) in D by (first [exact G | split; [reflexivity | lia]]).
        rewrite (skip_yes _ _ _ _ _ _ _ _ _ [59] x2); [|exact D|apply (word_app [59])].
        assert (E1 := tail_start _ _ _ _ _ _ _ _ _ true H E2). assert (F := ends_fixed _ _ _ incl_1 E1).
        unfold verbAndObjects at 1. rewrite verb_no; auto;
          try (eapply ends_head_none; eauto; [apply incl_1 | cbn [In]; intuition discriminate]).
        cbn [and_]. eapply IH; eauto. rewrite app_length in L. cbn [length] in L. lia.
    - (* a semicolon and an item *)
      intros s c n g1 g2 t1 c1 n1 ts1 t2 c2 n2 ts2 G1 G2 H1 IH1 H2 IH2 x y f k d l ap p ts0 E Y L D.
      assert (Hg : (exists y', x ++ y' = g1) \/ exists x2, x = g1 ++ 59 :: x2 /\ x2 ++ y = g2 ++ t1 ++ t2).
      { destruct (cut_app _ _ _ _ E Y) as [(x' & -> & E')|(y' & E' & _)]; [|eauto]. destruct x' as [|k0 x']; [left; exists []; now rewrite !app_nil_r|].
        cbn [app] in E'. injection E' as -> E'. right. eauto. }
      destruct Hg as [(y' & Hg)|(x2 & -> & E2)].
      + apply dead_moreVerbs. assert (Qx := quiet_inert _ (cut_gap _ _ _ G1 Hg)). apply inert_dead. destruct Qx as [F M]. split; rewrite D; auto.
      + destruct k as [|k]; [exact I|]. cbn [moreVerbs]. rewrite (sk_gap g1) in D by (first [exact G1 | split; [reflexivity | lia]]).
        rewrite (skip_yes _ _ _ _ _ _ _ _ _ [59] x2); [|exact D|apply (word_app [59])].
        rewrite app_length in L. cbn [length] in L. assert (Gt := good_item _ _ _ _ _ _ _ _ H1).
        destruct (cut_app _ _ _ _ E2 Y) as [(x3 & -> & E3)|(y' & E3 & Y3 & _)].
        * rewrite app_length in L. destruct (cut_app _ _ _ _ E3 Y) as [(x4 & -> & E4)|(y' & E4 & Y4 & _)].
          -- assert (E5 := tail_start _ _ _ _ _ _ _ _ _ c1 H2 E4). assert (F := ends_fixed _ _ _ incl_1 E5).
             rewrite app_length in L.
             destruct (FI _ _ _ _ _ _ H1 f (g2 ++ t1 ++ x4) x4 l ap p ts0) as (l1 & ap1 & p1 & Q); auto; [lia | now apply good_gap|].
             rewrite Q. assert (R2 := IH2 x4 y f k (sk x4) l1 ap1 p1 (ts0 ++ ts1) E4 Y ltac:(lia) F).
             eapply after_ext; exact R2.
          -- assert (R : after dead m ts0 (verbAndObjects f (obj f) (P (g2 ++ x3) l m ap s p n ts0))).
             { eapply IH1; eauto; [lia|].
               rewrite sk_gap; auto. destruct x3 as [|k0 x3]; [exact I|]. destruct Gt as [Gt1 Gt2]. specialize (Gt2 [] Gt1). rewrite app_nil_r, <- E4 in Gt2. exact Gt2. }
             destruct (verbAndObjects _ _ _) as [s'|s'|s'| |]; auto; cbn [after] in R.
             ++ destruct R as (A & (e & B) & K). rewrite (state_eta s'), A.
                assert (R2 := dead_moreVerbs k (verbAndObjects f (obj f)) (data s') (last s') m (aPrefix s') (aSubject s') (aPredicate s') (blanks s') (triples s') K).
                rewrite B in *. eapply after_ext; exact R2.
             ++ destruct R as (A & (e & B) & K). rewrite (state_eta s'), A.
                assert (R2 := dead_moreVerbs k (verbAndObjects f (obj f)) (data s') (last s') m (aPrefix s') (aSubject s') (aPredicate s') (blanks s') (triples s') K).
                rewrite B in *. eapply after_ext; exact R2.
        * assert (Qx : inert x2) by (apply quiet_inert; gapcut).
          rewrite inert_item by auto. apply dead_moreVerbs. now apply inert_dead, inert_sk.
    - (* a list *)
      intros s n t1 c1 n1 ts1 t2 c2 n2 ts2 H1 IH1 H2 IH2 x y f d l ap p ts0 E Y L D.
      destruct f as [|f]; [lia|]. cbn [predicateObjectList]. fold (obj f).
      destruct (cut_app _ _ _ _ E Y) as [(x4 & -> & E4)|(y' & E4 & Y4 & _)].
      + assert (E5 := tail_start _ _ _ _ _ _ _ _ _ c1 H2 E4). assert (F := ends_fixed _ _ _ incl_1 E5).
        rewrite app_length in L.
        destruct (FI _ _ _ _ _ _ H1 f d x4 l ap p ts0) as (l1 & ap1 & p1 & Q); auto; [lia|].
        rewrite Q. cbn [and_]. assert (R2 := IH2 x4 y f f (sk x4) l1 ap1 p1 (ts0 ++ ts1) E4 Y ltac:(lia) F).
        eapply after_ext; exact R2.
      + eapply after_and; [eapply IH1; eauto; lia|]. intros s' e P1 T1 D1. rewrite (state_eta s'), P1, T1. now apply dead_moreVerbs.
  Qed.
End Cut.
