(* Theorems about the SPARQL parser (C65, C66, C67). *)
From Coq Require Import Ascii String List NArith ZArith Arith Bool Lia ZifyBool ZifyN ZifyNat.
From Verif Require Import Strings_Model SLex_Model Sparql_Model SLex_Spec Sparql_Spec Sparql_Proof1 Sparql_Proof2 Sparql_Proof5 Sparql_Proof6 SLex_Thm.
From Verif Require Conv_Model PPath_Model PPath_Spec PPath_Thm Turtle_Model Turtle_Spec Turtle_Proof.
Import ListNotations.
Open Scope N_scope.
Open Scope list_scope.

(* C65: a text that is written according to the grammar is parsed to the query that it stands for.
   Missing: the constructs that are rejected or read in another way (see the refutations below). *)
Theorem C65_parses_partial ps q is d x : query_items ps q is -> written_as is d -> select_means q ps x -> parse d = Ok x.
Proof. apply parses. Qed.

(* C65: the parser comes to an end with every text. *)
Theorem C65_terminates d : parse d <> NoFuel.
Proof. apply parse_ends. Qed.

(* for the example *)
Ltac wtok n m :=
  match goal with |- written_as (?i :: ?is) ?t =>
    let i' := eval vm_compute in i in
    let g := eval vm_compute in (firstn n t) in
    let w := eval vm_compute in (firstn m (skipn n t)) in
    let d := eval vm_compute in (skipn (n + m)%nat t) in
    match i' with Tok ?k ?v => change (written_as (Tok k v :: is) (g ++ w ++ d)); eapply (wa_token k w v _ is g d) end end.
Ltac wpath n m1 m2 :=
  match goal with |- written_as (?i :: ?is) ?t =>
    let g := eval vm_compute in (firstn n t) in
    let w1 := eval vm_compute in (firstn m1 (skipn n t)) in
    let w2 := eval vm_compute in (firstn m2 (skipn (n + m1)%nat t)) in
    let c := eval vm_compute in (hd 0 (skipn (n + m1 + m2)%nat t)) in
    let d := eval vm_compute in (tl (skipn (n + m1 + m2)%nat t)) in
    change (written_as (Raw (w1 ++ w2) :: is) (g ++ w1 ++ w2 ++ c :: d)); eapply (wa_path KIri w1 w2 _ is g c d) end.
Ltac fa_tac := repeat (apply Forall_cons; [small|]); apply Forall_nil.
Ltac letters := match goal with |- written ?a ?b => let a' := eval vm_compute in a in let b' := eval vm_compute in b in change (Forall2 same_letter a' b') end;
  repeat (apply Forall2_cons; [first [left; reflexivity|right; small]|]); apply Forall2_nil.
Ltac name_tac := apply tk_iri; [apply (it_name [97] []); [right; exists [97], []; repeat split; [apply encoded_ascii; small|constructor]|left; reflexivity]|apply not_reserved; vm_compute; reflexivity].
Ltac name_ab := apply tk_iri; [apply (it_name [97] [98]); [right; exists [97], []; repeat split; [apply encoded_ascii; small|constructor]
  |right; exists [98], []; repeat split; [left; apply encoded_ascii; small|constructor]]|apply not_reserved; vm_compute; reflexivity].
Ltac after_tac := match goal with |- after_name ?g => let g' := eval vm_compute in g in change (after_name g') end; apply an_char; small.
Ltac iri_body_tac := repeat first [apply ib_nil | match goal with |- iri_body (?c :: ?r) => apply (ib_char [c] r); [apply encoded_ascii; [lia|unfold iri_forbidden; small]|] end].
Ltac iri_tac := match goal with |- token_text _ (?a :: ?r) _ _ => let u := eval vm_compute in (removelast r) in
  apply tk_iri; [apply (it_full u); iri_body_tac|apply not_reserved; vm_compute; reflexivity] end.
Ltac agg_tac := apply tk_aggregate; [vm_compute; tauto|letters].
Ltac group_tac := apply (tk_group (bytes "GROUP") [32] (bytes "BY")); [letters|fa_tac|letters].
Ltac order_tac := apply (tk_order (bytes "ORDER") [32] (bytes "BY")); [letters|fa_tac|letters].
Ltac lit_tac := apply (tk_literal [119] [119] (bytes "@en")); [apply (sb_char [119]); [apply encoded_ascii; small|constructor]
  |apply Strings_Spec.es_char; [small|apply Strings_Spec.es_nil]
  |apply (su_language [101; 110]); exists [101; 110], []; split; [discriminate|split; [fa_tac|split; [constructor|reflexivity]]]].
Ltac int_tac := apply (tk_integer [] [57]); [left; reflexivity|discriminate|fa_tac].
Ltac spaces := repeat (apply Forall_cons; [unfold is_space; lia|]); apply Forall_nil.

Definition y_text : text := bytes
  "PREFIX a: <x:> SELECT ?x (COUNT(?y) AS ?n) WHERE {?x <p>/<q>* ?y . OPTIONAL {?y a:b ""w""@en} FILTER(?y != ?x)} GROUP BY ?x ORDER BY DESC(?n) LIMIT 9".
Notation var c := [63; c].
Definition y_path : predicate := PPath [bytes "<p>"; bytes "/"; bytes "<q>"; bytes "*"] (PPath_Spec.Seq [PPath_Spec.Link (bytes "<p>"); PPath_Spec.Star (PPath_Spec.Link (bytes "<q>"))]).
Definition y_link : predicate := PPath [bytes "a:b"] (PPath_Spec.Link (bytes "a:b")).
Definition y_count : calias := CAlias COUNT false (var 121) None (var 110).
Definition y_query : select :=
  Select false false [ColVar (var 120); ColAlias y_count]
    (Triples (NVar (var 120)) y_path (NVar (var 121)) [] Dot
      (Opt (Triples (NVar (var 121)) y_link (NLit (bytes """w""@en")) [] NoDot Done) false
        (Condition (Compare 1 false (OVar (var 121)) NE (OVar (var 120))) false Done)))
    [GroupBy (var 120) []; OrderBy (KeyCall true (var 110)) []; Limit [57]].
Definition y_meaning : query :=
  Query (Head [([97], bytes "<x:>")] [var 120; var 110] [] 2 [(var 110, true)] [var 120] [57] [] [] false false
           [Alias COUNT (var 121) (var 110) false (bytes "COUNT(?y) as ?n") [32]])
    (Pattern false 0 [Filter NE (var 121) (var 120) [] [] false false]
      [Basic [Triple (var 120) (PPath_Model.Path PPath_Model.SEQUENCE 0 [] [PPath_Model.leaf (bytes "<p>");
          PPath_Model.Path PPath_Model.TRANSITIVE 0 [] [PPath_Model.leaf (bytes "<q>")] true] false) (var 121)];
       Optional (Pattern true 1 [] [Basic [Triple (var 121) (PPath_Model.leaf (bytes "a:b")) (bytes """w""@en")]])]).
Definition children_of (q : query) : list operation := match q with Query _ (Pattern _ _ _ cs) => cs end.
Example C65_parses_example : exists is, query_items [([97], bytes "<x:>")] y_query is /\ written_as is y_text /\
  select_means y_query [([97], bytes "<x:>")] y_meaning.
Proof.
  eexists. split; [|split].
  - apply (qi_prefix [97] (bytes "<x:>")), qi_select. unfold y_query. eapply si.
    + apply ei_triples; [now left|]. apply ei_optional; [apply ei_triples; [now right|apply ei_done]|]. apply ei_filter, ei_done.
    + apply (mi_cons (bytes "group by")), (mi_cons (bytes "order by")), (mi_cons []), mi_nil.
  - match goal with |- written_as ?is ?t => let is' := eval vm_compute in is in let t' := eval vm_compute in t in change (written_as is' t') end.
    wtok 0%nat 6%nat; [gap_tac|word_tac| |head_tac].
    wtok 1%nat 2%nat; [gap_tac|name_tac| |after_tac].
    wtok 1%nat 4%nat; [gap_tac|iri_tac| |exact I].
    wtok 1%nat 6%nat; [gap_tac|word_tac| |head_tac].
    wtok 1%nat 2%nat; [gap_tac|var_tac 120| |head_tac].
    wtok 1%nat 1%nat; [gap_tac|sym_tac| |exact I].
    wtok 0%nat 5%nat; [gap_tac|agg_tac| |head_tac].
    wtok 0%nat 1%nat; [gap_tac|sym_tac| |exact I].
    wtok 0%nat 2%nat; [gap_tac|var_tac 121| |head_tac].
    wtok 0%nat 1%nat; [gap_tac|sym_tac| |exact I].
    wtok 1%nat 2%nat; [gap_tac|word_tac| |head_tac].
    wtok 1%nat 2%nat; [gap_tac|var_tac 110| |head_tac].
    wtok 0%nat 1%nat; [gap_tac|sym_tac| |exact I].
    wtok 1%nat 5%nat; [gap_tac|word_tac| |head_tac].
    wtok 1%nat 1%nat; [gap_tac|sym_tac| |exact I].
    wtok 0%nat 2%nat; [gap_tac|var_tac 120| |head_tac].
    wpath 1%nat 3%nat 5%nat; [gap_tac| | | | | |].  
    { iri_tac. }
    { now left. }
    { spaces. }
    { exact I. }
    { small. }
    wtok 1%nat 2%nat; [gap_tac|var_tac 121| |head_tac].
    wtok 1%nat 1%nat; [gap_tac|sym_tac| |exact I].
    wtok 1%nat 8%nat; [gap_tac|word_tac| |head_tac].
    wtok 1%nat 1%nat; [gap_tac|sym_tac| |exact I].
    wtok 0%nat 2%nat; [gap_tac|var_tac 121| |head_tac].
    wpath 1%nat 3%nat 0%nat; [gap_tac| | | | | |].  
    { name_ab. }
    { now left. }
    { constructor. }
    { after_tac. }
    { small. }
    wtok 1%nat 6%nat; [gap_tac|lit_tac| |head_tac].
    wtok 0%nat 1%nat; [gap_tac|sym_tac| |exact I].
    wtok 1%nat 6%nat; [gap_tac|word_tac| |head_tac].
    wtok 0%nat 1%nat; [gap_tac|sym_tac| |exact I].
    wtok 0%nat 2%nat; [gap_tac|var_tac 121| |head_tac].
    wtok 1%nat 1%nat; [gap_tac|sym_tac| |exact I].
    wtok 0%nat 1%nat; [gap_tac|sym_tac| |exact I].
    wtok 1%nat 2%nat; [gap_tac|var_tac 120| |head_tac].
    wtok 0%nat 1%nat; [gap_tac|sym_tac| |exact I].
    wtok 0%nat 1%nat; [gap_tac|sym_tac| |exact I].
    wtok 1%nat 8%nat; [gap_tac|group_tac| |exact I].
    wtok 1%nat 2%nat; [gap_tac|var_tac 120| |head_tac].
    wtok 1%nat 8%nat; [gap_tac|order_tac| |exact I].
    wtok 1%nat 4%nat; [gap_tac|word_tac| |head_tac].
    wtok 0%nat 1%nat; [gap_tac|sym_tac| |exact I].
    wtok 0%nat 2%nat; [gap_tac|var_tac 110| |head_tac].
    wtok 0%nat 1%nat; [gap_tac|sym_tac| |exact I].
    wtok 1%nat 5%nat; [gap_tac|word_tac| |head_tac].
    wtok 1%nat 1%nat; [gap_tac|int_tac| |split; intros; discriminate].
    apply wa_end, eg_gap, gap_nil.
  - unfold y_query. change y_meaning with (Query (Head [([97], bytes "<x:>")] [var 120; var 110] [] 2 [(var 110, true)] [var 120] [57] [] [] false false
           [Alias COUNT (var 121) (var 110) false (bytes "COUNT(?y) as ?n") [32]]) (Pattern false 0 [Filter NE (var 121) (var 120) [] [] false false] (children_of y_meaning))).
    eapply sm.
    + discriminate.
    + repeat constructor.
    + repeat constructor; small.
    + eapply me_triples; try exact I.
      * split; [|cbn -[PPath_Spec.delim]; unfold PPath_Spec.delim; cbn [In]; repeat (first [left; split; [lia|]; split; [first [left; reflexivity|right; reflexivity]|]|right; split; [lia|]]); exact I].
        apply PPath_Spec.path_one. apply PPath_Spec.seq_many; [|cbn; lia].
        apply (PPath_Spec.seqs_more _ [bytes "<p>"]). { apply PPath_Spec.step_elt, PPath_Spec.elt_primary, PPath_Spec.primary_link, (PPath_Thm.iri_link [112]). PPath_Thm.graphics. }
        apply PPath_Spec.seqs_one, PPath_Spec.step_elt, (PPath_Spec.elt_star _ [bytes "<q>"]), PPath_Spec.primary_link, (PPath_Thm.iri_link [113]). PPath_Thm.graphics.
      * constructor.
      * eapply adds_cons; [apply ov_other; right; intros; discriminate|right; split; [intros [|? ?] ? E; discriminate|eexists; split; [right; split; [intros []|reflexivity]|reflexivity]]|apply adds_nil].
      * eapply me_optional.
        { eapply me_triples; try exact I.
          - split; [|cbn -[PPath_Spec.delim]; right; split; [unfold PPath_Spec.delim; cbn; lia|exact I]].
            apply PPath_Spec.path_one, PPath_Spec.seq_one, PPath_Spec.step_elt, PPath_Spec.elt_primary, PPath_Spec.primary_link.
            exists [[97]; [58]; [98]]. split; [congruence|]. split.
            + repeat (apply Forall_cons; [apply PPath_Spec.part_char; unfold PPath_Spec.graphic, PPath_Spec.delim; cbn [In]; lia|]). apply Forall_nil.
            + split; [reflexivity|]. intros c t E. injection E as <- _. unfold PPath_Spec.digit. lia.
          - exists [119], (64 :: [101; 110]). split; [reflexivity|]. split; [cbn; intuition discriminate|]. split; [intros [|? [|? ?]]; discriminate|].
            right; left. exists [101; 110]. split; [fa_tac|reflexivity].
          - constructor.
          - eapply adds_cons; [apply ov_other; left; cbn; intuition discriminate|right; split; [intros [|? ?] ? E; discriminate|eexists; split; [right; split; [intros []|reflexivity]|reflexivity]]|apply adds_nil].
          - apply me_done. }
        eapply me_filter; [split; [lia|cbn; tauto]|apply fa_other, fm_compare|apply me_done].
    + eapply ma_cons; [apply mo_group|]. eapply ma_cons; [apply mo_order; repeat constructor|]. eapply ma_cons; [apply mo_limit|apply ma_nil].
    + right. intros v [<-|[<-|[]]] _; [left; left; reflexivity|right; left; reflexivity].
    + intros a [<-|[]]. vm_compute. lia.
Qed.

(* ---- refutations for C65 ---- *)
Notation parsed s x := (parse (bytes s%string) = x).

(* One token after the end of a query is ignored, for example a second closing brace. *)
Theorem C65_trailing_refuted : exists x, parsed "SELECT ?x WHERE {?x <a> ?y}" (Ok x) /\ parsed "SELECT ?x WHERE {?x <a> ?y}}" (Ok x) /\
  parsed "SELECT ?x WHERE {?x <a> ?y} a:b" (Ok x).
Proof. eexists. split; [vm_compute; reflexivity|split; vm_compute; reflexivity]. Qed.

(* A filter with langMatches is rejected if its parentheses are right, and accepted if one is missing. *)
Theorem C65_langmatches_refuted : parsed "SELECT ?x WHERE {?x <a> ?y . FILTER(langMatches(lang(?y),""en""))}" ParseError /\
  exists x, parsed "SELECT ?x WHERE {?x <a> ?y . FILTER(langMatches(lang(?y),""en"")}" (Ok x).
Proof. split; [vm_compute; reflexivity|]. eexists. vm_compute. reflexivity. Qed.

(* The upper bound of the filter prefix(?y, "ab") is built from the variable: it is `c `, so every
   greater literal passes. *)
Theorem C65_prefix_refuted : exists h cs, parsed "SELECT ?x WHERE {?x <a> ?y . FILTER(prefix(?y,""ab""))}"
  (Ok (Query h (Pattern false 0 [Filter GE (bytes "?y") (bytes """ab ") [] [] false false; Filter LT (bytes "?y") (bytes "c ") [] [] false false] cs))).
Proof. eexists. eexists. vm_compute. reflexivity. Qed.

(* Queries of SPARQL that are rejected: the predicate `a`, three groups in a union, a number as an
   object, no dot before OPTIONAL, no WHERE, SELECT *, the other forms of queries, a group in a group, two
   conditions in a filter, an expression in BIND with constants. *)
Theorem C65_rejected_refuted :
  parsed "SELECT ?x WHERE {?x a <c>}" ParseError /\
  parsed "SELECT ?x WHERE {{?x <a> ?y} UNION {?x <b> ?y} UNION {?x <c> ?y}}" ParseError /\
  parsed "SELECT ?x WHERE {?x <a> 5}" ParseError /\
  parsed "SELECT ?x WHERE {?x <a> ?y OPTIONAL {?x <b> ?z}}" ParseError /\
  parsed "SELECT ?x {?x <a> ?y}" ParseError /\
  parsed "SELECT * WHERE {?x <a> ?y}" ParseError /\
  parsed "ASK {?x <a> ?y}" ParseError /\
  parsed "SELECT ?x WHERE {{?x <a> ?y}}" ParseError /\
  parsed "SELECT ?x WHERE {?x <a> ?y . FILTER(?x > 1 && ?y > 3)}" ParseError /\
  parsed "SELECT ?x WHERE {?x <a> ?y . FILTER(?x > 1 || ?y > 3)}" ParseError /\
  parsed "SELECT ?x WHERE {?x <a> ?y . BIND(?x + 1 AS ?z)}" ParseError.
Proof. repeat match goal with |- _ /\ _ => split end; vm_compute; reflexivity. Qed.

(* A decimal number as an object leads to a read past the end of an array. *)
Theorem C65_decimal_refuted : parsed "SELECT ?x WHERE {?x <a> 1.5}" Undefined.
Proof. vm_compute. reflexivity. Qed.

(* Negative numbers are accepted for LIMIT and OFFSET. *)
Theorem C65_limit_refuted : exists h g, parsed "SELECT ?x WHERE {?x <a> ?y} LIMIT -5 OFFSET -1" (Ok (Query h g)) /\
  limit h = bytes "-5" /\ offset h = bytes "-1".
Proof. eexists. eexists. split; [vm_compute; reflexivity|split; reflexivity]. Qed.

(* ---- C66 ---- *)

(* C66: an expression becomes a test for a prefix with the characters that it stands for if it is `^` and
   characters, some of them escaped; any other expression is kept. Missing: braces, and other escape
   sequences (see below). *)
Theorem C66_regex_partial e i ty s : regex_means e i ty s -> regex_or_prefix e i = Ok (ty, s).
Proof. apply regex_ok. Qed.
Example C66_regex_example : regex_means (bytes "^a\.b\\c") false PREFIX (bytes "^a.b\c") /\
  regex_means (bytes "^a\.b.*") false REGEX (bytes "^a\.b.*").
Proof.
  Ltac plain_char := apply lre_char; [discriminate|discriminate|intros Z; vm_compute in Z; intuition discriminate|].
  Ltac escaped_char := apply lre_escape; [first [left; reflexivity|right; vm_compute; tauto]|].
  split.
  - apply (rm_prefix (bytes "a\.b\\c") (bytes "a.b\c")). plain_char. escaped_char. plain_char. escaped_char. plain_char. apply lre_nil.
  - apply (rm_operator (bytes "a\.b") (bytes "a.b") 46 [42]); [plain_char; escaped_char; plain_char; apply lre_nil|vm_compute; tauto].
Qed.

Lemma scan_means n : forall d i ps b qs, (length d <= n)%nat -> ~ In 123 d -> scan_regex i false ps d = Ok (b, qs) ->
  (b = true -> exists a s, literal_regex a s /\ (d = a \/ d = a ++ [92])) /\
  (b = false -> exists a s c r, literal_regex a s /\ operator c /\ d = a ++ c :: r).
Proof.
  induction n as [|n IH]; intros d i ps b qs L I E.
  { destruct d; [|cbn in L; lia]. cbn in E. injection E as <- _. split; [|discriminate]. intros _. exists [], []. split; [constructor|auto]. }
  destruct d as [|c d]; [cbn in E; injection E as <- _; split; [|discriminate]; intros _; exists [], []; split; [constructor|auto]|].
  cbn [scan_regex] in E. destruct (c =? 92) eqn:C.
  - assert (c = 92) by lia. subst c. cbn [negb] in E. destruct d as [|c d].
    { cbn in E. injection E as <- _. split; [|discriminate]. intros _. exists [], []. split; [constructor|auto]. }
    cbn [scan_regex negb] in E. assert (O : (c = 92 \/ operator c) /\ exists i' ps', scan_regex i' false ps' d = Ok (b, qs)).
    { destruct (c =? 92) eqn:C2; [split; [left; lia|eauto]|]. cbn [negb andb] in E. destruct (regex_control c) eqn:R; [|discriminate]. cbn [negb] in E.
      split; [right; apply control_ok; exact R|eauto]. }
    destruct O as (O & i' & ps' & E'). destruct (IH d i' ps' b qs) as [H1 H2]; [cbn in L; lia|intros J; apply I; right; right; exact J|exact E'|]. split.
    + intros Hb. destruct (H1 Hb) as (a & s & La & D). exists (92 :: c :: a), (c :: s). split; [apply lre_escape; auto|]. destruct D as [-> | ->]; auto.
    + intros Hb. destruct (H2 Hb) as (a & s & x & r & La & Ox & ->). exists (92 :: c :: a), (c :: s), x, r. split; [apply lre_escape; auto|]. split; auto.
  - cbn [negb andb] in E. destruct (regex_control c) eqn:R.
    { injection E as <- _. split; [discriminate|]. intros _. exists [], [], c, d. split; [constructor|]. split; [apply control_ok; exact R|reflexivity]. }
    destruct (IH d (S i) ps b qs) as [H1 H2]; [cbn in L; lia|intros J; apply I; right; exact J|exact E|].
    assert (Oc : forall a s, literal_regex a s -> literal_regex (c :: a) (c :: s)).
    { intros a s La. apply lre_char; auto; [lia|intros ->; apply I; left; reflexivity|]. intros O. apply control_ok in O. congruence. }
    split.
    + intros Hb. destruct (H1 Hb) as (a & s & La & D). exists (c :: a), (c :: s). split; auto. destruct D as [-> | ->]; auto.
    + intros Hb. destruct (H2 Hb) as (a & s & x & r & La & Ox & ->). exists (c :: a), (c :: s), x, r. auto.
Qed.
(* C66: the converse: only such expressions become a test for a prefix. Excluded are braces and a
   backslash at the end. *)
Theorem C66_only_partial e i ty s : regex_or_prefix e i = Ok (ty, s) -> ~ In 123 e ->
  (forall a t, literal_regex a t -> e <> 94 :: a ++ [92]) -> regex_means e i ty s.
Proof.
  intros H I B. destruct i.
  { unfold regex_or_prefix in H. rewrite andb_false_r in H. injection H as <- <-. apply rm_inside. auto. }
  destruct e as [|c e]; [injection H as <- <-; apply rm_inside; left; discriminate|].
  destruct (c =? 94) eqn:C.
  2: { unfold regex_or_prefix, at_ in H. cbn [nth] in H. rewrite C in H. injection H as <- <-. apply rm_inside. left. intros r E. injection E as -> _. discriminate. }
  assert (c = 94) by lia. subst c. assert (M : exists ty s, regex_means (94 :: e) false ty s).
  { unfold regex_or_prefix in H. change ((at_ (94 :: e) 0 =? 94) && negb false) with true in H. cbn match in H. cbn [skipn] in H.
    destruct (scan_regex 1 false [] e) as [[b qs]| | | |] eqn:S1; try discriminate H.
    destruct (scan_means (length e) e 1 [] b qs) as [H1 H2]; [lia|intros J; apply I; right; exact J|exact S1|]. destruct b.
    - destruct (H1 eq_refl) as (a & t & La & [-> | ->]); [eexists; eexists; apply rm_prefix; exact La|]. exfalso. apply (B a t La). reflexivity.
    - destruct (H2 eq_refl) as (a & t & x & r & La & Ox & ->). eexists. eexists. eapply rm_operator; eauto. }
  destruct M as (ty' & s' & M). pose proof (regex_ok _ _ _ _ M) as E. rewrite E in H. injection H as <- <-. exact M.
Qed.
Example C66_only_example : regex_or_prefix (bytes "^a\.b\\") false = Ok (PREFIX, bytes "^a.b\") /\ ~ In 123 (bytes "^a\.b\\") /\
  forall a t, literal_regex a t -> bytes "^a\.b\\" <> 94 :: a ++ [92].
Proof.
  split; [reflexivity|]. split; [vm_compute; intuition discriminate|]. intros a t H E.
  assert (E' : a = bytes "a\.b\"). { apply (app_inj_tail a (bytes "a\.b\") 92 92). injection E as <-. reflexivity. }
  clear E. vm_compute in E'. subst a.
  repeat match goal with K : literal_regex (_ :: _) _ |- _ => inversion K; clear K; subst; try contradiction end.
Qed.

(* The expression `^a{2}` becomes a test for the prefix `a{2}`, since braces are not among the operators
   that the code knows. *)
Theorem C66_braces_refuted : regex_or_prefix (bytes "^a{2}") false = Ok (PREFIX, bytes "^a{2}").
Proof. reflexivity. Qed.

(* An expression with another escape sequence in its beginning, for example `^\d`, is rejected. *)
Theorem C66_escape_refuted a s c b : literal_regex a s -> c <> 92 -> ~ operator c -> regex_or_prefix (94 :: a ++ 92 :: c :: b) false = ParseError.
Proof.
  intros H C O. unfold regex_or_prefix. change ((at_ (94 :: a ++ 92 :: c :: b) 0 =? 94) && negb false) with true. cbn match. cbn [skipn].
  destruct (scan_literal a s H 1) as (qs & S1 & _). rewrite S1. cbn [scan_regex app]. change (92 =? 92) with true. cbn match.
  replace (c =? 92) with false by lia. destruct (regex_control c) eqn:R; [apply control_ok in R; contradiction|]. reflexivity.
Qed.

(* ---- C67 ---- *)

(* C67: a literal in a pattern is kept as it is. Missing: quotes in it, a backslash at its end, and tags
   with a hyphen (see below). *)
Theorem C67_literal_partial v : plain v -> parseLiteral v = Ok v.
Proof. apply parse_plain. Qed.
Example C67_literal_example : plain (bytes """a\b 'c'""@en") /\ plain (bytes """1""^^<x:int>").
Proof.
  split.
  - exists (bytes "a\b 'c'"), (64 :: [101; 110]). split; [reflexivity|]. split; [vm_compute; intuition discriminate|]. split.
    + intros s' E. assert (K := f_equal (fun l => List.last l 0) E). cbv beta in K. rewrite last_last in K. discriminate.
    + right; left. exists [101; 110]. split; [fa_tac|reflexivity].
  - exists [49], (94 :: 94 :: bytes "<x:int>"). split; [reflexivity|]. split; [vm_compute; intuition discriminate|]. split.
    + intros s' E. assert (K := f_equal (fun l => List.last l 0) E). cbv beta in K. rewrite last_last in K. discriminate.
    + right; right. exists [60; 120; 58; 105; 110; 116; 62]. split; [|reflexivity]. repeat (apply Forall_cons; [split; [unfold is_space; lia|discriminate]|]). apply Forall_nil.
Qed.

(* A literal with a quote in it is rejected (unless a tag, a type or white space follows the quote). *)
Theorem C67_quote_refuted s c t : ~ In 34 s -> (forall s', s <> s' ++ [92]) -> ~ is_space c -> c <> 64 -> c <> 94 ->
  parseLiteral (34 :: s ++ 34 :: c :: t) = ParseError.
Proof.
  intros I B Sp C1 C2. unfold parseLiteral, skip_spaces. cbn [take_while]. change (isspace 34) with false. cbn [snd].
  change ((34 =? 34) || (34 =? 39)) with true. cbn match. rewrite content_ok by auto. cbn [tl]. replace (c =? 64) with false by lia.
  assert (Hs : isspace c = false). { pose proof (not_space c Sp) as K. destruct (isspace c); [discriminate|reflexivity]. }
  destruct t as [|b t]; [cbn [take_while snd]; rewrite Hs; reflexivity|]. replace (c =? 94) with false by lia. cbn [andb take_while snd]. rewrite Hs. reflexivity.
Qed.
Example C67_quote_example : parsed "SELECT ?x WHERE {?x <a> ""say \""hi\""""}" ParseError.
Proof. vm_compute. reflexivity. Qed.

Lemma content_backslash s : ~ In 34 s -> ~ In 92 s -> literal_content 34 false (s ++ [92; 34]) = (s ++ [34], []).
Proof.
  induction s as [|c s IH]; intros I J; [reflexivity|]. cbn [app literal_content negb andb].
  destruct (c =? 34) eqn:E; [exfalso; apply I; left; lia|]. destruct (c =? 92) eqn:F; [exfalso; apply J; left; lia|]. cbn [andb].
  rewrite IH; [reflexivity|intros K; apply I; now right|intros K; apply J; now right].
Qed.
(* A literal that ends with a backslash gets a quote instead. *)
Theorem C67_backslash_refuted s : ~ In 34 s -> ~ In 92 s -> parseLiteral (quoted (s ++ [92])) = Ok (quoted (s ++ [34])).
Proof.
  intros I J. unfold parseLiteral, quoted, skip_spaces. cbn [app take_while]. change (isspace 34) with false. cbn [snd].
  change ((34 =? 34) || (34 =? 39)) with true. cbn match. rewrite <- app_assoc. cbn [app]. rewrite content_backslash by auto. reflexivity.
Qed.
Example C67_backslash_example : exists h t, parsed "SELECT ?x WHERE {?x <a> ""b\\""}" (Ok (Query h (Pattern false 0 [] [Basic [t]]))) /\
  t_o t = bytes """b""""".
Proof. eexists. eexists. split; [vm_compute; reflexivity|reflexivity]. Qed.

(* A literal with a hyphen in its language tag is rejected. *)
Theorem C67_tag_refuted s l t : ~ In 34 s -> (forall s', s <> s' ++ [92]) -> Forall is_letter l -> parseLiteral (quoted s ++ 64 :: l ++ 45 :: t) = ParseError.
Proof.
  intros I B F. unfold parseLiteral, quoted, skip_spaces. rewrite <- !app_assoc. cbn [app take_while]. change (isspace 34) with false. cbn [snd].
  change ((34 =? 34) || (34 =? 39)) with true. cbn match. rewrite content_ok by auto. cbn [tl]. change (64 =? 64) with true. cbn match.
  rewrite take_until; [|eapply Forall_impl; [|exact F]; intros a H; apply Turtle_Proof.letter_ok; exact H|reflexivity].
  destruct t as [|b t]; reflexivity.
Qed.
Example C67_tag_example : parsed "SELECT ?x WHERE {?x <a> ""b""@en-us}" ParseError.
Proof. vm_compute. reflexivity. Qed.

Print Assumptions C65_parses_partial.
Print Assumptions C65_terminates.
Print Assumptions C65_trailing_refuted.
Print Assumptions C65_langmatches_refuted.
Print Assumptions C65_prefix_refuted.
Print Assumptions C65_rejected_refuted.
Print Assumptions C65_decimal_refuted.
Print Assumptions C65_limit_refuted.
Print Assumptions C66_regex_partial.
Print Assumptions C66_only_partial.
Print Assumptions C66_braces_refuted.
Print Assumptions C66_escape_refuted.
Print Assumptions C67_literal_partial.
Print Assumptions C67_quote_refuted.
Print Assumptions C67_backslash_refuted.
Print Assumptions C67_tag_refuted.
