(* Proofs about the Turtle parser: it ends for every input. *)
From Coq Require Import Ascii String List NArith Arith Bool Lia ZifyBool ZifyN ZifyNat.
From Verif Require Import Strings_Model Strings_Spec Turtle_Model Turtle_Spec Turtle_Proof Turtle_Proof2 Turtle_Proof3 Turtle_Proof4 Turtle_Proof5 Turtle_Proof6 Turtle_Proof7.
From Verif Require Strings_Proof.
Import ListNotations.
Open Scope N_scope.
Open Scope list_scope.

(* the outcome never has more data; true means that at least k characters were read *)
Definition size (s : parser) : nat := length (data s).
Definition fine (k n : nat) (o : out) : Prop :=
  match o with
  | Yes s => (size s + k <= n)%nat
  | No s | Raised s => (size s <= n)%nat
  | Fatal => True
  | NoFuel => False
  end.
Lemma fine_le k n n' o : (n <= n')%nat -> fine k n o -> fine k n' o.
Proof. destruct o; cbn [fine]; auto; lia. Qed.
Lemma fine_0 k n o : fine k n o -> fine 0 n o.
Proof. destruct o; cbn [fine]; auto; lia. Qed.
Lemma fine_and k j n o f : fine k n o -> (forall s, (size s + k <= n)%nat -> fine j (n - k) (f s)) -> fine j n (and_ o f).
Proof.
  destruct o as [s| | | |]; cbn [and_]; auto. intros H K. cbn [fine] in H. specialize (K s H). eapply fine_le; [|exact K]. lia.
Qed.
Lemma fine_or k n o f : fine k n o -> (forall s, (size s <= n)%nat -> fine k n (f s)) -> fine k n (or_ o f).
Proof. destruct o as [|s| | |]; cbn [or_]; auto. Qed.
Lemma fine_check k n o : fine k n o -> fine k n (check o).
Proof. destruct o; cbn [fine check]; auto. Qed.
Lemma size_sk d : (length (sk d) <= length d)%nat.
Proof.
  assert (A : forall d, (length (skipWhitespace d) <= length d)%nat).
  { induction d0 as [|c d0 IH]; cbn [skipWhitespace]; auto. destruct (blank c); cbn [length]; lia. }
  assert (B : forall d, (length (skipComments d) <= length d)%nat).
  { intros d0. unfold skipComments. destruct d0 as [|c d0]; auto.
    assert (K : (length match find_char (N.eqb 10) (c :: d0) with Some p => skipn (p + 1) (c :: d0) | None => c :: d0 end <= length (c :: d0))%nat).
    { destruct (find_char _ _); auto. rewrite skipn_length. lia. }
    destruct (N.eq_dec c 35) as [->|E]; [exact K|]. not_lit c. }
  unfold sk. eapply Nat.le_trans; [apply A|]. eapply Nat.le_trans; [apply B|]. apply A.
Qed.
Definition solid_tok (t : tok) : Prop := forall d n, regex t d = Some n -> (0 < n)%nat.
Lemma word_solid w d n : w <> [] -> word w d = Some n -> (0 < n)%nat.
Proof. intros W. unfold word. destruct (startsWith d w); [|discriminate]. intros E. injection E as <-. destruct w; [contradiction | cbn; lia]. Qed.
Lemma solid_words t : In t [TurtlePrefix; SparqlPrefix; TurtleBase; SparqlBase; Dot; Comma; Semicolon; OpenSquared; CloseSquared; OpenRound; A] ->
  solid_tok t.
Proof.
  intros I d n. cbn [In] in I. repeat (destruct I as [<-|I]; [apply word_solid; discriminate|]). destruct I.
Qed.
Lemma solid_iriref : solid_tok Iriref.
Proof.
  intros d n. cbn [regex]. unfold iriref_re. destruct d as [|c d]; [discriminate|].
  destruct (N.eq_dec c 60) as [->|Nc].
  - cbv zeta. rewrite match_62. destruct (heads 62 _); [|discriminate]. intros E. injection E as <-. lia.
  - replace (match c with 60 => _ | _ => _ end) with (@None nat); [discriminate|]. not_lit c.
Qed.
Lemma solid_pname : solid_tok PnameNS.
Proof.
  intros d n. cbn [regex]. unfold pname_ns_re. destruct (one pn_base d) as [k|]; [|discriminate]. cbv zeta.
  rewrite match_58. destruct (heads 58 _); [|discriminate]. intros E. injection E as <-. lia.
Qed.
Lemma fine_next t s : fine 0 (size s) (next t s).
Proof. unfold next. destruct (regex t (data s)) as [n|]; cbn [fine]; unfold size, set_last, set_data; cbn [data]; rewrite ?skipn_length; lia. Qed.
Lemma next_solid t s : solid_tok t -> fine 1 (size s) (next t s).
Proof.
  intros S. unfold next. destruct (regex t (data s)) as [n|] eqn:R; cbn [fine]; auto. specialize (S _ _ R).
  unfold size. cbn [data set_last set_data]. rewrite skipn_length. destruct (data s) as [|c d]; [now rewrite regex_nil in R | cbn [length]; lia].
Qed.
Lemma size_ws s : (size (skip_ws s) <= size s)%nat.
Proof. unfold size, skip_ws, set_data. cbn [data]. apply size_sk. Qed.
Lemma fine_terminal t s : fine 0 (size s) (parseTerminal t s).
Proof. unfold parseTerminal. eapply fine_le; [apply size_ws | apply fine_next]. Qed.
Lemma terminal_solid t s : solid_tok t -> fine 1 (size s) (parseTerminal t s).
Proof. intros S. unfold parseTerminal. eapply fine_le; [apply size_ws | now apply next_solid]. Qed.
Lemma skip_fine t s : fine 0 (size s) (skip t s).
Proof.
  unfold skip. assert (W := size_ws s). destruct (regex t (data (skip_ws s))) as [n|]; cbn [fine]; auto.
  unfold size in *. cbn [data set_data] in *. rewrite skipn_length. lia.
Qed.
Lemma skip_solid t s : solid_tok t -> fine 1 (size s) (skip t s).
Proof.
  intros S. unfold skip. assert (W := size_ws s). destruct (regex t (data (skip_ws s))) as [n|] eqn:R; cbn [fine]; auto.
  specialize (S _ _ R). unfold size in *. cbn [data set_data] in *. rewrite skipn_length.
  destruct (data (skip_ws s)) as [|c d]; [now rewrite regex_nil in R | cbn [length] in *; lia].
Qed.
Ltac tokens := apply solid_words; cbn [In]; tauto.
Lemma iriref_fine s : fine 1 (size s) (iriref s).
Proof.
  unfold iriref. assert (H := terminal_solid Iriref s solid_iriref). destruct (parseTerminal _ _) as [s'| | | |]; cbn [and_]; auto.
  unfold escaping. destruct (unescapeIriref _); cbn [fine]; auto.
Qed.
Lemma pname_fine s : fine 1 (size s) (pnameNS s).
Proof.
  unfold pnameNS. assert (H := terminal_solid PnameNS s solid_pname). destruct (parseTerminal _ _) as [s'| | | |]; cbn [and_]; auto.
Qed.
Lemma prefixedName_fine s : fine 1 (size s) (prefixedName s).
Proof.
  unfold prefixedName. assert (H := pname_fine s). destruct (pnameNS s) as [s'| | | |]; cbn [and_]; auto. cbn [fine] in H.
  assert (K := fine_next PnLocal s'). cbv zeta.
  assert (Q : (size (match next PnLocal s' with Yes s'' => s'' | _ => s' end) + 1 <= size s)%nat).
  { destruct (next PnLocal s'); cbn [fine] in K; lia. }
  destruct (find_prefix _ _); cbn [fine]; [|lia]. unfold escaping. destruct (unescapePrefixedIri _); cbn [fine]; auto.
Qed.
Lemma iri_fine s : fine 1 (size s) (iri s).
Proof. unfold iri. apply fine_or; [apply iriref_fine|]. intros s' H. eapply fine_le; [exact H | apply prefixedName_fine]. Qed.
Lemma anon_fine s : fine 0 (size s) (anon s).
Proof. unfold anon. assert (H := fine_terminal Anon s). destruct (parseTerminal _ _); cbn [and_]; auto. Qed.
Lemma blankNode_fine s : fine 0 (size s) (blankNode s).
Proof. unfold blankNode. apply fine_or; [apply fine_terminal|]. intros s' H. eapply fine_le; [exact H | apply anon_fine]. Qed.
Lemma collection_fine s : fine 0 (size s) (collection s).
Proof. unfold collection. assert (H := skip_fine OpenRound s). destruct (skip _ _); cbn [fine] in *; auto. lia. Qed.
Lemma string_fine s : fine 0 (size s) (stringParse s).
Proof.
  unfold stringParse. destruct (opening quotes4 (data s)) as [q|]; cbn [fine]; auto.
  destruct (loop_from q (data s) (length q) (S (S (length (data s)))) (length q)) as (r & -> & _); try lia.
  destruct r as [p|]; cbn [fine]; auto. unfold size. cbn [data set_last set_data]. rewrite skipn_length. lia.
Qed.
Lemma rdfLiteral_fine s : fine 0 (size s) (rdfLiteral s).
Proof.
  unfold rdfLiteral. assert (H := string_fine s). destruct (stringParse s) as [s1| | | |]; cbn [and_]; auto. cbn [fine] in H.
  unfold escaping. destruct (normalizeRDFLiteral _) as [lit| | | |]; cbn [fine]; auto. cbv zeta.
  assert (K := fine_terminal Langtag (set_last lit s1)). change (size (set_last lit s1)) with (size s1) in K.
  destruct (parseTerminal _ _) as [s2|s2|s2| |]; cbn [fine] in *; auto; try lia.
  - unfold size, set_last in *; cbn [data] in *; lia.
  - assert (L := skip_fine DoubleCircumflex s2). destruct (skip _ _) as [s3|s3|s3| |]; cbn [fine] in *; auto; try lia.
    assert (M := iri_fine s3). destruct (iri s3) as [s4|s4|s4| |]; cbn [check and_ fine] in *; auto; try lia.
    unfold size, set_last in *; cbn [data] in *; lia.
Qed.
Lemma numeric_fine s : fine 0 (size s) (numericLiteral s).
Proof.
  unfold numericLiteral. apply fine_or; [apply fine_terminal|]. intros s1 H1. apply fine_or; [eapply fine_le; [|apply fine_terminal]; lia|].
  intros s2 H2. eapply fine_le; [|apply fine_terminal]. lia.
Qed.
Lemma boolean_fine s : fine 0 (size s) (booleanLiteral s).
Proof. unfold booleanLiteral. apply fine_or; [apply fine_terminal|]. intros s1 H1. eapply fine_le; [|apply fine_terminal]. lia. Qed.
Lemma literal_fine s : fine 0 (size s) (literal s).
Proof.
  unfold literal. apply fine_or; [apply rdfLiteral_fine|]. intros s1 H1. apply fine_or; [eapply fine_le; [|apply numeric_fine]; lia|].
  intros s2 H2. eapply fine_le; [|apply boolean_fine]. lia.
Qed.
Lemma verb_fine s : fine 1 (size s) (verb s).
Proof.
  unfold verb. apply fine_or.
  - unfold predicateSpecialA. assert (W := size_ws s). cbv zeta. destruct (regex A (data (skip_ws s))) as [n|] eqn:R; cbn [fine]; auto.
    assert (S1 : (0 < n)%nat) by (apply (solid_words A) in R; auto; cbn [In]; tauto).
    unfold size in *. cbn [data set_data set_predicate] in *. rewrite skipn_length.
    destruct (data (skip_ws s)) as [|c d]; [now rewrite regex_nil in R | cbn [length] in *; lia].
  - intros s1 H1. unfold predicate. assert (K := iri_fine s1). destruct (iri s1); cbn [and_ fine] in *; auto; try lia.
    unfold size, set_predicate in *; cbn [data] in *; lia.
Qed.
Lemma subject_fine s : fine 0 (size s) (subject s).
Proof.
  unfold subject. assert (H : fine 0 (size s) (or_ (blankNode s) (fun s => or_ (iri s) collection))).
  { apply fine_or; [apply blankNode_fine|]. intros s1 H1. apply fine_or; [eapply fine_le, fine_0, iri_fine; lia|].
    intros s2 H2. eapply fine_le, collection_fine. lia. }
  destruct (or_ _ _); cbn [and_]; auto.
Qed.

Lemma propertyList_fine list_ s : (forall s', (size s' < size s)%nat -> fine 0 (size s') (list_ s')) ->
  fine 1 (size s) (blankNodePropertyList list_ s).
Proof.
  intros H. unfold blankNodePropertyList. assert (K := skip_solid OpenSquared s ltac:(tokens)).
  destruct (skip _ _) as [s1| | | |]; cbn [and_]; auto. cbn [fine] in K. cbv zeta.
  set (s2 := set_subject _ _). assert (E : size s2 = size s1) by reflexivity.
  specialize (H s2 ltac:(lia)). destruct (list_ s2) as [s3|s3|s3| |]; cbn [check and_ fine] in *; auto; try lia.
  assert (L := skip_fine CloseSquared s3). destruct (skip _ _) as [s4|s4|s4| |]; cbn [check and_ fine] in *; auto; try lia.
  unfold size, set_predicate, set_subject in *; cbn [data] in *; lia.
Qed.
Lemma object_fine list_ s : (forall s', (size s' < size s)%nat -> fine 0 (size s') (list_ s')) -> fine 0 (size s) (object list_ s).
Proof.
  intros H. unfold object.
  assert (K : fine 0 (size s) (or_ (blankNode s) (fun s => or_ (literal s) iri))).
  { apply fine_or; [apply blankNode_fine|]. intros s1 H1. apply fine_or; [eapply fine_le, literal_fine; lia|].
    intros s2 H2. eapply fine_le, fine_0, iri_fine. lia. }
  destruct (or_ _ _) as [s1|s1|s1| |]; auto. cbn [fine] in K.
  assert (L := collection_fine s1). destruct (collection s1) as [s2|s2|s2| |]; cbn [or_ fine] in *; auto; try lia.
  eapply fine_le; [|apply (fine_0 1), propertyList_fine; intros; apply H; lia]. lia.
Qed.
Lemma moreObjects_fine ob n : (forall s, (size s <= n)%nat -> fine 0 (size s) (ob s)) -> forall k s, (size s < k)%nat -> (size s <= n)%nat ->
  fine 0 (size s) (moreObjects k ob s).
Proof.
  intros H. induction k as [|k IH]; intros s L M; [lia|]. cbn [moreObjects].
  assert (K := skip_solid Comma s ltac:(tokens)). destruct (skip _ _) as [s1|s1|s1| |]; cbn [fine] in K |- *; auto; try lia.
  specialize (H s1 ltac:(lia)). destruct (ob s1) as [s2|s2|s2| |]; cbn [check and_ fine] in *; auto; try lia.
  eapply fine_le; [|apply IH; lia]. lia.
Qed.
Lemma moreVerbs_fine it n : (forall s, (size s <= n)%nat -> fine 0 (size s) (it s)) -> forall k s, (size s < k)%nat -> (size s <= n)%nat ->
  fine 0 (size s) (moreVerbs k it s).
Proof.
  intros H. induction k as [|k IH]; intros s L M; [lia|]. cbn [moreVerbs].
  assert (K := skip_solid Semicolon s ltac:(tokens)). destruct (skip _ _) as [s1|s1|s1| |]; cbn [fine] in K |- *; auto; try lia.
  specialize (H s1 ltac:(lia)). destruct (it s1) as [s2|s2|s2| |]; cbn [fine] in *; auto; try lia; (eapply fine_le; [|apply IH; lia]; lia).
Qed.
Lemma item_fine f ob s : (forall s', (size s' < size s)%nat -> fine 0 (size s') (ob s')) -> (size s <= f)%nat ->
  fine 1 (size s) (verbAndObjects f ob s).
Proof.
  intros H L. unfold verbAndObjects, objectList. assert (K := verb_fine s). destruct (verb s) as [s1| | | |]; cbn [and_]; auto. cbn [fine] in K.
  apply fine_check. assert (O := H s1 ltac:(lia)). destruct (ob s1) as [s2|s2|s2| |]; cbn [and_ fine] in *; auto; try lia.
  assert (M := moreObjects_fine ob (size s - 1) ltac:(intros; apply H; lia) f s2 ltac:(lia) ltac:(lia)).
  destruct (moreObjects _ _ _); cbn [fine] in *; auto; lia.
Qed.
Lemma list_fine f : forall s, (size s < f)%nat -> fine 1 (size s) (predicateObjectList f s).
Proof.
  induction f as [|f IH]; intros s L; [lia|]. cbn [predicateObjectList].
  assert (O : forall s', (size s' <= f)%nat -> fine 0 (size s') (object (predicateObjectList f) s')).
  { intros s' H. apply object_fine. intros s2 H2. apply (fine_0 1), IH. lia. }
  assert (It : forall s', (size s' <= f)%nat -> fine 1 (size s') (verbAndObjects f (object (predicateObjectList f)) s')).
  { intros s' H. apply item_fine; auto. intros s2 H2. apply O. lia. }
  assert (K := It s ltac:(lia)). destruct (verbAndObjects _ _ s) as [s1|s1|s1| |]; cbn [and_ fine] in *; auto; try lia.
  assert (M := moreVerbs_fine (verbAndObjects f (object (predicateObjectList f))) f ltac:(intros; apply (fine_0 1), It; lia) f s1 ltac:(lia) ltac:(lia)).
  destruct (moreVerbs _ _ _); cbn [fine] in *; auto; lia.
Qed.
Lemma triples_fine f s : (size s < f)%nat -> fine 0 (size s) (triples_ f s).
Proof.
  intros L. unfold triples_. assert (H := subject_fine s). destruct (subject s) as [s1|s1|s1| |]; cbn [fine] in *; auto.
  - apply fine_check. eapply fine_le; [|apply (fine_0 1), list_fine; lia]. lia.
  - assert (K := propertyList_fine (predicateObjectList f) s1 ltac:(intros; apply (fine_0 1), list_fine; lia)).
    destruct (blankNodePropertyList _ _) as [s2|s2|s2| |]; cbn [fine] in *; auto; try lia.
    assert (M := list_fine f s2 ltac:(lia)). destruct (predicateObjectList f s2) as [s3|s3|s3| |]; cbn [fine] in *; auto; lia.
Qed.
Lemma prefixID_fine s : fine 1 (size s) (prefixID s).
Proof.
  unfold prefixID. assert (K := skip_solid TurtlePrefix s ltac:(tokens)). destruct (skip _ s) as [s1|s1|s1| |]; cbn [and_]; auto. cbn [fine] in K.
  assert (K2 := pname_fine s1). destruct (pnameNS s1) as [s2|s2|s2| |]; cbn [and_ check fine] in *; auto; try lia.
  assert (K3 := iriref_fine s2). destruct (iriref s2) as [s3|s3|s3| |]; cbn [and_ check fine] in *; auto; try lia.
  assert (K4 := skip_fine Dot s3). destruct (skip Dot s3) as [s4|s4|s4| |]; cbn [and_ check fine] in *; auto; try lia.
  unfold size, set_prefixes in *; cbn [data] in *; lia.
Qed.
Lemma base_fine t s : In t [TurtleBase; SparqlBase] -> fine 1 (size s) (base_ t s).
Proof.
  intros I. unfold base_. assert (K := skip_solid t s ltac:(apply solid_words; cbn [In] in *; tauto)). destruct (skip _ s) as [s1|s1|s1| |]; cbn [and_]; auto. cbn [fine] in K.
  assert (K3 := iriref_fine s1). destruct (iriref s1) as [s3|s3|s3| |]; cbn [check fine] in *; auto; lia.
Qed.
Lemma sparqlPrefix_fine s : fine 1 (size s) (sparqlPrefix s).
Proof.
  unfold sparqlPrefix. assert (K := skip_solid SparqlPrefix s ltac:(tokens)). destruct (skip _ s) as [s1|s1|s1| |]; cbn [and_]; auto. cbn [fine] in K.
  assert (K2 := pname_fine s1). destruct (pnameNS s1) as [s2|s2|s2| |]; cbn [and_ check fine] in *; auto; try lia.
  assert (K3 := iriref_fine s2). destruct (iriref s2) as [s3|s3|s3| |]; cbn [and_ check fine] in *; auto; try lia.
  unfold size, set_prefixes in *; cbn [data] in *; lia.
Qed.
Lemma directive_fine s : fine 1 (size s) (directive s).
Proof.
  unfold directive. apply fine_or; [apply prefixID_fine|]. intros s1 H1. apply fine_or; [eapply fine_le, base_fine; [lia | cbn; tauto]|].
  intros s2 H2. apply fine_or; [eapply fine_le, sparqlPrefix_fine; lia|]. intros s3 H3. eapply fine_le, base_fine; [lia | cbn; tauto].
Qed.
Lemma statement_fine s : fine 1 (size s) (statement s).
Proof.
  unfold statement. cbv zeta. apply fine_or; [eapply fine_le; [apply size_ws | apply directive_fine]|].
  intros s1 H1. assert (K := triples_fine (S (length (data s))) s1 ltac:(unfold size in *; lia)).
  destruct (triples_ _ s1) as [s2|s2|s2| |]; cbn [and_ fine] in *; auto; try lia.
  eapply fine_le; [|apply skip_solid; tokens]. lia.
Qed.
Lemma turtleDoc_ends fuel : forall s, (size s < fuel)%nat -> turtleDoc fuel s <> NoFuel /\ forall s', turtleDoc fuel s <> Yes s'.
Proof.
  induction fuel as [|fuel IH]; intros s L; [lia|]. cbn [turtleDoc]. assert (H := statement_fine s).
  destruct (statement s) as [s1|s1|s1| |]; cbn [fine] in H; [apply IH; lia | split; [discriminate | discriminate]..| destruct H].
Qed.

(* the whole document *)
Lemma gap_nil g : gap g -> sk g = [].
Proof. intros G. rewrite <- (app_nil_r g). now apply sk_gap. Qed.
Lemma document_full dotted redeclared pm n l ts : document dotted redeclared pm n l ts -> forall s g fuel, gap g ->
  covers pm (prefixes s) -> data s = concat l ++ g -> blanks s = n -> (size s < fuel)%nat ->
  exists s', turtleDoc fuel s = No s' /\ data s' = [] /\ triples s' = triples s ++ ts.
Proof.
  induction 1 as [pm n|pm n t pm' n' ts l ts' H _ IH]; intros s g fuel G C D B L; (destruct fuel as [|fuel]; [lia|]); cbn [turtleDoc concat] in *.
  - exists (P (sk (data s)) (last s) (prefixes s) (aPrefix s) (aSubject s) (aPredicate s) (blanks s) (triples s)).
    rewrite (state_eta s) at 1. rewrite inert_statement.
    + split; [reflexivity|]. cbn [data triples app] in *. rewrite D. split; [now apply gap_nil | now rewrite app_nil_r].
    + apply quiet_inert. left. rewrite D. now apply gap_nil.
  - rewrite <- app_assoc in D.
    destruct (statement_full dotted redeclared pm n t pm' n' ts s (concat l ++ g) H C D B) as (s1 & R & D1 & B1 & T1 & C1).
    assert (F := statement_fine s). rewrite R in F |- *. cbn [fine] in F.
    destruct (IH s1 g fuel G C1 D1 B1 ltac:(lia)) as (s' & R' & D' & T'). exists s'. split; auto. split; auto.
    now rewrite T', T1, app_assoc.
Qed.
