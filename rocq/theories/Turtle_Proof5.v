(* Proofs about the Turtle parser: lists of predicates and objects, and statements. *)
From Coq Require Import Ascii String List NArith Arith Bool Lia ZifyBool ZifyN ZifyNat.
From Verif Require Import Strings_Model Strings_Spec Turtle_Model Turtle_Spec Turtle_Proof Turtle_Proof2 Turtle_Proof3 Turtle_Proof4.
From Verif Require Strings_Proof Strings_Proof3 Strings_Proof4 Strings_Thm.
Import ListNotations.
Open Scope N_scope.
Open Scope list_scope.

Scheme object_ind' := Induction for object_text Sort Prop
  with objects_ind' := Induction for objects_text Sort Prop
  with item_ind' := Induction for item_text Sort Prop
  with tail_ind' := Induction for tail_text Sort Prop
  with list_ind' := Induction for list_text Sort Prop.
Combined Scheme texts_ind from object_ind', objects_ind', item_ind', tail_ind', list_ind'.

(* ---- heads ---- *)
Definition good (t : text) : Prop := t <> [] /\ forall x, t <> [] -> head_ok (t ++ x).
Lemma good_cons c r : blank c = false -> c <> 35 -> good (c :: r).
Proof. intros A B. split; [discriminate|]. intros x _. split; auto. Qed.
Lemma good_app t r : good t -> good (t ++ r).
Proof.
  intros [A B]. split; [destruct t; [contradiction | discriminate]|]. intros x _. rewrite <- app_assoc. now apply B.
Qed.
Lemma good_sk t r : good t -> sk (t ++ r) = t ++ r.
Proof. intros [A B]. apply sk_head. now apply B. Qed.
Lemma good_gap g t r : gap g -> good t -> sk (g ++ t ++ r) = t ++ r.
Proof. intros G [A B]. apply sk_gap; auto. Qed.
Lemma good_iri dotted pm t v c : iri_text dotted pm t v c -> good t.
Proof.
  intros H. destruct (iri_head _ _ _ _ _ H) as (k & r & -> & K). destruct (iri_first_ok k r K). now apply good_cons.
Qed.
Lemma good_label dotted t : label dotted t -> good t.
Proof. intros H. destruct (label_head _ _ H) as (r & ->). apply good_cons; [reflexivity | lia]. Qed.
Lemma good_quoted t v : quoted t v -> good t.
Proof.
  intros H. destruct (quoted_head t v H) as (q & r & -> & I). cbn [In] in I. apply good_cons; [unfold blank|]; lia.
Qed.
Lemma good_number t : number_text t -> good t.
Proof.
  intros H. destruct (number_head t H) as (k & r & -> & K). apply good_cons; [unfold blank|]; classes; lia.
Qed.
Lemma good_term dotted pm t v c : term_text dotted pm t v c -> good t.
Proof.
  intros [t' v' c' H _ _ _|t' s H|t' s la H L|t' s i v' c' H Hi|t' H| | |t' H].
  - now apply good_iri in H.
  - now apply good_quoted in H.
  - apply good_app. now apply good_quoted in H.
  - apply good_app. now apply good_quoted in H.
  - now apply good_number.
  - apply good_cons; [reflexivity | discriminate].
  - apply good_cons; [reflexivity | discriminate].
  - now apply good_label in H.
Qed.
Lemma good_verb dotted pm t v c : verb_text dotted pm t v c -> good t.
Proof. intros [|t' v' c' H _]; [apply good_cons; [reflexivity | lia] | now apply good_iri in H]. Qed.
Lemma good_object dotted pm s p n t c n' ts : object_text dotted pm s p n t c n' ts -> good t.
Proof.
  intros [? ? ? ? ? ? H|? ? ? w H|? ? ? g1 u ? ? ? g2 G1 H G2].
  - now apply good_term in H.
  - apply good_cons; [reflexivity | lia].
  - apply good_cons; [reflexivity | lia].
Qed.
Lemma good_objects dotted pm s p n t c n' ts : objects_text dotted pm s p n t c n' ts -> good t.
Proof.
  intros [? ? ? ? ? ? ? H|? ? ? ? ? ? ? ? ? ? ? ? ? H _ _ _].
  - now apply good_object in H.
  - apply good_app. now apply good_object in H.
Qed.
Lemma good_item dotted pm s n t c n' ts : item_text dotted pm s n t c n' ts -> good t.
Proof. intros [? ? ? ? ? ? ? ? ? ? H _ _ _]. apply good_app. now apply good_verb in H. Qed.
Lemma good_list dotted pm s n t c n' ts : list_text dotted pm s n t c n' ts -> good t.
Proof. intros [? ? ? ? ? ? ? ? ? ? H _]. apply good_app. now apply good_item in H. Qed.

Lemma list_head_ok dotted pm s n t c n' ts : list_text dotted pm s n t c n' ts -> begins_with iri_first t.
Proof.
  intros [? ? ? ? ? ? ? ? ? ? H _]. destruct H as [? ? v ? ? ? ? ? ? ? H _ _ _]. destruct H as [|t' v' c' H _].
  - do 2 eexists. split; [reflexivity|]. right; left. classes. lia.
  - destruct (iri_head _ _ _ _ _ H) as (k & r & -> & K). do 2 eexists. split; [reflexivity | exact K].
Qed.

(* ---- verbs ---- *)
Lemma verb_full dotted pm v p c d r l m ap sb pr n ts : verb_text dotted pm v p c -> covers pm m -> sk d = v ++ r ->
  (c = false -> stop r) ->
  exists l' ap', verb (P d l m ap sb pr n ts) = Yes (P r l' m ap' sb p n ts).
Proof.
  intros H C E St. unfold verb, predicateSpecialA, skip_ws, set_data. cbn [data last prefixes aPrefix aSubject aPredicate blanks triples].
  destruct H as [|v p c H NA].
  - exists l, ap. rewrite E. change (regex A ([97] ++ r)) with (word [97] ([97] ++ r)). rewrite word_app. reflexivity.
  - destruct (iri_head _ _ _ _ _ H) as (k & e & Q & K).
    replace (regex A (sk d)) with (@None nat).
    2:{ symmetry. rewrite E, Q. cbn [app]. apply regex_first. cbn [first]. destruct (N.eqb_spec k 97) as [->|]; auto.
        exfalso. apply NA. exists e. exact Q. }
    cbn [or_]. unfold predicate.
    destruct (iri_full dotted pm v p c (sk d) r l m ap sb pr n ts) as (ap' & R); auto.
    { rewrite E. apply good_sk. now apply good_iri in H. }
    rewrite R. exists p, ap'. reflexivity.
Qed.
Lemma verb_no d l m ap sb pr n ts : sk (sk d) = sk d -> regex A (sk d) = None -> regex Iriref (sk d) = None ->
  regex PnameNS (sk d) = None -> verb (P d l m ap sb pr n ts) = No (P (sk d) l m ap sb pr n ts).
Proof.
  intros F R1 R2 R3. unfold verb, predicateSpecialA, skip_ws, set_data. cbn [data last prefixes aPrefix aSubject aPredicate blanks triples].
  rewrite R1. cbn [or_]. unfold predicate, iri, iriref. rewrite term_no by now rewrite F. cbn [and_ or_].
  unfold prefixedName, pnameNS. rewrite !F. rewrite term_no by now rewrite F. cbn [and_]. now rewrite F.
Qed.
Lemma app_le {A} (x y : list A) k : (length (x ++ y) <= k)%nat -> (length x + length y <= k)%nat.
Proof. now rewrite app_length. Qed.

Lemma and_check x k y : and_ x k = Yes y -> and_ (check x) k = Yes y.
Proof. destruct x; cbn [check and_]; auto; discriminate. Qed.

Section Full.
  Variable dotted : Prop.
  Variable pm : prefix_map.
  Variable m : list (text * text).
  Hypothesis C : covers pm m.

  Definition obj f := object (predicateObjectList f).
  Definition full_object s p n t (c : bool) n' ts := forall f d r l ap ts0,
    (length t <= f)%nat -> sk d = t ++ r -> ends punctuation c r ->
    exists l' ap' r', (r' = r \/ r' = sk r) /\
      obj f (P d l m ap s p n ts0) = Yes (P r' l' m ap' s p n' (ts0 ++ ts)).
  Definition full_objects s p n t (c : bool) n' ts := forall f k d r l ap ts0,
    (length t <= f)%nat -> (length t <= k)%nat -> sk d = t ++ r -> ends [59; 46; 93] c r ->
    exists l' ap', and_ (obj f (P d l m ap s p n ts0)) (moreObjects k (obj f)) =
      Yes (P (sk r) l' m ap' s p n' (ts0 ++ ts)).
  Definition full_item s n t (c : bool) n' ts := forall f d r l ap p ts0,
    (length t <= f)%nat -> sk d = t ++ r -> ends [59; 46; 93] c r ->
    exists l' ap' p', verbAndObjects f (obj f) (P d l m ap s p n ts0) = Yes (P (sk r) l' m ap' s p' n' (ts0 ++ ts)).
  Definition full_tail s (c0 : bool) n t (c : bool) n' ts := forall f k d r l ap p ts0,
    (length t <= f)%nat -> (length t < k)%nat -> sk d = sk (t ++ r) -> ends [46; 93] c r ->
    exists l' ap' p', moreVerbs k (verbAndObjects f (obj f)) (P d l m ap s p n ts0) =
      Yes (P (sk r) l' m ap' s p' n' (ts0 ++ ts)).
  Definition full_list s n t (c : bool) n' ts := forall f d r l ap p ts0,
    (length t < f)%nat -> sk d = t ++ r -> ends [46; 93] c r ->
    exists l' ap' p', predicateObjectList f (P d l m ap s p n ts0) = Yes (P (sk r) l' m ap' s p' n' (ts0 ++ ts)).

  Lemma incl_1 : incl [59; 46; 93] punctuation.
  Proof. intros x. unfold punctuation. cbn [In]. tauto. Qed.
  Lemma incl_2 : incl [46; 93] punctuation.
  Proof. intros x. unfold punctuation. cbn [In]. tauto. Qed.
  Lemma incl_3 : incl [46; 93] [59; 46; 93].
  Proof. intros x. cbn [In]. tauto. Qed.
  Lemma incl_0 : incl punctuation punctuation.
  Proof. intros x; auto. Qed.
  Lemma tail_ends s c n t c' n' ts r : tail_text dotted pm s c n t c' n' ts -> ends [46; 93] c' r -> ends [59; 46; 93] c (t ++ r).
  Proof.
    intros [? ? ?|? ? ? g u ? ? ? G _|? ? ? g1 g2 ? ? ? ? ? ? ? ? G1 _ _ _] E.
    - eapply ends_incl; [apply incl_3 | exact E].
    - rewrite <- app_assoc. apply ends_gap; auto; [now left | apply incl_1 | right; right; lia].
    - rewrite <- app_assoc. apply ends_gap; auto; [now left | apply incl_1 | right; right; lia].
  Qed.
  (* the head of what follows is not the head of a token *)
  Lemma ends_head_none cs c r t : incl cs punctuation -> ends cs c r -> ~ In t [Dot; Comma; Semicolon; CloseSquared; Decimal] -> regex t (sk r) = None.
  Proof.
    intros I E N0. eapply ends_none; eauto. intros k [<-|K].
    - destruct t; reflexivity.
    - apply I in K. unfold punctuation in K. cbn [In] in K.
      destruct t; cbn [In] in N0; try (exfalso; tauto); repeat (destruct K as [<-|K]; [reflexivity|]); destruct K.
  Qed.
  Lemma full_all :
    (forall s p n t c n' ts, object_text dotted pm s p n t c n' ts -> full_object s p n t c n' ts) /\
    (forall s p n t c n' ts, objects_text dotted pm s p n t c n' ts -> full_objects s p n t c n' ts) /\
    (forall s n t c n' ts, item_text dotted pm s n t c n' ts -> full_item s n t c n' ts) /\
    (forall s c0 n t c n' ts, tail_text dotted pm s c0 n t c n' ts -> full_tail s c0 n t c n' ts) /\
    (forall s n t c n' ts, list_text dotted pm s n t c n' ts -> full_list s n t c n' ts).
  Proof.
    apply (texts_ind dotted pm
      (fun s p n t c n' ts _ => full_object s p n t c n' ts) (fun s p n t c n' ts _ => full_objects s p n t c n' ts)
      (fun s n t c n' ts _ => full_item s n t c n' ts) (fun s c0 n t c n' ts _ => full_tail s c0 n t c n' ts)
      (fun s n t c n' ts _ => full_list s n t c n' ts)).
    - (* term *)
      intros s p n t v c H f d r l ap ts0 L E En.
      destruct (term_full dotted pm t v c punctuation d r l m ap s p n ts0 H C E incl_0 En) as (ap' & r' & R & Q).
      exists v, ap', r'. split; auto. unfold obj, object. fold (term_parser (P d l m ap s p n ts0)). now rewrite Q.
    - (* anon *)
      intros s p n w H f d r l ap ts0 L E En. exists (node n), ap, r. split; auto.
      assert (X : sk (([91] ++ w ++ [93]) ++ r) = ([91] ++ w ++ [93]) ++ r) by (apply sk_head; split; [reflexivity | lia]).
      unfold obj, object, blankNode, anon. rewrite term_no by (rewrite E; cbn [app]; none). cbn [or_].
      rewrite E. rewrite (term_yes _ _ _ _ _ _ _ _ _ ([91] ++ w ++ [93]) r); auto.
      rewrite <- !app_assoc. now apply anon_full.
    - (* nested *)
      intros s p n g1 t c n' ts g2 G1 Hl IH G2 f d r l ap ts0 L E En. 
      assert (Gt := good_list _ _ _ _ _ _ _ _ Hl).
      set (txt := ([91] ++ g1 ++ t ++ g2 ++ [93]) ++ r) in *.
      assert (T : txt = 91 :: g1 ++ t ++ g2 ++ 93 :: r) by (unfold txt; cbn [app]; now rewrite <- !app_assoc).
      assert (X : sk txt = txt) by (rewrite T; apply sk_head; split; [reflexivity | lia]).
      assert (NA : regex Anon txt = None).
      { rewrite T. apply anon_none. destruct Gt as [Gt1 Gt2]. specialize (Gt2 (g2 ++ 93 :: r) Gt1).
        destruct G1 as [a A|a k b A K B].
        - rewrite skipWhitespace_app by auto. rewrite skipWhitespace_head by auto.
          destruct (list_head_ok _ _ _ _ _ _ _ _ Hl) as (k0 & e & Q & K0). rewrite Q. cbn [app heads]. unfold iri_first in K0. classes. lia.
        - rewrite <- !app_assoc. rewrite skipWhitespace_app by auto. reflexivity. }
      unfold obj, object, blankNode, anon. rewrite term_no by (rewrite E, T; none). cbn [or_].
      rewrite E, term_no by now rewrite X. cbn [and_ or_]. rewrite X.
      replace (literal _) with (No (P txt l m ap s p n ts0)).
      2:{ symmetry. unfold literal. rewrite T. rewrite string_no by lia. cbn [or_]. rewrite <- T in *.
          rewrite numeric_no; auto; rewrite T; none. }
      cbn [or_]. unfold iri, iriref. rewrite term_no by (rewrite X, T; none). cbn [and_ or_]. rewrite X.
      unfold prefixedName, pnameNS. rewrite term_no by (rewrite X, T; none). cbn [and_]. rewrite X.
      unfold collection. rewrite skip_no by (rewrite X, T; none). cbn [or_]. rewrite X.
      unfold blankNodePropertyList. rewrite (skip_yes _ _ _ _ _ _ _ _ _ [91] (g1 ++ t ++ g2 ++ 93 :: r)).
      2:{ now rewrite X, T. } 2:{ apply (word_app [91]). }
      cbn [and_]. unfold createAnonNode, emitTriple, set_subject. cbn [data last prefixes aPrefix aSubject aPredicate blanks triples].
      change (anonNode n) with (node n).
      assert (En' : ends [46; 93] c (g2 ++ 93 :: r)) by (apply ends_gap; auto; [right; now left | apply incl_2 | right; right; lia]).
      destruct (IH f (g1 ++ t ++ g2 ++ 93 :: r) (g2 ++ 93 :: r) (node n) ap p (ts0 ++ [(s, p, node n)])) as (l' & ap' & p' & Q); auto.
      { rewrite !app_length in L. cbn [length] in L. lia. }
      { now apply good_gap. }
      rewrite Q. cbn [check and_].
      assert (Y : sk (g2 ++ 93 :: r) = 93 :: r) by (apply sk_gap; auto; split; [reflexivity | lia]).
      rewrite Y. rewrite (skip_yes _ _ _ _ _ _ _ _ _ [93] r); [|apply sk_head; split; [reflexivity | lia]|apply (word_app [93])].
      cbn [check and_]. exists l', ap', r. split; auto. unfold set_predicate. cbn [data last prefixes aPrefix aSubject aPredicate blanks triples].
      now rewrite <- app_assoc.
    - (* the last object *)
      intros s p n t c n' ts H IH f k d r l ap ts0 L K E En.
      destruct (IH f d r l ap ts0 L E (ends_incl _ _ _ _ incl_1 En)) as (l' & ap' & r' & R & Q).
      rewrite Q. cbn [and_]. exists l', ap'.
      assert (F := ends_fixed _ _ _ incl_1 En).
      assert (N0 : regex Comma (sk r) = None).
      { eapply ends_none; eauto. intros x [<-|X]; [reflexivity|]. cbn [In first] in *. lia. }
      assert (Z : sk r' = sk r) by (destruct R as [->| ->]; auto).
      assert (Gt := good_object _ _ _ _ _ _ _ _ _ H). destruct k as [|k]; [destruct t; [now destruct Gt | cbn in K; lia]|].
      cbn [moreObjects]. rewrite skip_no by now rewrite Z. now rewrite Z.
    - (* more objects *)
      intros s p n t1 c1 n1 ts1 g1 g2 t2 c2 n2 ts2 H1 IH1 G1 G2 H2 IH2 f k d r l ap ts0 L K E En.
      rewrite <- !app_assoc in E. rewrite !app_length in L, K. cbn [length] in L, K.
      assert (E1 : ends punctuation c1 (g1 ++ [44] ++ g2 ++ t2 ++ r)).
      { apply ends_gap; auto; [now left | apply incl_0 | right; right; lia]. }
      destruct (IH1 f d _ l ap ts0 ltac:(lia) E E1) as (l1 & ap1 & r1 & R & Q).
      rewrite Q. cbn [and_]. destruct k as [|k]; [lia|]. cbn [moreObjects].
      assert (F : sk (g1 ++ [44] ++ g2 ++ t2 ++ r) = [44] ++ g2 ++ t2 ++ r) by (apply sk_gap; auto; split; [reflexivity | lia]).
      rewrite (skip_yes _ _ _ _ _ _ _ _ _ [44] (g2 ++ t2 ++ r)); [|destruct R as [->| ->]; rewrite ?F; [reflexivity | apply sk_head; split; [reflexivity | lia]]|apply (word_app [44])].
      destruct (IH2 f k (g2 ++ t2 ++ r) r l1 ap1 (ts0 ++ ts1)) as (l2 & ap2 & Q2); auto; try lia.
      { apply good_gap; auto. now apply good_objects in H2. }
      exists l2, ap2. apply and_check. now rewrite Q2, app_assoc.
    - (* an item *)
      intros s n v p vc g t c n' ts Hv G Sep Ho IH f d r l ap p0 ts0 L E En. rewrite <- !app_assoc in E.
      assert (Gv := good_verb _ _ _ _ _ Hv). rewrite !app_length in L.
      destruct (verb_full dotted pm v p vc d (g ++ t ++ r) l m ap s p0 n ts0) as (l1 & ap1 & Q); auto.
      { intros ->. destruct Sep as [Sep|Sep]; [|discriminate]. destruct g as [|x g]; [contradiction|].
        apply (gap_head _ x g) in G; auto. cbn [app stop In] in *. lia. }
      unfold verbAndObjects. rewrite Q. cbn [and_]. unfold objectList.
      destruct (IH f f (g ++ t ++ r) r l1 ap1 ts0) as (l2 & ap2 & Q2); auto; try lia.
      { apply good_gap; auto. now apply good_objects in Ho. }
      rewrite Q2. cbn [check]. eauto.
    - (* the end *)
      intros s c n f k d r l ap p ts0 L K E En. cbn [app] in E. destruct k as [|k]; [lia|]. cbn [moreVerbs].
      rewrite skip_no. 2:{ rewrite E. eapply ends_none; eauto. intros x [<-|X]; [reflexivity|]. cbn [In first] in *. lia. }
      rewrite E, app_nil_r. eauto.
    - (* a semicolon and nothing *)
      intros s c n g t c' n' ts G H IH f k d r l ap p ts0 L K E En.
      rewrite !app_length in L, K. cbn [length] in L, K. destruct k as [|k]; [lia|]. cbn [moreVerbs].
      rewrite <- !app_assoc in E. rewrite (sk_gap g) in E by (first [exact G | split; [reflexivity | lia]]).
      rewrite (skip_yes _ _ _ _ _ _ _ _ _ [59] (t ++ r)); [|exact E|apply (word_app [59])].
      assert (E1 := tail_ends _ _ _ _ _ _ _ r H En). assert (F := ends_fixed _ _ _ incl_1 E1).
      unfold verbAndObjects at 1. rewrite verb_no; auto;
        try (eapply ends_head_none; eauto; [apply incl_1 | cbn [In]; intuition discriminate]).
      cbn [and_].
      destruct (IH f k (sk (t ++ r)) r l ap p ts0) as (l' & ap' & p' & Q); auto; try lia. eauto.
    - (* a semicolon and an item *)
      intros s c n g1 g2 t1 c1 n1 ts1 t2 c2 n2 ts2 G1 G2 H1 IH1 H2 IH2 f k d r l ap p ts0 L K E En.
      rewrite !app_length in L, K. cbn [length] in L, K. destruct k as [|k]; [lia|]. cbn [moreVerbs].
      rewrite <- !app_assoc in E. rewrite (sk_gap g1) in E by (first [exact G1 | split; [reflexivity | lia]]).
      rewrite (skip_yes _ _ _ _ _ _ _ _ _ [59] (g2 ++ t1 ++ t2 ++ r)); [|exact E|apply (word_app [59])].
      assert (E1 := tail_ends _ _ _ _ _ _ _ r H2 En). assert (F := ends_fixed _ _ _ incl_1 E1).
      destruct (IH1 f (g2 ++ t1 ++ t2 ++ r) (t2 ++ r) l ap p ts0) as (l1 & ap1 & p1 & Q); auto; try lia.
      { apply good_gap; auto. now apply good_item in H1. }
      rewrite Q.
      destruct (IH2 f k (sk (t2 ++ r)) r l1 ap1 p1 (ts0 ++ ts1)) as (l2 & ap2 & p2 & Q2); auto; try lia.
      rewrite Q2, app_assoc. eauto.
    - (* a list *)
      intros s n t1 c1 n1 ts1 t2 c2 n2 ts2 H1 IH1 H2 IH2 f d r l ap p ts0 L E En.
      rewrite app_length in L. destruct f as [|f]; [lia|]. cbn [predicateObjectList]. fold (obj f).
      rewrite <- app_assoc in E.
      assert (E1 := tail_ends _ _ _ _ _ _ _ r H2 En). assert (F := ends_fixed _ _ _ incl_1 E1).
      destruct (IH1 f d (t2 ++ r) l ap p ts0) as (l1 & ap1 & p1 & Q); auto; try lia.
      rewrite Q. cbn [and_]. assert (Gt := good_item _ _ _ _ _ _ _ _ H1). destruct t1 as [|x t1]; [now destruct Gt|].
      cbn [length] in L.
      destruct (IH2 f f (sk (t2 ++ r)) r l1 ap1 p1 (ts0 ++ ts1)) as (l2 & ap2 & p2 & Q2); auto; try lia.
      rewrite Q2, app_assoc. eauto.
  Qed.
End Full.

(* ---- statements ---- *)
Lemma directive_no d l m ap sb pr n ts : sk d = d -> regex TurtlePrefix d = None -> regex TurtleBase d = None ->
  regex SparqlPrefix d = None -> regex SparqlBase d = None ->
  directive (P d l m ap sb pr n ts) = No (P d l m ap sb pr n ts).
Proof.
  intros F A B C D. unfold directive, prefixID, base_, sparqlPrefix.
  rewrite skip_no by now rewrite F. cbn [and_ or_]. rewrite F.
  rewrite skip_no by now rewrite F. cbn [and_ or_]. rewrite F.
  rewrite skip_no by now rewrite F. cbn [and_ or_]. rewrite F.
  rewrite skip_no by now rewrite F. cbn [and_]. now rewrite F.
Qed.
Lemma word_begins w t r : w <> [] -> ~ begins w t -> (forall y, w <> t ++ y) -> word w (t ++ r) = None.
Proof.
  intros W B N0. unfold word. destruct (startsWith (t ++ r) w) eqn:S1; auto. exfalso.
  destruct (startsWith_begins _ _ _ S1) as [H|(y & H)]; [auto | now apply (N0 y)].
Qed.
Lemma iri_no_word dotted pm t v c w : iri_text dotted pm t v c -> ~ In 58 w -> ~ In 60 w -> forall y, w <> t ++ y.
Proof.
  intros H A B y ->. destruct (iri_colon _ _ _ _ _ H) as [(r & ->)|I].
  - apply B. now left.
  - apply A. apply in_or_app; auto.
Qed.
Lemma subject_no_directive dotted pm n t v c n' r : subject_text dotted pm n t v c n' ->
  sk (t ++ r) = t ++ r /\ regex TurtlePrefix (t ++ r) = None /\ regex TurtleBase (t ++ r) = None /\
  regex SparqlPrefix (t ++ r) = None /\ regex SparqlBase (t ++ r) = None.
Proof.
  intros [n0 t0 v0 c0 H NP NB|n0 t0 H|n0 w H].
  - assert (G := good_iri _ _ _ _ _ H). destruct (iri_head _ _ _ _ _ H) as (k & e & Q & K).
    split; [now apply good_sk|]. split; [|split; [|split]].
    + rewrite Q. cbn [app]. apply iri_first_none; auto. cbn [In]; tauto.
    + rewrite Q. cbn [app]. apply iri_first_none; auto. cbn [In]; tauto.
    + apply word_begins; [discriminate | exact NP |]. eapply iri_no_word; eauto; cbn; intuition discriminate.
    + apply word_begins; [discriminate | exact NB |]. eapply iri_no_word; eauto; cbn; intuition discriminate.
  - destruct (label_head _ _ H) as (e & ->). cbn [app].
    split; [apply sk_head; split; [reflexivity | lia]|]. split; [none|]. split; [none|]. split; none.
  - cbn [app]. split; [apply sk_head; split; [reflexivity | lia]|]. split; [none|]. split; [none|]. split; none.
Qed.
Lemma subject_full dotted pm n t v c n' d r l m ap sb pr ts : subject_text dotted pm n t v c n' -> covers pm m -> sk d = t ++ r ->
  (c = false -> stop r) ->
  exists ap', subject (P d l m ap sb pr n ts) = Yes (P r v m ap' v pr n' ts).
Proof.
  intros H C E St. unfold subject. destruct H as [n0 t0 v0 c0 H NP NB|n0 t0 H|n0 w H].
  - assert (G := good_iri _ _ _ _ _ H). destruct (iri_head _ _ _ _ _ H) as (k & e & Q & K).
    assert (F : sk (t0 ++ r) = t0 ++ r) by now apply good_sk.
    rewrite blankNode_no; rewrite ?E; auto; try (rewrite Q; cbn [app]; apply iri_first_none; auto; cbn [In]; tauto).
    cbn [or_]. destruct (iri_full dotted pm t0 v0 c0 (t0 ++ r) r l m ap sb pr n0 ts) as (ap' & R); auto.
    rewrite R. exists ap'. reflexivity.
  - unfold blankNode. rewrite (term_yes _ _ _ _ _ _ _ _ _ t0 r); auto; [|apply (label_full dotted); auto].
    exists ap. reflexivity.
  - unfold blankNode, anon.
    assert (X : sk (([91] ++ w ++ [93]) ++ r) = ([91] ++ w ++ [93]) ++ r) by (apply sk_head; split; [reflexivity | lia]).
    rewrite term_no by (rewrite E; cbn [app]; none). cbn [or_].
    rewrite E. rewrite (term_yes _ _ _ _ _ _ _ _ _ ([91] ++ w ++ [93]) r); auto.
    + exists ap. reflexivity.
    + rewrite <- !app_assoc. now apply anon_full.
Qed.
Lemma covers_declare pm m p s : covers pm m -> covers (declare p s pm) ((p, s) :: m).
Proof.
  intros C q v. unfold declare. cbn [find_prefix]. unfold text_eqb.
  destruct (list_eq_dec N.eq_dec q p) as [->|]; [auto | apply C].
Qed.

Lemma statement_full dotted redeclared pm n t pm' n' ts s rest :
  statement_text dotted redeclared pm n t pm' n' ts -> covers pm (prefixes s) -> data s = t ++ rest -> blanks s = n ->
  exists s', statement s = Yes s' /\ data s' = rest /\ blanks s' = n' /\ triples s' = triples s ++ ts /\
    covers pm' (prefixes s').
Proof.
  destruct s as [d l m ap sb pr b ts0]. cbn [data prefixes blanks triples]. intros H C -> ->.
  unfold statement, skip_ws, set_data. cbn [data last prefixes aPrefix aSubject aPredicate blanks triples].
  destruct H as [pm n g0 g1 p g2 u v g3 G0 G1 Hp G2 Hu Ev G3 _|pm n g0 t v c n1 g1 tl_ c2 n2 ts g2 G0 Hs G1 Sep Hl G2 Sep2].
  - unfold directive, prefixID. rewrite <- !app_assoc.
    assert (K0 : forall z, sk (g0 ++ w_prefix ++ z) = w_prefix ++ z).
    { intros z. apply sk_gap; auto. split; [reflexivity | discriminate]. }
    rewrite K0. rewrite (skip_yes _ _ _ _ _ _ _ _ _ w_prefix (g1 ++ p ++ [58] ++ g2 ++ [60] ++ u ++ [62] ++ g3 ++ [46] ++ rest)).
    2:{ apply sk_head. split; [reflexivity | discriminate]. }
    2:{ apply (word_app w_prefix). }
    cbn [and_]. unfold pnameNS.
    destruct (prefix_head p Hp) as (k & e & Q & K).
    assert (Gp : good p). { rewrite Q. apply good_cons; [unfold blank|]; classes; lia. }
    rewrite (term_yes _ _ _ _ _ _ _ _ _ (p ++ [58]) (g2 ++ [60] ++ u ++ [62] ++ g3 ++ [46] ++ rest)).
    2:{ rewrite <- app_assoc. now apply good_gap. }
    2:{ rewrite <- app_assoc. now apply pname_full. }
    cbn [and_ check]. unfold set_aPrefix, set_data, set_last. cbn [data last prefixes aPrefix aSubject aPredicate blanks triples].
    unfold iriref. rewrite (term_yes _ _ _ _ _ _ _ _ _ ([60] ++ u ++ [62]) (g3 ++ [46] ++ rest)).
    2:{ rewrite <- !app_assoc. apply sk_gap; auto. split; [reflexivity | lia]. }
    2:{ rewrite <- !app_assoc. now apply iriref_full. }
    cbn [and_ check last]. apply Strings_Thm.C51_iri_partial in Ev. rewrite Ev. cbn [escaping check and_].
    unfold set_last. cbn [data last prefixes aPrefix aSubject aPredicate blanks triples].
    rewrite (skip_yes _ _ _ _ _ _ _ _ _ [46] rest).
    2:{ apply sk_gap; auto. split; [reflexivity | lia]. } 2:{ apply (word_app [46]). }
    cbn [check and_ or_]. eexists. split; [reflexivity|]. unfold set_prefixes. cbn [data last prefixes aPrefix aSubject aPredicate blanks triples].
    split; auto. split; auto. split; [now rewrite app_nil_r|].
    match goal with |- covers _ ((?a, ?b) :: _) => replace a with p; [replace b with v; [now apply covers_declare|]|] end.
    + unfold substr. cbn [length app skipn]. rewrite app_length. cbn [length].
      replace (S (length v + 1) - 2)%nat with (length v) by lia. symmetry. apply Strings_Proof.firstn_len.
    + symmetry. apply removelast_last.
  - rewrite <- !app_assoc.
    assert (F : sk (g0 ++ t ++ g1 ++ tl_ ++ g2 ++ [46] ++ rest) = t ++ g1 ++ tl_ ++ g2 ++ [46] ++ rest).
    { destruct Hs as [? ? ? ? Hi _ _|? ? Hlb|? ? _].
      - apply good_gap; auto. now apply good_iri in Hi.
      - apply good_gap; auto. now apply good_label in Hlb.
      - apply sk_gap; auto. split; [reflexivity | lia]. }
    rewrite F. destruct (subject_no_directive _ _ _ _ _ _ _ (g1 ++ tl_ ++ g2 ++ [46] ++ rest) Hs) as (D0 & D1 & D2 & D3 & D4).
    rewrite directive_no by auto. cbn [or_]. unfold triples_.
    destruct (subject_full dotted pm n t v c n1 (t ++ g1 ++ tl_ ++ g2 ++ [46] ++ rest) (g1 ++ tl_ ++ g2 ++ [46] ++ rest) l m ap sb pr ts0) as (ap' & R); auto.
    { intros ->. destruct Sep as [Sep|Sep]; [|discriminate]. destruct g1 as [|x g1]; [contradiction|].
      apply (gap_head _ x g1) in G1; auto. cbn [app stop In] in *. lia. }
    rewrite R. assert (Gl := good_list _ _ _ _ _ _ _ _ Hl).
    assert (En : ends [46; 93] c2 (g2 ++ [46] ++ rest)).
    { cbn [app]. apply ends_gap; auto; [now left | apply incl_2 | tauto]. }
    match goal with |- context[predicateObjectList ?f _] => set (fuel := f) end.
    destruct (full_all dotted pm m C) as (_ & _ & _ & _ & FL).
    destruct (FL _ _ _ _ _ _ Hl fuel (g1 ++ tl_ ++ g2 ++ [46] ++ rest) (g2 ++ [46] ++ rest) v ap' pr ts0) as (l' & ap2 & p' & Q); auto.
    { unfold fuel. rewrite !app_length. lia. }
    { now apply good_gap. }
    rewrite Q. cbn [check and_].
    assert (Y : sk (g2 ++ [46] ++ rest) = [46] ++ rest) by (apply sk_gap; auto; split; [reflexivity | lia]).
    rewrite (skip_yes _ _ _ _ _ _ _ _ _ [46] rest).
    2:{ rewrite Y. apply sk_head; split; [reflexivity | lia]. } 2:{ apply (word_app [46]). }
    eexists. split; [reflexivity|]. cbn [data prefixes blanks triples]. auto.
Qed.
