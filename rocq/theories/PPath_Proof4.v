(* The parser on tokens. *)
From Coq Require Import List Arith NArith Bool Lia.
From Verif Require Import Conv_Model Keys_Model Keys_Proof4 PPath_Model PPath_Spec PPath_Proof PPath_Proof3.
Import ListNotations.
Open Scope N_scope.

Scheme path_mut := Minimality for path_of Sort Prop
  with alts_mut := Minimality for alts_of Sort Prop
  with seq_mut := Minimality for seq_of Sort Prop
  with seqs_mut := Minimality for seqs_of Sort Prop
  with step_mut := Minimality for step_of Sort Prop
  with elt_mut := Minimality for elt_of Sort Prop
  with primary_mut := Minimality for primary_of Sort Prop.
Combined Scheme grammar_mut from path_mut, alts_mut, seq_mut, seqs_mut, step_mut, elt_mut, primary_mut.

Definition stop0 (r : tokens) : Prop := r = [] \/ exists r', r = [41] :: r'.
Definition stop1 (r : tokens) : Prop := stop0 r \/ exists r', r = [124] :: r'.
Definition stop2 (r : tokens) : Prop := stop1 r \/ exists r', r = [47] :: r'.

Definition item0 f := pathPrimary (parse_path f).
Definition item1 f := pathElt (item0 f).
Definition item2 f := pathEltOrInverse (item1 f).
Definition item3 f := pathSequence f (item2 f).
Lemma parse_path_S f ts : parse_path (S f) ts = bind (items f [BAR] (item3 f) [] ts) (fun '(paths, ts') => Val (one_or ALTERNATIVE paths, ts')).
Proof. reflexivity. Qed.
Lemma one_or_many o ps : (2 <= length ps)%nat -> one_or o ps = node o 0 ps.
Proof. destruct ps as [|p [|q ps]]; cbn; try lia. reflexivity. Qed.

Lemma stoi_number ds : ds <> [] -> Forall digit ds -> number ds < 2 ^ 31 -> stoi ds = Val (number ds).
Proof.
  intros NE F L. unfold stoi. rewrite <- (app_nil_r ds) at 1. rewrite digits_app; auto; [|intros c r E; discriminate E].
  fold (number ds). destruct ds as [|d ds]; [congruence|]. apply N.ltb_lt in L. rewrite L. reflexivity.
Qed.
Lemma stoi_inv ds n : stoi ds = Val n -> Forall digit ds -> ds <> [] /\ n = number ds /\ number ds < 2 ^ 31.
Proof.
  intros H F. unfold stoi in H. rewrite <- (app_nil_r ds) in H. rewrite digits_app in H; auto; [|intros c r E; discriminate E].
  fold (number ds) in H. destruct ds as [|d ds]; [discriminate H|]. destruct (number (d :: ds) <? 2 ^ 31) eqn:E; [|discriminate H].
  apply N.ltb_lt in E. injection H as <-. split; [congruence|auto].
Qed.

Section Complete.
  Variable link : list N -> Prop.
  Hypothesis link_ok : forall t, link t -> t <> [40] /\ t <> [94].

  Lemma elt_stop f child r1 ts : item0 f ts = Val (child, r1) -> stop2 r1 -> item1 f ts = Val (child, r1).
  Proof.
    intros E S. unfold item1, pathElt. rewrite E. cbn [bind].
    destruct S as [[[->|(r & ->)]|(r & ->)]|(r & ->)]; reflexivity.
  Qed.

  Lemma parse_grammar :
    (forall ts p, path_of link ts p -> forall fuel rest, (length ts < fuel)%nat -> stop0 rest -> parse_path fuel (ts ++ rest) = Val (tree p, rest)) /\
    (forall ts ps, alts_of link ts ps -> (length ps <= length ts)%nat /\ forall f g acc rest, (length ts <= f)%nat -> (length ps <= g)%nat -> stop0 rest ->
       items g [BAR] (item3 f) acc (ts ++ rest) = Val (acc ++ map tree ps, rest)) /\
    (forall ts p, seq_of link ts p -> (1 <= length ts)%nat /\ forall f rest, (length ts <= f)%nat -> stop1 rest -> item3 f (ts ++ rest) = Val (tree p, rest)) /\
    (forall ts ps, seqs_of link ts ps -> (length ps <= length ts)%nat /\ forall f g acc rest, (length ts <= f)%nat -> (length ps <= g)%nat -> stop1 rest ->
       items g [SLASH] (item2 f) acc (ts ++ rest) = Val (acc ++ map tree ps, rest)) /\
    (forall ts p, step_of link ts p -> (1 <= length ts)%nat /\ forall f rest, (length ts <= f)%nat -> stop2 rest -> item2 f (ts ++ rest) = Val (tree p, rest)) /\
    (forall ts p, elt_of link ts p -> (1 <= length ts)%nat /\ (forall rest, accept [CARET] (ts ++ rest) = None) /\
       forall f rest, (length ts <= f)%nat -> stop2 rest -> item1 f (ts ++ rest) = Val (tree p, rest)) /\
    (forall ts p, primary_of link ts p -> (1 <= length ts)%nat /\ (forall rest, accept [CARET] (ts ++ rest) = None) /\
       forall f rest, (length ts <= f)%nat -> item0 f (ts ++ rest) = Val (tree p, rest)).
  Proof.
    apply grammar_mut.
    - (* path_one *) intros ts p H [L IH] fuel rest Hf St. destruct fuel as [|fuel]; [lia|]. rewrite parse_path_S.
      destruct fuel as [|g]; [lia|]. cbn [items]. rewrite (IH (S g)) by (try lia; left; auto). cbn [bind].
      destruct St as [->|(r & ->)]; reflexivity.
    - (* path_alt *) intros ts ps H [L IH] L2 fuel rest Hf St. destruct fuel as [|fuel]; [lia|]. rewrite parse_path_S.
      rewrite IH by (auto; lia). cbn [bind app]. rewrite one_or_many; [reflexivity|]. rewrite map_length. auto.
    - (* alts_one *) intros ts p H [L IH]. split; [cbn; lia|]. intros f g acc rest Hf Hg St. destruct g as [|g]; [cbn in Hg; lia|]. cbn [items].
      rewrite IH; auto; [|left; auto]. cbn [bind]. destruct St as [->|(r & ->)]; reflexivity.
    - (* alts_more *) intros ts p us ps H [L IH] H2 [L2 IH2]. rewrite app_length. cbn [length]. split; [lia|].
      intros f g acc rest Hf Hg St. destruct g as [|g]; [cbn in Hg; lia|]. cbn [items].
      rewrite <- app_assoc. cbn [app]. rewrite IH; [|lia|right; eauto]. cbn [bind]. change (accept [BAR] ([124] :: us ++ rest)) with (Some (us ++ rest)). cbv iota.
      rewrite IH2; auto; try lia. cbn [map]. rewrite <- app_assoc. reflexivity.
    - (* seq_one *) intros ts p H [L IH]. split; auto. intros f rest Hf St. unfold item3, pathSequence. destruct f as [|g]; [lia|]. cbn [items].
      rewrite (IH (S g)) by (try lia; left; auto). cbn [bind]. destruct St as [[->|(r & ->)]|(r & ->)]; reflexivity.
    - (* seq_many *) intros ts ps H [L IH] L2. split; [lia|]. intros f rest Hf St. unfold item3, pathSequence. rewrite IH; auto; [|lia]. cbn [bind app].
      rewrite one_or_many; [reflexivity|]. rewrite map_length. auto.
    - (* seqs_one *) intros ts p H [L IH]. split; [cbn; lia|]. intros f g acc rest Hf Hg St. destruct g as [|g]; [cbn in Hg; lia|]. cbn [items].
      rewrite IH; auto; [|left; auto]. cbn [bind]. destruct St as [[->|(r & ->)]|(r & ->)]; reflexivity.
    - (* seqs_more *) intros ts p us ps H [L IH] H2 [L2 IH2]. rewrite app_length. cbn [length]. split; [lia|].
      intros f g acc rest Hf Hg St. destruct g as [|g]; [cbn in Hg; lia|]. cbn [items].
      rewrite <- app_assoc. cbn [app]. rewrite IH; [|lia|right; eauto]. cbn [bind]. change (accept [SLASH] ([47] :: us ++ rest)) with (Some (us ++ rest)). cbv iota.
      rewrite IH2; auto; try lia. cbn [map]. rewrite <- app_assoc. reflexivity.
    - (* step_elt *) intros ts p H (L & A & IH). split; auto. intros f rest Hf St. unfold item2, pathEltOrInverse. rewrite A. apply IH; auto.
    - (* step_inv *) intros ts p H (L & A & IH). split; [cbn; lia|]. intros f rest Hf St. unfold item2, pathEltOrInverse. cbn [app].
      change (accept [CARET] ([94] :: ts ++ rest)) with (Some (ts ++ rest)). cbv iota. rewrite IH by (auto; cbn in Hf; lia). reflexivity.
    - (* elt_primary *) intros ts p H (L & A & IH). split; auto. split; auto. intros f rest Hf St. apply elt_stop; auto.
    - intros ts p H (L & A & IH). rewrite app_length. cbn [length]. split; [lia|]. split; [intros rest; rewrite <- app_assoc; apply A|].
      intros f rest Hf St. rewrite <- app_assoc. unfold item1, pathElt. rewrite IH by lia. reflexivity.
    - intros ts p H (L & A & IH). rewrite app_length. cbn [length]. split; [lia|]. split; [intros rest; rewrite <- app_assoc; apply A|].
      intros f rest Hf St. rewrite <- app_assoc. unfold item1, pathElt. rewrite IH by lia. reflexivity.
    - intros ts p H (L & A & IH). rewrite app_length. cbn [length]. split; [lia|]. split; [intros rest; rewrite <- app_assoc; apply A|].
      intros f rest Hf St. rewrite <- app_assoc. unfold item1, pathElt. rewrite IH by lia. reflexivity.
    - intros ts p ds H (L & A & IH) NE F Hn. rewrite app_length. cbn [length]. split; [lia|]. split; [intros rest; rewrite <- app_assoc; apply A|].
      intros f rest Hf St. rewrite <- app_assoc. unfold item1, pathElt. rewrite IH by lia. cbn [bind app].
      destruct ds as [|d ds]; [congruence|]. cbn [text_eqb]. change (42 =? QUESTION) with false. change (42 =? STAR) with true. change (42 =? PLUS) with false. cbn [andb].
      rewrite stoi_number; auto.
    - (* link *) intros t Ht. split; [cbn; lia|]. destruct (link_ok t Ht) as [N1 N2]. split.
      + intros rest. cbn [app accept]. rewrite (text_eqb_neq t [CARET]); auto.
      + intros f rest _. unfold item0, pathPrimary. cbn [app]. rewrite (text_eqb_neq t [OPEN]); auto.
    - (* parens *) intros ts p H IH. split; [cbn; lia|]. split; [reflexivity|]. intros f rest Hf. unfold item0, pathPrimary. cbn [app].
      change (text_eqb [40] [OPEN]) with true. cbv iota. rewrite <- app_assoc. rewrite IH; [|cbn in Hf; rewrite app_length in Hf; cbn in Hf; lia|right; exists rest; reflexivity].
      cbn [bind app]. reflexivity.
  Qed.

  (* the tokens of a path *)
  Lemma separated_mid a d b : separated a -> separated b -> delim_token d -> separated (a ++ d :: b).
  Proof.
    intros Ha Hb Hd. induction a as [|x a IH]; cbn [app].
    - cbn [separated]. destruct b; auto.
    - destruct Ha as [H1 H2]. specialize (IH H2). destruct a as [|y a]; cbn [app] in IH |- *; split; auto.
  Qed.
  Lemma separated_end a d : separated a -> delim_token d -> separated (a ++ [d]).
  Proof. intros A D. apply (separated_mid a d []); auto. exact I. Qed.
  Lemma separated_start a d : separated a -> delim_token d -> separated (d :: a).
  Proof. intros A D. apply (separated_mid [] d a); auto. exact I. Qed.
  Lemma one_delim c : delim c -> delim_token [c].
  Proof. intros H. exists c, []. auto. Qed.

  Lemma grammar_shape : (forall t, link t -> link_text t) ->
    (forall ts p, path_of link ts p -> Forall shape ts /\ separated ts) /\
    (forall ts ps, alts_of link ts ps -> Forall shape ts /\ separated ts) /\
    (forall ts p, seq_of link ts p -> Forall shape ts /\ separated ts) /\
    (forall ts ps, seqs_of link ts ps -> Forall shape ts /\ separated ts) /\
    (forall ts p, step_of link ts p -> Forall shape ts /\ separated ts) /\
    (forall ts p, elt_of link ts p -> Forall shape ts /\ separated ts) /\
    (forall ts p, primary_of link ts p -> Forall shape ts /\ separated ts).
  Proof.
    intros LT.
    assert (D : forall c, In c [63; 42; 43; 47; 124; 40; 41; 94] -> delim_token [c]) by (intros c H; apply one_delim; exact H).
    assert (M : forall ts us c, In c [63; 42; 43; 47; 124; 40; 41; 94] -> Forall shape ts /\ separated ts -> Forall shape us /\ separated us -> Forall shape (ts ++ [c] :: us) /\ separated (ts ++ [c] :: us)).
    { intros ts us c H [A B] [A' B']. split; [apply Forall_app; split; auto; constructor; auto; left; auto|apply separated_mid; auto]. }
    apply grammar_mut; auto.
    - intros. apply M; auto. cbn; auto 10.
    - intros. apply M; auto. cbn; auto 10.
    - intros ts p H [A B]. split; [constructor; auto; left; apply D; cbn; auto 10|apply separated_start; auto; apply D; cbn; auto 10].
    - intros. apply M; auto; [cbn; auto 10|split; [constructor|exact I]].
    - intros. apply M; auto; [cbn; auto 10|split; [constructor|exact I]].
    - intros. apply M; auto; [cbn; auto 10|split; [constructor|exact I]].
    - intros ts p ds H [A B] NE F L. assert (T : delim_token (42 :: ds)) by (exists 42, ds; split; auto; split; [right; left; auto|right; auto]).
      split; [apply Forall_app; split; auto; constructor; auto; left; auto|apply separated_end; auto].
    - intros t Ht. split; [constructor; auto; right; auto|cbn; auto].
    - intros ts p H [A B]. assert (S : Forall shape (ts ++ [[41]]) /\ separated (ts ++ [[41]])) by (apply M; [cbn; auto 10|auto|split; [constructor|exact I]]).
      destruct S as [S1 S2]. split; [constructor; auto; left; apply D; cbn; auto 10|apply separated_start; auto; apply D; cbn; auto 10].
  Qed.
  Lemma grammar_head : (forall t, link t -> link_text t) ->
    let Q ts := match ts with (c :: _) :: _ => c <> 63 | _ => False end in
    (forall ts p, path_of link ts p -> Q ts) /\ (forall ts ps, alts_of link ts ps -> Q ts) /\
    (forall ts p, seq_of link ts p -> Q ts) /\ (forall ts ps, seqs_of link ts ps -> Q ts) /\
    (forall ts p, step_of link ts p -> Q ts) /\ (forall ts p, elt_of link ts p -> Q ts) /\ (forall ts p, primary_of link ts p -> Q ts).
  Proof.
    intros LT Q.
    assert (A : forall ts us, Q ts -> Q (ts ++ us)) by (intros [|[|c t] ts] us H; cbn in *; auto; contradiction).
    apply grammar_mut; auto; try (intros; cbn; discriminate).
    intros t Ht. destruct (word_first _ (LT t Ht)) as (c & r & -> & ND & _). cbn. intros ->. apply ND. left. auto.
  Qed.
End Complete.

Theorem parse_text p ts : path_of link_text ts p -> counts_in_star_runs None ts -> parse (concat ts) = Val (rep p).
Proof.
  intros D C. assert (LT : forall t, link_text t -> link_text t) by auto.
  destruct (proj1 (grammar_shape link_text LT) ts p D) as [F S]. pose proof (proj1 (grammar_head link_text LT) ts p D) as H.
  unfold parse. rewrite tokenize_tokens; auto; [|destruct ts as [|[] ts]; auto]. cbn [bind].
  assert (LO : forall t, link_text t -> t <> [40] /\ t <> [94]).
  { intros t Ht. destruct (word_first _ Ht) as (c & r & -> & ND & _). split; intros E; injection E as -> _; apply ND; cbn; auto 10. }
  rewrite <- (app_nil_r ts) at 2. rewrite (proj1 (parse_grammar link_text LO) ts p D); [|lia|left; auto]. reflexivity.
Qed.

(* What is accepted. *)
Section Sound.
  Definition any_link (t : list N) : Prop := t <> [40].
  Lemma accept_inv t ts r : accept t ts = Some r -> ts = t :: r.
  Proof. destruct ts as [|u ts]; cbn; [discriminate|]. destruct (text_eqb u t) eqn:E; [|discriminate]. apply text_eqb_eq in E. intros H. injection H as <-. congruence. Qed.
  Lemma Forall_r {A} (P : A -> Prop) a b : Forall P (a ++ b) -> Forall P b.
  Proof. intros H. apply Forall_app in H. tauto. Qed.

  Inductive listed (sep : list N) (D : list (list N) -> ppath -> Prop) : list (list N) -> list ppath -> Prop :=
  | listed_one us p : D us p -> listed sep D us [p]
  | listed_more us p vs ps : D us p -> listed sep D vs ps -> listed sep D (us ++ sep :: vs) (p :: ps).
  Lemma listed_single sep D us p : listed sep D us [p] -> D us p.
  Proof. intros H. inversion H as [|? ? ? ? ? H']; subst; auto. inversion H'. Qed.
  Lemma listed_nonempty sep D us ps : listed sep D us ps -> ps <> [].
  Proof. intros H. inversion H; congruence. Qed.

  Lemma listed_seqs us ps : listed [47] (step_of any_link) us ps -> seqs_of any_link us ps.
  Proof. induction 1; [apply seqs_one|apply seqs_more]; auto. Qed.
  Lemma listed_alts us ps : listed [124] (seq_of any_link) us ps -> alts_of any_link us ps.
  Proof. induction 1; [apply alts_one|apply alts_more]; auto. Qed.

  Lemma items_sound sep item (D : list (list N) -> ppath -> Prop) :
    (forall ts q r, item ts = Val (q, r) -> Forall any_shape ts -> exists us p, ts = us ++ r /\ D us p /\ q = tree p) ->
    forall g acc ts qs r, items g sep item acc ts = Val (qs, r) -> Forall any_shape ts ->
    exists us ps, ts = us ++ r /\ qs = acc ++ map tree ps /\ listed sep D us ps.
  Proof.
    intros HI. induction g as [|g IH]; intros acc ts qs r H F; [discriminate H|]. cbn [items] in H.
    destruct (item ts) as [[q ts1]| | | | |] eqn:E; try discriminate H. cbn [bind] in H.
    destruct (HI _ _ _ E F) as (us & p & -> & Dp & ->). apply Forall_r in F.
    destruct (accept sep ts1) as [ts2|] eqn:A.
    - apply accept_inv in A. subst ts1. inversion F as [|? ? _ F2]; subst. destruct (IH _ _ _ _ H F2) as (vs & ps & -> & -> & K).
      exists (us ++ sep :: vs), (p :: ps). split; [rewrite <- app_assoc; reflexivity|]. split; [cbn [map]; rewrite <- app_assoc; reflexivity|].
      constructor; auto.
    - injection H as <- <-. exists us, [p]. split; auto. split; auto. constructor. auto.
  Qed.

  Lemma parse_sound f : forall ts q r, parse_path f ts = Val (q, r) -> Forall any_shape ts -> exists us p, ts = us ++ r /\ path_of any_link us p /\ q = tree p.
  Proof.
    induction f as [|f IH]; intros ts q r H F; [discriminate H|]. rewrite parse_path_S in H.
    assert (I0 : forall ts q r, item0 f ts = Val (q, r) -> Forall any_shape ts -> exists us p, ts = us ++ r /\ primary_of any_link us p /\ q = tree p).
    { clear ts q r H F. intros ts q r H F. unfold item0, pathPrimary in H. destruct ts as [|t ts]; [discriminate H|]. inversion F as [|? ? _ F']; subst.
      destruct (text_eqb t [OPEN]) eqn:E.
      - apply text_eqb_eq in E. subst t. destruct (parse_path f ts) as [[q' ts1]| | | | |] eqn:P; try discriminate H. cbn [bind] in H.
        destruct (accept [CLOSE] ts1) as [ts2|] eqn:A; [|discriminate H]. apply accept_inv in A. subst ts1. injection H as <- <-.
        destruct (IH _ _ _ P F') as (us & p & -> & D & ->). exists ([40] :: us ++ [[41]]), p. split; [cbn; rewrite <- app_assoc; reflexivity|]. split; auto. apply primary_parens. auto.
      - injection H as <- <-. exists [t], (Link t). split; auto. split; [apply primary_link|auto]. intros ->. discriminate E. }
    assert (I1 : forall ts q r, item1 f ts = Val (q, r) -> Forall any_shape ts -> exists us p, ts = us ++ r /\ elt_of any_link us p /\ q = tree p).
    { clear ts q r H F. intros ts q r H F. unfold item1, pathElt in H. destruct (item0 f ts) as [[c ts1]| | | | |] eqn:P; try discriminate H. cbn [bind] in H.
      destruct (I0 _ _ _ P F) as (us & p & -> & D & ->). apply Forall_r in F. destruct ts1 as [|t ts2].
      { injection H as <- <-. exists us, p. split; auto. split; auto. constructor. auto. }
      destruct (text_eqb t [QUESTION]) eqn:E1. { apply text_eqb_eq in E1. subst t. injection H as <- <-. exists (us ++ [[63]]), (Opt p). split; [rewrite <- app_assoc; reflexivity|]. split; auto. apply elt_opt. auto. }
      destruct (text_eqb t [STAR]) eqn:E2. { apply text_eqb_eq in E2. subst t. injection H as <- <-. exists (us ++ [[42]]), (Star p). split; [rewrite <- app_assoc; reflexivity|]. split; auto. apply elt_star. auto. }
      destruct (text_eqb t [PLUS]) eqn:E3. { apply text_eqb_eq in E3. subst t. injection H as <- <-. exists (us ++ [[43]]), (Plus p). split; [rewrite <- app_assoc; reflexivity|]. split; auto. apply elt_plus. auto. }
      destruct t as [|c ds]. { injection H as <- <-. exists us, p. split; auto. split; auto. constructor. auto. }
      destruct (c =? STAR) eqn:E4.
      - apply N.eqb_eq in E4. subst c. destruct (stoi ds) as [n| | | | |] eqn:E5; try discriminate H. cbn [bind] in H. injection H as <- <-.
        inversion F as [|? ? [_ FD] _]; subst. destruct (stoi_inv ds n E5 (FD ds eq_refl)) as (NE & -> & Ln).
        exists (us ++ [42 :: ds]), (UpTo (number ds) p). split; [rewrite <- app_assoc; reflexivity|]. split; auto. apply elt_upto; auto.
      - injection H as <- <-. exists us, p. split; auto. split; auto. constructor. auto. }
    assert (I2 : forall ts q r, item2 f ts = Val (q, r) -> Forall any_shape ts -> exists us p, ts = us ++ r /\ step_of any_link us p /\ q = tree p).
    { clear ts q r H F. intros ts q r H F. unfold item2, pathEltOrInverse in H. destruct (accept [CARET] ts) as [ts1|] eqn:A.
      - apply accept_inv in A. subst ts. inversion F as [|? ? _ F']; subst. destruct (item1 f ts1) as [[q' r']| | | | |] eqn:P; try discriminate H. cbn [bind] in H. injection H as <- <-.
        destruct (I1 _ _ _ P F') as (us & p & -> & D & ->). exists ([94] :: us), (Inv p). split; auto. split; auto. apply step_inv. auto.
      - destruct (I1 _ _ _ H F) as (us & p & -> & D & ->). exists us, p. split; auto. split; auto. constructor. auto. }
    assert (I3 : forall ts q r, item3 f ts = Val (q, r) -> Forall any_shape ts -> exists us p, ts = us ++ r /\ seq_of any_link us p /\ q = tree p).
    { clear ts q r H F. intros ts q r H F. unfold item3, pathSequence in H. destruct (items f [SLASH] (item2 f) [] ts) as [[qs r']| | | | |] eqn:P; try discriminate H. cbn [bind] in H. injection H as <- <-.
      destruct (items_sound _ _ _ I2 _ _ _ _ _ P F) as (us & ps & -> & -> & K). pose proof (listed_nonempty _ _ _ _ K) as NE. cbn [app]. destruct ps as [|p [|p2 ps]]; [congruence| |].
      - exists us, p. split; auto. split; [|reflexivity]. constructor. apply (listed_single _ _ _ _ K).
      - exists us, (Seq (p :: p2 :: ps)). split; auto. split; [|reflexivity]. apply seq_many; [|cbn; lia]. apply listed_seqs. exact K. }
    destruct (items f [BAR] (item3 f) [] ts) as [[qs r']| | | | |] eqn:P; try discriminate H. cbn [bind] in H. injection H as <- <-.
    destruct (items_sound _ _ _ I3 _ _ _ _ _ P F) as (us & ps & -> & -> & K). pose proof (listed_nonempty _ _ _ _ K) as NE. cbn [app]. destruct ps as [|p [|p2 ps]]; [congruence| |].
    - exists us, p. split; auto. split; [|reflexivity]. constructor. apply (listed_single _ _ _ _ K).
    - exists us, (Alt (p :: p2 :: ps)). split; auto. split; [|reflexivity]. apply path_alt; [|cbn; lia]. apply listed_alts. exact K.
  Qed.

  Theorem parse_accepts str q : parse str = Val q -> exists ts p, path_of any_link ts p /\ concat ts = str /\ Forall any_shape ts /\ q = rep p.
  Proof.
    unfold parse. intros H. destruct (tokenize str) as [ts| | | | |] eqn:T; try discriminate H. cbn [bind] in H.
    unfold tokenize in T. apply tokenize_any in T; auto; [|intros r E; discriminate E]. destruct T as [F E].
    destruct (parse_path (length ts + 2) ts) as [[q' r]| | | | |] eqn:P; try discriminate H. cbn [bind] in H. destruct r; [|discriminate H]. injection H as <-.
    destruct (parse_sound _ _ _ _ P F) as (us & p & -> & D & ->). rewrite app_nil_r in *. exists us, p. split; auto.
  Qed.
End Sound.

(* The parser ends. *)
Definition finished {A} (r : result A) : Prop := match r with Val _ | ParseError | StoiError => True | _ => False end.
Lemma delimiter_run_ends fuel : forall first rest, (length rest < fuel)%nat -> exists x, delimiter_run fuel first rest = Val x.
Proof.
  induction fuel as [|fuel IH]; intros first rest L; [lia|]. cbn [delimiter_run]. destruct rest as [|d rest]; [eauto|].
  destruct (delimiter d); [|eauto]. destruct (if first =? STAR then digits rest else ([], rest)) as [ds rest'] eqn:E.
  assert (length rest' <= length rest)%nat.
  { destruct (first =? STAR); [apply digits_spec in E; destruct E as (-> & _); rewrite app_length; lia|injection E as <- <-; lia]. }
  destruct (IH first rest') as [[t r] X]; [cbn in L; lia|]. rewrite X. cbn [bind]. eauto.
Qed.
Lemma tokenize_ends fuel : forall st ins esc cur rest toks, (length rest + 1 < fuel)%nat -> finished (tokenize_loop fuel st ins esc cur rest toks).
Proof.
  induction fuel as [|fuel IH]; intros st ins esc cur rest toks L; [lia|]. cbn [tokenize_loop]. destruct rest as [|c rest]; [exact I|]. cbn [length] in L.
  destruct (negb (valid c)); [exact I|].
  destruct (negb _ && (c =? BACKSLASH)); [apply IH; lia|]. destruct (negb _ && delimiter c && esc); [apply IH; lia|].
  destruct (negb _ && delimiter c && (negb st || negb (c =? QUESTION))) eqn:B; [|apply IH; lia].
  destruct (delimiter_run_ends fuel c (c :: rest)) as [[run r] E]; [cbn; lia|]. rewrite E. cbn [bind].
  pose proof (delimiter_run_any _ _ _ _ _ E) as (A & Q & K). apply IH.
  destruct run as [|t run].
  - cbn in Q. subst r. specialize (K c rest eq_refl). rewrite K, !andb_false_r in B. discriminate B.
  - assert (length (c :: rest) = length (concat (t :: run)) + length r)%nat by (rewrite Q, app_length; reflexivity).
    inversion A as [|? ? [NE _] _]; subst. destruct t; [congruence|]. cbn [concat length] in H. rewrite app_length in H. cbn [length] in H. lia.
Qed.
Definition consumes (ts : tokens) (r : result (path * tokens)) : Prop :=
  finished r /\ forall q r', r = Val (q, r') -> (length r' < length ts)%nat.
Lemma items_ends sep item n : (forall ts, (length ts <= n)%nat -> consumes ts (item ts)) -> forall g acc ts, (length ts < g)%nat -> (length ts <= n)%nat ->
  finished (items g sep item acc ts) /\ forall q r, items g sep item acc ts = Val (q, r) -> (length r < length ts)%nat.
Proof.
  intros HI. induction g as [|g IH]; intros acc ts L Ln; [lia|]. cbn [items]. destruct (HI ts Ln) as [F C].
  destruct (item ts) as [[q ts1]| | | | |] eqn:E; cbn [bind]; try (split; [exact I|intros; discriminate]); try contradiction.
  specialize (C q ts1 eq_refl). destruct (accept sep ts1) as [ts2|] eqn:A.
  - apply accept_inv in A. subst ts1. cbn [length] in C. destruct (IH (acc ++ [q]) ts2) as [B D]; try lia. split; auto. intros q' r' H. specialize (D q' r' H). lia.
  - split; [exact I|]. intros q' r' H. injection H as <- <-. auto.
Qed.
Lemma parse_path_ends f : forall ts, (length ts + 1 < f)%nat -> consumes ts (parse_path f ts).
Proof.
  induction f as [|f IH]; intros ts L; [lia|]. rewrite parse_path_S. assert (F1 : (1 <= f)%nat) by lia.
  assert (I0 : forall ts, (length ts <= f - 1)%nat -> consumes ts (item0 f ts)).
  { clear ts L. intros ts L. unfold item0, pathPrimary. destruct ts as [|t ts]; [split; [exact I|intros; discriminate]|]. cbn [length] in L. destruct (text_eqb t [OPEN]).
    - destruct (IH ts ltac:(lia)) as [F C]. destruct (parse_path f ts) as [[q ts1]| | | | |] eqn:P; cbn [bind]; try (split; [exact I|intros; discriminate]); try contradiction.
      specialize (C q ts1 eq_refl). destruct (accept [CLOSE] ts1) as [ts2|] eqn:A; [|split; [exact I|intros; discriminate]]. apply accept_inv in A. subst ts1. cbn [length] in C.
      split; [exact I|]. intros q' r' H. injection H as <- <-. cbn. lia.
    - split; [exact I|]. intros q' r' H. injection H as <- <-. cbn. lia. }
  assert (I1 : forall ts, (length ts <= f - 1)%nat -> consumes ts (item1 f ts)).
  { clear ts L. intros ts L. unfold item1, pathElt. destruct (I0 ts L) as [F C]. destruct (item0 f ts) as [[c ts1]| | | | |] eqn:P; cbn [bind]; try (split; [exact I|intros; discriminate]); try contradiction.
    specialize (C c ts1 eq_refl). destruct ts1 as [|t ts2]; [split; [exact I|]; intros q' r' H; injection H as <- <-; cbn in C |- *; lia|]. cbn [length] in C.
    destruct (text_eqb t [QUESTION]); [split; [exact I|]; intros q' r' H; injection H as <- <-; lia|].
    destruct (text_eqb t [STAR]); [split; [exact I|]; intros q' r' H; injection H as <- <-; lia|].
    destruct (text_eqb t [PLUS]); [split; [exact I|]; intros q' r' H; injection H as <- <-; lia|].
    destruct t as [|x ds]; [split; [exact I|]; intros q' r' H; injection H as <- <-; cbn; lia|].
    destruct (x =? STAR); [|split; [exact I|]; intros q' r' H; injection H as <- <-; cbn; lia].
    unfold stoi. destruct (digits ds) as [[|d ds'] r0]; cbn [bind]; [split; [exact I|intros; discriminate]|].
    destruct (fold_left _ _ _ <? _); cbn [bind]; [|split; [exact I|intros; discriminate]]. split; [exact I|]. intros q' r' H. injection H as <- <-. lia. }
  assert (I2 : forall ts, (length ts <= f - 1)%nat -> consumes ts (item2 f ts)).
  { clear ts L. intros ts L. unfold item2, pathEltOrInverse. destruct (accept [CARET] ts) as [ts1|] eqn:A; [|apply I1; auto].
    apply accept_inv in A. subst ts. cbn [length] in L. destruct (I1 ts1 ltac:(lia)) as [F C]. destruct (item1 f ts1) as [[c ts2]| | | | |] eqn:P; cbn [bind]; try (split; [exact I|intros; discriminate]); try contradiction.
    specialize (C c ts2 eq_refl). split; [exact I|]. intros q' r' H. injection H as <- <-. cbn. lia. }
  assert (I3 : forall ts, (length ts <= f - 1)%nat -> consumes ts (item3 f ts)).
  { clear ts L. intros ts L. unfold item3, pathSequence. destruct f as [|f0]; [lia|].
    destruct (items_ends [SLASH] (item2 (S f0)) (S f0 - 1) I2 (S f0) [] ts ltac:(lia) L) as [F C].
    destruct (items (S f0) [SLASH] (item2 (S f0)) [] ts) as [[c ts2]| | | | |] eqn:P; cbn [bind]; try (split; [exact I|intros; discriminate]); try contradiction.
    specialize (C c ts2 eq_refl). split; [exact I|]. intros q' r' H. injection H as <- <-. lia. }
  destruct (items_ends [BAR] (item3 f) (f - 1) I3 f [] ts ltac:(lia) ltac:(lia)) as [F C].
  destruct (items f [BAR] (item3 f) [] ts) as [[c ts2]| | | | |] eqn:P; cbn [bind]; try (split; [exact I|intros; discriminate]); try contradiction.
  specialize (C c ts2 eq_refl). split; [exact I|]. intros q' r' H. injection H as <- <-. lia.
Qed.
Theorem parse_ends str : finished (parse str).
Proof.
  unfold parse. pose proof (tokenize_ends (length str + 2) true false false [] str [] ltac:(lia)) as T. fold (tokenize str) in T.
  destruct (tokenize str) as [ts| | | | |]; cbn [bind]; auto.
  destruct (parse_path_ends (length ts + 2) ts ltac:(lia)) as [P _]. destruct (parse_path _ ts) as [[q [|t r]]| | | | |]; cbn [bind]; auto.
Qed.
