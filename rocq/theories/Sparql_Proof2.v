(* Proofs about the SPARQL parser: the functions that do not read tokens. *)
From Coq Require Import Ascii String List NArith ZArith Arith Bool Lia ZifyBool ZifyN ZifyNat.
From Verif Require Import Strings_Model SLex_Model Sparql_Model SLex_Spec Sparql_Spec SLex_Proof Sparql_Proof1.
From Verif Require Conv_Model PPath_Model PPath_Spec Turtle_Model Turtle_Spec Turtle_Proof.
Import ListNotations.
Open Scope N_scope.
Open Scope list_scope.

(* ---- equal triples ---- *)
Lemma op_eqb_ok a b : operation_eqb a b = true <-> a = b.
Proof. destruct a, b; cbn; split; congruence. Qed.
Fixpoint path_eqb_ok (a b : PPath_Model.path) {struct a} : path_eqb a b = true <-> a = b.
Proof.
  destruct a as [o l i cs n], b as [o' l' i' cs' n']. cbn [path_eqb].
  assert (C : (fix all (x y : list PPath_Model.path) : bool :=
         match x, y with
         | [], [] => true
         | p :: x', q :: y' => path_eqb p q && all x' y'
         | _, _ => false
         end) cs cs' = true <-> cs = cs').
  { revert cs'. induction cs as [|c cs IH]; intros [|c' cs']; try (split; congruence). rewrite andb_true_iff, IH, path_eqb_ok. split; [intros []; congruence|intros E; injection E; auto]. }
  rewrite !andb_true_iff, C, op_eqb_ok, text_eqb_ok, N.eqb_eq, eqb_true_iff. split; [intros ((((-> & ->) & ->) & ->) & ->); reflexivity|].
  intros E. injection E as -> -> -> -> ->. repeat split; auto.
Qed.
Lemma triple_eqb_ok a b : triple_eqb a b = true <-> a = b.
Proof.
  destruct a as [s p o], b as [s' p' o']. unfold triple_eqb. cbn. rewrite !andb_true_iff, !text_eqb_ok, path_eqb_ok.
  split; [intros ((-> & ->) & ->); reflexivity|]. intros E. injection E as -> -> ->. auto.
Qed.
Lemma push_new_ok t ts ts' : inserted t ts ts' -> push_new t ts = ts'.
Proof.
  unfold push_new. intros [(I & ->)|(I & ->)]; destruct (existsb _ ts) eqn:E; auto.
  - exfalso. assert (K : existsb (fun u => triple_eqb u t) ts = true) by (apply existsb_exists; exists t; split; auto; apply triple_eqb_ok; auto). congruence.
  - apply existsb_exists in E. destruct E as (u & Hu & E). apply triple_eqb_ok in E. subst. contradiction.
Qed.
Lemma last_basic_end f cs ts : last_basic f (cs ++ [Basic ts]) = cs ++ [Basic (f ts)].
Proof.
  induction cs as [|c cs IH]; [reflexivity|]. cbn [app last_basic]. rewrite IH.
  destruct (cs ++ [Basic ts]) eqn:E; [destruct cs; discriminate|]. destruct c; reflexivity.
Qed.
Lemma last_basic_new f cs : (forall cs0 ts, cs <> cs0 ++ [Basic ts]) -> last_basic f cs = cs ++ [Basic (f [])].
Proof.
  induction cs as [|c cs IH]; intros H; [reflexivity|]. cbn [app last_basic].
  destruct cs as [|c' cs].
  - destruct c; auto. exfalso. apply (H [] ts). reflexivity.
  - rewrite IH; [destruct c; reflexivity|]. intros cs0 ts E. apply (H (c :: cs0) ts). rewrite E. reflexivity.
Qed.
Lemma last_basic_ok f (R : list triple -> list triple -> Prop) cs cs' : (forall ts ts', R ts ts' -> f ts = ts') -> in_basic R cs cs' -> last_basic f cs = cs'.
Proof.
  intros F [(cs0 & ts & ts' & -> & H & ->)|(Nb & ts' & H & ->)].
  - rewrite last_basic_end, (F _ _ H). reflexivity.
  - rewrite last_basic_new, (F _ _ H) by auto. reflexivity.
Qed.
(* ---- languages ---- *)
Lemma iri_path_ok t v : text_eqb (t_o t) v && is_iri_path (t_p t) = true <-> has_object v t (path_iri (t_p t)).
Proof.
  rewrite andb_true_iff, text_eqb_ok. unfold has_object. destruct t as [s [o l i cs n] ob]. cbn [t_o t_p path_iri is_iri_path].
  split.
  - intros (-> & H). split; [reflexivity|]. destruct o; try discriminate. split; [eauto|]. intros r ->.
    unfold is_variable in H. cbn in H. destruct r; discriminate.
  - intros (-> & (lim & cs' & nul & E) & Nv). split; [reflexivity|]. injection E as -> _ _ _. unfold is_variable.
    destruct i as [|c i]; [reflexivity|]. cbn. destruct (c =? 63) eqn:E; [exfalso; apply (Nv i); f_equal; lia|reflexivity].
Qed.
Lemma has_iri v t i : has_object v t i -> i = path_iri (t_p t).
Proof. intros (_ & (lim & cs & nul & ->) & _). reflexivity. Qed.
Lemma tag_none v l ts : (forall u i, In u ts -> ~ has_object v u i) -> tag_first v l ts = None.
Proof.
  induction ts as [|t ts IH]; intros H; [reflexivity|]. cbn [tag_first]. rewrite IH by (intros; apply H; now right).
  destruct (text_eqb (t_o t) v && is_iri_path (t_p t)) eqn:E; [|reflexivity]. apply iri_path_ok in E. exfalso. eapply H; [now left|exact E].
Qed.
Lemma tag_some v l a t b : (forall u i, In u a -> ~ has_object v u i) -> has_object v t (path_iri (t_p t)) ->
  tag_first v l (a ++ t :: b) = Some (a ++ Triple (t_s t) (PPath_Model.leaf ([64] ++ l ++ [64] ++ path_iri (t_p t))) (t_o t) :: b).
Proof.
  induction a as [|u a IH]; intros H Ht; cbn [app tag_first].
  - apply iri_path_ok in Ht. rewrite Ht. reflexivity.
  - destruct (text_eqb (t_o u) v && is_iri_path (t_p u)) eqn:E; [apply iri_path_ok in E; exfalso; eapply H; [now left|exact E]|].
    rewrite IH; auto. intros; apply H; now right.
Qed.
Lemma inner_quoted s : inner (quoted s) = s.
Proof.
  unfold inner, quoted, substr. cbn [app length skipn]. rewrite app_length. cbn [length].
  replace (S (length s + 1) - 2)%nat with (length s) by lia. rewrite firstn_app, firstn_all, Nat.sub_diag. cbn [firstn]. apply app_nil_r.
Qed.
Lemma lang_filter_ok v l cs cs' : in_basic (tagged v l) cs cs' -> addLangFilter v (quoted l) cs = cs'.
Proof.
  intros H. unfold addLangFilter. rewrite inner_quoted. eapply last_basic_ok; [|exact H].
  intros ts ts' [(a & t & b & iri & -> & Ht & Na & ->)|(Na & I)].
  - assert (E := has_iri _ _ _ Ht). subst iri. rewrite tag_some; auto.
  - rewrite tag_none by auto. apply push_new_ok. exact I.
Qed.

(* ---- literals ---- *)
Lemma take_all p d : Forall (fun c => p c = true) d -> take_while p d = (d, []).
Proof. induction 1 as [|c d H _ IH]; [reflexivity|]. cbn [take_while]. rewrite H, IH. reflexivity. Qed.
Lemma take_until p d c r : Forall (fun c => p c = true) d -> p c = false -> take_while p (d ++ c :: r) = (d, c :: r).
Proof. intros F H. induction F as [|x d Hx _ IH]; cbn [app take_while]; [rewrite H; reflexivity|]. rewrite Hx, IH. reflexivity. Qed.
Lemma content_ok s x : ~ In 34 s -> (forall s', s <> s' ++ [92]) -> literal_content 34 false (s ++ 34 :: x) = (s, 34 :: x).
Proof.
  induction s as [|c s IH]; intros I B; [reflexivity|]. cbn [app literal_content]. replace (c =? 34) with false by (symmetry; apply N.eqb_neq; intros ->; apply I; now left).
  cbn [negb andb]. rewrite IH.
  - destruct (c =? 92) eqn:E; [|reflexivity]. cbn [andb]. destruct s as [|d s]; cbn [app].
    + exfalso. apply (B []). cbn. f_equal. lia.
    + replace (d =? 34) with false; [reflexivity|]. symmetry; apply N.eqb_neq; intros ->. apply I. right. now left.
  - intros J. apply I. now right.
  - intros s' E. apply (B (c :: s')). rewrite E. reflexivity.
Qed.
Lemma not_space c : ~ is_space c -> negb (isspace c) = true.
Proof. unfold is_space, isspace. lia. Qed.
Lemma parse_plain v : plain v -> parseLiteral v = Ok v.
Proof.
  intros (s & x & -> & I & B & X). unfold parseLiteral, skip_spaces. cbn [app take_while]. change (isspace 34) with false. cbn [snd].
  change ((34 =? 34) || (34 =? 39)) with true. cbn match. rewrite content_ok by auto. cbn [tl].
  destruct X as [->|[(l & Fl & ->)|(i & Fi & ->)]].
  - cbn [take_while snd app]. reflexivity.
  - change (64 =? 64) with true. cbn match. rewrite take_all. 2: { eapply Forall_impl; [|exact Fl]. intros a H. apply Turtle_Proof.letter_ok. exact H. }
    cbn [take_while snd app]. rewrite app_nil_r. reflexivity.
  - change (94 =? 64) with false. cbn match. change ((94 =? 94) && (94 =? 94)) with true. cbn match.
    rewrite take_all. 2: { repeat constructor. eapply Forall_impl; [|exact Fi]. intros a [H _]. apply not_space. exact H. }
    cbn [take_while snd app]. reflexivity.
Qed.
Lemma strip_quotes s : s <> [] -> ~ In 34 s -> strip (quoted s) (N.eqb 34) = s.
Proof.
  intros H I. unfold strip, quoted. assert (F : Forall (fun c => negb (34 =? c) = true) s).
  { apply Forall_forall. intros c Hc. destruct (34 =? c) eqn:E; [|reflexivity]. exfalso. apply I. replace 34 with c by lia. exact Hc. }
  destruct s as [|c s]; [contradiction|]. cbn [app find_char]. change (negb (34 =? 34)) with false. cbn match. inversion F as [|? ? Hc Fs]; subst.
  rewrite Hc. cbn [option_map]. unfold find_last_not.
  replace (rev (34 :: c :: s ++ [34])) with (34 :: rev (c :: s) ++ [34]) by (change (34 :: c :: s ++ [34]) with ([34] ++ (c :: s) ++ [34]); rewrite !rev_app_distr; reflexivity).
  assert (R : exists d r, rev (c :: s) = d :: r) by (destruct (rev (c :: s)) eqn:E; [apply (f_equal (@length N)) in E; rewrite rev_length in E; discriminate|eauto]).
  destruct R as (d & r & R). assert (Hd : negb (34 =? d) = true).
  { apply (proj1 (Forall_forall _ _) F). apply in_rev. rewrite R. now left. }
  rewrite R. cbn [app find_char]. change (negb (34 =? 34)) with false. cbn match. rewrite Hd. cbn [option_map length]. rewrite app_length. cbn [length].
  unfold substr. cbn [skipn]. replace (S (S (length s + 1)) - 1 - 1 - 1 + 1)%nat with (length (c :: s)) by (cbn [length]; lia).
  change (c :: s ++ [34]) with ((c :: s) ++ [34]). rewrite firstn_app, firstn_all, Nat.sub_diag. cbn [firstn]. apply app_nil_r.
Qed.
Lemma lower_ok s : map lower s = lowercase s.
Proof. reflexivity. Qed.
Lemma keyword_strip s : s <> [] -> ~ In 34 s -> stripAndLowercaseKeywordLiteral (quoted s) = map lower s.
Proof.
  intros H I. unfold stripAndLowercaseKeywordLiteral. rewrite strip_quotes by auto. unfold quoted.
  replace (Nat.ltb 2 (length ([34] ++ s ++ [34]))) with true.
  2: { symmetry. apply Nat.ltb_lt. rewrite !app_length. cbn [length]. destruct s; [contradiction|]. cbn [length]. lia. }
  cbn [andb at_ nth app]. change (at_ (34 :: s ++ [34]) 0 =? 34) with true. cbn [andb].
  change (34 :: s ++ [34]) with ((34 :: s) ++ [34]). rewrite last_last. reflexivity.
Qed.
(* other texts stay *)
Lemma keyword_other v : (forall s, s <> [] -> v <> quoted s) -> stripAndLowercaseKeywordLiteral v = v.
Proof.
  intros H. unfold stripAndLowercaseKeywordLiteral. destruct (Nat.ltb 2 (length v) && (at_ v 0 =? 34) && (List.last v 0 =? 34)) eqn:E; [|reflexivity].
  exfalso. apply andb_true_iff in E as [E E3]. apply andb_true_iff in E as [E1 E2]. destruct v as [|c v]; [discriminate|]. cbn [at_ nth] in E2.
  assert (Nv : v <> []) by (intros ->; discriminate). destruct (exists_last Nv) as (s & d & ->). change (c :: s ++ [d]) with ((c :: s) ++ [d]) in E3. rewrite last_last in E3.
  apply (H s); [intros ->; cbn in E1; discriminate|]. unfold quoted. assert (c = 34) by (unfold at_ in E2; cbn [nth] in E2; lia). assert (d = 34) by lia. subst. reflexivity.
Qed.

(* ---- regular expressions ---- *)
Lemma control_ok c : operator c <-> regex_control c = true.
Proof.
  unfold operator, regex_control. rewrite existsb_exists. split.
  - intros H. exists c. split; auto. apply N.eqb_refl.
  - intros (x & H & E). apply N.eqb_eq in E. subst. exact H.
Qed.
Lemma operator_92 : ~ operator 92.
Proof. intros H. apply control_ok in H. discriminate. Qed.
Lemma erase_at a b : forall i, length a = i -> forall c : N, erase (a ++ c :: b) i = a ++ b.
Proof.
  intros i <- c. unfold erase. rewrite firstn_app, firstn_all, Nat.sub_diag. cbn [firstn]. rewrite app_nil_r. f_equal.
  change (a ++ c :: b) with (a ++ [c] ++ b). rewrite app_assoc. rewrite skipn_app. rewrite skipn_all2 by (rewrite app_length; cbn [length]; lia).
  replace (S (length a) - length (a ++ [c]))%nat with O by (rewrite app_length; cbn [length]; lia). reflexivity.
Qed.
Lemma scan_literal e s : literal_regex e s -> forall i, exists qs,
  (forall ps b, scan_regex i false ps (e ++ b) = scan_regex (i + length e) false (ps ++ qs) b) /\
  (forall a, length a = i -> fold_left erase (rev qs) (a ++ e) = a ++ s).
Proof.
  induction 1 as [|c e s H1 H0 H2 _ IH|c e s H1 _ IH]; intros i.
  - exists []. split; [intros; rewrite app_nil_r, Nat.add_0_r; reflexivity|reflexivity].
  - destruct (IH (S i)) as (qs & S1 & S2). exists qs. split.
    + intros ps b. cbn [app scan_regex length]. replace (c =? 92) with false by lia. replace (regex_control c) with false by (destruct (regex_control c) eqn:E; auto; apply control_ok in E; contradiction).
      cbn [negb andb]. rewrite S1. f_equal. lia.
    + intros a <-. specialize (S2 (a ++ [c])). rewrite <- !app_assoc in S2. apply S2. rewrite app_length. cbn. lia.
  - destruct (IH (S (S i))) as (qs & S1 & S2). exists (i :: qs). split.
    + intros ps b. cbn [app scan_regex length]. change (92 =? 92) with true. cbn [negb]. replace (i + S (S (length e)))%nat with (S (S i) + length e)%nat by lia.
      change (ps ++ i :: qs) with (ps ++ [i] ++ qs). rewrite app_assoc. destruct H1 as [-> |H1].
      * cbn [negb]. change (92 =? 92) with true. cbn match. apply S1.
      * replace (c =? 92) with false. 2: { symmetry. apply N.eqb_neq. intros ->. apply operator_92. exact H1. }
        apply control_ok in H1. rewrite H1. cbn [negb andb]. apply S1.
    + intros a <-. cbn [rev]. rewrite fold_left_app. specialize (S2 (a ++ [92; c])). rewrite <- !app_assoc in S2. cbn [app] in S2. rewrite S2 by (rewrite app_length; cbn [length]; lia).
      cbn [fold_left]. apply erase_at. reflexivity.
Qed.
Lemma regex_ok e i ty s : regex_means e i ty s -> regex_or_prefix e i = Ok (ty, s).
Proof.
  unfold regex_or_prefix. intros [e' s' H|a s' c b H O|e' i' H].
  - cbn [at_ nth skipn]. change ((at_ (94 :: e') 0 =? 94) && negb false) with true. cbn match.
    destruct (scan_literal e' s' H 1) as (qs & S1 & S2). specialize (S1 [] []). rewrite app_nil_r in S1. cbn [app] in S1. rewrite S1. cbn [scan_regex bind].
    specialize (S2 [94] eq_refl). cbn [app] in S2. rewrite S2. reflexivity.
  - change ((at_ (94 :: a ++ c :: b) 0 =? 94) && negb false) with true. cbn [skipn]. cbn match.
    destruct (scan_literal a s' H 1) as (qs & S1 & S2). rewrite S1. cbn [scan_regex app].
    replace (c =? 92) with false. 2: { symmetry. apply N.eqb_neq. intros ->. apply operator_92. exact O. }
    apply control_ok in O. rewrite O. cbn [negb andb bind]. reflexivity.
  - replace ((at_ e' 0 =? 94) && negb i') with false; [reflexivity|]. symmetry. destruct H as [H| ->]; [|apply andb_false_r].
    destruct e' as [|c e']; [reflexivity|]. unfold at_. cbn [nth]. destruct (c =? 94) eqn:E; [|reflexivity]. exfalso. apply (H e'). f_equal. lia.
Qed.

(* ---- keys ---- *)
Definition var_text (v : text) : Prop := exists r, v = 63 :: r /\ Forall (fun c => negb ((c =? 41) || isspace c) = true) r.
Lemma key_end_stop r x : Forall (fun c => negb ((c =? 41) || isspace c) = true) r -> key_end (r ++ 41 :: x) = r.
Proof. intros F. unfold key_end. rewrite take_until; auto. Qed.
Lemma key_end_all r : Forall (fun c => negb ((c =? 41) || isspace c) = true) r -> key_end r = r.
Proof. intros F. unfold key_end. rewrite take_all; auto. Qed.
Lemma key_variable v : var_text v -> OrderKey v = Ok (v, false).
Proof.
  intros (r & -> & F). unfold OrderKey.
  change (startsWith (lowercase (63 :: r)) (bytes "desc(")) with false. change (startsWith (lowercase (63 :: r)) (bytes "asc(")) with false.
  cbn match. change (tolower 63) with 63. change (63 =? 40) with false. change (63 =? 115) with false. change (63 =? 63) with true. cbn match.
  rewrite key_end_all by auto. reflexivity.
Qed.
Definition order_text (desc : bool) : text := if desc then bytes "DESC" else bytes "ASC".
Lemma starts_app (a b : text) : startsWith (a ++ b) a = true.
Proof. induction a as [|c a IH]; [destruct b; reflexivity|]. cbn. rewrite N.eqb_refl, IH. reflexivity. Qed.
Lemma key_call desc v : var_text v -> OrderKey (order_text desc ++ bytes "(" ++ v ++ bytes ")") = Ok (v, desc).
Proof.
  intros (r & -> & F). unfold OrderKey. destruct desc.
  - replace (startsWith (lowercase (order_text true ++ bytes "(" ++ (63 :: r) ++ bytes ")")) (bytes "desc(")) with true.
    2: { symmetry. unfold lowercase. change (order_text true ++ bytes "(" ++ (63 :: r) ++ bytes ")") with (bytes "DESC(" ++ (63 :: r) ++ bytes ")"). rewrite map_app. apply (starts_app (bytes "desc(")). }
    change (startsWith (lowercase (order_text true ++ bytes "(" ++ (63 :: r) ++ bytes ")")) (bytes "asc(")) with false.
    change (skip_spaces (skipn 5 (order_text true ++ bytes "(" ++ (63 :: r) ++ bytes ")"))) with (63 :: r ++ [41]).
    cbn match. change (tolower 63) with 63. change (63 =? 40) with false. change (63 =? 115) with false. change (63 =? 63) with true. cbn match.
    rewrite key_end_stop by auto. reflexivity.
  - change (startsWith (lowercase (order_text false ++ bytes "(" ++ (63 :: r) ++ bytes ")")) (bytes "desc(")) with false. cbn match.
    replace (startsWith (lowercase (order_text false ++ bytes "(" ++ (63 :: r) ++ bytes ")")) (bytes "asc(")) with true.
    2: { symmetry. unfold lowercase. change (order_text false ++ bytes "(" ++ (63 :: r) ++ bytes ")") with (bytes "ASC(" ++ (63 :: r) ++ bytes ")"). rewrite map_app. apply (starts_app (bytes "asc(")). }
    change (skip_spaces (skipn 4 (order_text false ++ bytes "(" ++ (63 :: r) ++ bytes ")"))) with (63 :: r ++ [41]).
    cbn match. change (tolower 63) with 63. change (63 =? 40) with false. change (63 =? 115) with false. change (63 =? 63) with true. cbn match.
    rewrite key_end_stop by auto. reflexivity.
Qed.
Lemma key_score desc v : var_text v ->
  OrderKey (order_text desc ++ bytes "(" ++ (bytes "SCORE(" ++ v ++ bytes ")") ++ bytes ")") = Ok (bytes "SCORE(" ++ v ++ bytes ")", desc).
Proof.
  intros (r & -> & F). unfold OrderKey.
  set (x := bytes "SCORE(" ++ (63 :: r) ++ bytes ")").
  assert (D : (if startsWith (lowercase (order_text desc ++ bytes "(" ++ x ++ bytes ")")) (bytes "asc(")
     then skip_spaces (skipn 4 (if startsWith (lowercase (order_text desc ++ bytes "(" ++ x ++ bytes ")")) (bytes "desc(")
           then skip_spaces (skipn 5 (order_text desc ++ bytes "(" ++ x ++ bytes ")")) else order_text desc ++ bytes "(" ++ x ++ bytes ")"))
     else if startsWith (lowercase (order_text desc ++ bytes "(" ++ x ++ bytes ")")) (bytes "desc(")
           then skip_spaces (skipn 5 (order_text desc ++ bytes "(" ++ x ++ bytes ")")) else order_text desc ++ bytes "(" ++ x ++ bytes ")") = bytes "SCORE(" ++ 63 :: r ++ [41; 41] /\
     startsWith (lowercase (order_text desc ++ bytes "(" ++ x ++ bytes ")")) (bytes "desc(") = desc).
  { assert (E : lowercase (order_text desc ++ bytes "(" ++ x ++ bytes ")") = (if desc then bytes "desc(" else bytes "asc(") ++ lowercase (x ++ bytes ")")).
    { unfold lowercase. destruct desc; rewrite !map_app; reflexivity. }
    rewrite E. subst x. destruct desc.
    - rewrite (starts_app (bytes "desc(")). split; [|reflexivity].
      change (startsWith (bytes "desc(" ++ lowercase ((bytes "SCORE(" ++ (63 :: r) ++ bytes ")") ++ bytes ")")) (bytes "asc(")) with false. cbn match.
      change (skip_spaces (skipn 5 (order_text true ++ bytes "(" ++ (bytes "SCORE(" ++ (63 :: r) ++ bytes ")") ++ bytes ")"))) with ((bytes "SCORE(" ++ (63 :: r) ++ bytes ")") ++ bytes ")").
      rewrite <- !app_assoc. reflexivity.
    - rewrite (starts_app (bytes "asc(")).
      change (startsWith (bytes "asc(" ++ lowercase ((bytes "SCORE(" ++ (63 :: r) ++ bytes ")") ++ bytes ")")) (bytes "desc(")) with false. cbn match. split; [|reflexivity].
      change (skip_spaces (skipn 4 (order_text false ++ bytes "(" ++ (bytes "SCORE(" ++ (63 :: r) ++ bytes ")") ++ bytes ")"))) with ((bytes "SCORE(" ++ (63 :: r) ++ bytes ")") ++ bytes ")").
      rewrite <- !app_assoc. reflexivity. }
  destruct D as [D1 D2]. cbv zeta. rewrite D1, D2.
  change (bytes "SCORE(" ++ 63 :: r ++ [41; 41]) with (83 :: bytes "CORE(" ++ 63 :: r ++ [41; 41]). cbn match.
  change (tolower 83) with 115. change (115 =? 40) with false. change (115 =? 115) with true. cbn match.
  replace (startsWith (lowercase (83 :: bytes "CORE(" ++ 63 :: r ++ [41; 41])) (bytes "score(")) with true.
  2: { symmetry. unfold lowercase. change (83 :: bytes "CORE(" ++ 63 :: r ++ [41; 41]) with (bytes "SCORE(" ++ 63 :: r ++ [41; 41]). rewrite map_app. apply (starts_app (bytes "score(")). }
  change (skipn 6 (83 :: bytes "CORE(" ++ 63 :: r ++ [41; 41])) with (63 :: r ++ [41; 41]). cbn [skipn firstn].
  change (r ++ [41; 41]) with (r ++ 41 :: [41]). rewrite key_end_stop by auto. reflexivity.
Qed.

(* ---- numbers ---- *)
Lemma strtoll_ok v z : number_value v z -> (- 2 ^ 63 <= z < 2 ^ 63)%Z -> strtoll v = z.
Proof.
  intros [(ds & -> & F & ->)|(ds & -> & F & ->)] B; unfold strtoll.
  - replace (match ds with [] => (false, []) | c :: r => if c =? 45 then (true, r) else (false, ds) end) with (false, ds).
    + fold (PPath_Spec.number ds). lia.
    + destruct F as [|c ds Hc]; [reflexivity|]. do 2 red in Hc. replace (c =? 45) with false by lia. reflexivity.
  - change (45 =? 45) with true. cbn match. fold (PPath_Spec.number ds). lia.
Qed.

(* ---- what is checked at the end ---- *)
Lemma group_ok_ok h : grouped h -> group_ok h = true.
Proof.
  unfold grouped, group_ok. intros [->|H]; [reflexivity|]. destruct (groupBy h) as [|g gs] eqn:E; [reflexivity|].
  apply forallb_forall. intros v Hv. destruct (at_ v 0 =? 63) eqn:E63; [|reflexivity]. cbn [negb orb].
  destruct v as [|c v]; [discriminate|]. unfold at_ in E63. cbn [nth] in E63. assert (c = 63) by lia. subst c. specialize (H _ Hv ltac:(eauto)).
  apply orb_true_iff. destruct H as [H|H].
  - right. apply existsb_exists. eexists. split; [exact H|]. apply text_eqb_refl.
  - left. apply in_map_iff in H. destruct H as (a & Ea & Ha). apply existsb_exists. exists a. split; auto. rewrite Ea. apply text_eqb_refl.
Qed.
Lemma count_in_ok v l : count_in v l = count_occ (list_eq_dec N.eq_dec) l v.
Proof.
  unfold count_in. induction l as [|x l IH]; [reflexivity|]. cbn [List.filter count_occ]. destruct (list_eq_dec N.eq_dec x v) as [->|H].
  - rewrite text_eqb_refl. cbn [length]. congruence.
  - rewrite text_eqb_no by congruence. exact IH.
Qed.
Lemma alias_ok_ok h : (forall a, In a (aliases h) -> once (a_out a) (selected h)) -> Sparql_Model.alias_ok h = true.
Proof.
  intros H. unfold Sparql_Model.alias_ok. apply forallb_forall. intros a Ha. apply Nat.leb_le. rewrite count_in_ok. exact (H a Ha).
Qed.
