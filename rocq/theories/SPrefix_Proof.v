(* Proofs about the expansion of prefixes. *)
From Coq Require Import Ascii String List NArith ZArith Arith Bool Lia ZifyBool ZifyN ZifyNat.
From Verif Require Import Strings_Model SLex_Model Sparql_Model SLex_Spec Strings_Spec SPrefix_Spec SLex_Proof.
From Verif Require Conv_Model PPath_Model Strings_Proof Strings_Thm Sparql_Proof2.
Import ListNotations.
Open Scope N_scope.
Open Scope list_scope.

Lemma starts2 t : startsWith t [94; 94] = true -> exists r, t = 94 :: 94 :: r.
Proof.
  destruct t as [|a [|b r]]; cbn; try discriminate; [destruct (a =? 94); discriminate|].
  destruct (a =? 94) eqn:E; [|discriminate]. destruct (b =? 94) eqn:F; [|discriminate]. intros _. exists r. f_equal; [lia|f_equal; lia].
Qed.
Lemma carets_none t : no_carets t -> find_str [94; 94] t = None.
Proof.
  induction t as [|c t IH]; intros H; [reflexivity|]. cbn [find_str]. destruct (startsWith (c :: t) [94; 94]) eqn:E.
  - apply starts2 in E. destruct E as (r & E). exfalso. apply (H [] r). exact E.
  - rewrite IH; [reflexivity|]. intros a b E'. apply (H (c :: a) b). rewrite E'. reflexivity.
Qed.
Lemma carets_at s b : no_carets s -> forall x, x <> 94 -> find_str [94; 94] (s ++ x :: 94 :: 94 :: b) = Some (S (length s)).
Proof.
  intros H x X. induction s as [|c s IH].
  - cbn [app find_str]. destruct (startsWith (x :: 94 :: 94 :: b) [94; 94]) eqn:E; [apply starts2 in E; destruct E as (r & E); congruence|].
    replace (startsWith (94 :: 94 :: b) [94; 94]) with true by (destruct b; reflexivity). reflexivity.
  - cbn [app find_str]. destruct (startsWith (c :: s ++ x :: 94 :: 94 :: b) [94; 94]) eqn:E.
    + apply starts2 in E. destruct E as (r & E). exfalso. destruct s as [|d s]; [cbn in E; congruence|]. cbn in E. injection E as -> -> _. apply (H [] s). reflexivity.
    + rewrite IH; [reflexivity|]. intros a b' E'. apply (H (c :: a) b'). rewrite E'. reflexivity.
Qed.
Lemma carets_cons c t : c <> 94 -> no_carets t -> no_carets (c :: t).
Proof. intros C H [|x a] b E; cbn in E; [congruence|]. injection E as -> E. apply (H a b E). Qed.
Lemma carets_free t : ~ In 94 t -> no_carets t.
Proof. intros H a b ->. apply H. apply in_or_app. right. left. reflexivity. Qed.
Lemma carets_app a b : no_carets a -> no_carets b -> forall c, c <> 94 -> no_carets (a ++ c :: b).
Proof.
  intros Ha Hb c C. induction a as [|x a IH]; [apply carets_cons; auto|]. intros [|y u] v E.
  - cbn in E. destruct a as [|x2 a]; [cbn in E; congruence|]. cbn in E. injection E as -> -> _. apply (Ha [] a). reflexivity.
  - cbn in E. injection E as -> E. apply (fun K => IH K u v E). intros p q ->. apply (Ha (y :: p) q). reflexivity.
Qed.
Lemma colon_at p l : ~ In 58 p -> find_char (N.eqb 58) (p ++ 58 :: l) = Some (length p).
Proof. intros H. apply Strings_Proof.find_char_app; [|reflexivity]. apply Forall_forall. intros x I. destruct (58 =? x) eqn:E; [|reflexivity]. exfalso. apply H. replace 58 with x by lia. exact I. Qed.
Lemma no_colon t : ~ In 58 t -> find_char (N.eqb 58) t = None.
Proof. intros H. apply Strings_Proof.find_char_all. apply Forall_forall. intros x I. destruct (58 =? x) eqn:E; [|reflexivity]. exfalso. apply H. replace 58 with x by lia. exact I. Qed.

Lemma uri_in m p u : prefix_uri m p = Some u -> In (p, u) m.
Proof.
  induction m as [|[k v] m IH]; [discriminate|]. cbn [prefix_uri]. destruct (prefix_uri m p) as [u'|]; [intros E; injection E as ->; right; auto|].
  destruct (text_eqb k p) eqn:K; [|discriminate]. intros E. injection E as ->. apply text_eqb_ok in K. subst k. left. reflexivity.
Qed.
Lemma uri_declared ps p u : declared ps p u -> prefix_uri (prefix_map ps) p = Some u.
Proof.
  unfold declared, prefix_map. intros (a & b & E & I).
  match type of E with ?m = _ => assert (K : prefix_uri m p = Some u) end; [|exact K]. rewrite E. clear E. induction a as [|[k v] a IH]; cbn [app prefix_uri].
  - destruct (prefix_uri b p) as [v|] eqn:E; [exfalso; apply I; apply uri_in in E; apply (in_map fst) in E; exact E|].
    replace (text_eqb p p) with true by (symmetry; apply text_eqb_ok; reflexivity). reflexivity.
  - rewrite IH. reflexivity.
Qed.

Section Names.
Variable ps : list (text * text).
Hypothesis G : Forall good_declaration ps.

Lemma good_all : Forall good_declaration (prefix_map ps).
Proof.
  constructor; [|exact G]. split; [repeat (apply Forall_cons; [cbn; intuition discriminate|]); apply Forall_nil|].
  exists (bytes "QLever-internal-function/"). split; [reflexivity|]. vm_compute. intuition discriminate.
Qed.
Lemma undeclared p c : In c p -> In c [34; 58; 60; 63; 64; 94] -> prefix_uri (prefix_map ps) p = None.
Proof.
  intros I J. destruct (prefix_uri (prefix_map ps) p) as [u|] eqn:E; [|reflexivity]. apply uri_in in E.
  pose proof (proj1 (Forall_forall _ _) good_all _ E) as [K _]. cbn in K. exfalso. apply (proj1 (Forall_forall _ _) K c I). exact J.
Qed.
Lemma declared_good p u : declared ps p (60 :: u ++ [62]) -> good_prefix p /\ ~ In 92 u.
Proof.
  intros D. apply uri_declared, uri_in in D. pose proof (proj1 (Forall_forall _ _) good_all _ D) as [K (u' & E & I)]. cbn in K, E.
  split; auto. injection E as E. apply app_inj_tail in E. destruct E as [-> _]. exact I.
Qed.
Lemma good_not p c : good_prefix p -> In c [34; 58; 60; 63; 64; 94] -> ~ In c p.
Proof. intros H J I. apply (proj1 (Forall_forall _ _) H c I J). Qed.
Lemma escaped_same a b u s : ~ In 92 a -> escaped local_escape False False u s -> escaped local_escape False False (a ++ u ++ [b]) (a ++ s ++ [b]) \/ b = 92.
Proof.
  intros I H. destruct (N.eq_dec b 92) as [->|B]; [now right|left].
  induction a as [|c a IH]; cbn [app].
  - clear I. induction H; cbn [app]; try (constructor; auto; fail); try contradiction. apply es_char; auto. constructor.
  - apply es_char; [intros ->; apply I; now left|]. apply IH. intros J. apply I. now right.
Qed.

(* expand_name for a name behind a text that ends with carets, or with nothing before it *)
Lemma expand_unprefixed t : no_carets t -> (forall p r, t = p ++ 58 :: r -> ~ In 58 p -> prefix_uri (prefix_map ps) p = None) -> expand_name (prefix_map ps) t = Ok t.
Proof.
  intros H K. unfold expand_name. rewrite carets_none by auto. destruct (find_char (N.eqb 58) t) as [i|] eqn:E; [|reflexivity].
  apply Strings_Proof.find_char_some in E. cbn [Nat.leb]. destruct E as (a & c & b & -> & <- & E1 & E2). assert (c = 58) by lia. subst c.
  unfold substr. cbn [skipn]. rewrite Nat.sub_0_r, firstn_app, firstn_all, Nat.sub_diag. cbn [firstn]. rewrite app_nil_r. rewrite (K a b); [reflexivity|reflexivity|].
  intros J. apply (proj1 (Forall_forall _ _) E2) in J. cbv beta in J. lia.
Qed.
Definition begin (t : text) : nat := match find_str [94; 94] t with Some i => (i + 2)%nat | None => O end.
Lemma expand_at x p l l' u : begin (x ++ p ++ 58 :: l) = length x -> ~ In 58 x -> ~ In 92 x -> declared ps p (60 :: u ++ [62]) ->
  escaped local_escape False False l l' -> expand_name (prefix_map ps) (x ++ p ++ 58 :: l) = Ok (x ++ 60 :: u ++ l' ++ [62]).
Proof.
  intros B C K D E. destruct (declared_good p u D) as [Gp Gu]. unfold expand_name. fold (begin (x ++ p ++ 58 :: l)). rewrite B.
  rewrite app_assoc. rewrite colon_at. 2: { intros J. apply in_app_or in J. destruct J as [J|J]; [auto|]. apply (good_not p 58 Gp); auto. cbn; auto. }
  rewrite app_length. replace (Nat.leb (length x) (length x + length p)) with true by (symmetry; apply Nat.leb_le; lia).
  replace (length x + length p - length x)%nat with (length p) by lia. unfold substr. rewrite <- app_assoc. rewrite skipn_app, skipn_all, Nat.sub_diag. cbn [skipn app].
  rewrite firstn_app, firstn_all, Nat.sub_diag. cbn [firstn]. rewrite app_nil_r. rewrite (uri_declared ps p _ D).
  rewrite firstn_app, firstn_all, Nat.sub_diag. cbn [firstn]. rewrite app_nil_r.
  replace (skipn (length x + length p + 1) (x ++ p ++ 58 :: l)) with l.
  2: { rewrite app_assoc. change ((x ++ p) ++ 58 :: l) with ((x ++ p) ++ [58] ++ l). rewrite app_assoc. rewrite skipn_app. replace (length x + length p + 1)%nat with (length ((x ++ p) ++ [58])) by (rewrite !app_length; reflexivity).
       rewrite skipn_all, Nat.sub_diag. reflexivity. }
  replace (drop_last 1 (60 :: u ++ [62])) with (60 :: u).
  2: { unfold drop_last. cbn [length]. rewrite app_length. cbn [length]. replace (S (length u + 1) - 1)%nat with (S (length u)) by lia. cbn [firstn]. f_equal. rewrite firstn_app, firstn_all, Nat.sub_diag. cbn. rewrite app_nil_r. reflexivity. }
  replace (unescapePrefixedIri (x ++ (60 :: u) ++ l ++ [62])) with (Strings_Model.Val (x ++ 60 :: u ++ l' ++ [62])); [reflexivity|]. symmetry.
  apply Strings_Thm.C51_prefixed_name. destruct (escaped_same (x ++ 60 :: u) 62 l l') as [Q|Q]; auto.
  - intros J. apply in_app_or in J. destruct J as [J|[J|J]]; [auto|discriminate|auto].
  - rewrite <- !app_assoc in Q. exact Q.
  - discriminate.
Qed.
Lemma expand_iri_at x v : begin (x ++ 60 :: v) = length x -> expand_name (prefix_map ps) (x ++ 60 :: v) = Ok (x ++ 60 :: v).
Proof.
  intros B. unfold expand_name. fold (begin (x ++ 60 :: v)). rewrite B. destruct (find_char (N.eqb 58) (x ++ 60 :: v)) as [i|] eqn:E; [|reflexivity].
  destruct (Nat.leb (length x) i) eqn:L; [|reflexivity]. apply Nat.leb_le in L.
  apply Strings_Proof.find_char_some in E. destruct E as (a & c & b & E & <- & E1 & E2). assert (c = 58) by lia. subst c.
  assert (A : exists a', a = x ++ 60 :: a').
  { clear - E L. revert a E L. induction x as [|y x IH]; intros [|d a] E L; cbn in E, L.
    - discriminate.
    - injection E as <- _. exists a. reflexivity.
    - lia.
    - injection E as <- E. destruct (IH a E ltac:(lia)) as (a' & ->). exists a'. reflexivity. }
  destruct A as (a' & ->). rewrite E. unfold substr. rewrite <- app_assoc. rewrite skipn_app, skipn_all, Nat.sub_diag. cbn [skipn app].
  rewrite app_length. cbn [length]. replace (length x + S (length a') - length x)%nat with (S (length a')) by lia. cbn [firstn].
  rewrite (undeclared _ 60); [reflexivity|left; reflexivity|cbn; tauto].
Qed.
Lemma begin_none t : no_carets t -> begin t = 0%nat.
Proof. intros H. unfold begin. rewrite carets_none; auto. Qed.
Lemma begin_typed s t : no_carets s -> begin ((34 :: s ++ [34; 94; 94]) ++ t) = length (34 :: s ++ [34; 94; 94]).
Proof.
  intros H. unfold begin. cbn [app]. rewrite <- app_assoc. cbn [app]. change (34 :: s ++ 34 :: 94 :: 94 :: t) with ((34 :: s) ++ 34 :: 94 :: 94 :: t). rewrite carets_at; [|apply carets_cons; [discriminate|auto]|discriminate].
  cbn [length]. rewrite app_length. cbn [length]. lia.
Qed.
Lemma name_carets p l u : declared ps p (60 :: u ++ [62]) -> no_carets l -> no_carets (p ++ 58 :: l).
Proof.
  intros D H. destruct (declared_good p u D) as [Gp _]. apply carets_app; auto; [|discriminate]. apply carets_free. apply good_not; auto. cbn; tauto.
Qed.
Lemma names_expand t t' : names ps t t' -> expand_name (prefix_map ps) t = Ok t'.
Proof.
  intros [v H|p l l' u D H E].
  - apply (expand_iri_at []). cbn [app length]. apply begin_none. apply carets_cons; [discriminate|auto].
  - apply (expand_at []); auto; try (intros []). cbn [app length]. apply begin_none. eapply name_carets; eauto.
Qed.
Lemma names_typed s t t' : no_carets s -> ~ In 58 s -> ~ In 92 s -> names ps t t' ->
  expand_name (prefix_map ps) ((34 :: s ++ [34; 94; 94]) ++ t) = Ok ((34 :: s ++ [34; 94; 94]) ++ t').
Proof.
  intros H C K [v _|p l l' u D Hl E].
  - apply expand_iri_at. apply begin_typed; auto.
  - apply expand_at; auto; [apply begin_typed; auto| |]; (intros [J|J]; [discriminate|]); apply in_app_or in J; destruct J as [J|J]; auto; cbn in J; intuition discriminate.
Qed.
Lemma first_not p c l : good_prefix p -> In c [34; 60; 63; 64; 94] -> startsWith (p ++ 58 :: l) [c] = false.
Proof.
  intros Gp I. destruct p as [|x p]; cbn [app].
  - cbn [startsWith]. replace (58 =? c) with false; [reflexivity|]. cbn in I. lia.
  - cbn [startsWith]. replace (x =? c) with false; [reflexivity|]. symmetry. apply N.eqb_neq. intros ->.
    apply (good_not (c :: p) c Gp); [cbn in *; tauto|left; reflexivity].
Qed.
Lemma head_undeclared c t : In c [34; 94] -> no_carets (c :: t) -> expand_name (prefix_map ps) (c :: t) = Ok (c :: t).
Proof.
  intros I H. apply expand_unprefixed; auto. intros p r E J. destruct p as [|x p]; cbn in E; [injection E as -> _; cbn in I; lia|]. injection E as <- _.
  apply (undeclared (c :: p) c); [left; reflexivity|cbn in *; tauto].
Qed.
Lemma startsWith1 c x t : startsWith (x :: t) [c] = (x =? c).
Proof. destruct t; cbn [startsWith]; destruct (x =? c); reflexivity. Qed.
Theorem stands_expand t t' : stands ps t t' -> expandPrefix (prefix_map ps) t = Ok t'.
Proof.
  intros H. unfold expandPrefix. destruct H as [v|v|t t' H|g t t' I H|s H|s v H|s t t' H C K J|t H|t H1 H2].
  - rewrite startsWith1. reflexivity.
  - rewrite !startsWith1. reflexivity.
  - pose proof (names_expand t t' H) as E. destruct H as [v H|p l l' u D H El]; [rewrite !startsWith1; reflexivity|].
    destruct (declared_good p u D) as [Gp _]. rewrite !first_not by (auto; cbn; tauto). cbn [orb]. exact E.
  - rewrite !startsWith1. change (64 =? 63) with false. change (64 =? 60) with false. change (64 =? 64) with true. cbn [orb].
    unfold find_from. cbn [skipn]. rewrite Strings_Proof.find_char_app; [| |reflexivity].
    2: { apply Forall_forall. intros x J. destruct (64 =? x) eqn:E; [|reflexivity]. exfalso. apply I. replace 64 with x by lia. exact J. }
    cbn [option_map]. replace (skipn (1 + length g + 1) (64 :: g ++ 64 :: t)) with t.
    2: { replace (64 :: g ++ 64 :: t) with ((64 :: g ++ [64]) ++ t) by (cbn [app]; rewrite <- app_assoc; reflexivity).
         replace (1 + length g + 1)%nat with (length (64 :: g ++ [64])) by (cbn [length]; rewrite app_length; cbn; lia). rewrite skipn_app, skipn_all, Nat.sub_diag. reflexivity. }
    rewrite (names_expand t t' H). cbn [bind]. unfold substr. cbn [skipn]. replace (1 + length g - 1)%nat with (length g) by lia.
    rewrite firstn_app, firstn_all, Nat.sub_diag. cbn [firstn]. rewrite app_nil_r. reflexivity.
  - rewrite !startsWith1. cbn [orb]. apply head_undeclared; [cbn; tauto|apply carets_cons; [discriminate|auto]].
  - rewrite !startsWith1. cbn [orb]. pose proof (expand_iri_at (34 :: s ++ [34; 94; 94]) v (begin_typed s _ H)) as E. cbn [app] in E. rewrite <- !app_assoc in E. exact E.
  - rewrite !startsWith1. cbn [orb]. pose proof (names_typed s t t' H C K J) as E. cbn [app] in E. rewrite <- !app_assoc in E. exact E.
  - rewrite !startsWith1. cbn [orb]. apply head_undeclared; [cbn; tauto|auto].
  - assert (E : expand_name (prefix_map ps) t = Ok t). { unfold expand_name. rewrite no_colon by auto. reflexivity. }
    destruct (startsWith t [63] || startsWith t [60]); [reflexivity|]. destruct t as [|x t]; [exact E|]. rewrite startsWith1. destruct (x =? 64) eqn:X; [|exact E].
    exfalso. apply (H2 t). f_equal. lia.
Qed.

(* ---- patterns ---- *)
Lemma map_out_ok {A B} (f : A -> out B) (R : A -> B -> Prop) (H : forall a b, R a b -> f a = Ok b) l l' : Forall2 R l l' -> map_out f l = Ok l'.
Proof. induction 1 as [|a b l l' E _ IH]; [reflexivity|]. cbn [map_out]. rewrite (H a b E). cbn [bind]. rewrite IH. reflexivity. Qed.
Notation m := (prefix_map ps).
Definition go_paths := fix go (l : list path) : out (list path) :=
  match l with [] => Ok [] | p :: l' => bind (expand_path m p) (fun a => bind (go l') (fun r => Ok (a :: r))) end.
Lemma expand_path_inner o l i cs n : o <> PPath_Model.IRI -> expand_path m (PPath_Model.Path o l i cs n) = bind (go_paths cs) (fun cs' => Ok (PPath_Model.Path o l i cs' n)).
Proof. intros H. destruct o; try contradiction; reflexivity. Qed.
Scheme path_stands_ind2 := Minimality for path_stands Sort Prop
with paths_stand_ind2 := Minimality for paths_stand Sort Prop.
Lemma path_expand p p' : path_stands ps p p' -> expand_path m p = Ok p'.
Proof.
  intros H. induction H using path_stands_ind2 with (P0 := fun l l' => go_paths l = Ok l').
  - cbn [expand_path]. rewrite (stands_expand i i') by auto. reflexivity.
  - rewrite expand_path_inner by auto. rewrite IHpath_stands. reflexivity.
  - reflexivity.
  - cbn [go_paths]. rewrite IHpath_stands. cbn [bind]. fold go_paths. rewrite IHpath_stands0. reflexivity.
Qed.
Lemma starts_app a b : startsWith (a ++ b) a = true.
Proof. induction a as [|c a IH]; [destruct b; reflexivity|]. cbn [app startsWith]. rewrite N.eqb_refl, IH. reflexivity. Qed.
Lemma starts_some : forall pat s, startsWith s pat = true -> exists r, s = pat ++ r.
Proof.
  induction pat as [|c pat IH]; intros s H; [exists s; reflexivity|]. destruct s as [|d s]; [discriminate|]. cbn [startsWith] in H.
  apply andb_true_iff in H. destruct H as [H1 H2]. destruct (IH s H2) as (r & ->). exists r. cbn. f_equal. lia.
Qed.
Lemma find_str_in pat s : (exists i, find_str pat s = Some i) <-> exists a b, s = a ++ pat ++ b.
Proof.
  split.
  - intros (i & H). revert i H. induction s as [|c s IH]; intros i; cbn [find_str].
    + destruct (startsWith [] pat) eqn:E; [|discriminate]. intros _. apply starts_some in E. destruct E as (r & E). exists [], r. exact E.
    + destruct (startsWith (c :: s) pat) eqn:E; [intros _; apply starts_some in E; destruct E as (r & E); exists [], r; exact E|].
      destruct (find_str pat s) as [j|]; [|discriminate]. intros _. destruct (IH j eq_refl) as (a & b & ->). exists (c :: a), b. reflexivity.
  - intros (a & b & ->). induction a as [|c a (i & IH)].
    + cbn [app]. destruct (pat ++ b) as [|x y] eqn:E; cbn [find_str]; rewrite <- E, starts_app; eauto.
    + cbn [app find_str]. destruct (startsWith (c :: a ++ pat ++ b) pat); [eauto|]. rewrite IH. cbn. eauto.
Qed.
Lemma triple_expand t t' : triple_stands ps t t' -> expand_triple m t = Ok t'.
Proof.
  intros [s s' p p' o o' Hs Hp C Ho|s s' p p' o o' Hs Hp C Ho]; unfold expand_triple; cbn [t_s t_p t_o]; rewrite (stands_expand _ _ Hs); cbn [bind]; rewrite (path_expand _ _ Hp); cbn [bind].
  - replace (match p' with PPath_Model.Path PPath_Model.IRI _ iri _ _ => match find_str (bytes "in-context") iri with Some _ => true | None => false end | _ => false end) with false.
    + rewrite (stands_expand _ _ Ho). reflexivity.
    + destruct p' as [[] l i cs n]; try reflexivity. destruct (find_str (bytes "in-context") i) as [k|] eqn:E; [|reflexivity]. exfalso. apply C. unfold in_context. apply find_str_in. eauto.
  - replace (match p' with PPath_Model.Path PPath_Model.IRI _ iri _ _ => match find_str (bytes "in-context") iri with Some _ => true | None => false end | _ => false end) with true.
    + destruct Ho as (ws & ws' & W & F & F2 & -> & ->). rewrite <- (Strings_Proof.join_glue ws). rewrite Strings_Thm.C39_split_join; auto.
      * rewrite (map_out_ok _ _ stands_expand ws ws' F2). cbn [bind]. rewrite Strings_Proof.join_glue. reflexivity.
      * intros ->. inversion F as [|? ? [_ K] _]. congruence.
      * eapply Forall_impl; [|exact F]. intros a [K _]. exact K.
    + destruct p' as [[] l i cs n]; unfold in_context in C; try contradiction. apply find_str_in in C. destruct C as (k & ->). reflexivity.
Qed.
Lemma filter_expand f f' : filter_stands ps f f' -> expand_filter m f = Ok f'.
Proof.
  intros [l l' r al ap i s H|ty l l' r r' al ap i s T H1 H2]; unfold expand_filter; cbn [f_lhs f_rhs f_type f_additionalLhs f_additionalPrefixes f_ignoreCase f_lhsAsString].
  - rewrite (stands_expand _ _ H). reflexivity.
  - rewrite (stands_expand _ _ H1). cbn [bind]. destruct ty; try contradiction; rewrite (stands_expand _ _ H2); reflexivity.
Qed.
Lemma nameless_same fs fs' : Forall2 (filter_stands ps) fs fs' -> Forall (nameless ps) fs -> fs' = fs.
Proof.
  induction 1 as [|f f' fs fs' H _ IH]; intros K; [reflexivity|]. inversion K as [|? ? K1 K2]; subst. f_equal; auto.
  apply filter_expand in H. apply filter_expand in K1. congruence.
Qed.
Lemma bind_expand e e' : bind_stands ps e e' -> expand_bind m e = Ok e'.
Proof.
  intros [v v' H|z|v v' H|a a' b b' op H1 H2]; unfold expand_bind.
  - rewrite (stands_expand _ _ H). reflexivity.
  - reflexivity.
  - rewrite (stands_expand _ _ H). reflexivity.
  - rewrite (stands_expand _ _ H1). cbn [bind]. rewrite (stands_expand _ _ H2). reflexivity.
Qed.
Lemma head_expand qs h h' : head_stands ps qs h h' -> head_nameless ps h ->
  h' = Head qs (selected h) (having h) (numPatterns h) (orderBy h) (groupBy h) (limit h) (textLimit h) (offset h) (reduced h) (distinct h) (aliases h).
Proof. intros [] K. cbn. f_equal. apply nameless_same; auto. Qed.
Definition go_ops := fix go (l : list operation) : out (list operation) :=
  match l with [] => Ok [] | c :: l' => bind (expand_operation ps c) (fun c => bind (go l') (fun r => Ok (c :: r))) end.
Scheme op_stands_ind2 := Minimality for op_stands Sort Prop
with pattern_stands_ind2 := Minimality for pattern_stands Sort Prop
with ops_stand_ind2 := Minimality for ops_stand Sort Prop.
Combined Scheme op_stands_mut from op_stands_ind2, pattern_stands_ind2, ops_stand_ind2.
Definition root_ok (g g' : pattern) : Prop :=
  match g, g' with Pattern opt id fs cs, Pattern opt' id' fs' cs' =>
    ops_nameless ps cs -> opt' = opt /\ id' = id /\ map_out (expand_filter m) fs = Ok fs' /\ go_ops cs = Ok cs' end.
Lemma pattern_expand :
  (forall o o', op_stands ps o o' -> op_nameless ps o -> expand_operation ps o = Ok o') /\
  (forall g g', pattern_stands ps g g' -> (group_nameless ps g -> expand_pattern ps g = Ok g') /\ root_ok g g') /\
  (forall l l', ops_stand ps l l' -> ops_nameless ps l -> go_ops l = Ok l').
Proof.
  apply op_stands_mut.
  - intros ts ts' H _. cbn [expand_operation]. rewrite (map_out_ok _ _ triple_expand _ _ H). reflexivity.
  - intros vars rows rows' H _. cbn [expand_operation]. rewrite (map_out_ok _ _ (map_out_ok _ _ stands_expand) _ _ H). reflexivity.
  - intros e e' v H _. cbn [expand_operation]. rewrite (bind_expand _ _ H). reflexivity.
  - intros g g' _ [IH _] K. inversion K; subst. cbn [expand_operation]. rewrite IH by auto. reflexivity.
  - intros g g' _ [IH _] K. inversion K; subst. cbn [expand_operation]. rewrite IH by auto. reflexivity.
  - intros a a' b b' _ [IH1 _] _ [IH2 _] K. inversion K; subst. cbn [expand_operation]. rewrite IH1 by auto. cbn [bind]. rewrite IH2 by auto. reflexivity.
  - intros h h' g g' Hh _ [_ IH] K. inversion K as [| | | | | |h0 opt id fs cs K1 K2]; subst. destruct g' as [opt' id' fs' cs']. destruct (IH K2) as (-> & -> & E1 & E2).
    cbn [expand_operation]. rewrite E1. cbn [bind]. fold go_ops. rewrite E2. cbn [bind]. rewrite (head_expand _ _ _ Hh K1). reflexivity.
  - intros opt id fs fs' cs cs' F _ IH. split.
    + intros K. inversion K; subst. cbn [expand_pattern]. fold go_ops. rewrite IH by auto. cbn [bind]. rewrite (nameless_same fs fs') by auto. reflexivity.
    + intros K. repeat split; auto. apply (map_out_ok _ _ filter_expand); auto.
  - intros _. reflexivity.
  - intros o o' l l' _ IH1 _ IH2 K. inversion K; subst. cbn [go_ops]. rewrite IH1 by auto. cbn [bind]. fold go_ops. rewrite IH2 by auto. reflexivity.
Qed.
End Names.
Theorem query_expand h g q : Forall good_declaration (prefixes h) -> query_stands (Query h g) q -> query_nameless (Query h g) -> expandPrefixes (Query h g) = Ok q.
Proof.
  intros G H K. inversion H as [h0 h' g0 g' Hh Hg]; subst. inversion K as [h0 opt id fs cs K1 K2]; subst.
  destruct (proj1 (proj2 (pattern_expand (prefixes h) G)) _ _ Hg) as [_ R]. destruct g' as [opt' id' fs' cs']. destruct (R K2) as (-> & -> & E1 & E2).
  unfold expandPrefixes. rewrite E1. cbn [bind expand_pattern]. fold (go_ops (prefixes h)). rewrite E2. cbn [bind].
  rewrite (head_expand (prefixes h) G _ _ _ Hh K1). destruct h; reflexivity.
Qed.
