(* Proofs: the nodes of the collapsed graph, and the answer of the text operation of a clique. *)
From Coq Require Import String Ascii List NArith Arith Bool Lia Permutation Sorted.
From Verif Require Import Table_Spec Plan_Spec Fts_Spec Fts_Model Fts_Proof Fts_Proof7 TextIndex_Spec TextIndex_Model Postings_Model TextOp_Spec TextOp_Model TextOp_Proof TextOp_Proof2 TextOp_Thm
  Empty_Model Clique_Spec Clique_Model Clique_Proof Clique_Proof2 Clique_Proof3 Clique_Proof4 TextIndex_Thm.
From Verif Require Empty_Thm Plan_Model TextIndex_Proof7.
Import ListNotations.
Local Open Scope nat_scope.

Lemma constants_nonempty a : Forall proper a -> Forall (fun t => text_triple t = true) a -> Forall (fun w => w <> ""%string) (constants a).
Proof.
  intros F G. apply Forall_forall. intros w Hw. unfold constants in Hw. apply filter_In in Hw. destruct Hw as [Hw _].
  apply in_map_iff in Hw. destruct Hw as (t & <- & Ht). rewrite Forall_forall in F, G. now apply (F t Ht (G t Ht)).
Qed.
Lemma about_in c ts t : In t (about c ts) <-> In t ts /\ text_triple t = true /\ fst (fst t) = c.
Proof. unfold about. rewrite filter_In, andb_true_iff, String.eqb_eq. tauto. Qed.

Definition clique_of (ts : list pattern) (nd : node) : Prop :=
  about (n_cvar nd) ts <> [] /\
  n_words nd = String.concat " " (constants (about (n_cvar nd) ts)) /\
  n_triple nd = (n_cvar nd, "<QLever-internal-function/text>"%string, n_words nd) /\
  NoDup (n_vars nd) /\ forall v, In v (n_vars nd) <-> v = n_cvar nd \/ exists t, In t (about (n_cvar nd) ts) /\ occurs v t.
Definition single (t : pattern) (nd : node) : Prop :=
  text_triple t = false /\ n_triple nd = t /\ n_cvar nd = ""%string /\ n_words nd = ""%string /\
  NoDup (n_vars nd) /\ forall v, In v (n_vars nd) <-> occurs v t.

Section Nodes.
Variables (ts : list pattern) (g : graph) (order : list clique -> list clique).
Hypothesis B : built ts g.
Hypothesis P : forall l, Permutation l (order l).
Hypothesis OK : Forall proper ts.
Notation cl := (order (identifyTextCliques g)).

Lemma node_right k nd a : nth_error (nodes (collapseTextCliques order g)) k = Some nd -> nth_error (groups ts cl) k = Some a ->
  n_id nd = k /\ ((exists t, a = [t] /\ single t nd) \/ a = about (n_cvar nd) ts /\ clique_of ts nd).
Proof.
  intros H Ha. rewrite (collapse_nodes ts g B order (P _)) in H. rewrite group_at in Ha. unfold node_at in H. unfold members in Ha.
  rewrite (nth_error_app_len _ _ (length cl)) in Ha by apply map_length.
  destruct (k <? length cl).
  - destruct (nth_error cl k) as [[c l]|] eqn:E; [|discriminate]. injection H as <-. split; [reflexivity|]. right.
    assert (El : nth_error (map snd cl) k = Some l) by exact (map_nth_error snd _ _ E). unfold clique in *. rewrite El in Ha. injection Ha as <-.
    pose proof (cl_facts ts g B cl (P _)) as [_ F]. pose proof (nth_error_In _ _ E) as Hin. apply F in Hin. destruct Hin as [Hl Hne].
    assert (Ht : triples ts l = about c ts) by (rewrite Hl; apply triples_about).
    assert (Hab : about c ts <> []).
    { destruct l as [|i l']; [congruence|]. assert (Hi : sel ts c i = true).
      { assert (Q : In i (filter (sel ts c) (seq 0 (length ts)))) by (rewrite <- Hl; now left). apply filter_In in Q. tauto. }
      apply sel_text in Hi. destruct Hi as (t & T1 & _). rewrite <- Ht. unfold triples. cbn [flat_map]. rewrite T1. discriminate. }
    unfold clique_node. cbn [fst snd]. rewrite (triples_eq ts g B), Ht. cbn [n_cvar text_node]. split; auto.
    assert (Fa : Forall (fun t => subject t = c /\ (variableb (object t) = false -> object t <> ""%string)) (about c ts)).
    { apply Forall_forall. intros t Hin. apply about_in in Hin. destruct Hin as (I1 & I2 & I3). rewrite Forall_forall in OK.
      destruct (OK t I1 I2) as (_ & _ & N). split; auto. }
    assert (V : variable c).
    { destruct (about c ts) as [|t a] eqn:Ea; [congruence|]. assert (Hin : In t (about c ts)) by (rewrite Ea; now left).
      apply about_in in Hin. destruct Hin as (I1 & I2 & I3). rewrite Forall_forall in OK. destruct (OK t I1 I2) as (V & _). congruence. }
    unfold clique_of. cbn [n_cvar text_node n_words n_vars n_triple]. split; auto. rewrite (words_spaced c _ V Fa), spaced_concat. split; auto. split; [reflexivity|].
    split; [apply sorted_nodup, insert_all_sorted, set_insert_sorted; constructor|].
    intros v. rewrite insert_all_in, set_insert_in. cbn [In]. tauto.
  - change (R ts (order (identifyTextCliques g))) with (R ts cl) in *. destruct (nth_error (R ts cl) (k - length cl)) as [i|] eqn:E; [|discriminate].
    rewrite (map_nth_error (fun i => [i]) _ _ E) in Ha. injection Ha as <-. destruct (nth_error ts i) as [t|] eqn:Et; [|discriminate].
    injection H as <-. split; [reflexivity|]. left. exists t.
    split; [reflexivity|].
    pose proof (nth_error_In _ _ E) as Hi. apply (R_in ts g B cl (P _)) in Hi. destruct Hi as [_ Hi]. unfold textb in Hi. rewrite Et, text_pred_triple in Hi.
    unfold single. cbn [triple_node n_triple n_cvar n_words n_vars]. split; auto. split; auto. split; auto. split; auto.
    split; [apply sorted_nodup, insert_vars_sorted; constructor|]. intros v. rewrite insert_vars_in. cbn [In]. tauto.
Qed.
End Nodes.

(* ---------- the answer ---------- *)
Lemma holds_split M f x a : forallb (holds M f x) a =
  forallb (fun w => mentions (M w) x) (concat (map words_of (constants a))) &&
  forallb (fun v => match f v with Some e => existsb (N.eqb e) (map fst (c_ents x)) | None => false end) (filter variableb (map snd a)).
Proof.
  induction a as [|t a IH]; [reflexivity|]. cbn [forallb]. rewrite IH. unfold constants. cbn [map filter]. destruct t as [[s p] o]. cbn [holds snd].
  destruct (variableb o); cbn [negb map concat forallb].
  - destruct (match f o with Some _ => _ | None => _ end); cbn [andb]; auto. now rewrite andb_false_r.
  - rewrite forallb_app. now rewrite andb_assoc.
Qed.

Section Answer.
Variables (bounds : list N) (cs : list context).
Hypothesis C : corpus bounds cs.

Lemma ids_nodup : NoDup (map c_id cs).
Proof.
  pose proof (co_contexts _ _ C) as S. induction S as [|x l S IH F]; constructor; auto. intros Q. rewrite Forall_forall in F. apply F in Q. lia.
Qed.
Lemma ids_inj x y : In x cs -> In y cs -> c_id x = c_id y -> x = y.
Proof.
  pose proof ids_nodup as Nd. revert Nd. generalize cs as l. induction l as [|z l IH]; intros Nd Hx Hy E; [destruct Hx|]. inversion Nd as [|? ? N1 N2]; subst.
  destruct Hx as [->|Hx], Hy as [->|Hy]; auto.
  - destruct N1. rewrite E. now apply in_map.
  - destruct N1. rewrite <- E. now apply in_map.
Qed.
Lemma entities_nodup (f : context -> bool) : NoDup (map fst (flat_map entities_of (filter f cs))).
Proof.
  pose proof ids_nodup as Nd. pose proof (co_ents _ _ C) as E. revert Nd E. generalize cs as l. induction l as [|x l IH]; intros Nd E; [constructor|].
  inversion Nd as [|? ? N1 N2]; subst. assert (IH' := IH N2 (fun c H => E c (or_intror H))). cbn [filter]. destruct (f x); auto.
  cbn [flat_map]. rewrite map_app. assert (Q : map fst (entities_of x) = map (fun e => (c_id x, e)) (map fst (c_ents x))).
  { unfold entities_of. now rewrite !map_map. }
  rewrite Q. assert (Nx : NoDup (map (fun e => (c_id x, e)) (map fst (c_ents x)))).
  { apply FinFun.Injective_map_NoDup; [|apply E; now left]. intros a b H. now injection H. }
  revert Nx. generalize (map fst (c_ents x)) as l0. induction l0 as [|e es IHe]; cbn [map app]; auto. intros Nx. inversion Nx; subst. constructor; auto.
  intros Q'. apply in_app_or in Q'. destruct Q' as [Q'|Q']; [contradiction|]. apply in_map_iff in Q'. destruct Q' as (p & Ep & Hp).
  apply in_flat_map in Hp. destruct Hp as (y & Hy & Hp). apply filter_In in Hy. destruct Hy as [Hy _]. unfold entities_of in Hp.
  apply in_map_iff in Hp. destruct Hp as (q & <- & _). cbn in Ep. injection Ep as E1 _. apply N1. rewrite <- E1. now apply in_map.
Qed.

Variables (ps : list posting) (f : context -> bool).
Hypothesis Hps : Permutation (map fst ps) (map fst (flat_map entities_of (filter f cs))).

Lemma ps_pairs : map (fun p => (p_cid p, p_eid p)) ps = map fst ps.
Proof. apply map_ext. intros [[a b] s]. reflexivity. Qed.
Lemma ps_one : one_per_context ps.
Proof. unfold one_per_context. rewrite ps_pairs. apply (Permutation_NoDup (Permutation_sym Hps)), entities_nodup. Qed.
Lemma ps_in c e : In (c, e) (map (fun p => (p_cid p, p_eid p)) ps) <-> exists x, In x cs /\ f x = true /\ c_id x = c /\ In e (map fst (c_ents x)).
Proof.
  rewrite ps_pairs. split.
  - intros H. apply (Permutation_in _ Hps) in H. apply in_map_iff in H. destruct H as (p & Ep & Hp). apply in_flat_map in Hp.
    destruct Hp as (x & Hx & Hp). apply filter_In in Hx. destruct Hx as [Hx Fx]. unfold entities_of in Hp. apply in_map_iff in Hp.
    destruct Hp as (q & <- & Hq). cbn in Ep. injection Ep as <- <-. exists x. split; auto. split; auto. split; auto. now apply in_map.
  - intros (x & Hx & Fx & <- & He). apply (Permutation_in _ (Permutation_sym Hps)). apply in_map_iff in He. destruct He as (q & <- & Hq).
    apply in_map_iff. exists (c_id x, fst q, snd q). split; auto. apply in_flat_map. exists x. split; [apply filter_In; auto|].
    unfold entities_of. apply in_map_iff. exists q. auto.
Qed.
Lemma ps_cid c : In c (map p_cid ps) -> exists x, In x cs /\ f x = true /\ c_id x = c.
Proof.
  intros H. apply in_map_iff in H. destruct H as (p & <- & Hp). assert (Q : In (p_cid p, p_eid p) (map (fun p => (p_cid p, p_eid p)) ps)) by (apply in_map_iff; eauto).
  apply ps_in in Q. destruct Q as (x & H1 & H2 & H3 & _). eauto.
Qed.
Lemma ps_tuples key (h : context -> bool) :
  (forall x, In x cs -> f x = true -> (forall e, In e key -> In e (map fst (c_ents x))) -> h x = true) ->
  length (tuple_contexts key ps) <= length (filter h cs).
Proof.
  intros H. unfold tuple_contexts. rewrite map_length, <- (map_length c_id). apply NoDup_incl_length.
  - apply NoDup_filter. unfold contexts. apply distinct_nodup.
  - intros c Hc. apply filter_In in Hc. destruct Hc as [H1 H2]. unfold contexts in H1. apply -> distinct_in in H1.
    destruct (ps_cid c H1) as (x & X1 & X2 & <-). apply in_map. apply filter_In. split; auto. apply H; auto.
    intros e He. rewrite forallb_forall in H2. specialize (H2 e He). apply member_in in H2. unfold ctx_entities in H2.
    apply in_map_iff in H2. destruct H2 as (p & <- & Hp). apply filter_In in Hp. destruct Hp as [Hp Ec]. apply N.eqb_eq in Ec.
    assert (Q : In (c_id x, p_eid p) (map (fun p => (p_cid p, p_eid p)) ps)) by (apply in_map_iff; exists p; rewrite Ec; auto).
    apply ps_in in Q. destruct Q as (y & Y1 & _ & Y2 & Y3). now rewrite (ids_inj y x Y1 X1 Y2) in Y3.
Qed.
End Answer.

Definition node_op (nd : node) (limit : nat) : text_op := TextOp (n_vars nd) (n_cvar nd) limit.

Section Composed.
Variables (bounds : list N) (cs : list context).
Hypothesis C : corpus bounds cs.
Hypothesis Apart : entities_apart bounds cs.
Variables (nofs name file : list N) (m : text_meta).
Hypothesis Nofs : numbers nofs.
Hypothesis I : indexed bounds cs nofs name file m.
Hypothesis Size : (N.of_nat (length file) < 2 ^ 63)%N.
Variables (ts : list pattern) (nd : node).
Hypothesis OK : Forall proper ts.
Hypothesis Q : clique_of ts nd.
Notation c := (n_cvar nd).
Notation a := (about c ts).
Variable lk : list N -> word.
Hypothesis LK : Forall (fun w => match lk w with
                     | Found t => t <> Unknown /\ searchable bounds cs t /\ with_entities bounds cs t
                     | NoWord => True
                     | NoPrefix _ => False
                     end) (concat (map words_of (constants a))).
Hypothesis Some_word : constants a <> [].
Hypothesis Some_entity : exists t, In t a /\ variable (snd t).
Notation M := (fun w => as_term (lk w)).
Notation W := (concat (map words_of (constants a))).
Notation o := (node_op nd).

Lemma a_proper : Forall proper a /\ Forall (fun t => text_triple t = true) a.
Proof using OK.
  clear - OK.
  split; apply Forall_forall; intros t Ht; apply about_in in Ht; [|tauto]. destruct Ht as [H1 _]. rewrite Forall_forall in OK. auto.
Qed.
Lemma plan_terms limit : getTextLeafPlan limit nd = Some (o limit) /\ search_terms nd = Some W /\ W <> [].
Proof using OK Q Some_word.
  clear - OK Q Some_word.
  destruct Q as (_ & Qw & _). destruct a_proper as [A1 A2]. pose proof (constants_nonempty a A1 A2) as F.
  unfold getTextLeafPlan, search_terms. rewrite Qw, <- spaced_concat.
  split; [|split].
  - pose proof (spaced_nonempty _ Some_word F) as L. destruct (spaced (constants a)); [discriminate L|reflexivity].
  - now apply spaced_split.
  - destruct (constants a) as [|x l]; [congruence|]. cbn. pose proof (cut_nonempty (chars x)) as N. unfold words_of. destruct (cut (chars x)); [congruence|discriminate].
Qed.
Lemma cvar_variable : variable c.
Proof using OK Q.
  clear - OK Q.
  destruct Q as (Qa & _). destruct a as [|t l] eqn:E; [congruence|]. assert (H : In t a) by (rewrite E; now left).
  apply about_in in H. destruct H as (H1 & H2 & H3). rewrite Forall_forall in OK. destruct (OK t H1 H2) as [V _]. congruence.
Qed.
Lemma op_ok limit : text_ok (o limit).
Proof using OK Q.
  clear - OK Q.
  destruct Q as (_ & _ & _ & Qn & Qv). split; [exact Qn|]. split; [apply Qv; now left|]. cbn [node_op t_cvar t_vars]. intros H. apply Qv in H.
  destruct H as [H|(t & _ & H)].
  - pose proof cvar_variable as [s E]. unfold score_name in H. rewrite <- H in E. discriminate E.
  - destruct t as [[x y] z]. destruct H as [[s E] _]. discriminate E.
Qed.
Lemma entity_vars_in limit v : In v (entity_vars (o limit)) <-> exists t, In t a /\ variableb (snd t) = true /\ snd t = v.
Proof using OK Q.
  clear - OK Q.
  destruct Q as (_ & _ & _ & _ & Qv). unfold entity_vars. cbn [node_op t_vars t_cvar]. rewrite filter_In, Qv, negb_true_iff. split.
  - intros [[-> |(t & Ht & Ho)] Hne]; [rewrite String.eqb_refl in Hne; discriminate|]. apply String.eqb_neq in Hne. exists t. split; auto.
    apply about_in in Ht. destruct Ht as (_ & H2 & H3). destruct t as [[x y] z]. cbn [fst snd] in *. destruct Ho as [V [-> | [-> | ->]]]; [congruence| |].
    + exfalso. cbn [text_triple] in H2. apply existsb_exists in H2. destruct H2 as (p & Hp & Ep). apply String.eqb_eq in Ep. subst p. destruct V as [s ->].
      unfold text_predicates, contains_entity, contains_word in Hp. cbn [In] in Hp. intuition discriminate.
    + split; auto. now apply variableb_iff.
  - intros (t & Ht & V & <-). apply variableb_iff in V. split.
    + right. exists t. split; auto. destruct t as [[x y] z]. cbn. auto.
    + apply String.eqb_neq. apply about_in in Ht. destruct Ht as (H1 & H2 & H3). rewrite Forall_forall in OK. destruct (OK t H1 H2) as (_ & D & _). congruence.
Qed.
Lemma op_vars limit : 0 < nof_vars (o limit).
Proof using OK Q Some_entity.
  clear - OK Q Some_entity.
  rewrite <- (entity_length (o limit) (op_ok limit)). destruct Some_entity as (t & Ht & V). apply variableb_iff in V.
  assert (H : In (snd t) (entity_vars (o limit))) by (apply entity_vars_in; eauto). destruct (entity_vars (o limit)); [destruct H|cbn; lia].
Qed.

Notation all_words x := (forallb (fun w => mentions (M w) x) W).
Lemma lists_right : (exists ps, entity_lists file m (map lk W) ps) /\
  forall ps, entity_lists file m (map lk W) ps -> ascending (map p_cid ps) /\
    Permutation (map fst ps) (map fst (flat_map entities_of (filter (fun x => all_words x) cs))).
Proof.
  destruct (Empty_Thm.C50_search bounds cs C Apart nofs name file m Nofs I Size (map lk W)) as [H1 H2].
  - destruct (plan_terms 0) as (_ & _ & N). destruct W; [congruence|discriminate].
  - apply Forall_forall. intros w Hw. apply in_map_iff in Hw. destruct Hw as (u & <- & Hu). rewrite Forall_forall in LK. now apply LK.
  - split; auto. intros ps Hps. destruct (H2 ps Hps) as [H3 H4]. split; auto. etransitivity; [exact H4|]. apply Permutation_refl'. do 2 f_equal.
    apply filter_ext. intros x. generalize W as l. clear. induction l as [|w l IH]; auto. cbn [map forallb]. rewrite IH. f_equal.
    destruct (lk w); reflexivity.
Qed.

Lemma answer_sound limit ps wcs T : entity_lists file m (map lk W) ps -> text_result (o limit) wcs ps T ->
  forall r, In r T -> exists x, In x cs /\ value_in (text_columns (o limit)) r c = Some (c_id x) /\
    forallb (holds M (value_in (text_columns (o limit)) r) x) a = true.
Proof.
  intros Hps HT r Hr. destruct (proj2 lists_right ps Hps) as [Ha Hp].
  pose proof (ps_one bounds cs C ps _ Hp) as Ho.
  destruct (C76_text_sound (o limit) wcs ps T (op_ok limit) Ha Ho (op_vars limit) HT r Hr) as (cid & cnt & key & -> & V1 & _ & V3 & V4 & V5).
  destruct (ps_cid cs ps _ Hp cid V4) as (x & X1 & X2 & <-). exists x. split; auto. split; [exact V1|].
  rewrite holds_split, X2. cbn [andb]. apply forallb_forall. intros v Hv. apply filter_In in Hv. destruct Hv as [Hv Vv].
  apply in_map_iff in Hv. destruct Hv as (t & <- & Ht).
  assert (E : In (snd t) (entity_vars (o limit))) by (apply entity_vars_in; eauto).
  assert (K : In (value_in (text_columns (o limit)) (c_id x :: cnt :: key) (snd t)) (map Some key)) by (rewrite <- V3; now apply in_map).
  apply in_map_iff in K. destruct K as (e & <- & He). apply V5 in He. apply (ps_in cs ps _ Hp) in He.
  destruct He as (y & Y1 & _ & Y2 & Y3). rewrite (ids_inj bounds cs C y x Y1 X1 Y2) in Y3. apply existsb_exists. exists e. split; auto. apply N.eqb_refl.
Qed.
Lemma answer_complete limit ps wcs T : entity_lists file m (map lk W) ps -> text_result (o limit) wcs ps T ->
  forall x (f : string -> N), In x cs -> forallb (holds M (fun v => Some (f v)) x) a = true ->
  length (filter (fun y => forallb (holds M (fun v => Some (f v)) y) a) cs) <= limit ->
  exists r, In r T /\ value_in (text_columns (o limit)) r c = Some (c_id x) /\
    forall t, In t a -> variable (snd t) -> value_in (text_columns (o limit)) r (snd t) = Some (f (snd t)).
Proof.
  intros Hps HT x f Hx Hh Lim. destruct (proj2 lists_right ps Hps) as [Ha Hp].
  pose proof (ps_one bounds cs C ps _ Hp) as Ho. set (key := map f (entity_vars (o limit))).
  assert (Holds : forall y, In y cs -> all_words y = true -> (forall e, In e key -> In e (map fst (c_ents y))) ->
    forallb (holds M (fun v => Some (f v)) y) a = true).
  { intros y _ H1 H2. rewrite holds_split, H1. cbn [andb]. apply forallb_forall. intros v Hv. apply filter_In in Hv. destruct Hv as [Hv Vv].
    apply in_map_iff in Hv. destruct Hv as (t & <- & Ht). apply existsb_exists. exists (f (snd t)). split; [|apply N.eqb_refl].
    apply H2. unfold key. apply in_map. apply entity_vars_in. eauto. }
  rewrite holds_split in Hh. apply andb_true_iff in Hh. destruct Hh as [Hw He].
  assert (Ents : forall e, In e key -> In e (map fst (c_ents x))).
  { intros e Hin. unfold key in Hin. apply in_map_iff in Hin. destruct Hin as (v & <- & Hv). apply entity_vars_in in Hv.
    destruct Hv as (t & Ht & Vt & <-). rewrite forallb_forall in He. specialize (He (snd t)). cbv beta in He.
    assert (Z : In (snd t) (filter variableb (map snd a))) by (apply filter_In; split; auto; now apply in_map).
    apply He in Z. apply existsb_exists in Z. destruct Z as (e & Z1 & Z2). apply N.eqb_eq in Z2. now subst e. }
  destruct (C76_text_complete (o limit) wcs ps T Ha Ho (op_vars limit) HT (c_id x) key) as [cnt Hr].
  - unfold key. rewrite map_length. apply (entity_length _ (op_ok limit)).
  - intros e Hin. apply (ps_in cs ps _ Hp). exists x. auto.
  - cbn [node_op t_limit]. etransitivity; [|exact Lim]. apply (ps_tuples bounds cs C ps _ Hp). exact Holds.
  - exists (c_id x :: cnt :: key). split; auto.
    destruct (C76_text_sound (o limit) wcs ps T (op_ok limit) Ha Ho (op_vars limit) HT _ Hr) as (cid & cnt' & key' & E & V1 & _ & V3 & _).
    injection E as <- <- <-. split; [exact V1|]. intros t Ht Vt. apply variableb_iff in Vt.
    assert (Hin : In (snd t) (entity_vars (o limit))) by (apply entity_vars_in; eauto).
    revert V3 Hin. unfold key at 2. rewrite map_map. generalize (entity_vars (o limit)) at 1 2 3 as vs. induction vs as [|v vs IH]; [intros _ []|].
    cbn [map]. intros V3 [->|Hin]; injection V3 as V3 V4; auto.
Qed.

(* no entity variables: the records with all words *)
Hypothesis Seek : Forall (fun w => searchable bounds cs (M w)) W.
Hypothesis No_entity : forall t, In t a -> ~ variable (snd t).
Lemma op_no_vars limit : nof_vars (o limit) = 0.
Proof using OK Q No_entity.
  clear - OK Q No_entity. rewrite <- (entity_length (o limit) (op_ok limit)).
  assert (H : forall v, ~ In v (entity_vars (o limit))).
  { intros v Hv. apply entity_vars_in in Hv. destruct Hv as (t & H1 & H2 & _). apply (No_entity t H1). now apply variableb_iff. }
  destruct (entity_vars (o limit)) as [|v l]; auto. destruct (H v). now left.
Qed.
Lemma words_only x f : forallb (holds M f x) a = all_words x.
Proof using OK Q No_entity.
  clear - OK Q No_entity. rewrite holds_split. assert (E : filter variableb (map snd a) = []).
  { assert (G : forall v, ~ In v (filter variableb (map snd a))).
    { intros v Hv. apply filter_In in Hv. destruct Hv as [Hv V]. apply in_map_iff in Hv. destruct Hv as (t & <- & Ht). apply (No_entity t Ht). now apply variableb_iff. }
    destruct (filter variableb (map snd a)) as [|v l]; auto. destruct (G v). now left. }
  rewrite E. cbn [forallb]. apply andb_true_r.
Qed.
Lemma contexts_right : length W <> 2 -> exists wcs, getContextListForWords file m (map M W) = Done wcs /\
  forall x, In x (map fst wcs) <-> exists y, In y cs /\ c_id y = x /\ all_words y = true.
Proof using C Apart Nofs I Size OK Q Some_word Seek.
  clear LK Some_entity No_entity. intros L. pose proof (proj2 (proj2 (plan_terms 0))) as Wn. revert L Wn Seek.
  generalize (concat (map words_of (constants a))) as l. intros l L Wn S.
  destruct l as [|w1 [|w2 [|w3 l]]]; [congruence| |cbn in L; congruence|].
  - inversion S; subst. destruct (C50_one_word bounds cs C Apart nofs name file m Nofs I Size (M w1)) as (res & R1 & _ & R2); auto.
    exists res. split; [exact R1|]. intros x. cbn [forallb].
    assert (Hx : In x (map fst res) <-> In x (map fst (hits (M w1) cs))).
    { split; apply Permutation_in; apply Permutation_map; [exact R2|now symmetry]. }
    rewrite Hx, TextIndex_Proof7.hits_cids. split; intros (y & Y1 & Y2 & Y3); exists y; rewrite andb_true_r in *; auto.
  - assert (S' : Forall (searchable bounds cs) (map M (w1 :: w2 :: w3 :: l))) by (apply Forall_map; exact S).
    destruct (C50_many_words bounds cs C Apart nofs name file m Nofs I Size (map M (w1 :: w2 :: w3 :: l))) as (res & R1 & _ & R2 & _); auto; [cbn; lia|].
    exists res. split; [exact R1|]. intros x. rewrite R2.
    assert (E : forall y, forallb (fun t => mentions t y) (map M (w1 :: w2 :: w3 :: l)) = forallb (fun w => mentions (M w) y) (w1 :: w2 :: w3 :: l)).
    { intros y. generalize (w1 :: w2 :: w3 :: l) as k. induction k as [|w k IH]; cbn [map forallb]; auto. now rewrite IH. }
    split; intros (y & Y1 & Y2 & Y3); exists y; [rewrite <- E|rewrite E]; auto.
Qed.
Lemma row_values limit (r : list N) x s : r = [x; s] -> nof_vars (o limit) = 0 ->
  value_in (text_columns (o limit)) r c = Some x /\ value_in (text_columns (o limit)) r (score_name c) = Some s.
Proof using OK Q.
  clear - OK Q. intros -> E. pose proof (op_ok limit) as OKo. rewrite !value_in_value, !text_value by (auto; rewrite E; reflexivity).
  change (t_cvar (o limit)) with c. rewrite !String.eqb_refl. split; auto.
  destruct (String.eqb_spec c (score_name c)) as [E'|]; auto. exfalso. symmetry in E'. now apply (score_other (o limit) OKo) in E'.
Qed.
End Composed.
