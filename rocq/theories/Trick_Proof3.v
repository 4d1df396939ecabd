(* The queries that checkUsePatternTrick accepts. *)
From Coq Require Import String List NArith Arith Bool Lia Permutation Sorted.
From Verif Require Import Table_Spec HasPred_Spec.
From Verif Require HasPred_Model HasPred_Proof HasPred_Thm Conv_Model Path_Proof2.
From Verif Require Import Plan_Spec Plan_Model Plan_Proof1 Plan_Proof5 Group_Spec Group_Model Group_Proof Group_Proof2
  Trick_Spec Trick_Model Trick_Proof Trick_Proof2.
Import ListNotations.
Local Open Scope string_scope.
Local Open Scope list_scope.
Local Open Scope nat_scope.

(* the graph has ql:has-predicate triples for exactly the predicates of the index *)
Definition shows (voc : string -> option N) (kb : graph) (ix : pattern_index) : Prop :=
  exists hp, voc HAS_PREDICATE = Some hp /\ NoDup kb /\ forall i p, In (i, hp, p) kb <-> In p (predicates_of ix i).
Definition sorts (sort : table -> table) : Prop := forall t, Permutation (sort t) t /\ sorted_on 0 (sort t).

Lemma check_inv q es fs t q' : q_where q = G es fs -> checkUsePatternTrick q = Some (t, q') ->
  exists es', In (t, es') (splits es) /\ usable q fs t es' = true /\ length (q_aliases q) <= 1 /\ length (q_group q) = 1 /\
    q' = AQ (q_group q) (q_aliases q) (q_select q) (q_having q ++ filter (static_on (snd t)) fs)
            (G es' (filter (fun f => negb (static_on (snd t) f)) fs)).
Proof.
  intros E. unfold checkUsePatternTrick. rewrite E. destruct (negb (length (q_group q) =? 1) || (1 <? length (q_aliases q))) eqn:B; [discriminate|].
  destruct (negb (forallb counting (q_aliases q))); [discriminate|].
  destruct (find (fun p => usable q fs (fst p) (snd p)) (splits es)) as [[t1 es']|] eqn:F; [|discriminate]. intros X.
  apply find_some in F. destruct F as [F1 F2]. injection X as <- <-. exists es'. apply orb_false_iff in B. destruct B as [B1 B2].
  apply negb_false_iff, Nat.eqb_eq in B1. apply Nat.ltb_ge in B2. auto.
Qed.
Lemma usable_inv q fs s p o es : usable q fs (s, p, o) es = true ->
  p = HAS_PREDICATE /\ (forall a l, q_aliases q = a :: l -> al_in a = o \/ al_in a = s) /\ (exists l, q_group q = o :: l) /\
  any_root_mentions o es = false /\ forallb (fun f => static_on o f || negb (memb o (gf_vars f) || memb s (gf_vars f))) fs = true.
Proof.
  unfold usable. rewrite !andb_true_iff. intros (((((H1 & H2) & H3) & H4) & H5) & H6). apply String.eqb_eq in H1. split; [auto|]. split; [|split; [|split]]; auto.
  - intros a l E. rewrite E in H2. apply orb_true_iff in H2. rewrite !String.eqb_eq in H2. tauto.
  - destruct (q_group q) as [|v l]; [discriminate|]. apply String.eqb_eq in H3. subst. eauto.
  - now apply negb_true_iff.
Qed.

(* Having filters: at most one, on the predicate. *)
Lemma having_ok U sat q t o A v res fs : snd t = o -> q_having q = filter (static_on o) fs -> length (filter (static_on o) fs) <= 1 ->
  counts_of U A o v res ->
  exists res', having_row sat q t res = Val res' /\ counts_of U (filter (fun m => forallb (passes U sat m) (filter (static_on o) fs)) A) o v res'.
Proof.
  intros Eo Eh L C. unfold having_row. destruct t as [[s p] o1]. cbn [snd] in Eo. subst o1. rewrite Eh. destruct (filter (static_on o) fs) as [|f [|g l]] eqn:E.
  - exists res. split; [reflexivity|]. apply (counts_of_perm U A); auto. apply Permutation_refl'. symmetry. cbn [forallb]. clear. induction A as [|m A IH]; cbn; congruence.
  - cbn [rev app]. eexists. split; [reflexivity|].
    assert (Sf : gf_vars f = [o]).
    { assert (X : In f (filter (static_on o) fs)) by (rewrite E; now left). apply filter_In in X. destruct X as [_ X]. unfold static_on in X.
      destruct (gf_vars f) as [|w [|w2 l]]; try discriminate. apply String.eqb_eq in X. now subst. }
    rewrite Sf. cbn [map]. rewrite String.eqb_refl. apply (counts_of_filter U A o v res (fun p0 => sat f [Some p0])); auto.
    intros m _. destruct (get U m o) as [z|] eqn:G; auto. cbn [forallb]. rewrite andb_true_r. unfold passes. rewrite Sf. cbn [map]. now rewrite G.
  - cbn [length] in L. lia.
Qed.

Section Counts.
Variables (voc : string -> option N) (kb : graph) (ix : pattern_index) (U : list string).
Variable sat : gfilter -> list (option N) -> bool.
Variable refuses : list cand -> bool.
Variable order : HasPred_Model.map_order.
Variable sort : table -> table.
Hypothesis HU : NoDup U.
Hypothesis HV : forall v, In v U -> is_var v = true.
Hypothesis Hkb : shows voc kb ix.
Hypothesis Hix1 : index_ok ix.
Hypothesis Hix2 : lists_distinct ix.
Hypothesis Hix3 : index_small ix.
Hypothesis Hord : forall m, Permutation (order m) m.
Hypothesis Hsort : sorts sort.
Notation ts := (triple_bag U is_var voc kb).
Notation run := (trick U ts sat refuses voc ix order sort).

Lemma counts_subtree A x o v c : In x U -> In o U -> x <> o -> v = x \/ v = o ->
  (forall a, In a A -> length a = length U /\ get U a x <> None /\ get U a o = None) ->
  NoDup (map (fun m => get U m x) A) -> Permutation (c_rows c) A ->
  exists res, HasPred_Model.pattern_trick ix order 0 (sort (map (subject_row U x) (c_rows c))) = Some res /\
    counts_of U (bjoin A (ts (x, HAS_PREDICATE, o))) o v res.
Proof.
  intros Hx Ho Hxo Hv HA Nd P. destruct Hkb as (hp & Hhp & Nkb & Hin). destruct (Hsort (map (subject_row U x) (c_rows c))) as [Ps So].
  destruct (HasPred_Proof.pattern_trick_correct ix order 0 _ Hix1 Hix2 Hix3 Hord So) as (res & E & N1 & W & C).
  exists res. split; auto. split; [auto|]. split; [intros r Hr; unfold width in W; rewrite Forall_forall in W; auto|].
  assert (Ps' : Permutation (map (col 0) (sort (map (subject_row U x) (c_rows c)))) (map (sub U x) A)).
  { rewrite Ps, map_map. change (Permutation (map (sub U x) (c_rows c)) (map (sub U x) A)). now apply Permutation_map. }
  assert (Nd' : NoDup (map (sub U x) A)).
  { assert (X : map (fun m => get U m x) A = map Some (map (sub U x) A)).
    { rewrite map_map. apply map_ext_in. intros a Ha. destruct (HA a Ha) as (_ & Y & _). unfold sub. destruct (get U a x); congruence. }
    rewrite X in Nd. now apply NoDup_map_inv in Nd. }
  assert (Ew : forall p, entities_with ix p (map (col 0) (sort (map (subject_row U x) (c_rows c)))) = entities_with ix p (map (sub U x) A)).
  { intros p. unfold entities_with. apply Permutation_length. apply perm_filter.
    rewrite !nodup_fixed_point; auto. eapply Permutation_NoDup; [symmetry; exact Ps'|auto]. }
  intros p k. rewrite C, Ew.
  assert (G : length (group_rows U (bjoin A (ts (x, HAS_PREDICATE, o))) o p) = entities_with ix p (map (sub U x) A))
    by (apply (group_length U HU HV voc kb hp); auto).
  rewrite (count_length U HU HV voc kb x o) by (auto; intros a Ha; apply HA; auto). rewrite G.
  split; intros [H1 H2]; split; auto; subst.
  - intros Z. rewrite Z in G. cbn in G. rewrite <- G in H2. now apply H2.
  - intros Z. apply H1. apply length_zero_iff_nil. rewrite G. lia.
Qed.

Theorem counts_thm : forall q es fs x o a q' s c,
  q_where q = G es fs -> q_aliases q = [a] -> q_having q = [] -> is_var o = true ->
  checkUsePatternTrick q = Some ((x, HAS_PREDICATE, o), q') -> length (q_having q') <= 1 ->
  scope_group U is_var (q_where q') = Some s -> In x (fst s) -> In o U -> x <> o ->
  (forall es' fs', q_where q' = G es' fs' -> outside U is_var o es' = true /\ subject_first U is_var x es' ([], []) = true) ->
  NoDup (map (fun m => get U m x) (eval_group U ts sat (q_where q'))) ->
  optimize U ts sat refuses (q_where q') = Val (Some c) ->
  exists res, run q = Some (Val res) /\ counts_of U (eval_group U ts sat (q_where q)) o (al_in a) res.
Proof.
  intros q es fs x o a q' s c Ew Ea Eh Vo E Lh Es Hx Ho Hxo Hout Nd Ec. assert (Hts := triple_bag_dom U HU voc kb).
  destruct (check_inv q es fs _ q' Ew E) as (es' & Hin & Hu & _ & _ & Eq). destruct (usable_inv q fs x HAS_PREDICATE o es' Hu) as (_ & Hal & _ & Hm & Hf).
  subst q'. cbn [q_where q_having snd] in *. rewrite Eh in Lh. cbn [app] in Lh. destruct (Hout es' _ eq_refl) as [Hout1 Hout2]. clear Hout.
  set (fs' := filter (fun f => negb (static_on o f)) fs) in *.
  rewrite sc_group_eq in Es. destruct (scope_elements U is_var es' ([], [])) as [s1|] eqn:E1; [|discriminate]. destruct (forallb _ fs' && _) eqn:Bq; [|discriminate].
  injection Es as <-. destruct (proj1 (proj2 (solutions_dom U ts sat HU Hts)) es' ([], []) s1 [empty_mapping U] E1 (wf_nil U) (doms_unit U)) as [W1 D1].
  assert (Es : scope_group U is_var (G es' fs') = Some s1) by (rewrite sc_group_eq, E1, Bq; reflexivity).
  destruct (proj1 (proj2 (proj2 (planner_ok U ts sat refuses HU Hts))) (G es' fs') s1 c Es Ec) as [Vc Pc].
  assert (No : ~ In o (snd s1)) by (apply (root_ok U o es' ([], []) s1); auto; intros []).
  assert (Ux : In x U) by (destruct W1 as [W1a W1b]; auto).
  assert (DA : forall m, In m (eval_group U ts sat (G es' fs')) -> length m = length U /\ get U m x <> None /\ get U m o = None).
  { intros m Hm'. rewrite group_inner in Hm'. apply filter_In in Hm'. destruct Hm' as [Hm' _]. destruct (D1 m Hm') as (L & Cm & Pm). split; auto. split; [now apply Cm|].
    destruct (get U m o) eqn:Z; auto. elim No. apply Pm. congruence. }
  destruct (counts_subtree (eval_group U ts sat (G es' fs')) x o (al_in a) c Ux Ho Hxo) as (res & R1 & R2); auto.
  { destruct (Hal a [] Ea); auto. }
  destruct (having_ok U sat (AQ (q_group q) (q_aliases q) (q_select q) (filter (static_on o) fs) (G es' fs')) (x, HAS_PREDICATE, o) o
    (bjoin (eval_group U ts sat (G es' fs')) (ts (x, HAS_PREDICATE, o))) (al_in a) res fs eq_refl eq_refl Lh R2) as (res' & R3 & R4).
  exists res'. split.
  - unfold trick. rewrite E, Eh. cbn [q_where app]. rewrite Ec. cbn [bind]. unfold getPatternTrickRow. cbn [q_aliases]. rewrite Ea in *.
    assert (Mx : memb x (c_vars c) = true) by (apply memb_in, Vc; destruct W1; auto). rewrite Mx, R1. cbn [lift bind]. exact (f_equal Some R3).
  - rewrite Ew. eapply counts_of_perm; [symmetry|exact R4].
    apply (group_split U ts sat HU Hts es fs x o es' s1); auto.
Qed.

(* ---------- no other parts ---------- *)
Lemma empty_rest o x : forall es, all_empty es = true ->
  scope_elements U is_var es ([], []) = Some ([], []) /\ outside U is_var o es = true /\ subject_first U is_var x es ([], []) = true /\
  eval_elements U ts sat es [empty_mapping U] = [empty_mapping U] /\ opt_elements U ts sat refuses [] es (St [] 0 []) = Val (St [] 0 []).
Proof.
  induction es as [|e es IH]; intros E; [repeat split|]. cbn [all_empty] in E. apply andb_true_iff in E. destruct E as [E1 E2].
  destruct e as [[|]| | | | | | | ]; try discriminate. destruct (IH E2) as (I1 & I2 & I3 & I4 & I5). split; [|split; [|split; [|split]]].
  - exact I1.
  - exact I2.
  - exact I3.
  - rewrite eval_elements_cons, eval_element_eq. cbn [map fold_left]. change (empty_mapping U) with (unit_map (length U)) in *.
    rewrite (bjoin_unit_l (length U)); [exact I4|]. constructor; [apply empty_len|constructor].
  - rewrite opt_elements_eq, opt_element_eq. exact I5.
Qed.

Definition subjects (hp : N) : list N := nodup N.eq_dec (map (fun k => fst (fst k)) (filter (fun k => N.eqb (snd (fst k)) hp) kb)).
Lemma all_length hp x o p : voc HAS_PREDICATE = Some hp -> NoDup kb -> (forall i p, In (i, hp, p) kb <-> In p (predicates_of ix i)) ->
  In x U -> In o U -> x <> o ->
  length (group_rows U (ts (x, HAS_PREDICATE, o)) o p) = entities_with ix p (subjects hp).
Proof.
  intros Hhp Nd Hin Hx Ho Hxo. rewrite (bag_eq U HU HV voc kb x o Hx Ho). unfold group_rows, tbag.
  set (F := fun k : N * N * N => N.eqb (snd (fst k)) hp && N.eqb (snd k) p).
  transitivity (length (filter F kb)).
  { clear Nd Hin Hkb. induction kb as [|[[i j] k] l IH]; [reflexivity|]. cbn [filter]. rewrite (tmatch_hp U HV voc hp Hhp x o Hx Ho Hxo). unfold F at 1. cbn [fst snd].
    destruct (N.eqb j hp); cbn [andb]; [|exact IH]. cbn [map filter]. change (map (tget (T x HAS_PREDICATE o) (i, j, k)) U) with (hm U x o (i, j, k)).
    rewrite (hm_o U HV x o Ho Hxo). destruct (N.eqb k p); cbn [length]; now rewrite IH. }
  unfold entities_with. transitivity (length (map (fun k : N * N * N => fst (fst k)) (filter F kb))); [now rewrite map_length|].
  apply Permutation_length. apply NoDup_Permutation.
  - clear Hin Hkb. induction kb as [|[[i j] k] l IH]; [constructor|]. inversion Nd as [|? ? N1 N2]; subst. cbn [filter]. destruct (F (i, j, k)) eqn:Fk; auto. cbn [map].
    constructor; auto. cbn [fst]. rewrite in_map_iff. intros ([[i' j'] k'] & E & Hk). cbn [fst] in E. subst i'. apply filter_In in Hk. destruct Hk as [Hk Fk'].
    unfold F in Fk, Fk'. cbn [fst snd] in Fk, Fk'. apply andb_true_iff in Fk, Fk'. rewrite !N.eqb_eq in Fk, Fk'. destruct Fk, Fk'. subst. tauto.
  - apply NoDup_filter, NoDup_nodup.
  - intros i. rewrite in_map_iff, filter_In, nodup_In. unfold subjects. rewrite nodup_In, in_map_iff. split.
    + intros ([[i' j] k] & E & Hk). cbn [fst] in E. subst i'. apply filter_In in Hk. destruct Hk as [Hk Fk]. unfold F in Fk. cbn [fst snd] in Fk. apply andb_true_iff in Fk.
      rewrite !N.eqb_eq in Fk. destruct Fk; subst. split.
      * exists (i, hp, p). split; auto. apply filter_In. cbn. now rewrite N.eqb_refl.
      * apply existsb_exists. exists p. split; [now apply Hin|apply N.eqb_refl].
    + intros [_ E]. apply existsb_exists in E. destruct E as (p' & Hp & E). apply N.eqb_eq in E. subst p'. exists (i, hp, p). split; auto.
      apply filter_In. split; [now apply Hin|]. unfold F. cbn. now rewrite !N.eqb_refl.
Qed.
Theorem all_thm : forall q es fs x o a q' es',
  q_where q = G es fs -> q_aliases q = [a] -> q_having q = [] -> In x U -> In o U -> x <> o ->
  checkUsePatternTrick q = Some ((x, HAS_PREDICATE, o), q') -> length (q_having q') <= 1 ->
  q_where q' = G es' [] -> all_empty es' = true ->
  exists res, run q = Some (Val res) /\ counts_of U (eval_group U ts sat (q_where q)) o (al_in a) res.
Proof.
  intros q es fs x o a q' es0 Ew Ea Eh Hx Ho Hxo E Lh Eg Em. assert (Hts := triple_bag_dom U HU voc kb).
  destruct (check_inv q es fs _ q' Ew E) as (es' & Hin & Hu & _ & _ & Eq). destruct (usable_inv q fs x HAS_PREDICATE o es' Hu) as (_ & Hal & _ & Hm & Hf).
  subst q'. cbn [q_where q_having snd] in *. rewrite Eh in Lh. cbn [app] in Lh. injection Eg as <- Efs.
  destruct (empty_rest o x es' Em) as (I1 & I2 & I3 & I4 & I5).
  destruct Hkb as (hp & Hhp & Nkb & Hp).
  assert (P : Permutation (eval_group U ts sat (G es fs)) (filter (fun m => forallb (passes U sat m) (filter (static_on o) fs)) (ts (x, HAS_PREDICATE, o)))).
  { rewrite (group_split U ts sat HU Hts es fs x o es' ([], [])); auto. rewrite Efs. apply perm_filter.
    change (eval_group U ts sat (G es' [])) with (filter (fun m => forallb (passes U sat m) []) (eval_elements U ts sat es' [empty_mapping U])).
    rewrite I4. cbn [forallb filter]. change (empty_mapping U) with (unit_map (length U)). rewrite bjoin_unit_l; auto.
    apply Forall_forall. intros m Hm'. apply (Hts (x, HAS_PREDICATE, o) m); auto. intros v Hv. unfold pattern_vars in Hv. apply filter_In in Hv.
    destruct Hv as [[<-|[<-|[<-|[]]]] Hv]; auto. discriminate Hv. }
  destruct (HasPred_Proof.pattern_trick_all_correct ix order Hix1 Hix2 Hord) as (res & R1 & N1 & W & C).
  assert (L0 : forall m, In m [empty_mapping U] -> length m = length U) by (intros m [<-|[]]; apply empty_len).
  assert (B0 : bjoin [empty_mapping U] (ts (x, HAS_PREDICATE, o)) = ts (x, HAS_PREDICATE, o)).
  { change (empty_mapping U) with (unit_map (length U)). apply bjoin_unit_l. apply Forall_forall. intros m Hm'. apply (Hts (x, HAS_PREDICATE, o) m); auto.
    intros v Hv. unfold pattern_vars in Hv. apply filter_In in Hv. destruct Hv as [[<-|[<-|[<-|[]]]] Hv]; auto. discriminate Hv. }
  assert (Cn : counts_of U (ts (x, HAS_PREDICATE, o)) o (al_in a) res).
  { split; [auto|]. split; [intros r Hr; unfold width in W; rewrite Forall_forall in W; auto|]. intros p k.
    rewrite (C (subjects hp)).
    - rewrite <- (all_length hp x o p) by auto. rewrite <- B0 at 3. rewrite (count_length U HU HV voc kb x o) by (auto; destruct (Hal a [] Ea); auto). rewrite B0.
      split; intros [H1 H2]; split; auto; subst.
      + intros Z. apply H2. now rewrite Z.
      + intros Z. apply H1. apply length_zero_iff_nil. lia.
    - intros e He. unfold subjects. rewrite nodup_In, in_map_iff. destruct (predicates_of ix e) as [|p1 l] eqn:Ep; [congruence|].
      exists (e, hp, p1). split; auto. apply filter_In. split; [apply Hp; rewrite Ep; now left|]. cbn. apply N.eqb_refl. }
  destruct (having_ok U sat (AQ (q_group q) (q_aliases q) (q_select q) (filter (static_on o) fs) (G es' [])) (x, HAS_PREDICATE, o) o
    (ts (x, HAS_PREDICATE, o)) (al_in a) res fs eq_refl eq_refl Lh Cn) as (res' & R3 & R4).
  exists res'. split.
  - unfold trick. rewrite E, Eh, Efs. cbn [q_where app]. rewrite optimize_eq, I5. cbn [bind finish s_plans s_triples length Nat.ltb Nat.leb Nat.eqb negb orb].
    unfold getPatternTrickRow. rewrite (HV x Hx), R1. cbn [lift bind]. exact (f_equal Some R3).
  - rewrite Ew. eapply counts_of_perm; [symmetry; exact P|exact R4].
Qed.

(* ---------- one entity ---------- *)
Theorem entity_thm : forall q es fs x o a q' es',
  q_where q = G es fs -> q_aliases q = [a] -> q_having q = [] -> is_var x = false -> In o U -> al_in a = o ->
  checkUsePatternTrick q = Some ((x, HAS_PREDICATE, o), q') -> length (q_having q') <= 1 ->
  q_where q' = G es' [] -> all_empty es' = true ->
  exists res, run q = Some (Val res) /\ counts_of U (eval_group U ts sat (q_where q)) o (al_in a) res.
Proof.
  intros q es fs x o a q' es0 Ew Ea Eh Hx Ho Hao E Lh Eg Em. assert (Hts := triple_bag_dom U HU voc kb).
  destruct (check_inv q es fs _ q' Ew E) as (es' & Hin & Hu & _ & _ & Eq). destruct (usable_inv q fs x HAS_PREDICATE o es' Hu) as (_ & Hal & _ & Hm & Hf).
  subst q'. cbn [q_where q_having snd] in *. rewrite Eh in Lh. cbn [app] in Lh. injection Eg as <- Efs.
  destruct (empty_rest o x es' Em) as (I1 & I2 & I3 & I4 & I5).
  destruct Hkb as (hp & Hhp & Nkb & Hp).
  assert (PV : forall v, In v (pattern_vars is_var (x, HAS_PREDICATE, o)) -> v = o).
  { intros v Hv. unfold pattern_vars in Hv. apply filter_In in Hv. destruct Hv as [[<-|[<-|[<-|[]]]] Hv]; auto; [congruence|discriminate Hv]. }
  assert (PV' : forall v, In v (pattern_vars is_var (x, HAS_PREDICATE, o)) -> In v U) by (intros v Hv; now rewrite (PV v Hv)).
  assert (Xo : x <> o) by (intros ->; rewrite (HV o Ho) in Hx; discriminate).
  assert (P : Permutation (eval_group U ts sat (G es fs)) (filter (fun m => forallb (passes U sat m) (filter (static_on o) fs)) (ts (x, HAS_PREDICATE, o)))).
  { rewrite (group_split U ts sat HU Hts es fs x o es' ([], [])); auto; [|congruence]. rewrite Efs. apply perm_filter.
    change (eval_group U ts sat (G es' [])) with (filter (fun m => forallb (passes U sat m) []) (eval_elements U ts sat es' [empty_mapping U])).
    rewrite I4. cbn [forallb filter]. change (empty_mapping U) with (unit_map (length U)). rewrite bjoin_unit_l; auto.
    apply Forall_forall. intros m Hm'. apply (Hts (x, HAS_PREDICATE, o) m); auto. }
  (* the solutions: one for every predicate of the entity *)
  assert (Tm : forall i j k, tmatch voc (T x HAS_PREDICATE o) (i, j, k) = match voc x with Some e => N.eqb e i | None => false end && N.eqb j hp).
  { intros i j k. unfold tmatch. cbn [t_s t_p t_o]. assert (Vo := HV o Ho).
    assert (E1 : term_ok voc x i = match voc x with Some e => N.eqb e i | None => false end) by (unfold term_ok; rewrite Hx; reflexivity).
    assert (E3 : term_ok voc o k = true) by (unfold term_ok; now rewrite Vo).
    assert (E2 : term_ok voc HAS_PREDICATE j = N.eqb hp j) by (unfold term_ok; rewrite Hhp; reflexivity).
    assert (S1 : same_ok x HAS_PREDICATE i j = true). { unfold same_ok. rewrite Hx. cbn. now rewrite ?orb_true_r, ?andb_false_r. }
    assert (S2 : same_ok x o i k = true). { unfold same_ok. rewrite Hx. cbn. now rewrite ?orb_true_r, ?andb_false_r. }
    assert (S3 : same_ok HAS_PREDICATE o j k = true). { unfold same_ok. destruct (String.eqb_spec HAS_PREDICATE o) as [e|]; [rewrite <- e in Vo; discriminate|]. now rewrite ?orb_true_r, ?andb_false_r. }
    rewrite E1, E2, E3, S1, S2, S3. rewrite (N.eqb_sym j). now rewrite !andb_true_r. }
  assert (Go : forall i j k, get U (map (tget (T x HAS_PREDICATE o) (i, j, k)) U) o = Some k).
  { intros i j k. rewrite get_map by auto. unfold tget. cbn [t_s t_p t_o]. destruct (String.eqb_spec x o); [congruence|].
    destruct (String.eqb_spec HAS_PREDICATE o) as [e|]; [|now rewrite String.eqb_refl]. exfalso. assert (Vo := HV o Ho). rewrite <- e in Vo. discriminate. }
  assert (Bq : ts (x, HAS_PREDICATE, o) = tbag voc kb U (T x HAS_PREDICATE o)) by (apply tbag_triple; auto).
  assert (Gl : forall p, length (group_rows U (ts (x, HAS_PREDICATE, o)) o p) =
     match voc x with Some e => if existsb (N.eqb p) (predicates_of ix e) then 1 else 0 | None => 0 end).
  { intros p. rewrite Bq. unfold group_rows, tbag. destruct (voc x) as [e|] eqn:Ve.
    - transitivity (length (filter (fun u => if trip_dec u (e, hp, p) then true else false) kb)).
      + clear Nkb Hp Bq P Hts I4 I5 Hkb. induction kb as [|[[i j] k] l IH]; [reflexivity|]. cbn [filter]. rewrite Tm.
        destruct (N.eqb_spec e i) as [->|]; cbn [andb]; [|rewrite IH; destruct (trip_dec (i, j, k) (e, hp, p)); [congruence|reflexivity]].
        destruct (N.eqb_spec j hp) as [->|]; [|rewrite IH; destruct (trip_dec (i, j, k) (i, hp, p)); [congruence|reflexivity]].
        cbn [map filter]. rewrite Go. destruct (N.eqb_spec k p) as [->|], (trip_dec (i, hp, _) (i, hp, p)); cbn [length]; rewrite ?IH; congruence.
      + rewrite count_nodup by auto. destruct (in_dec trip_dec (e, hp, p) kb) as [X|X], (existsb (N.eqb p) (predicates_of ix e)) eqn:Y; auto; exfalso.
        * apply Hp in X. assert (Z : existsb (N.eqb p) (predicates_of ix e) = true) by (apply existsb_exists; exists p; split; auto; apply N.eqb_refl). congruence.
        * apply existsb_exists in Y. destruct Y as (q0 & Hq & Y). apply N.eqb_eq in Y. subst q0. apply X. now apply Hp.
    - assert (Z : filter (tmatch voc (T x HAS_PREDICATE o)) kb = []).
      { clear - Tm. induction kb as [|[[i j] k] l IH]; [reflexivity|]. cbn [filter]. now rewrite Tm. }
      now rewrite Z. }
  assert (Cc : forall p, count_of U (ts (x, HAS_PREDICATE, o)) o o p = length (group_rows U (ts (x, HAS_PREDICATE, o)) o p)).
  { intros p. unfold count_of. f_equal. unfold group_rows. generalize (ts (x, HAS_PREDICATE, o)) as l.
    induction l as [|m l IH]; [reflexivity|]. cbn [filter]. destruct (get U m o) as [z|] eqn:Z; [|exact IH]. destruct (N.eqb z p); [|exact IH].
    cbn [filter]. rewrite Z. now rewrite IH. }
  assert (R : exists res, getPatternTrickRow U voc ix order sort (AQ (q_group q) (q_aliases q) (q_select q) (filter (static_on o) fs) (G es' [])) (x, HAS_PREDICATE, o) None = Val res /\
     counts_of U (ts (x, HAS_PREDICATE, o)) o (al_in a) res).
  { unfold getPatternTrickRow. rewrite Hx. cbn [q_aliases]. rewrite Ea, Hao. destruct (voc x) as [e|] eqn:Ve.
    - destruct (HasPred_Thm.C18_single_entity ix order e Hix1 Hix2 Hix3 Hord) as (res & R1 & N1 & W & C). exists res. rewrite R1. split; [reflexivity|].
      split; [auto|]. split; [intros r Hr; unfold width in W; rewrite Forall_forall in W; auto|]. intros p k. rewrite C, Cc. specialize (Gl p).
      destruct (existsb (N.eqb p) (predicates_of ix e)) eqn:Y.
      + apply existsb_exists in Y. destruct Y as (q0 & Hq & Y). apply N.eqb_eq in Y. subst q0. rewrite Gl. split; intros [H1 H2]; split; auto.
        intros Z. rewrite Z in Gl. discriminate.
      + apply length_zero_iff_nil in Gl. rewrite Gl. split; [|tauto]. intros [_ H2]. exfalso.
        assert (Z : existsb (N.eqb p) (predicates_of ix e) = true) by (apply existsb_exists; exists p; split; auto; apply N.eqb_refl). congruence.
    - exists []. split; [reflexivity|]. split; [constructor|]. split; [intros r []|]. intros p k. specialize (Gl p). apply length_zero_iff_nil in Gl. rewrite Gl. cbn. tauto. }
  destruct R as (res & R1 & Cn).
  destruct (having_ok U sat (AQ (q_group q) (q_aliases q) (q_select q) (filter (static_on o) fs) (G es' [])) (x, HAS_PREDICATE, o) o
    (ts (x, HAS_PREDICATE, o)) (al_in a) res fs eq_refl eq_refl Lh Cn) as (res' & R3 & R4).
  exists res'. split.
  - unfold trick. rewrite E, Eh, Efs. cbn [q_where app]. rewrite optimize_eq, I5. cbn [bind finish s_plans s_triples length Nat.ltb Nat.leb Nat.eqb negb orb].
    rewrite R1. cbn [bind]. exact (f_equal Some R3).
  - rewrite Ew. eapply counts_of_perm; [symmetry; exact P|exact R4].
Qed.
End Counts.
