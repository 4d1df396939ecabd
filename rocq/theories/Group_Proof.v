(* Proofs about the planning of group graph patterns. *)
From Coq Require Import String List NArith Arith Bool Lia Permutation.
From Verif Require Import Table_Spec Plan_Spec Plan_Model Plan_Proof1 Group_Spec Group_Model.
Import ListNotations.
Local Open Scope nat_scope.

Scheme element_mut := Induction for element Sort Prop
with elements_mut := Induction for elements Sort Prop
with group_mut := Induction for group Sort Prop
with query_mut := Induction for query Sort Prop.
Combined Scheme pattern_ind from element_mut, elements_mut, group_mut, query_mut.

(* ---------- lists of variables ---------- *)
Lemma memb_in v l : memb v l = true <-> In v l.
Proof.
  unfold memb. rewrite existsb_exists. split; [intros (x & H & E); apply String.eqb_eq in E; now subst|].
  intros H. exists v. split; auto. apply String.eqb_refl.
Qed.
Lemma inter_in v a b : In v (inter a b) <-> In v a /\ In v b.
Proof. unfold inter. rewrite filter_In, memb_in. tauto. Qed.
Lemma subset_in a b : subset a b = true <-> forall v, In v a -> In v b.
Proof. unfold subset. rewrite forallb_forall. setoid_rewrite memb_in. tauto. Qed.
Lemma union_in v a b : In v (union_vars a b) <-> In v a \/ In v b.
Proof.
  unfold union_vars. rewrite in_app_iff, filter_In, negb_true_iff. split; [tauto|]. intros [H|H]; auto.
  destruct (memb v a) eqn:E; [left; now apply memb_in|right; auto].
Qed.
Lemma joinable_in a b : joinable a b = true <-> forall v, In v (snd a) -> In v (snd b) -> In v (fst a) /\ In v (fst b).
Proof.
  unfold joinable. rewrite andb_true_iff, !subset_in. setoid_rewrite inter_in. split; [intros [H1 H2] v A B; auto|].
  intros H. split; intros v [A B]; now apply H.
Qed.
Lemma opt_eqb_eq x y : opt_eqb x y = true <-> x = y.
Proof. destruct x, y; cbn; rewrite ?N.eqb_eq; split; congruence. Qed.

Lemma get_unit U v : get U (empty_mapping U) v = None.
Proof. unfold empty_mapping. induction U as [|u U' IH]; cbn; auto. destruct (String.eqb u v); auto. Qed.
Lemma get_put U (HU : NoDup U) m t x v : length m = length U -> In t U ->
  get U (put U m t x) v = if String.eqb t v then Some x else get U m v.
Proof.
  unfold put. revert m. induction U as [|u U' IH]; intros [|y m] L H; cbn in *; try lia; try (now destruct H).
  inversion HU as [|? ? N1 N2]. subst. destruct (String.eqb_spec u v) as [->|Nv].
  - destruct (String.eqb_spec v t) as [->|Nt]; [now rewrite String.eqb_refl|]. destruct (String.eqb_spec t v); congruence.
  - destruct H as [->|H].
    + destruct (String.eqb_spec t v) as [->|]; [congruence|].
      assert (E : map (fun p => if String.eqb (fst p) t then Some x else snd p) (combine U' m) = m).
      { assert (L' : length m = length U') by lia. clear - N1 L'. revert m L'. induction U' as [|w U' IH]; intros [|z m] L; cbn in *; try lia; auto.
        destruct (String.eqb_spec w t); [subst; elim N1; auto|]. f_equal. apply IH; [|lia]. intros X. apply N1. auto. }
      now rewrite E.
    + apply IH; auto; lia.
Qed.

Section Proof.
Variable U : list string.
Variable triple_solutions : pattern -> list mapping.
Variable sat : gfilter -> list (option N) -> bool.
Variable refuses : list cand -> bool.
Hypothesis HU : NoDup U.
Local Notation n := (length U).

(* ---------- domains ---------- *)
Definition dom (s : scope) (m : mapping) : Prop :=
  length m = n /\ (forall v, In v (fst s) -> get U m v <> None) /\ (forall v, get U m v <> None -> In v (snd s)).
Definition doms (s : scope) (A : list mapping) : Prop := forall m, In m A -> dom s m.
Definition wf (s : scope) : Prop := (forall v, In v (fst s) -> In v (snd s)) /\ (forall v, In v (snd s) -> In v U).
Hypothesis Htriples : forall t m, (forall v, In v (pattern_vars is_var t) -> In v U) -> In m (triple_solutions t) ->
  dom (pattern_vars is_var t, pattern_vars is_var t) m.

Notation ps := (passes U sat).
Notation unit := (empty_mapping U).

Lemma dom_unit : dom ([], []) unit.
Proof. split; [unfold empty_mapping; now rewrite repeat_length|]. split; [intros v []|]. intros v H. elim H. apply get_unit. Qed.
Lemma doms_unit : doms ([], []) [unit].
Proof. intros m [<-|[]]. apply dom_unit. Qed.
Lemma wf_nil : wf ([], []).
Proof. split; intros v []. Qed.

Lemma get_merge' a b v : length a = n -> length b = n -> get U (merge_map a b) v = merge1 (get U a v) (get U b v).
Proof. intros; now apply get_merge_gen. Qed.
Lemma dom_merge' s1 s2 a b : dom s1 a -> dom s2 b -> dom (fst s1 ++ fst s2, snd s1 ++ snd s2) (merge_map a b).
Proof.
  intros (L1 & C1 & P1) (L2 & C2 & P2). split; [now apply merge_length|]. cbn [fst snd]. split; intros v; rewrite in_app_iff, get_merge' by auto.
  - intros [H|H]; unfold merge1; [specialize (C1 v H)|specialize (C2 v H)]; destruct (get U a v); congruence.
  - unfold merge1. destruct (get U a v) eqn:E; [left; apply P1; congruence|right; auto].
Qed.
Lemma dom_weaken s s' m : dom s m -> (forall v, In v (fst s') -> In v (fst s)) -> (forall v, In v (snd s) -> In v (snd s')) -> dom s' m.
Proof. intros (L & C & P) H1 H2. split; auto. Qed.
Lemma passes_ext m m' f : (forall v, In v (gf_vars f) -> get U m v = get U m' v) -> ps m f = ps m' f.
Proof. intros H. unfold passes. f_equal. now apply map_ext_in. Qed.
Lemma passes_merge_l s1 s2 a b f : dom s1 a -> dom s2 b -> joinable s1 s2 = true -> (forall v, In v (gf_vars f) -> In v (snd s1)) ->
  ps (merge_map a b) f = ps a f.
Proof.
  intros (L1 & C1 & P1) (L2 & C2 & P2) J H. rewrite joinable_in in J. apply passes_ext. intros v Hv. rewrite get_merge' by auto.
  destruct (get U a v) eqn:E; auto. cbn [merge1]. destruct (get U b v) eqn:E2; auto.
  destruct (J v (H v Hv)) as [X _]; [apply P2; congruence|]. elim (C1 v X E).
Qed.
Lemma passes_merge_r s1 s2 a b f : dom s1 a -> dom s2 b -> joinable s1 s2 = true -> compat a b = true ->
  (forall v, In v (gf_vars f) -> In v (snd s2)) -> ps (merge_map a b) f = ps b f.
Proof.
  intros D1 D2 J K H. rewrite (merge_comm a b K). apply (passes_merge_l s2 s1); auto. apply joinable_in. intros v A B.
  rewrite joinable_in in J. destruct (J v B A). auto.
Qed.
Lemma agree_compat s1 s2 va vb a b : dom s1 a -> dom s2 b -> wf s1 -> joinable s1 s2 = true ->
  (forall v, In v va <-> In v (snd s1)) -> (forall v, In v vb <-> In v (snd s2)) -> agree U (shared va vb) a b = compat a b.
Proof.
  intros (L1 & C1 & P1) (L2 & C2 & P2) [W1 W2] J Ha Hb. rewrite joinable_in in J.
  apply eq_iff_eq_true. unfold agree, shared. rewrite forallb_forall, (compat_get_gen U a b HU L1 L2). setoid_rewrite inter_in. split.
  - intros H v Hv. destruct (get U a v) eqn:E1; auto. destruct (get U b v) eqn:E2; [|reflexivity].
    specialize (H v). rewrite Ha, Hb, E1, E2 in H. apply H. split; [apply P1|apply P2]; congruence.
  - intros H v [A B]. apply Ha in A. apply Hb in B. destruct (J v A B) as [X Y]. specialize (H v (W2 v A)).
    specialize (C1 v X). specialize (C2 v Y). destruct (get U a v), (get U b v); try congruence. exact H.
Qed.

(* ---------- domains of the solutions ---------- *)
Lemma bjoin_doms s1 s2 A B : doms s1 A -> doms s2 B -> doms (fst s1 ++ fst s2, snd s1 ++ snd s2) (bjoin A B).
Proof. intros H1 H2 m Hm. apply bjoin_in in Hm. destruct Hm as (a & b & Ha & Hb & _ & ->). apply dom_merge'; auto. Qed.
Lemma left_join_in A B p m : In m (left_join A B p) -> In m A \/ exists a b, In a A /\ In b B /\ compat a b = true /\ m = merge_map a b.
Proof.
  unfold left_join. rewrite in_flat_map. intros (a & Ha & H). destruct (flat_map _ B) eqn:E.
  - destruct H as [<-|[]]. auto.
  - rewrite <- E in H. apply in_flat_map in H. destruct H as (b & Hb & H). destruct (compat a b) eqn:K; [|destruct H].
    cbn [andb] in H. destruct (p (merge_map a b)); [|destruct H]. destruct H as [<-|[]]. right. eauto 10.
Qed.
Lemma put_length m t x : length m = n -> length (put U m t x) = n.
Proof. unfold put. rewrite map_length, combine_length. lia. Qed.
Lemma wf_join s1 s2 s : wf s1 -> wf s2 -> join_scope s1 s2 = Some s ->
  wf s /\ joinable s1 s2 = true /\ s = (fst s1 ++ fst s2, snd s1 ++ snd s2).
Proof.
  unfold join_scope. intros [A1 A2] [B1 B2] E. destruct (joinable s1 s2); [|discriminate]. injection E as <-. split; auto.
  split; cbn [fst snd]; intros v; rewrite !in_app_iff; intuition.
Qed.
Lemma fold_bjoin_doms ts : (forall v, In v (flat_map (pattern_vars is_var) ts) -> In v U) -> forall s A, doms s A ->
  doms (fst s ++ flat_map (pattern_vars is_var) ts, snd s ++ flat_map (pattern_vars is_var) ts) (fold_left bjoin (map triple_solutions ts) A).
Proof.
  induction ts as [|t ts IH]; intros Hv s A H; cbn [map fold_left flat_map] in *.
  - rewrite !app_nil_r. now destruct s.
  - rewrite !app_assoc. assert (Ht : doms (pattern_vars is_var t, pattern_vars is_var t) (triple_solutions t)).
    { intros m Hm. apply Htriples; auto. intros v X. apply Hv, in_app_iff. auto. }
    apply (IH (fun v X => Hv v (proj2 (in_app_iff _ _ _) (or_intror X))) (fst s ++ pattern_vars is_var t, snd s ++ pattern_vars is_var t)).
    apply (bjoin_doms s (pattern_vars is_var t, pattern_vars is_var t)); auto.
Qed.
Lemma has_domain_dom vs m : (forall v, In v vs -> In v U) -> has_domain U vs m = true -> dom (vs, vs) m.
Proof.
  unfold has_domain. intros Hv H. apply andb_true_iff in H. destruct H as [L H]. apply Nat.eqb_eq in L. rewrite forallb_forall in H.
  split; auto. cbn [fst snd]. split; intros v X.
  - specialize (H v (Hv v X)). apply memb_in in X. rewrite X in H. destruct (get U m v); [discriminate|discriminate H].
  - specialize (H v (get_length _ _ _ X)). apply memb_in. destruct (memb v vs); auto. destruct (get U m v); [discriminate H|congruence].
Qed.
Lemma filter_doms s (f : mapping -> bool) A : doms s A -> doms s (filter f A).
Proof. intros H m Hm. apply filter_In in Hm. now apply H. Qed.
Lemma project_all s sel A : doms s A -> (forall v, In v (snd s) -> In v sel) -> project U sel A = A.
Proof.
  intros H Hs. unfold project. rewrite <- (map_id A) at 2. apply map_ext_in. intros a Ha. destruct (H a Ha) as (L & _ & P).
  apply (get_ext_gen U _ _ a HU); auto; [now rewrite map_length|]. intros v Hv. rewrite get_map by auto.
  destruct (existsb (String.eqb v) sel) eqn:E; auto. destruct (get U a v) eqn:G; auto.
  assert (X : memb v sel = true) by (apply memb_in, Hs, P; congruence). unfold memb in X. congruence.
Qed.

Notation seval_element := (eval_element U triple_solutions sat).
Notation seval_elements := (eval_elements U triple_solutions sat).
Notation seval_group := (eval_group U triple_solutions sat).
Notation seval_query := (eval_query U triple_solutions sat).
Notation sc_element := (scope_element U is_var).
Notation sc_elements := (scope_elements U is_var).
Notation sc_group := (scope_group U is_var).


(* ---------- unfolding ---------- *)
Lemma sc_element_eq e s : sc_element e s =
  match e with
  | Triples ts => let vs := flat_map (pattern_vars is_var) ts in
                  if subset vs U then join_scope s (vs, vs) else None
  | Group g => match sc_group g with Some s' => join_scope s s' | None => None end
  | Optional g =>
      match sc_group g with
      | Some s' => if joinable s s' && negb (match inter (snd s) (snd s') with [] => true | _ => false end)
                   then Some (fst s, snd s ++ snd s') else None
      | None => None
      end
  | Minus g => match sc_group g with Some s' => if joinable s s' then Some s else None | None => None end
  | Union g1 g2 =>
      match sc_group g1, sc_group g2 with
      | Some s1, Some s2 => join_scope s (inter (fst s1) (fst s2), snd s1 ++ snd s2)
      | _, _ => None
      end
  | Subquery (Q select distinct offset limit g) =>
      match sc_group g, offset, limit with
      | Some s', 0, None => if subset (snd s') select then join_scope s s' else None
      | _, _, _ => None
      end
  | Inline vs rows => if subset vs U && forallb (has_domain U vs) rows then join_scope s (vs, vs) else None
  | Bind t args fn => if memb t U && negb (memb t (snd s)) then Some (fst s ++ [t], snd s ++ [t]) else None
  end.
Proof. destruct e; reflexivity. Qed.
Lemma sc_elements_eq es s : sc_elements es s =
  match es with
  | Nil => Some s
  | Cons e es' => match sc_element e s with Some s' => sc_elements es' s' | None => None end
  end.
Proof. destruct es; reflexivity. Qed.
Lemma sc_group_eq es fs : sc_group (G es fs) =
  match sc_elements es ([], []) with
  | Some s => if forallb (fun f => subset (gf_vars f) (snd s)) fs && filters_visible es fs then Some s else None
  | None => None
  end.
Proof. reflexivity. Qed.
Lemma eval_element_eq e acc : seval_element e acc =
  match e with
  | Triples ts => bjoin acc (fold_left bjoin (map triple_solutions ts) [unit])
  | Group g => bjoin acc (seval_group g)
  | Optional (G es fs) => left_join acc (seval_elements es [unit]) (fun m => forallb (ps m) fs)
  | Minus g => minus acc (seval_group g)
  | Union g1 g2 => bjoin acc (seval_group g1 ++ seval_group g2)
  | Subquery q => bjoin acc (seval_query q)
  | Inline vs rows => bjoin acc rows
  | Bind t args fn => extend U t args fn acc
  end.
Proof. destruct e; reflexivity. Qed.
Lemma eval_query_eq select distinct offset limit g : seval_query (Q select distinct offset limit g) =
  let l := project U select (seval_group g) in slice offset limit (if distinct then nodup mapping_dec l else l).
Proof. reflexivity. Qed.

Definition inner (g : group) : list mapping := match g with G es fs => seval_elements es [unit] end.
Lemma group_inner g : seval_group g = filter (fun m => match g with G _ fs => forallb (ps m) fs end) (inner g).
Proof. destruct g. reflexivity. Qed.

Lemma solutions_dom :
  (forall e s s' A, sc_element e s = Some s' -> wf s -> doms s A -> wf s' /\ doms s' (seval_element e A)) /\
  (forall es s s' A, sc_elements es s = Some s' -> wf s -> doms s A -> wf s' /\ doms s' (seval_elements es A)) /\
  (forall g s, sc_group g = Some s -> wf s /\ doms s (inner g)) /\
  (forall q s, match q with Q sel d off lim g => sc_group g = Some s -> wf s /\ doms s (inner g) end).
Proof.
  apply pattern_ind.
  - intros ts s s' A E W D. rewrite sc_element_eq in E. cbv zeta in E. destruct (subset (flat_map (pattern_vars is_var) ts) U) eqn:Su; [|discriminate]. rewrite subset_in in Su.
    destruct (wf_join s (flat_map (pattern_vars is_var) ts, flat_map (pattern_vars is_var) ts) s') as (W' & J & ->); auto; [split; auto|].
    split; auto. rewrite eval_element_eq. apply (bjoin_doms s (flat_map (pattern_vars is_var) ts, flat_map (pattern_vars is_var) ts)); auto.
    exact (fold_bjoin_doms ts Su ([], []) [unit] doms_unit).
  - intros g IH s s' A E W D. rewrite sc_element_eq in E. destruct (sc_group g) as [s2|]; [|discriminate]. destruct (IH s2 eq_refl) as [W2 D2].
    destruct (wf_join s s2 s' W W2 E) as (W' & J & ->). split; auto. rewrite eval_element_eq. rewrite group_inner. apply bjoin_doms; auto.
    now apply filter_doms.
  - intros g IH s s' A E W D. rewrite sc_element_eq in E. destruct (sc_group g) as [s2|]; [|discriminate]. destruct (IH s2 eq_refl) as [W2 D2].
    destruct (joinable s s2 && _) eqn:B; [|discriminate]. injection E as <-. split.
    { destruct W as [X1 X2], W2 as [Y1 Y2]. split; cbn [fst snd]; intros v; rewrite ?in_app_iff; intuition. }
    destruct g as [es fs]. rewrite eval_element_eq. intros m Hm. apply left_join_in in Hm. destruct Hm as [Hm|(a & b & Ha & Hb & K & ->)].
    + apply (dom_weaken s); auto. cbn [snd]. intros v. rewrite in_app_iff. auto.
    + apply (dom_weaken (fst s ++ fst s2, snd s ++ snd s2)); cbn [fst snd]; auto; [apply dom_merge'; auto|]. intros v. rewrite in_app_iff. auto.
  - intros g IH s s' A E W D. rewrite sc_element_eq in E. destruct (sc_group g) as [s2|]; [|discriminate]. destruct (joinable s s2); [|discriminate]. injection E as <-.
    split; auto. rewrite eval_element_eq. unfold minus. now apply filter_doms.
  - intros g1 IH1 g2 IH2 s s' A E W D. rewrite sc_element_eq in E. destruct (sc_group g1) as [s1|]; [|discriminate]. destruct (sc_group g2) as [s2|]; [|discriminate].
    destruct (IH1 s1 eq_refl) as [W1 D1]. destruct (IH2 s2 eq_refl) as [W2 D2].
    set (s3 := (inter (fst s1) (fst s2), snd s1 ++ snd s2)) in *.
    assert (W3 : wf s3).
    { destruct W1 as [X1 X2], W2 as [Y1 Y2]. split; subst s3; cbn [fst snd]; intros v; rewrite ?inter_in, ?in_app_iff; intuition. }
    destruct (wf_join s s3 s' W W3 E) as (W' & J & ->). split; auto. rewrite eval_element_eq. apply bjoin_doms; auto.
    intros m Hm. apply in_app_iff in Hm. rewrite !group_inner in Hm. destruct Hm as [Hm|Hm]; apply filter_In in Hm; destruct Hm as [Hm _].
    + apply (dom_weaken s1); auto; subst s3; cbn [fst snd]; intros v; rewrite ?inter_in, ?in_app_iff; tauto.
    + apply (dom_weaken s2); auto; subst s3; cbn [fst snd]; intros v; rewrite ?inter_in, ?in_app_iff; tauto.
  - intros [sel d off lim g] IH s s' A E W D. rewrite sc_element_eq in E. destruct (sc_group g) as [s2|]; [|discriminate]. destruct off; [|discriminate].
    destruct lim; [discriminate|]. destruct (subset (snd s2) sel) eqn:Su; [|discriminate]. rewrite subset_in in Su.
    destruct (IH s2 eq_refl) as [W2 D2]. destruct (wf_join s s2 s' W W2 E) as (W' & J & ->). split; auto.
    rewrite eval_element_eq, eval_query_eq. cbn [slice skipn]. apply bjoin_doms; auto. rewrite (project_all s2) by (auto; rewrite group_inner; now apply filter_doms).
    assert (D3 : doms s2 (seval_group g)) by (rewrite group_inner; now apply filter_doms).
    destruct d; auto. intros m Hm. apply nodup_In in Hm. auto.
  - intros vs rows s s' A E W D. rewrite sc_element_eq in E. destruct (subset vs U && _) eqn:B; [|discriminate]. apply andb_true_iff in B. destruct B as [Su B].
    rewrite subset_in in Su. rewrite forallb_forall in B. destruct (wf_join s (vs, vs) s') as (W' & J & ->); auto; [split; auto|]. split; auto.
    rewrite eval_element_eq. apply (bjoin_doms s (vs, vs)); auto. intros m Hm. apply has_domain_dom; auto.
  - intros t args fn s s' A E W D. rewrite sc_element_eq in E. destruct (memb t U && _) eqn:B; [|discriminate]. injection E as <-. apply andb_true_iff in B.
    destruct B as [Bt B]. apply memb_in in Bt. split.
    { destruct W as [X1 X2]. split; cbn [fst snd]; intros v; rewrite !in_app_iff; intros [H|[<-|[]]]; auto. right. now left. }
    rewrite eval_element_eq. unfold extend. intros m Hm. apply in_map_iff in Hm. destruct Hm as (a & <- & Ha). destruct (D a Ha) as (L & C & P).
    split; [now apply put_length|]. cbn [fst snd]. split; intros v; rewrite in_app_iff, get_put by auto; destruct (String.eqb_spec t v) as [->|Ne]; cbn.
    + discriminate.
    + intros [H|[H|[]]]; [auto|congruence].
    + auto.
    + auto.
  - intros s s' A E W D. rewrite sc_elements_eq in E. injection E as <-. auto.
  - intros e IHe es IHes s s' A E W D. rewrite sc_elements_eq in E. change (seval_elements (Cons e es) A) with (seval_elements es (seval_element e A)). destruct (sc_element e s) as [s1|] eqn:E1; [|discriminate].
    destruct (IHe s s1 A E1 W D) as [W1 D1]. eauto.
  - intros es IH fs s E. rewrite sc_group_eq in E. destruct (sc_elements es ([], [])) as [s1|] eqn:E1; [|discriminate].
    destruct (_ && _); [|discriminate]. injection E as <-. cbn [inner]. apply (IH _ _ _ E1 wf_nil doms_unit).
  - intros sel d off lim g IH s. apply IH.
Qed.

(* ---------- algebra ---------- *)
Definition keep (S : list gfilter) (A : list mapping) : list mapping := filter (fun m => forallb (ps m) S) A.
Definition within (S : list gfilter) (s : scope) : Prop := forall f, In f S -> forall v, In v (gf_vars f) -> In v (snd s).
Lemma keep_app S T A : keep T (keep S A) = keep (S ++ T) A.
Proof. unfold keep. rewrite filter_filter. apply filter_ext. intros m. now rewrite forallb_app. Qed.
Lemma keep_perm S A B : Permutation A B -> Permutation (keep S A) (keep S B).
Proof. apply perm_filter. Qed.
Lemma keep_merge_l S s1 s2 a b : within S s1 -> dom s1 a -> dom s2 b -> joinable s1 s2 = true ->
  forallb (ps (merge_map a b)) S = forallb (ps a) S.
Proof.
  intros W D1 D2 J. apply eq_iff_eq_true. rewrite !forallb_forall. split; intros H f Hf; specialize (H f Hf);
    rewrite (passes_merge_l s1 s2) in * by (auto; apply W; auto); auto.
Qed.
Lemma keep_merge_r S s1 s2 a b : within S s2 -> dom s1 a -> dom s2 b -> joinable s1 s2 = true -> compat a b = true ->
  forallb (ps (merge_map a b)) S = forallb (ps b) S.
Proof.
  intros W D1 D2 J K. apply eq_iff_eq_true. rewrite !forallb_forall. split; intros H f Hf; specialize (H f Hf);
    rewrite (passes_merge_r s1 s2) in * by (auto; apply W; auto); auto.
Qed.
Lemma keep_bjoin S s1 s2 A B : within S s1 -> doms s1 A -> doms s2 B -> joinable s1 s2 = true ->
  bjoin (keep S A) B = keep S (bjoin A B).
Proof.
  intros W D1 D2 J. unfold bjoin, keep. rewrite flat_map_filter, filter_flat_map. apply flat_map_ext_in. intros a Ha.
  rewrite filter_flat_map. destruct (forallb (ps a) S) eqn:E.
  - apply flat_map_ext_in. intros b Hb. destruct (compat a b); auto. cbn [filter]. now rewrite (keep_merge_l S s1 s2), E by auto.
  - symmetry. etransitivity; [|apply (flat_map_nil B)]. apply flat_map_ext_in. intros b Hb. destruct (compat a b); auto. cbn [filter].
    now rewrite (keep_merge_l S s1 s2), E by auto.
Qed.
Definition lj (A B : list mapping) : list mapping := left_join A B (fun _ => true).
Lemma lj_keep_l S s1 s2 A B : within S s1 -> doms s1 A -> doms s2 B -> joinable s1 s2 = true -> lj (keep S A) B = keep S (lj A B).
Proof.
  intros W D1 D2 J. unfold lj, left_join, keep. rewrite flat_map_filter, filter_flat_map. apply flat_map_ext_in. intros a Ha.
  set (l := flat_map _ B). assert (H : forall m, In m l -> forallb (ps m) S = forallb (ps a) S).
  { intros m Hm. subst l. apply in_flat_map in Hm. destruct Hm as (b & Hb & Hm). destruct (compat a b && true); [|destruct Hm].
    destruct Hm as [<-|[]]. apply (keep_merge_l S s1 s2); auto. }
  destruct l as [|x l'].
  - cbn [filter]. destruct (forallb (ps a) S); auto.
  - destruct (forallb (ps a) S) eqn:E; symmetry.
    + revert H. generalize (x :: l'). intros l H. induction l as [|y l IH]; auto. cbn [filter]. rewrite H by now left. f_equal. apply IH.
      intros m Hm. apply H. now right.
    + revert H. generalize (x :: l'). intros l H. induction l as [|y l IH]; auto. cbn [filter]. rewrite H by now left. apply IH.
      intros m Hm. apply H. now right.
Qed.
Lemma lj_keep_r S s1 s2 A B : within S s2 -> doms s1 A -> doms s2 B -> joinable s1 s2 = true ->
  lj A (keep S B) = left_join A B (fun m => forallb (ps m) S).
Proof.
  intros W D1 D2 J. unfold lj, left_join, keep. apply flat_map_ext_in. intros a Ha. rewrite flat_map_filter.
  replace (flat_map (fun b => if compat a b && forallb (ps (merge_map a b)) S then [merge_map a b] else []) B)
    with (flat_map (fun x => if forallb (ps x) S then if compat a x && true then [merge_map a x] else [] else []) B); auto.
  apply flat_map_ext_in. intros b Hb. destruct (compat a b) eqn:K; cbn [andb]; [|destruct (forallb (ps b) S); auto].
  now rewrite (keep_merge_r S s1 s2) by auto.
Qed.
Lemma lj_perm A A' B B' : Permutation A A' -> Permutation B B' -> Permutation (lj A B) (lj A' B').
Proof.
  intros HA HB. unfold lj, left_join. rewrite (flat_map_perm _ _ _ HA). apply flat_map_perm_in. intros a _.
  assert (P : Permutation (flat_map (fun b => if compat a b && true then [merge_map a b] else []) B)
                          (flat_map (fun b => if compat a b && true then [merge_map a b] else []) B')) by now apply flat_map_perm.
  destruct (flat_map _ B) eqn:E1, (flat_map _ B') eqn:E2; auto.
  - apply Permutation_nil in P. discriminate.
  - apply Permutation_sym, Permutation_nil in P. discriminate.
Qed.

(* ---------- operations on plans ---------- *)
Definition has_vars (c : cand) (s : scope) : Prop := forall v, In v (c_vars c) <-> In v (snd s).
Lemma mjoin_rows s1 s2 a b : has_vars a s1 -> has_vars b s2 -> doms s1 (c_rows a) -> doms s2 (c_rows b) -> wf s1 -> joinable s1 s2 = true ->
  c_rows (mjoin U a b) = bjoin (c_rows a) (c_rows b).
Proof.
  intros V1 V2 D1 D2 W J. cbn [c_rows mjoin]. unfold bjoin. apply flat_map_ext_in. intros x Hx. apply flat_map_ext_in. intros y Hy.
  now rewrite (agree_compat s1 s2) by auto.
Qed.
Lemma optional_rows s1 s2 a b : has_vars a s1 -> has_vars b s2 -> doms s1 (c_rows a) -> doms s2 (c_rows b) -> wf s1 -> joinable s1 s2 = true ->
  c_rows (optional_join U a b) = lj (c_rows a) (c_rows b).
Proof.
  intros V1 V2 D1 D2 W J. cbn [c_rows optional_join]. unfold lj, left_join. apply flat_map_ext_in. intros x Hx.
  replace (flat_map (fun y => if agree U (shared (c_vars a) (c_vars b)) x y then [merge_map x y] else []) (c_rows b))
    with (flat_map (fun y => if compat x y && true then [merge_map x y] else []) (c_rows b)); auto.
  apply flat_map_ext_in. intros y Hy. now rewrite (agree_compat s1 s2), andb_true_r by auto.
Qed.
Lemma shares_get a b v : length a = n -> length b = n -> get U a v <> None -> get U b v <> None -> shares a b = true.
Proof.
  unfold shares. clear Htriples HU. revert a b. induction U as [|u U' IH]; intros [|x a] [|y b] La Lb Ha Hb; cbn in *; try lia; try congruence.
  destruct (String.eqb u v).
  - destruct x, y; try congruence. reflexivity.
  - rewrite (IH a b) by (auto; lia). apply orb_true_r.
Qed.
Lemma minus_rows s1 s2 a b : has_vars a s1 -> has_vars b s2 -> doms s1 (c_rows a) -> doms s2 (c_rows b) -> wf s1 -> joinable s1 s2 = true ->
  shared (c_vars a) (c_vars b) <> [] -> c_rows (minus_plan U a b) = minus (c_rows a) (c_rows b).
Proof.
  intros V1 V2 D1 D2 W J N. cbn [c_rows minus_plan]. unfold minus. apply filter_ext_in. intros x Hx. f_equal.
  assert (Hv : exists v, In v (snd s1) /\ In v (snd s2)).
  { destruct (shared (c_vars a) (c_vars b)) as [|v l] eqn:E; [congruence|]. exists v.
    assert (X : In v (shared (c_vars a) (c_vars b))) by (rewrite E; now left). apply inter_in in X. rewrite (V1 v), (V2 v) in X. auto. }
  destruct Hv as (v & A1 & A2). pose proof J as J'. rewrite joinable_in in J'. destruct (J' v A1 A2) as [C1 C2].
  apply eq_iff_eq_true. rewrite !existsb_exists. split; intros (y & Hy & E); exists y; (split; [exact Hy|]).
  - rewrite (agree_compat s1 s2) in E by auto. rewrite E. destruct (D1 x Hx) as (L1 & G1 & _), (D2 y Hy) as (L2 & G2 & _).
    apply (shares_get x y v); auto.
  - apply andb_true_iff in E. destruct E as [E _]. now rewrite (agree_compat s1 s2) by auto.
Qed.
Lemma minus_keep S A B : minus (keep S A) B = keep S (minus A B).
Proof. unfold minus, keep. rewrite !filter_filter. apply filter_ext. intros m. apply andb_comm. Qed.
Lemma minus_perm A A' B B' : Permutation A A' -> Permutation B B' -> Permutation (minus A B) (minus A' B').
Proof.
  intros HA HB. unfold minus. rewrite (perm_filter _ _ _ HA). rewrite (filter_ext (fun a => negb (existsb (fun b => compat a b && shares a b) B))
    (fun a => negb (existsb (fun b => compat a b && shares a b) B'))); [reflexivity|]. intros a. f_equal.
  apply eq_iff_eq_true. rewrite !existsb_exists. split; intros (b & Hb & E); exists b; (split; [|exact E]);
    [exact (Permutation_in _ HB Hb)|exact (Permutation_in _ (Permutation_sym HB) Hb)].
Qed.

(* ---------- filters ---------- *)
Notation apply := (apply_filters U sat).
Definition marks_ok (i : nat) (fs : list gfilter) (c : cand) : Prop :=
  forall j f, nth_error fs j = Some f -> N.testbit (c_filters c) (N.of_nat (i + j)) = true ->
    subset (gf_vars f) (c_vars c) = true /\ forall m, In m (c_rows c) -> ps m f = true.
Lemma bit_spec i j : N.testbit (bit i) (N.of_nat j) = Nat.eqb i j.
Proof.
  unfold bit. rewrite N.shiftl_1_l, N.pow2_bits_eqb. destruct (Nat.eqb_spec i j) as [->|H]; [apply N.eqb_refl|]. apply N.eqb_neq. lia.
Qed.
Lemma apply_low i fs : forall c k, k < i -> N.testbit (c_filters (apply i fs c)) (N.of_nat k) = N.testbit (c_filters c) (N.of_nat k).
Proof.
  revert i. induction fs as [|f fs IH]; intros i c k H; cbn [apply_filters]; auto. rewrite IH by lia. destruct (_ && _); auto. cbn [c_filters].
  rewrite N.lor_spec, bit_spec. destruct (Nat.eqb_spec i k); [lia|]. apply orb_false_r.
Qed.
Lemma apply_vars i fs : forall c, c_vars (apply i fs c) = c_vars c.
Proof. revert i. induction fs as [|f fs IH]; intros i c; cbn [apply_filters]; auto. rewrite IH. destruct (_ && _); auto. Qed.
Lemma keep_true A S : (forall m f, In m A -> In f S -> ps m f = true) -> keep S A = A.
Proof.
  intros H. unfold keep. induction A as [|a A IH]; cbn [filter]; auto. replace (forallb (ps a) S) with true.
  - f_equal. apply IH. intros m f Hm. apply H. now right.
  - symmetry. apply forallb_forall. intros f Hf. apply H; auto. now left.
Qed.
Definition covered_by (c : cand) (fs : list gfilter) : list gfilter := filter (fun f => subset (gf_vars f) (c_vars c)) fs.
Lemma apply_spec fs : forall i c, marks_ok i fs c ->
  c_rows (apply i fs c) = keep (covered_by c fs) (c_rows c) /\ marks_ok i fs (apply i fs c).
Proof.
  induction fs as [|f fs IH]; intros i c M.
  - cbn [apply_filters]. unfold covered_by, keep. cbn [filter forallb]. split; [|intros [|j] f H; discriminate].
    symmetry. apply (keep_true (c_rows c) []). intros m f _ [].
  - cbn [apply_filters]. set (c1 := if negb (N.testbit (c_filters c) (N.of_nat i)) && subset (gf_vars f) (c_vars c)
      then Cd (c_vars c) (filter (fun m => ps m f) (c_rows c)) (N.lor (c_filters c) (bit i)) else c).
    assert (V1 : c_vars c1 = c_vars c) by (subst c1; destruct (_ && _); auto).
    assert (R1 : c_rows c1 = keep (covered_by c [f]) (c_rows c)).
    { subst c1. unfold covered_by. cbn [filter]. destruct (subset (gf_vars f) (c_vars c)) eqn:Su.
      - rewrite andb_true_r. destruct (N.testbit (c_filters c) (N.of_nat i)) eqn:T; cbn [negb c_rows].
        + symmetry. apply keep_true. intros m g Hm [<-|[]]. destruct (M 0 f eq_refl) as [_ X]; [now rewrite Nat.add_0_r|auto].
        + unfold keep. apply filter_ext. intros m. cbn [forallb]. now rewrite andb_true_r.
      - rewrite andb_false_r. symmetry. apply keep_true. intros m g _ []. }
    assert (B1 : forall k, N.testbit (c_filters c1) (N.of_nat k) = true -> N.testbit (c_filters c) (N.of_nat k) = true \/ (k = i /\ subset (gf_vars f) (c_vars c) = true)).
    { intros k Hk. subst c1. destruct (negb _ && subset _ _) eqn:E; auto. cbn [c_filters] in Hk. rewrite N.lor_spec, bit_spec in Hk.
      apply orb_true_iff in Hk. destruct Hk as [Hk|Hk]; auto. apply Nat.eqb_eq in Hk. apply andb_true_iff in E. right. split; [lia|tauto]. }
    assert (M1 : marks_ok (S i) fs c1).
    { intros j g Hj T. destruct (B1 _ T) as [T'|[X _]]; [|lia]. destruct (M (S j) g Hj) as [Y1 Y2]; [now rewrite Nat.add_succ_r|].
      rewrite V1. split; auto. intros m Hm. rewrite R1 in Hm. apply filter_In in Hm. apply Y2, Hm. }
    destruct (IH (S i) c1 M1) as [R2 M2].
    assert (R : c_rows (apply (S i) fs c1) = keep (covered_by c (f :: fs)) (c_rows c)).
    { rewrite R2, R1, keep_app. unfold covered_by. rewrite V1. f_equal. cbn [filter]. destruct (subset (gf_vars f) (c_vars c)); reflexivity. }
    split; auto. intros [|j] g Hj T.
    + injection Hj as <-. rewrite Nat.add_0_r in T. rewrite apply_low in T by lia. rewrite apply_vars, V1. destruct (B1 _ T) as [T'|[_ Su]].
      * destruct (M 0 f eq_refl) as [Y1 Y2]; [now rewrite Nat.add_0_r|]. split; auto. intros m Hm. rewrite R in Hm. apply filter_In in Hm. apply Y2, Hm.
      * split; auto. intros m Hm. rewrite R in Hm. apply filter_In in Hm. destruct Hm as [_ Hm]. rewrite forallb_forall in Hm. apply Hm.
        unfold covered_by. cbn [filter]. rewrite Su. now left.
    + apply (M2 j g Hj). now rewrite Nat.add_succ_r in T.
Qed.
Lemma marks_zero i fs c : c_filters c = 0%N -> marks_ok i fs c.
Proof. intros E j f _ T. rewrite E, N.bits_0 in T. discriminate. Qed.

(* ---------- the collected plans ---------- *)
Definition core (fs : list gfilter) (s : scope) (A : list mapping) (plans : list (option cand)) : Prop :=
  match all_some plans with
  | None => True
  | Some cs => exists S, within S s /\ incl S fs /\ has_vars (join_plans U cs) s /\
                         Permutation (c_rows (join_plans U cs)) (keep S A) /\
                         forall c m, In c cs -> In m (c_rows c) -> length m = n
  end.
Lemma all_some_app {X} (l : list (option X)) x : all_some (l ++ [Some x]) = option_map (fun r => r ++ [x]) (all_some l).
Proof. induction l as [|[y|] l IH]; cbn; auto. rewrite IH. destruct (all_some l); auto. Qed.
Lemma all_some_app_none {X} (l r : list (option X)) : all_some l = None -> all_some (l ++ r) = None.
Proof. induction l as [|[y|] l IH]; cbn; intros H; try discriminate; auto. destruct (all_some l); [discriminate|]. now rewrite IH. Qed.
Lemma keep_doms s S A : doms s A -> doms s (keep S A).
Proof. intros D. now apply filter_doms. Qed.
Lemma perm_doms s A B : Permutation A B -> doms s B -> doms s A.
Proof. intros H D m Hm. apply D. eapply Permutation_in; eauto. Qed.
Lemma core_add fs s s2 A B plans b : core fs s A plans -> wf s -> doms s A -> has_vars b s2 -> doms s2 B -> Permutation (c_rows b) B ->
  joinable s s2 = true -> core fs (fst s ++ fst s2, snd s ++ snd s2) (bjoin A B) (plans ++ [Some b]).
Proof.
  intros C W D V DB PB J. unfold core in *. rewrite all_some_app. destruct (all_some plans) as [cs|]; cbn [option_map]; auto.
  destruct C as (S & H1 & H2 & H3 & H4 & H5). exists S. unfold join_plans in *. rewrite fold_left_app. cbn [fold_left].
  assert (DJ : doms s (c_rows (fold_left (mjoin U) cs (no_vars U)))) by (eapply perm_doms; [exact H4|]; now apply keep_doms).
  assert (Db : doms s2 (c_rows b)) by (eapply perm_doms; eauto).
  split; [intros f Hf v Hv; cbn [snd]; apply in_app_iff; left; eapply H1; eauto|]. split; auto.
  split; [intros v; cbn [mjoin c_vars snd]; rewrite union_in, in_app_iff, (H3 v), (V v); tauto|].
  split.
  - rewrite (mjoin_rows s s2) by auto. rewrite (bjoin_perm _ _ _ _ H4 PB). rewrite (keep_bjoin S s s2) by auto. reflexivity.
  - intros c m Hc Hm. apply in_app_iff in Hc. destruct Hc as [Hc|[<-|[]]]; [eauto|]. apply Db, Hm.
Qed.
Lemma core_perm fs s A A' plans : Permutation A A' -> core fs s A plans -> core fs s A' plans.
Proof.
  intros H. unfold core. destruct (all_some plans); auto. intros (S & H1 & H2 & H3 & H4 & H5). exists S. repeat split; auto; try apply H3.
  rewrite H4. now apply keep_perm.
Qed.
Lemma join_single c : (forall m, In m (c_rows c) -> length m = n) ->
  c_vars (join_plans U [c]) = c_vars c /\ c_rows (join_plans U [c]) = c_rows c.
Proof.
  intros L. unfold join_plans. cbn [fold_left mjoin no_vars c_vars c_rows]. split.
  - unfold union_vars. cbn [app]. induction (c_vars c) as [|v l IH]; cbn [filter]; auto. change (memb v []) with false. cbn [negb]. now f_equal.
  - cbn [flat_map]. rewrite app_nil_r. cbn [shared inter filter agree forallb]. clear - L. induction (c_rows c) as [|m l IH]; cbn; auto.
    f_equal; [apply (merge_unit n); apply L; now left|]. apply IH. intros; apply L; now right.
Qed.
Lemma core_single fs s S A c : within S s -> incl S fs -> has_vars c s -> Permutation (c_rows c) (keep S A) -> doms s A -> core fs s A [Some c].
Proof.
  intros H1 H2 H3 H4 D. unfold core. cbn [all_some]. exists S.
  assert (L : forall m, In m (c_rows c) -> length m = n).
  { intros m Hm. apply (Permutation_in _ H4) in Hm. apply filter_In in Hm. apply D, Hm. }
  destruct (join_single c L) as [E1 E2]. rewrite E2. split; auto. split; auto. split; [|split; auto].
  - intros v. rewrite E1. apply H3.
  - intros c' m [<-|[]]. auto.
Qed.
Lemma fold_bjoin_assoc Bs : forall A, lens n A -> (forall B, In B Bs -> lens n B) ->
  Permutation (fold_left bjoin Bs A) (bjoin A (fold_left bjoin Bs [unit])).
Proof.
  assert (LU : lens n [unit]) by (constructor; [apply dom_unit|constructor]).
  assert (LF : forall Bs A, lens n A -> (forall B, In B Bs -> lens n B) -> lens n (fold_left bjoin Bs A)).
  { intros Bs0. induction Bs0 as [|B Bs0 IH]; intros A LA LB; cbn [fold_left]; auto.
    apply IH; [apply bjoin_lens; auto; apply LB; now left|]. intros B' H. apply LB. now right. }
  induction Bs as [|B Bs IH]; intros A LA LB; cbn [fold_left].
  - apply Permutation_sym. apply (bjoin_unit_r n A LA).
  - assert (LB' : lens n B) by (apply LB; now left). assert (LBs : forall B, In B Bs -> lens n B) by (intros; apply LB; now right).
    rewrite IH by (auto using bjoin_lens). rewrite (bjoin_assoc n) by (auto using LF). apply bjoin_perm; auto.
    change (bjoin [unit] B) with (bjoin [unit_map n] B). rewrite (bjoin_unit_l n B LB'). now rewrite (IH B LB' LBs).
Qed.
Lemma core_triples fs ts : (forall v, In v (flat_map (pattern_vars is_var) ts) -> In v U) -> forall s A plans, core fs s A plans -> wf s -> doms s A ->
  (forall v, In v (snd s) -> In v (flat_map (pattern_vars is_var) ts) -> In v (fst s)) ->
  core fs (fst s ++ flat_map (pattern_vars is_var) ts, snd s ++ flat_map (pattern_vars is_var) ts)
    (fold_left bjoin (map triple_solutions ts) A) (plans ++ map (triple_plan triple_solutions) ts).
Proof.
  induction ts as [|t ts IH]; intros Hv s A plans C W D J; cbn [map fold_left flat_map] in *.
  - rewrite !app_nil_r. now destruct s.
  - rewrite !app_assoc. change (triple_plan triple_solutions t :: map (triple_plan triple_solutions) ts) with
      ([triple_plan triple_solutions t] ++ map (triple_plan triple_solutions) ts). rewrite app_assoc.
    set (vs := pattern_vars is_var t) in *.
    assert (Hvt : forall v, In v vs -> In v U) by (intros v X; apply Hv, in_app_iff; auto).
    assert (Ht : doms (vs, vs) (triple_solutions t)) by (intros m Hm; now apply Htriples).
    assert (Jt : joinable s (vs, vs) = true) by (apply joinable_in; cbn [fst snd]; intros v X Y; split; auto; apply J; auto; apply in_app_iff; auto).
    assert (W' : wf (fst s ++ vs, snd s ++ vs)).
    { destruct W as [X1 X2]. split; cbn [fst snd]; intros v; rewrite !in_app_iff; intuition. }
    apply (IH (fun v X => Hv v (proj2 (in_app_iff _ _ _) (or_intror X))) (fst s ++ vs, snd s ++ vs)); auto.
    + apply (core_add fs s (vs, vs)); auto. intros v. cbn [c_vars snd]. apply nodup_In.
    + apply (bjoin_doms s (vs, vs)); auto.
    + cbn [fst snd]. intros v. rewrite !in_app_iff. intros [X|X] Y; auto. left. apply J; auto. apply in_app_iff. auto.
Qed.

(* what a row of the table gives *)
Definition row_ok (fs : list gfilter) (s : scope) (A : list mapping) (a : cand) : Prop :=
  exists S, within S s /\ incl S fs /\ has_vars a s /\ Permutation (c_rows a) (keep S A) /\ marks_ok 0 fs a.
Notation commut := (commut U sat refuses).
Lemma commut_ok fs s A k plans a : core fs s A plans -> commut k plans fs = Val (Some a) -> row_ok fs s A a.
Proof.
  unfold Group_Model.commut, core. intros C E. destruct (64 <? k); [discriminate|]. destruct (64 <? length fs); [discriminate|].
  destruct (all_some plans) as [[|c cs]|]; [discriminate| |destruct plans as [|? [|? ?]]; discriminate].
  destruct (refuses (c :: cs)); [discriminate|]. injection E as <-. destruct C as (S & H1 & H2 & H3 & H4 & H5).
  set (J := join_plans U (c :: cs)) in *.
  assert (M : marks_ok 0 fs J).
  { apply marks_zero. subst J. unfold join_plans. assert (X : forall l c0, c_filters c0 = 0%N -> c_filters (fold_left (mjoin U) l c0) = 0%N).
    { intros l. induction l as [|y l IHl]; intros c0 E0; cbn [fold_left]; auto. } apply X. reflexivity. }
  destruct (apply_spec fs 0 J M) as [R M'].
  assert (Wc : within (covered_by J fs) s).
  { intros f Hf v Hv. apply filter_In in Hf. destruct Hf as [_ Hf]. rewrite subset_in in Hf. apply H3, Hf, Hv. }
  exists (S ++ covered_by J fs). split; [intros f Hf; apply in_app_iff in Hf; destruct Hf; [now apply H1|now apply Wc]|].
  split; [intros f Hf; apply in_app_iff in Hf; destruct Hf as [Hf|Hf]; [now apply H2|apply filter_In in Hf; tauto]|].
  split; [intros v; rewrite apply_vars; apply H3|]. split; auto. rewrite R, <- keep_app. now apply keep_perm.
Qed.

(* ---------- the planner ---------- *)
Notation mopt_element := (opt_element U triple_solutions sat refuses).
Notation mopt_elements := (opt_elements U triple_solutions sat refuses).
Notation moptimize := (optimize U triple_solutions sat refuses).
Notation mcreate_tree := (create_tree U triple_solutions sat refuses).
Notation madd_child := (add_child U sat refuses).
Notation mfinish := (finish U sat refuses).
Lemma opt_element_eq fs e s : mopt_element fs e s =
  match e with
  | Triples ts => Val (add_triples triple_solutions ts s)
  | Group g => bind (moptimize g) (fun v => madd_child fs BASIC v s)
  | Optional g => bind (moptimize g) (fun v => madd_child fs OPTIONAL v s)
  | Minus g => bind (moptimize g) (fun v => madd_child fs MINUS v s)
  | Union g1 g2 =>
      bind (bind (moptimize g1) need) (fun a =>
      bind (bind (moptimize g2) need) (fun b =>
      madd_child fs BASIC (Some (Cd (union_vars (c_vars a) (c_vars b)) (c_rows a ++ c_rows b) 0)) s))
  | Subquery q => bind (mcreate_tree q) (fun c => madd_child fs BASIC (Some c) s)
  | Inline vs rows => madd_child fs BASIC (Some (Cd vs rows 0)) s
  | Bind t args fn => add_bind U sat refuses fs t args fn s
  end.
Proof. destruct e; reflexivity. Qed.
Lemma opt_elements_eq fs es s : mopt_elements fs es s =
  match es with Nil => Val s | Cons e es' => bind (mopt_element fs e s) (mopt_elements fs es') end.
Proof. destruct es; reflexivity. Qed.
Lemma optimize_eq es fs : moptimize (G es fs) = bind (mopt_elements fs es (St [] 0 [])) (mfinish fs).
Proof. reflexivity. Qed.
Lemma create_tree_eq select distinct offset limit g : mcreate_tree (Q select distinct offset limit g) =
  bind (bind (moptimize g) need) (fun c =>
  Val (Cd (c_vars c) (if distinct then distinct_on U (inter select (c_vars c)) (c_rows c) else c_rows c) 0)).
Proof. reflexivity. Qed.
Lemma filtered_inside_eq e es : filtered_inside (Cons e es) =
  if empty_element e then filtered_inside es else match e with Group g | Optional g => filtered_group g && all_empty es | _ => false end.
Proof. reflexivity. Qed.
Lemma bind_inv {X Y} (r : result X) (f : X -> result Y) y : bind r f = Val y -> exists x, r = Val x /\ f x = Val y.
Proof. destruct r; cbn; intros H; try discriminate. eauto. Qed.

(* a group without filters gives plans without noted filters *)
Lemma join_plans_zero cs : c_filters (join_plans U cs) = 0%N.
Proof.
  unfold join_plans. assert (X : forall l c0, c_filters c0 = 0%N -> c_filters (fold_left (mjoin U) l c0) = 0%N).
  { intros l. induction l as [|y l IHl]; intros c0 E0; cbn [fold_left]; auto. } apply X. reflexivity.
Qed.
Lemma commut_zero k plans a : commut k plans [] = Val (Some a) -> c_filters a = 0%N.
Proof.
  unfold Group_Model.commut. intros E. destruct (64 <? k); [discriminate|]. destruct (64 <? _); [discriminate|].
  destruct (all_some plans) as [[|c cs]|]; [discriminate| |destruct plans as [|? [|? ?]]; discriminate].
  destruct (refuses (c :: cs)); [discriminate|]. injection E as <-. apply join_plans_zero.
Qed.
(* what add_child does *)
Lemma add_child_inv fs ty v s s' : madd_child fs ty v s = Val s' -> exists b, v = Some b /\
  ((s' = St (s_plans s ++ [Some b]) (s_triples s) (s_bound s ++ c_vars b) /\
    (ty = BASIC \/ (ty = OPTIONAL /\ forall x, In x (c_vars b) -> ~ In x (s_bound s)))) \/
   (ty <> BASIC /\ exists a, commut (s_triples s) (s_plans s) fs = Val (Some a) /\ shared (c_vars a) (c_vars b) <> [] /\
    s' = St [Some (match ty with MINUS => minus_plan U a b | _ => optional_join U a b end)] 0 (s_bound s ++ c_vars b))).
Proof.
  unfold add_child. destruct v as [b|]; [|discriminate]. intros E. exists b. split; auto.
  set (un := forallb (fun x => negb (memb x (s_bound s))) (c_vars b)) in *.
  assert (Hun : un = true -> forall x, In x (c_vars b) -> ~ In x (s_bound s)).
  { intros H x Hx K. unfold un in H. rewrite forallb_forall in H. specialize (H x Hx). apply memb_in in K. rewrite K in H. discriminate. }
  assert (X : forall f, bind (commut (s_triples s) (s_plans s) fs) (fun row =>
            match row with
            | None => Throw
            | Some a => match shared (c_vars a) (c_vars b) with [] => Throw | _ => Val (St [Some (f a)] 0 (s_bound s ++ c_vars b)) end
            end) = Val s' -> exists a, commut (s_triples s) (s_plans s) fs = Val (Some a) /\ shared (c_vars a) (c_vars b) <> [] /\
      s' = St [Some (f a)] 0 (s_bound s ++ c_vars b)).
  { intros f H. apply bind_inv in H. destruct H as ([a|] & E1 & E2); [|discriminate]. exists a. split; auto.
    destruct (shared _ _); [discriminate|]. injection E2 as <-. split; [discriminate|auto]. }
  destruct ty; cbn [negb] in E.
  - left. injection E as <-. auto.
  - destruct un eqn:Eu.
    + left. injection E as <-. auto.
    + right. split; [discriminate|]. apply (X (fun a => optional_join U a b)). exact E.
  - right. split; [discriminate|]. apply (X (fun a => minus_plan U a b)). exact E.
Qed.
Definition unmarked (es : elements) (s : state) : Prop :=
  (s_plans s = [] -> filtered_inside es = false) /\
  (forall c, s_plans s = [Some c] -> s_triples s = 0 -> c_filters c = 0%N \/ all_empty es = false).
Lemma snoc_single {X} (l : list X) x y : l ++ [x] = [y] -> l = [] /\ x = y.
Proof. destruct l as [|z [|w l]]; cbn; intros H; try discriminate. injection H as <-. auto. Qed.
Lemma unmarked_some es c cs k b : c_filters c = 0%N \/ cs <> [] \/ k <> 0 \/ all_empty es = false -> unmarked es (St (cs ++ [Some c]) k b).
Proof.
  intros H. split; cbn [s_plans s_triples].
  - intros E. destruct cs; discriminate.
  - intros c' E K. apply snoc_single in E. destruct E as [-> E]. injection E as <-. intuition congruence.
Qed.
Lemma unmarked_step es e s s' : unmarked (Cons e es) s ->
  (forall g c, e = Group g \/ e = Optional g -> filtered_group g = false -> moptimize g = Val (Some c) -> c_filters c = 0%N) ->
  mopt_element [] e s = Val s' -> unmarked es s'.
Proof.
  intros [U1 U2] IH E. rewrite filtered_inside_eq in U1. rewrite opt_element_eq in E.
  assert (Child : forall ty b, madd_child [] ty (Some b) s = Val s' ->
      (s_plans s = [] -> c_filters b = 0%N \/ all_empty es = false) -> unmarked es s').
  { intros ty b H Hb. apply add_child_inv in H. destruct H as (b' & Eb & H). injection Eb as <-. destruct H as [[-> _]|(_ & a & Ea & Sh & ->)].
    - apply unmarked_some. destruct (s_plans s); [destruct (Hb eq_refl); auto|right; left; discriminate].
    - split; cbn [s_plans]; [discriminate|]. intros c X _. injection X as <-. left. destruct ty; reflexivity. }
  assert (Gr : forall ty g, e = Group g \/ e = Optional g -> bind (moptimize g) (fun v => madd_child [] ty v s) = Val s' -> unmarked es s').
  { intros ty g He H. apply bind_inv in H. destruct H as (v & Ev & H). pose proof H as H'. apply add_child_inv in H'. destruct H' as (b & -> & _).
    apply (Child ty b H). intros Hn. assert (X : filtered_group g && all_empty es = false) by (destruct He as [-> | ->]; apply (U1 Hn)).
    apply andb_false_iff in X. destruct X as [X|X]; auto. left. eapply IH; eauto. }
  destruct e as [ts|g|g|g|g1 g2|q|vs rows|t args fn].
  - injection E as <-. destruct ts as [|t ts].
    + unfold add_triples. cbn [map length]. rewrite app_nil_r, Nat.add_0_r. split; cbn [s_plans s_triples].
      * exact U1.
      * intros c H K. destruct (U2 c H K) as [X|X]; auto.
    + split; cbn [s_plans s_triples add_triples map length]; [intros X; destruct (s_plans s); discriminate|]. intros c _ K. lia.
  - eapply Gr; eauto.
  - eapply Gr; eauto.
  - apply bind_inv in E. destruct E as (v & Ev & H). pose proof H as H'. apply add_child_inv in H'.
    destruct H' as (b & -> & [[_ [X|[X _]]]|(_ & a & Ea & _ & ->)]); try discriminate.
    split; cbn [s_plans]; [discriminate|]. intros c X _. injection X as <-. left. reflexivity.
  - apply bind_inv in E. destruct E as (a & _ & E). apply bind_inv in E. destruct E as (b & _ & E). apply (Child _ _ E). left. reflexivity.
  - apply bind_inv in E. destruct E as (c & Ec & E). apply (Child _ _ E). left. destruct q. rewrite create_tree_eq in Ec.
    apply bind_inv in Ec. destruct Ec as (c' & _ & Ec). injection Ec as <-. reflexivity.
  - apply (Child _ _ E). left. reflexivity.
  - unfold add_bind in E. destruct (memb t (s_bound s)); [discriminate|]. apply bind_inv in E. destruct E as ([a|] & Ea & E); injection E as <-.
    + split; cbn [s_plans]; [discriminate|]. intros c X _. injection X as <-. left. apply (commut_zero _ _ _ Ea).
    + split; cbn [s_plans]; discriminate.
Qed.
Lemma unmarked_ok :
  (forall e, match e with Group g | Optional g => forall c, filtered_group g = false -> moptimize g = Val (Some c) -> c_filters c = 0%N | _ => True end) /\
  (forall es s s', unmarked es s -> mopt_elements [] es s = Val s' -> unmarked Nil s') /\
  (forall g c, filtered_group g = false -> moptimize g = Val (Some c) -> c_filters c = 0%N) /\
  (forall q : query, True).
Proof.
  apply pattern_ind; auto.
  - intros s s' H E. rewrite opt_elements_eq in E. injection E as <-. auto.
  - intros e IHe es IHes s s' H E. rewrite opt_elements_eq in E. apply bind_inv in E. destruct E as (s1 & E1 & E2).
    apply (IHes s1); auto. apply (unmarked_step es e s); auto. intros g c [-> | ->]; auto.
  - intros es IH fs c F E. cbn [filtered_group] in F. destruct fs; [|discriminate]. rewrite optimize_eq in E. apply bind_inv in E.
    destruct E as (s & E1 & E2). assert (H : unmarked Nil s).
    { apply (IH (St [] 0 [])); auto. split; cbn [s_plans]; [intros _; exact F|discriminate]. }
    destruct H as [_ H]. unfold finish in E2. apply bind_inv in E2. destruct E2 as (plans & E3 & E4).
    destruct ((1 <? length (s_plans s)) || negb (Nat.eqb (s_triples s) 0)) eqn:B.
    + apply bind_inv in E3. destruct E3 as ([a|] & Ea & X); injection X as <-; [|discriminate]. cbn in E4. injection E4 as <-.
      apply (commut_zero _ _ _ Ea).
    + injection E3 as <-. apply orb_false_iff in B. destruct B as [B1 B2]. apply negb_false_iff, Nat.eqb_eq in B2. apply Nat.ltb_ge in B1.
      destruct (s_plans s) as [|[a|] [|? ?]]; try discriminate; cbn [length] in B1; try lia. cbn in E4. injection E4 as <-.
      destruct (H a eq_refl B2); auto. discriminate.
Qed.

(* ---------- refinement ---------- *)
Definition inv (fs : list gfilter) (es : elements) (s : scope) (A : list mapping) (st : state) : Prop :=
  (forall v, In v (snd s) -> In v (s_bound st)) /\ core fs s A (s_plans st) /\
  (s_plans st = [] -> filters_visible es fs = true) /\
  (forall c, s_plans st = [Some c] -> s_triples st = 0 -> marks_ok 0 fs c \/ all_empty es = false).
Definition plan_ok (s : scope) (A : list mapping) (c : cand) : Prop := has_vars c s /\ Permutation (c_rows c) A.

(* one more plan that can be joined in any order *)
Lemma step_basic fs es e s s2 A B st b : inv fs (Cons e es) s A st -> wf s -> doms s A -> doms s2 B -> plan_ok s2 B b -> joinable s s2 = true ->
  (s_plans st = [] -> marks_ok 0 fs b \/ all_empty es = false) ->
  inv fs es (fst s ++ fst s2, snd s ++ snd s2) (bjoin A B) (St (s_plans st ++ [Some b]) (s_triples st) (s_bound st ++ c_vars b)).
Proof.
  intros (I1 & I2 & I3 & I4) W D DB [V P] J M. split; [|split; [|split]]; cbn [s_plans s_triples s_bound snd].
  - intros v. rewrite !in_app_iff, (V v). intuition.
  - apply core_add; auto.
  - intros E. destruct (s_plans st); discriminate.
  - intros c E K. apply snoc_single in E. destruct E as [E X]. injection X as <-. auto.
Qed.
(* the plans so far become one *)
Lemma step_single fs es s A S c bound : within S s -> incl S fs -> plan_ok s (keep S A) c -> doms s A -> (forall v, In v (snd s) -> In v bound) ->
  marks_ok 0 fs c -> inv fs es s A (St [Some c] 0 bound).
Proof.
  intros H1 H2 [V P] D B M. split; [auto|]. split; [now apply (core_single fs s S)|]. split; cbn [s_plans]; [discriminate|].
  intros c' E _. injection E as <-. auto.
Qed.
Lemma rows_doms s S A a : doms s A -> Permutation (c_rows a) (keep S A) -> doms s (c_rows a).
Proof. intros D P. eapply perm_doms; [exact P|]. now apply keep_doms. Qed.
Lemma within_app S s t : within S s -> within S (fst s, snd s ++ t).
Proof. intros H f Hf v Hv. cbn [snd]. apply in_app_iff. left. eapply H; eauto. Qed.
Lemma distinct_in vs l m : In m (distinct_on U vs l) -> In m l.
Proof.
  induction l as [|x l IH]; cbn [distinct_on]; auto. intros [H|H]; [now left|]. apply filter_In in H. right. apply IH, H.
Qed.
Lemma distinct_ok s vs l : doms s l -> (forall v, In v (snd s) -> In v vs) -> Permutation (distinct_on U vs l) (nodup mapping_dec l).
Proof.
  intros D Hs.
  assert (Ag : forall a b, In a l -> In b l -> agree U vs a b = true -> a = b).
  { intros a b Ha Hb E. destruct (D a Ha) as (La & _ & Pa), (D b Hb) as (Lb & _ & Pb). apply (get_ext_gen U U a b HU La Lb).
    intros v Hv. unfold agree in E. rewrite forallb_forall in E. destruct (in_dec string_dec v (snd s)) as [X|X].
    - apply opt_eqb_eq. auto.
    - destruct (get U a v) eqn:Ea; [elim X; apply Pa; congruence|]. destruct (get U b v) eqn:Eb; [elim X; apply Pb; congruence|auto]. }
  apply NoDup_Permutation; [|apply NoDup_nodup|].
  - clear D. induction l as [|x l IH]; cbn [distinct_on]; constructor.
    + intros H. apply filter_In in H. destruct H as [_ H]. apply negb_true_iff in H.
      assert (X : agree U vs x x = true) by (unfold agree; apply forallb_forall; intros v _; now apply opt_eqb_eq). congruence.
    + apply NoDup_filter. apply IH. intros a b Ha Hb. apply Ag; now right.
  - intros m. rewrite nodup_In. split; [apply distinct_in|]. clear D. induction l as [|x l IH]; cbn [distinct_on]; auto. intros [->|H]; [now left|].
    destruct (agree U vs x m) eqn:E; [left; apply Ag; auto; [now left|now right]|]. right. apply filter_In. split; [|now rewrite E].
    apply IH; auto. intros a b Ha Hb. apply Ag; now right.
Qed.
Lemma bind_rows S t args fn A : (forall f, In f S -> ~ In t (gf_vars f)) -> In t U -> (forall m, In m A -> length m = n) ->
  extend U t args fn (keep S A) = keep S (extend U t args fn A).
Proof.
  intros H Ht L. unfold extend, keep. induction A as [|a A IH]; cbn [filter map]; auto.
  assert (E : forallb (ps (put U a t (fn (map (get U a) args)))) S = forallb (ps a) S).
  { apply eq_iff_eq_true. rewrite !forallb_forall.
    assert (X : forall f, In f S -> ps (put U a t (fn (map (get U a) args))) f = ps a f).
    { intros f Hf. apply passes_ext. intros v Hv. rewrite get_put by (auto; apply L; now left). destruct (String.eqb_spec t v) as [->|]; auto.
      elim (H f Hf Hv). }
    split; intros Y f Hf; specialize (Y f Hf); rewrite X in *; auto. }
  rewrite E. rewrite <- IH by (intros; apply L; now right). destruct (forallb (ps a) S); reflexivity.
Qed.

Lemma planner_ok :
  (forall e fs es s s' A st st', sc_element e s = Some s' -> wf s -> doms s A -> inv fs (Cons e es) s A st -> mopt_element fs e st = Val st' ->
     inv fs es s' (seval_element e A) st') /\
  (forall es fs s s' A st st', sc_elements es s = Some s' -> wf s -> doms s A -> inv fs es s A st -> mopt_elements fs es st = Val st' ->
     inv fs Nil s' (seval_elements es A) st') /\
  (forall g s c, sc_group g = Some s -> moptimize g = Val (Some c) -> plan_ok s (seval_group g) c) /\
  (forall q s c, match q with Q sel d off lim g => sc_group g = Some s -> moptimize g = Val (Some c) -> plan_ok s (seval_group g) c end).
Proof.
  assert (GD : forall g s, sc_group g = Some s -> wf s /\ doms s (seval_group g)).
  { intros g s E. destruct (proj1 (proj2 (proj2 solutions_dom)) g s E) as [W D]. split; auto. rewrite group_inner. now apply filter_doms. }
  assert (Basic : forall fs es e s s2 s' A B st st' b, inv fs (Cons e es) s A st -> wf s -> doms s A -> doms s2 B -> plan_ok s2 B b -> wf s2 ->
      join_scope s s2 = Some s' -> c_filters b = 0%N -> madd_child fs BASIC (Some b) st = Val st' -> inv fs es s' (bjoin A B) st').
  { intros fs es e s s2 s' A B st st' b I W D DB P W2 J Z E. destruct (wf_join s s2 s' W W2 J) as (_ & J' & ->).
    apply add_child_inv in E. destruct E as (b' & Eb & E). injection Eb as <-. destruct E as [[-> _]|[X _]]; [|congruence].
    apply (step_basic fs es e); auto. intros _. left. now apply marks_zero. }
  apply pattern_ind.
  - (* triples *)
    intros ts fs es s s' A st st' E W D I O. rewrite sc_element_eq in E. cbv zeta in E.
    destruct (subset (flat_map (pattern_vars is_var) ts) U) eqn:Su; [|discriminate]. rewrite subset_in in Su.
    destruct (wf_join s (flat_map (pattern_vars is_var) ts, flat_map (pattern_vars is_var) ts) s') as (W' & J & ->); auto; [split; auto|].
    rewrite opt_element_eq in O. injection O as <-. rewrite eval_element_eq. destruct I as (I1 & I2 & I3 & I4).
    rewrite joinable_in in J. cbn [fst snd] in J.
    assert (LA : lens n A) by (apply Forall_forall; intros m Hm; apply D, Hm).
    assert (LB : forall B, In B (map triple_solutions ts) -> lens n B).
    { intros B HB. apply in_map_iff in HB. destruct HB as (t & <- & Ht). apply Forall_forall. intros m Hm. apply (Htriples t m); auto.
      intros v Hv. apply Su, in_flat_map. eauto. }
    split; [|split; [|split]]; cbn [s_plans s_triples s_bound add_triples fst snd].
    + intros v. rewrite !in_app_iff. intuition.
    + apply (core_perm _ _ _ _ _ (fold_bjoin_assoc (map triple_solutions ts) A LA LB)).
      apply core_triples; auto. intros v X Y. now apply (J v X Y).
    + intros X. apply app_eq_nil in X. destruct X as [X Y]. destruct ts; [|discriminate]. apply (I3 X).
    + intros c X K. destruct ts as [|t ts]; [|cbn [length] in K; lia]. cbn [map] in X. rewrite app_nil_r in X. cbn [length] in K.
      rewrite Nat.add_0_r in K. destruct (I4 c X K) as [Y|Y]; auto.
  - (* group *)
    intros g IH fs es s s' A st st' E W D I O. rewrite sc_element_eq in E. rewrite opt_element_eq in O. rewrite eval_element_eq.
    destruct (sc_group g) as [s2|] eqn:Eg; [|discriminate]. destruct (GD g s2 Eg) as [W2 D2]. destruct (wf_join s s2 s' W W2 E) as (_ & J & ->).
    apply bind_inv in O. destruct O as (v & Ev & O). apply add_child_inv in O. destruct O as (b & -> & [[-> _]|[X _]]); [|congruence].
    apply (step_basic fs es (Group g)); auto. intros Hn. destruct I as (_ & _ & I3 & _). specialize (I3 Hn).
    unfold filters_visible in I3. destruct fs as [|f fs']; [left; intros [|j] f H; discriminate|]. rewrite filtered_inside_eq in I3.
    cbn [empty_element] in I3. apply negb_true_iff, andb_false_iff in I3. destruct I3 as [X|X]; auto. left. apply marks_zero.
    apply (proj1 (proj2 (proj2 unmarked_ok)) g b X Ev).
  - (* optional *)
    intros g IH fs es s s' A st st' E W D I O. rewrite sc_element_eq in E. rewrite opt_element_eq in O. rewrite eval_element_eq.
    destruct (sc_group g) as [s2|] eqn:Eg; [|discriminate]. destruct (GD g s2 Eg) as [W2 D2].
    destruct (proj1 (proj2 (proj2 solutions_dom)) g s2 Eg) as [_ Din].
    destruct (joinable s s2 && _) eqn:B; [|discriminate]. injection E as <-. apply andb_true_iff in B. destruct B as [J Sh].
    apply bind_inv in O. destruct O as (v & Ev & O). apply add_child_inv in O. destruct O as (b & -> & O).
    destruct (IH s2 b eq_refl Ev) as [V P]. destruct I as (I1 & I2 & I3 & I4).
    destruct O as [[_ [X|[_ X]]]|(_ & a & Ea & Hs & ->)]; [discriminate| |].
    { exfalso. destruct (inter (snd s) (snd s2)) as [|w l] eqn:Ei; [discriminate|].
      assert (Hw : In w (inter (snd s) (snd s2))) by (rewrite Ei; now left). apply inter_in in Hw. destruct Hw as [Hw1 Hw2].
      apply (X w); [now apply V|now apply I1]. }
    destruct (commut_ok fs s A _ _ a I2 Ea) as (S & S1 & S2 & Va & Pa & Ma).
    assert (Da : doms s (c_rows a)) by (eapply rows_doms; eauto). assert (Db : doms s2 (c_rows b)) by (eapply perm_doms; eauto).
    destruct g as [ges gfs]. cbn [inner] in Din.
    assert (Wg : within gfs s2).
    { rewrite sc_group_eq in Eg. destruct (sc_elements ges ([], [])) as [s3|]; [|discriminate]. destruct (forallb _ gfs && _) eqn:B; [|discriminate].
      injection Eg as <-. apply andb_true_iff in B. destruct B as [B _]. rewrite forallb_forall in B. intros f Hf. apply subset_in. auto. }
    apply (step_single fs es (fst s, snd s ++ snd s2) _ S).
    + now apply within_app.
    + exact S2.
    + split.
      * intros w. cbn [optional_join c_vars snd]. rewrite union_in, in_app_iff, (Va w), (V w). tauto.
      * rewrite (optional_rows s s2) by auto. rewrite (lj_perm _ _ _ _ Pa P). rewrite (lj_keep_l S s s2) by auto. apply keep_perm.
        change (seval_group (G ges gfs)) with (keep gfs (seval_elements ges [unit])). now rewrite (lj_keep_r gfs s s2).
    + intros m Hm. apply left_join_in in Hm. destruct Hm as [Hm|(x & y & Hx & Hy & K & ->)].
      * apply (dom_weaken s); auto. cbn [snd]. intros w. rewrite in_app_iff. auto.
      * apply (dom_weaken (fst s ++ fst s2, snd s ++ snd s2)); cbn [fst snd]; auto; [apply dom_merge'; auto|]. intros w. rewrite in_app_iff. auto.
    + cbn [snd]. intros w. rewrite !in_app_iff, (V w). intuition.
    + now apply marks_zero.
  - (* minus *)
    intros g IH fs es s s' A st st' E W D I O. rewrite sc_element_eq in E. rewrite opt_element_eq in O. rewrite eval_element_eq.
    destruct (sc_group g) as [s2|] eqn:Eg; [|discriminate]. destruct (GD g s2 Eg) as [W2 D2].
    destruct (joinable s s2) eqn:J; [|discriminate]. injection E as <-.
    apply bind_inv in O. destruct O as (v & Ev & O). apply add_child_inv in O. destruct O as (b & -> & O).
    destruct (IH s2 b eq_refl Ev) as [V P]. destruct I as (I1 & I2 & I3 & I4).
    destruct O as [[_ [X|[X _]]]|(_ & a & Ea & Hs & ->)]; try discriminate.
    destruct (commut_ok fs s A _ _ a I2 Ea) as (S & S1 & S2 & Va & Pa & Ma).
    assert (Da : doms s (c_rows a)) by (eapply rows_doms; eauto). assert (Db : doms s2 (c_rows b)) by (eapply perm_doms; eauto).
    apply (step_single fs es s _ S); auto.
    + split; [exact Va|]. rewrite (minus_rows s s2) by auto. rewrite (minus_perm _ _ _ _ Pa P). now rewrite minus_keep.
    + unfold minus. now apply filter_doms.
    + intros w Hw. apply in_app_iff. auto.
    + now apply marks_zero.
  - (* union *)
    intros g1 IH1 g2 IH2 fs es s s' A st st' E W D I O. rewrite sc_element_eq in E. rewrite opt_element_eq in O. rewrite eval_element_eq.
    destruct (sc_group g1) as [s1|] eqn:E1; [|discriminate]. destruct (sc_group g2) as [s2|] eqn:E2; [|discriminate].
    destruct (GD g1 s1 E1) as [W1 D1], (GD g2 s2 E2) as [W2 D2]. set (s3 := (inter (fst s1) (fst s2), snd s1 ++ snd s2)) in *.
    apply bind_inv in O. destruct O as (a & Ea & O). apply bind_inv in Ea. destruct Ea as ([a'|] & Ea & Na); [|discriminate]. injection Na as ->.
    apply bind_inv in O. destruct O as (b & Eb & O). apply bind_inv in Eb. destruct Eb as ([b'|] & Eb & Nb); [|discriminate]. injection Nb as ->.
    destruct (IH1 s1 a eq_refl Ea) as [Va Pa], (IH2 s2 b eq_refl Eb) as [Vb Pb].
    eapply (Basic fs es (Union g1 g2) s s3 s' A (seval_group g1 ++ seval_group g2)); eauto; [| | |reflexivity].
    + intros m Hm. apply in_app_iff in Hm. destruct Hm as [Hm|Hm].
      * apply (dom_weaken s1); auto; subst s3; cbn [fst snd]; intros v; rewrite ?inter_in, ?in_app_iff; tauto.
      * apply (dom_weaken s2); auto; subst s3; cbn [fst snd]; intros v; rewrite ?inter_in, ?in_app_iff; tauto.
    + split; cbn [c_rows c_vars].
      * intros v. subst s3. cbn [snd c_vars]. rewrite union_in, in_app_iff, (Va v), (Vb v). tauto.
      * now apply Permutation_app.
    + destruct W1 as [X1 X2], W2 as [Y1 Y2]. split; subst s3; cbn [fst snd]; intros v; rewrite ?inter_in, ?in_app_iff; intuition.
  - (* subquery *)
    intros [sel d off lim g] IH fs es s s' A st st' E W D I O. rewrite sc_element_eq in E. rewrite opt_element_eq in O.
    rewrite eval_element_eq, eval_query_eq. cbv zeta.
    destruct (sc_group g) as [s2|] eqn:Eg; [|discriminate]. destruct off; [|discriminate]. destruct lim; [discriminate|].
    destruct (subset (snd s2) sel) eqn:Su; [|discriminate]. rewrite subset_in in Su. destruct (GD g s2 Eg) as [W2 D2].
    apply bind_inv in O. destruct O as (c & Ec & O). rewrite create_tree_eq in Ec. apply bind_inv in Ec. destruct Ec as (c' & Ec & X).
    injection X as <-. apply bind_inv in Ec. destruct Ec as ([c''|] & Ec & X); [|discriminate]. injection X as ->.
    destruct (IH s2 c' eq_refl Ec) as [V P]. cbn [slice skipn]. rewrite (project_all s2) by auto.
    assert (Dc : doms s2 (c_rows c')) by (eapply perm_doms; eauto).
    eapply (Basic fs es (Subquery (Q sel d 0 None g)) s s2 s' A); eauto; [| |reflexivity].
    + destruct d; auto. intros m Hm. apply nodup_In in Hm. auto.
    + split; [exact V|]. cbn [c_rows]. destruct d; auto. rewrite (distinct_ok s2) by (auto; intros v Hv; apply inter_in; split; auto; now apply V).
      apply NoDup_Permutation; try apply NoDup_nodup. intros m. rewrite !nodup_In. split; apply Permutation_in; auto using Permutation_sym.
  - (* values *)
    intros vs rows fs es s s' A st st' E W D I O. rewrite sc_element_eq in E. rewrite opt_element_eq in O. rewrite eval_element_eq.
    destruct (subset vs U && _) eqn:B; [|discriminate]. apply andb_true_iff in B. destruct B as [Su B]. rewrite subset_in in Su. rewrite forallb_forall in B.
    eapply (Basic fs es (Inline vs rows) s (vs, vs) s' A rows); eauto; [| | |reflexivity].
    + intros m Hm. apply has_domain_dom; auto.
    + split; [intros v; cbn [c_vars snd]; tauto|reflexivity].
    + split; auto.
  - (* bind *)
    intros t args fn fs es s s' A st st' E W D I O. pose proof (proj1 solutions_dom (Bind t args fn) s s' A E W D) as [W' D'].
    rewrite sc_element_eq in E. rewrite opt_element_eq in O. rewrite eval_element_eq in *.
    destruct (memb t U && _) eqn:B; [|discriminate]. injection E as <-. apply andb_true_iff in B. destruct B as [Bt B]. apply memb_in in Bt.
    assert (Nt : ~ In t (snd s)) by (intros X; apply memb_in in X; rewrite X in B; discriminate).
    unfold add_bind in O. destruct (memb t (s_bound st)); [discriminate|]. apply bind_inv in O. destruct O as (row & Er & O). injection O as <-.
    destruct I as (I1 & I2 & I3 & I4). destruct row as [a|]; cbn [option_map].
    + destruct (commut_ok fs s A _ _ a I2 Er) as (S & S1 & S2 & Va & Pa & Ma).
      assert (Da : doms s (c_rows a)) by (eapply rows_doms; eauto).
      assert (NS : forall f, In f S -> ~ In t (gf_vars f)) by (intros f Hf X; apply Nt; eapply S1; eauto).
      apply (step_single fs es (fst s ++ [t], snd s ++ [t]) _ S); auto.
      * intros f Hf v Hv. cbn [snd]. apply in_app_iff. left. eapply S1; eauto.
      * split; [intros v; cbn [bind_plan c_vars snd]; rewrite !in_app_iff, (Va v); tauto|]. cbn [bind_plan c_rows].
        rewrite <- bind_rows by (auto; intros m Hm; apply D, Hm). unfold extend. now apply Permutation_map.
      * cbn [snd]. intros v. rewrite !in_app_iff. intuition.
      * intros j f Hj T. destruct (Ma j f Hj T) as [X1 X2]. cbn [bind_plan c_vars c_rows]. rewrite subset_in in X1.
        assert (Ntf : ~ In t (gf_vars f)) by (intros X; apply Nt, Va, X1, X). split.
        -- apply subset_in. intros v Hv. apply in_app_iff. auto.
        -- intros m Hm. apply in_map_iff in Hm. destruct Hm as (m0 & <- & Hm). rewrite <- (X2 m0 Hm). apply passes_ext. intros v Hv.
           rewrite get_put by (auto; apply Da, Hm). destruct (String.eqb_spec t v) as [->|]; [contradiction|auto].
    + split; [|split; [exact I|split; [discriminate|discriminate]]]. cbn [snd s_bound]. intros v. rewrite !in_app_iff. intuition.
  - (* nil *)
    intros fs s s' A st st' E W D I O. rewrite sc_elements_eq in E. injection E as <-. rewrite opt_elements_eq in O. injection O as <-. exact I.
  - intros e IHe es IHes fs s s' A st st' E W D I O. rewrite sc_elements_eq in E. rewrite opt_elements_eq in O.
    destruct (sc_element e s) as [s1|] eqn:E1; [|discriminate]. apply bind_inv in O. destruct O as (st1 & O1 & O2).
    destruct (proj1 solutions_dom e s s1 A E1 W D) as [W1 D1].
    change (seval_elements (Cons e es) A) with (seval_elements es (seval_element e A)). eapply (IHes fs s1); eauto.
  - (* group *)
    intros es IH fs s c E O. rewrite optimize_eq in O. apply bind_inv in O. destruct O as (st & O1 & O2). rewrite sc_group_eq in E.
    destruct (sc_elements es ([], [])) as [s1|] eqn:E1; [|discriminate]. destruct (forallb _ fs && _) eqn:B; [|discriminate]. injection E as <-.
    apply andb_true_iff in B. destruct B as [B Vi]. rewrite forallb_forall in B.
    destruct (proj1 (proj2 solutions_dom) es _ _ [unit] E1 wf_nil doms_unit) as [W1 D1].
    assert (I : inv fs Nil s1 (seval_elements es [unit]) st).
    { apply (IH fs ([], []) s1 [unit] (St [] 0 []) st); auto using wf_nil, doms_unit. split; [intros v []|]. split; [|split; [auto|discriminate]].
      exists []. cbn [all_some]. split; [intros f []|]. split; [intros f []|]. split; [intros v; reflexivity|]. split; [reflexivity|intros c0 m []]. }
    destruct I as (I1 & I2 & I3 & I4). set (A := seval_elements es [unit]) in *.
    assert (R : exists a, row_ok fs s1 A a /\ c = apply 0 fs a).
    { unfold finish in O2. apply bind_inv in O2. destruct O2 as (plans & E3 & E4).
      destruct ((1 <? length (s_plans st)) || negb (Nat.eqb (s_triples st) 0)) eqn:C.
      - apply bind_inv in E3. destruct E3 as ([a|] & Ea & X); injection X as <-; [|discriminate]. destruct (64 <? length fs); [discriminate|].
        injection E4 as <-. exists a. split; auto. eapply commut_ok; eauto.
      - injection E3 as <-. apply orb_false_iff in C. destruct C as [C1 C2]. apply negb_false_iff, Nat.eqb_eq in C2. apply Nat.ltb_ge in C1.
        destruct (s_plans st) as [|[a|] [|? ?]] eqn:Ep; try discriminate; cbn [length] in C1; try lia. destruct (64 <? length fs); [discriminate|].
        injection E4 as <-. exists a. split; auto. destruct (I4 a eq_refl C2) as [M|M]; [|discriminate].
        unfold core in I2. cbn [all_some] in I2. destruct I2 as (S & S1 & S2 & S3 & S4 & S5).
        destruct (join_single a (fun m => S5 a m (or_introl eq_refl))) as [X1 X2]. exists S. split; auto. split; auto.
        split; [intros v; rewrite <- (S3 v), X1; reflexivity|]. split; auto. now rewrite <- X2. }
    destruct R as (a & (S & S1 & S2 & S3 & S4 & S5) & ->). destruct (apply_spec fs 0 a S5) as [R _]. split.
    + intros v. rewrite apply_vars. apply S3.
    + rewrite R. assert (X : covered_by a fs = fs).
      { unfold covered_by. clear - B S3. induction fs as [|f fs IH]; auto. cbn [filter]. replace (subset (gf_vars f) (c_vars a)) with true.
        - f_equal. apply IH. intros; apply B; now right.
        - symmetry. apply subset_in. intros v Hv. apply S3. specialize (B f (or_introl eq_refl)). rewrite subset_in in B. auto. }
      rewrite X. rewrite (keep_perm fs _ _ S4). rewrite keep_app. change (seval_group (G es fs)) with (keep fs A).
      unfold keep. erewrite filter_ext; [reflexivity|]. intros m. cbv beta. rewrite forallb_app. apply eq_iff_eq_true.
      rewrite andb_true_iff, !forallb_forall. split; [tauto|]. intros H. split; auto.
  - intros sel d off lim g IH s c. apply IH.
Qed.
End Proof.
