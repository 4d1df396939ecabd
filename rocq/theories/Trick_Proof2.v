(* Counting with the patterns gives the counts of the query. *)
From Coq Require Import String List NArith Arith Bool Lia Permutation.
From Verif Require Import Table_Spec HasPred_Spec.
From Verif Require HasPred_Model HasPred_Proof.
From Verif Require Import Plan_Spec Plan_Model Plan_Proof1 Plan_Proof5 Group_Spec Group_Model Group_Proof Group_Proof2 Trick_Spec Trick_Model Trick_Proof.
Import ListNotations.
Local Open Scope nat_scope.

Definition trip_dec (a b : N * N * N) : {a = b} + {a <> b}.
Proof. repeat decide equality. Defined.
Lemma count_nodup (l : list (N * N * N)) t : NoDup l -> length (filter (fun u => if trip_dec u t then true else false) l) = (if in_dec trip_dec t l then 1 else 0).
Proof.
  induction l as [|u l IH]; intros Nd; [reflexivity|]. inversion Nd as [|? ? N1 N2]; subst. cbn [filter]. specialize (IH N2).
  destruct (trip_dec u t) as [->|Ne].
  - cbn [length]. rewrite IH. destruct (in_dec trip_dec t l); [tauto|]. destruct (in_dec trip_dec t (t :: l)) as [|X]; auto. elim X. now left.
  - rewrite IH. destruct (in_dec trip_dec t l) as [X|X], (in_dec trip_dec t (u :: l)) as [Y|Y]; auto; [elim Y; now right|destruct Y; tauto].
Qed.

Section Count.
Variable U : list string.
Hypothesis HU : NoDup U.
Hypothesis HV : forall v, In v U -> is_var v = true.
Variable voc : string -> option N.
Variable kb : graph.
Variable hp : N.
Variable ix : pattern_index.
Hypothesis Hhp : voc HAS_PREDICATE = Some hp.
Hypothesis Hkb : NoDup kb.
Hypothesis Hix : forall i p, In (i, hp, p) kb <-> In p (predicates_of ix i).
Variables (x o : string).
Hypothesis Hx : In x U.
Hypothesis Ho : In o U.
Hypothesis Hxo : x <> o.
Notation H := (triple_bag U is_var voc kb (x, HAS_PREDICATE, o)).

Lemma bag_eq : H = tbag voc kb U (T x HAS_PREDICATE o).
Proof.
  apply tbag_triple; auto. intros v Hv. unfold pattern_vars in Hv. apply filter_In in Hv. destruct Hv as [[<-|[<-|[<-|[]]]] Hv]; auto. discriminate Hv.
Qed.
Lemma tmatch_hp i j k : tmatch voc (T x HAS_PREDICATE o) (i, j, k) = N.eqb j hp.
Proof.
  unfold tmatch. cbn [t_s t_p t_o]. assert (Vx := HV x Hx). assert (Vo := HV o Ho).
  assert (E1 : term_ok voc x i = true) by (unfold term_ok; now rewrite Vx). assert (E3 : term_ok voc o k = true) by (unfold term_ok; now rewrite Vo).
  assert (E2 : term_ok voc HAS_PREDICATE j = N.eqb hp j) by (unfold term_ok; rewrite Hhp; reflexivity).
  assert (S1 : same_ok x HAS_PREDICATE i j = true). { unfold same_ok. destruct (String.eqb_spec x HAS_PREDICATE) as [e|]; [rewrite e in Vx; discriminate|]. now rewrite ?orb_true_r, ?andb_false_r. }
  assert (S2 : same_ok x o i k = true). { unfold same_ok. destruct (String.eqb_spec x o) as [e|]; [congruence|]. now rewrite ?orb_true_r, ?andb_false_r. }
  assert (S3 : same_ok HAS_PREDICATE o j k = true). { unfold same_ok. destruct (String.eqb_spec HAS_PREDICATE o) as [e|]; [rewrite <- e in Vo; discriminate|]. now rewrite ?orb_true_r, ?andb_false_r. }
  rewrite E1, E2, E3, S1, S2, S3. rewrite N.eqb_sym. now rewrite !andb_true_r.
Qed.
Definition hm (k : N * N * N) : mapping := map (tget (T x HAS_PREDICATE o) k) U.
Lemma hm_len k : length (hm k) = length U.
Proof. apply map_length. Qed.
Lemma hm_x i j k : get U (hm (i, j, k)) x = Some i.
Proof. unfold hm. rewrite get_map by auto. unfold tget. cbn [t_s t_p t_o]. now rewrite String.eqb_refl. Qed.
Lemma hm_o i j k : get U (hm (i, j, k)) o = Some k.
Proof.
  unfold hm. rewrite get_map by auto. unfold tget. cbn [t_s t_p t_o]. destruct (String.eqb_spec x o); [congruence|].
  destruct (String.eqb_spec HAS_PREDICATE o) as [e|]; [|now rewrite String.eqb_refl]. exfalso. assert (Vo := HV o Ho). rewrite <- e in Vo. discriminate.
Qed.
Lemma hm_other k v : v <> x -> v <> o -> In v U -> get U (hm k) v = None.
Proof.
  intros N1 N2 Hv. unfold hm. rewrite get_map by auto. unfold tget. destruct k as [[i j] k]. cbn [t_s t_p t_o]. destruct (String.eqb_spec x v); [congruence|].
  destruct (String.eqb_spec HAS_PREDICATE v) as [e|]; [assert (V := HV v Hv); rewrite <- e in V; discriminate|]. destruct (String.eqb_spec o v); congruence.
Qed.
Lemma compat_hm a i i' j k : length a = length U -> get U a x = Some i -> get U a o = None -> compat a (hm (i', j, k)) = N.eqb i i'.
Proof.
  intros L Ex Eo. apply eq_iff_eq_true. rewrite (compat_get U HU) by auto using hm_len. split.
  - intros Y. specialize (Y x Hx). rewrite Ex, hm_x in Y. exact Y.
  - intros Y v Hv. destruct (string_dec v x) as [->|N1]; [rewrite Ex, hm_x; exact Y|]. destruct (string_dec v o) as [->|N2]; [rewrite Eo; reflexivity|].
    rewrite hm_other by auto. destruct (get U a v); reflexivity.
Qed.
Definition has (o : string) (p : N) (m : mapping) : bool := match get U m o with Some z => N.eqb z p | None => false end.
Definition sub (a : mapping) : N := match get U a x with Some i => i | None => UNBOUND end.
Lemma one_subject a i p : length a = length U -> get U a x = Some i -> get U a o = None ->
  length (filter (has o p) (bjoin [a] H)) = if existsb (N.eqb p) (predicates_of ix i) then 1 else 0.
Proof.
  intros L Ex Eo. rewrite bag_eq. unfold tbag, bjoin. cbn [flat_map]. rewrite app_nil_r.
  transitivity (length (filter (fun u => if trip_dec u (i, hp, p) then true else false) kb)).
  - clear Hkb Hix. induction kb as [|[[i' j] k] l IH]; [reflexivity|]. cbn [filter]. rewrite tmatch_hp. destruct (N.eqb_spec j hp) as [->|Nj].
    + cbn [map flat_map]. rewrite filter_app, app_length, IH. change (map (tget (T x HAS_PREDICATE o) (i', hp, k)) U) with (hm (i', hp, k)).
      rewrite (compat_hm a i) by auto. destruct (N.eqb_spec i i') as [->|Ni].
      * cbn [filter]. unfold has at 1. rewrite get_merge' by auto using hm_len. rewrite Eo, hm_o. cbn [merge1].
        destruct (N.eqb_spec k p) as [->|Nk], (trip_dec (i', hp, _) (i', hp, p)) as [X|X]; cbn [length]; try congruence; reflexivity.
      * cbn [filter length]. destruct (trip_dec (i', hp, k) (i, hp, p)); [congruence|reflexivity].
    + rewrite IH. destruct (trip_dec (i', j, k) (i, hp, p)); [congruence|reflexivity].
  - rewrite count_nodup by auto. destruct (in_dec trip_dec (i, hp, p) kb) as [X|X], (existsb (N.eqb p) (predicates_of ix i)) eqn:E; auto; exfalso.
    + apply Hix in X. assert (Y : existsb (N.eqb p) (predicates_of ix i) = true) by (apply existsb_exists; exists p; split; auto; apply N.eqb_refl). congruence.
    + apply existsb_exists in E. destruct E as (q & Hq & E). apply N.eqb_eq in E. subst q. apply X. now apply Hix.
Qed.
Lemma row_vars A m : (forall a, In a A -> length a = length U) -> In m (bjoin A H) -> get U m x <> None /\ get U m o <> None.
Proof.
  intros LA Hm. rewrite bag_eq in Hm. unfold bjoin in Hm. apply in_flat_map in Hm. destruct Hm as (a & Ha & Hm). apply in_flat_map in Hm. destruct Hm as (h & Hh & Hm).
  destruct (compat a h); [|destruct Hm]. destruct Hm as [<-|[]]. unfold tbag in Hh. apply in_map_iff in Hh. destruct Hh as ([[i j] k] & <- & _).
  change (map (tget (T x HAS_PREDICATE o) (i, j, k)) U) with (hm (i, j, k)).
  rewrite !get_merge' by auto using hm_len. rewrite hm_x, hm_o. destruct (get U a x), (get U a o); split; discriminate.
Qed.
Lemma group_length A p : (forall a, In a A -> length a = length U /\ get U a x <> None /\ get U a o = None) -> NoDup (map sub A) ->
  length (group_rows U (bjoin A H) o p) = entities_with ix p (map sub A).
Proof.
  intros HA Nd. unfold entities_with. rewrite nodup_fixed_point by auto. change (group_rows U (bjoin A H) o p) with (filter (has o p) (bjoin A H)).
  clear Nd. induction A as [|a A IH]; [reflexivity|]. change (a :: A) with ([a] ++ A). assert (B : bjoin ([a] ++ A) H = bjoin [a] H ++ bjoin A H).
  { unfold bjoin. now rewrite flat_map_app. }
  rewrite B, filter_app, app_length, IH by (intros; apply HA; now right). cbn [app map filter]. destruct (HA a) as (L & X & Y); [now left|].
  unfold sub at 2. destruct (get U a x) as [i|] eqn:Ex; [|congruence]. rewrite (one_subject a i p) by auto.
  destruct (existsb (N.eqb p) (predicates_of ix i)); reflexivity.
Qed.
Lemma count_length A v p : (forall a, In a A -> length a = length U) -> v = x \/ v = o ->
  count_of U (bjoin A H) o v p = length (group_rows U (bjoin A H) o p).
Proof.
  intros LA Hv. unfold count_of. f_equal.
  assert (X : forall l, (forall m, In m l -> get U m v <> None) -> filter (fun m => match get U m v with Some _ => true | None => false end) l = l).
  { induction l as [|m l IH]; intros Hl; cbn [filter]; auto. destruct (get U m v) eqn:E; [|elim (Hl m); auto; now left]. f_equal. apply IH. intros; apply Hl; now right. }
  apply X. intros m Hm. unfold group_rows in Hm. apply filter_In in Hm. destruct Hm as [Hm _]. destruct (row_vars A m LA Hm). destruct Hv as [-> | ->]; auto.
Qed.
End Count.

Lemma group_rows_perm U A B o p : Permutation A B -> Permutation (group_rows U A o p) (group_rows U B o p).
Proof. apply perm_filter. Qed.
Lemma count_of_perm U A B o v p : Permutation A B -> count_of U A o v p = count_of U B o v p.
Proof. intros P. unfold count_of. apply Permutation_length, perm_filter, perm_filter, P. Qed.
Lemma counts_of_perm U A B o v res : Permutation A B -> counts_of U A o v res -> counts_of U B o v res.
Proof.
  intros P (H1 & H2 & H3). split; [|split]; auto. intros p n. rewrite H3, (count_of_perm U A B) by auto.
  assert (Q := group_rows_perm U A B o p P). split; intros [X Y]; split; auto; intros E; rewrite E in Q; apply X.
  - apply Permutation_sym, Permutation_nil in Q || apply Permutation_nil in Q. exact Q.
  - apply Permutation_nil in Q || (apply Permutation_sym, Permutation_nil in Q). exact Q.
Qed.
(* a condition on the value of o *)
Lemma counts_of_filter U A o v res (ok : N -> bool) (q : mapping -> bool) :
  (forall m, In m A -> match get U m o with Some p => q m = ok p | None => True end) ->
  counts_of U A o v res -> counts_of U (filter q A) o v (filter (fun r => ok (col 0 r)) res).
Proof.
  intros Hq (H1 & H2 & H3).
  assert (G : forall p, group_rows U (filter q A) o p = if ok p then group_rows U A o p else []).
  { intros p. unfold group_rows. rewrite filter_filter. clear H3. induction A as [|m A IH]; [cbn; now destruct (ok p)|]. cbn [filter].
    rewrite IH by (intros; apply Hq; now right). specialize (Hq m (or_introl eq_refl)). destruct (get U m o) as [z|]; cbn [andb]; [|destruct (ok p); rewrite ?andb_false_r; reflexivity].
    destruct (N.eqb_spec z p) as [->|]; rewrite ?andb_false_r, ?andb_true_r; [rewrite Hq|]; destruct (ok p); reflexivity. }
  split; [|split].
  - clear - H1. induction res as [|r res IH]; cbn [filter map] in *; auto. inversion H1; subst. destruct (ok (col 0 r)); [|auto]. cbn [map]. constructor; auto.
    rewrite in_map_iff in *. intros (r' & E & Hr). apply filter_In in Hr. destruct Hr. eauto.
  - intros r Hr. apply filter_In in Hr. destruct Hr. auto.
  - intros p n. rewrite filter_In, H3. unfold count_of. rewrite G. change (col 0 [p; n]) with p. destruct (ok p); [tauto|]. cbn. intuition congruence.
Qed.
