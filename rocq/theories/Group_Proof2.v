(* The solutions of one triple pattern, and DISTINCT together with the projection. *)
From Coq Require Import String List NArith Arith Bool Lia Permutation.
From Verif Require Import Table_Spec Plan_Spec Plan_Model Plan_Proof1 Plan_Proof5 Plan_Proof6 Group_Spec Group_Model Group_Proof.
Import ListNotations.
Local Open Scope nat_scope.

Section Bag.
Variable U : list string.
Hypothesis HU : NoDup U.
Variable voc : string -> option N.
Notation tb := (term_bag U is_var voc).

Lemma empty_len : length (empty_mapping U) = length U.
Proof. unfold empty_mapping. apply repeat_length. Qed.
Lemma put_len m t x : length m = length U -> length (put U m t x) = length U.
Proof. intros L. unfold put. rewrite map_length, combine_length. lia. Qed.
Lemma term_bag_dom t i m : (is_var t = true -> In t U) -> In m (tb t i) ->
  length m = length U /\ forall v, get U m v <> None <-> (v = t /\ is_var t = true).
Proof.
  intros Ht. unfold term_bag. destruct (is_var t) eqn:E.
  - intros [<-|[]]. split; [apply put_len, empty_len|]. intros v. rewrite get_put by auto using empty_len. rewrite get_unit.
    destruct (String.eqb_spec t v); intuition congruence.
  - destruct (voc t); [|intros []]. destruct (N.eqb i n); [|intros []]. intros [<-|[]]. split; [apply empty_len|]. intros v. rewrite get_unit.
    intuition congruence.
Qed.
Lemma bjoin_dom A B (P Q : string -> Prop) m : (forall a, In a A -> length a = length U /\ forall v, get U a v <> None <-> P v) ->
  (forall b, In b B -> length b = length U /\ forall v, get U b v <> None <-> Q v) ->
  In m (bjoin A B) -> length m = length U /\ forall v, get U m v <> None <-> P v \/ Q v.
Proof.
  intros HA HB Hm. unfold bjoin in Hm. apply in_flat_map in Hm. destruct Hm as (a & Ha & Hm). apply in_flat_map in Hm. destruct Hm as (b & Hb & Hm).
  destruct (compat a b); [|destruct Hm]. destruct Hm as [<-|[]]. destruct (HA a Ha) as [La Da], (HB b Hb) as [Lb Db].
  split; [unfold merge_map; rewrite map_length, combine_length; lia|]. intros v. rewrite (get_merge' U a b v La Lb). rewrite <- Da, <- Db.
  destruct (get U a v), (get U b v); cbn; intuition congruence.
Qed.
Lemma triple_bag_dom kb t m : (forall v, In v (pattern_vars is_var t) -> In v U) -> In m (triple_bag U is_var voc kb t) ->
  dom U (pattern_vars is_var t, pattern_vars is_var t) m.
Proof.
  destruct t as [[s p] o]. intros Hv Hm. unfold triple_bag in Hm. apply in_flat_map in Hm. destruct Hm as ([[i j] k] & _ & Hm).
  assert (V : forall t, t = s \/ t = p \/ t = o -> is_var t = true -> In t U).
  { intros t Ht E. apply Hv. unfold pattern_vars. apply filter_In. split; auto. cbn. intuition. }
  assert (D : length m = length U /\ forall v, get U m v <> None <->
     ((v = s /\ is_var s = true) \/ (v = p /\ is_var p = true)) \/ (v = o /\ is_var o = true)).
  { eapply (bjoin_dom _ _ _ _ m); [| |exact Hm].
    - intros a Ha. eapply (bjoin_dom _ _ _ _ a); [| |exact Ha]; intros b; apply term_bag_dom; auto.
    - intros b; apply term_bag_dom; auto. }
  destruct D as [L D]. split; auto. cbn [fst snd].
  assert (X : forall v, In v (pattern_vars is_var (s, p, o)) <-> get U m v <> None).
  { intros v. rewrite D. unfold pattern_vars. rewrite filter_In. cbn. intuition (subst; auto). }
  split; intros v; apply X.
Qed.

(* one candidate triple *)
Lemma get_tget t x v : In v U -> get U (map (tget t x) U) v = tget t x v.
Proof. apply get_map. Qed.
Lemma bjoin_single a b : bjoin [a] [b] = if compat a b then [merge_map a b] else [].
Proof. unfold bjoin. cbn. destruct (compat a b); reflexivity. Qed.
Lemma bjoin_nil_r (A : list mapping) : bjoin A [] = [].
Proof. unfold bjoin. induction A; cbn; auto. Qed.
Lemma compat_get a b : length a = length U -> length b = length U ->
  compat a b = true <-> forall v, In v U -> compat1 (get U a v) (get U b v) = true.
Proof. intros La Lb. now apply compat_get_gen. Qed.

Definition tm (t : string) (i : N) : mapping := if is_var t then put U (empty_mapping U) t i else empty_mapping U.
Lemma tm_len t i : length (tm t i) = length U.
Proof. unfold tm. destruct (is_var t); [apply put_len|]; apply empty_len. Qed.
Lemma tm_get t i v : (is_var t = true -> In t U) -> get U (tm t i) v = if is_var t && String.eqb t v then Some i else None.
Proof.
  intros H. unfold tm. destruct (is_var t); cbn [andb]; [|apply get_unit]. rewrite get_put by auto using empty_len. now rewrite get_unit.
Qed.
Lemma tb_tm t i : tb t i = if term_ok voc t i then [tm t i] else [].
Proof.
  unfold term_bag, term_ok, tm. destruct (is_var t); cbn [orb]; auto. destruct (voc t); auto. rewrite N.eqb_sym. reflexivity.
Qed.
Lemma merge_len a b : length a = length U -> length b = length U -> length (merge_map a b) = length U.
Proof. intros. unfold merge_map. rewrite map_length, combine_length. lia. Qed.
Lemma compat_tm a t i : length a = length U -> (is_var t = true -> In t U) ->
  compat a (tm t i) = negb (is_var t) || match get U a t with Some j => N.eqb j i | None => true end.
Proof.
  intros L H. apply eq_iff_eq_true. rewrite compat_get by auto using tm_len. setoid_rewrite (fun v => tm_get t i v H).
  destruct (is_var t) eqn:E; cbn [andb negb orb].
  - split.
    + intros X. specialize (X t (H eq_refl)). rewrite String.eqb_refl in X. destruct (get U a t); auto.
    + intros X v Hv. destruct (String.eqb_spec t v) as [<-|]; [exact X|destruct (get U a v); auto].
  - split; auto. intros _ v Hv. destruct (get U a v); auto.
Qed.
Lemma tbag_triple kb s p o : (forall v, In v U -> is_var v = true) -> (forall v, In v (pattern_vars is_var (s, p, o)) -> In v U) ->
  triple_bag U is_var voc kb (s, p, o) = tbag voc kb U (T s p o).
Proof.
  intros HV Hv.
  assert (V : forall t, t = s \/ t = p \/ t = o -> is_var t = true -> In t U).
  { intros t Ht E. apply Hv. unfold pattern_vars. apply filter_In. split; auto. cbn. intuition. }
  assert (V1 := V s (or_introl eq_refl)). assert (V2 := V p (or_intror (or_introl eq_refl))). assert (V3 := V o (or_intror (or_intror eq_refl))).
  unfold triple_bag, tbag. induction kb as [|[[i j] k] kb IH]; auto. cbn [flat_map filter]. rewrite IH. clear IH.
  assert (X : bjoin (bjoin (tb s i) (tb p j)) (tb o k) = if tmatch voc (T s p o) (i, j, k) then [map (tget (T s p o) (i, j, k)) U] else []).
  { rewrite !tb_tm. unfold tmatch. cbn [t_s t_p t_o]. destruct (term_ok voc s i); [|reflexivity].
    destruct (term_ok voc p j); [|now rewrite bjoin_nil_r]. destruct (term_ok voc o k); [|now rewrite bjoin_nil_r, !andb_false_r].
    cbn [andb]. rewrite bjoin_single, compat_tm by auto using tm_len. rewrite tm_get by auto.
    assert (E1 : negb (is_var p) || match (if is_var s && String.eqb s p then Some i else None) with Some j0 => N.eqb j0 j | None => true end
                 = same_ok s p i j).
    { unfold same_ok. destruct (String.eqb_spec s p) as [->|]; rewrite ?andb_false_r; [|now rewrite orb_true_r].
      rewrite andb_true_r. destruct (is_var p); auto. }
    rewrite E1. destruct (same_ok s p i j) eqn:E1'; [|reflexivity]. cbn [andb].
    rewrite bjoin_single, compat_tm by auto using tm_len, merge_len. rewrite get_merge' by apply tm_len. rewrite !tm_get by auto.
    assert (E2 : negb (is_var o) || match merge1 (if is_var s && String.eqb s o then Some i else None) (if is_var p && String.eqb p o then Some j else None)
                                    with Some j0 => N.eqb j0 k | None => true end = same_ok s o i k && same_ok p o j k).
    { unfold same_ok in *. destruct (String.eqb_spec s o) as [->|]; destruct (String.eqb_spec p o) as [->|];
        rewrite ?andb_false_r, ?andb_true_r, ?orb_true_r; cbn [merge1 negb orb andb]; auto; rewrite ?orb_true_r, ?andb_true_r; auto.
      - destruct (is_var o); cbn in *; auto. rewrite String.eqb_refl in E1'. cbn in E1'. apply N.eqb_eq in E1'. subst. now rewrite andb_diag.
      - destruct (is_var o); auto.
      - destruct (is_var o); auto. }
    rewrite E2. destruct (same_ok s o i k && same_ok p o j k); [|reflexivity]. f_equal.
    apply (get_ext_gen U U _ _ HU); rewrite ?map_length; auto using tm_len, merge_len. intros v Hu.
    rewrite get_map by auto. rewrite !get_merge' by auto using tm_len, merge_len. rewrite !tm_get by auto. unfold tget. cbn [t_s t_p t_o].
    assert (Y := HV v Hu). destruct (String.eqb_spec s v) as [->|]; [rewrite Y; reflexivity|]. rewrite andb_false_r. cbn [merge1].
    destruct (String.eqb_spec p v) as [->|]; [rewrite Y; reflexivity|]. rewrite andb_false_r. cbn [merge1].
    destruct (String.eqb_spec o v) as [->|]; [rewrite Y; reflexivity|]. now rewrite andb_false_r. }
  rewrite X. destruct (tmatch voc (T s p o) (i, j, k)); reflexivity.
Qed.
End Bag.

(* ---------- DISTINCT and SELECT ---------- *)
Section Distinct.
Variable U : list string.
Hypothesis HU : NoDup U.
Lemma agree_project sel vs a b : (forall v, get U a v <> None -> In v vs) -> (forall v, get U b v <> None -> In v vs) ->
  agree U (inter sel vs) a b = true <-> project U sel [a] = project U sel [b].
Proof.
  intros Ha Hb. unfold agree. rewrite forallb_forall. setoid_rewrite opt_eqb_eq. setoid_rewrite inter_in. unfold project. cbn [map].
  split.
  - intros H. f_equal. apply map_ext. intros v. destruct (existsb (String.eqb v) sel) eqn:E; auto. apply memb_in in E.
    destruct (in_dec string_dec v vs) as [X|X]; [auto|]. destruct (get U a v) eqn:Ea; [elim X; apply Ha; congruence|].
    destruct (get U b v) eqn:Eb; [elim X; apply Hb; congruence|auto].
  - intros H v [H1 H2]. injection H as H. apply memb_in in H1. unfold memb in H1.
    destruct (in_dec string_dec v U) as [Hv|Hv].
    + assert (X := ext_in_map H v Hv). cbv beta in X. now rewrite H1 in X.
    + assert (N : forall m, get U m v = None).
      { clear - Hv. induction U as [|u V IH]; intros [|x m]; cbn; auto. destruct (String.eqb_spec u v) as [->|]; [elim Hv; now left|].
        apply IH. intros X. apply Hv. now right. }
      now rewrite !N.
Qed.
Lemma distinct_map {B} (dec : forall x y : B, {x = y} + {x <> y}) (f : mapping -> B) vs l :
  (forall a b, In a l -> In b l -> agree U vs a b = true <-> f a = f b) ->
  Permutation (map f (distinct_on U vs l)) (nodup dec (map f l)).
Proof.
  intros H. apply NoDup_Permutation; [|apply NoDup_nodup|].
  - induction l as [|x l IH]; cbn [distinct_on map]; constructor.
    + intros Hi. apply in_map_iff in Hi. destruct Hi as (y & E & Hy). apply filter_In in Hy. destruct Hy as [Hy N].
      apply negb_true_iff in N. apply distinct_in in Hy.
      assert (X : agree U vs x y = true) by (apply H; [now left|now right|auto]). congruence.
    + assert (N : NoDup (map f (distinct_on U vs l))) by (apply IH; intros; apply H; now right). clear - N.
      induction (distinct_on U vs l) as [|y r IHr]; cbn [filter map] in *; auto. inversion N; subst. destruct (negb _); cbn [map]; auto.
      constructor; auto. intros X. apply in_map_iff in X. destruct X as (z & E & Hz). apply filter_In in Hz. rewrite <- E in *.
      match goal with K : ~ In _ _ |- _ => apply K end. apply in_map, Hz.
  - intros b. rewrite nodup_In. split.
    + intros Hi. apply in_map_iff in Hi. destruct Hi as (y & <- & Hy). apply in_map. eapply distinct_in; eauto.
    + revert H. induction l as [|x l IH]; cbn [distinct_on map]; auto. intros H [<-|Hb]; [now left|].
      specialize (IH (fun a b Ha Hb => H a b (or_intror Ha) (or_intror Hb)) Hb). apply in_map_iff in IH. destruct IH as (y & <- & Hy).
      destruct (agree U vs x y) eqn:E.
      * left. apply H; [now left|right; eapply distinct_in; eauto|auto].
      * right. apply in_map, filter_In. split; auto. now rewrite E.
Qed.
End Distinct.

Section Query.
Variable U : list string.
Hypothesis HU : NoDup U.
Variable triple_solutions : pattern -> list mapping.
Variable sat : gfilter -> list (option N) -> bool.
Variable refuses : list cand -> bool.
Hypothesis Htriples : forall t m, (forall v, In v (pattern_vars is_var t) -> In v U) -> In m (triple_solutions t) ->
  dom U (pattern_vars is_var t, pattern_vars is_var t) m.
Lemma query_ok sel d off lim g s c : scope_group U is_var g = Some s -> create_tree U triple_solutions sat refuses (Q sel d off lim g) = Val c ->
  Permutation (project U sel (c_rows c)) (eval_query U triple_solutions sat (Q sel d 0 None g)).
Proof.
  intros Es E. rewrite create_tree_eq in E. apply bind_inv in E. destruct E as (c' & E & X). injection X as <-.
  apply bind_inv in E. destruct E as ([c''|] & E & X); [|discriminate]. injection X as ->.
  destruct (proj1 (proj2 (proj2 (planner_ok U triple_solutions sat refuses HU Htriples))) g s c' Es E) as [V P].
  rewrite eval_query_eq. cbv zeta. cbn [slice skipn c_rows].
  assert (PP : forall l l', Permutation l l' -> Permutation (project U sel l) (project U sel l')) by (intros; unfold project; now apply Permutation_map).
  destruct d; [|now apply PP].
  assert (D : doms U s (c_rows c')).
  { destruct (proj1 (proj2 (proj2 (solutions_dom U triple_solutions sat HU Htriples))) g s Es) as [_ D]. eapply perm_doms; [exact P|].
    rewrite group_inner. now apply filter_doms. }
  unfold project. rewrite (distinct_map U mapping_dec).
  - apply NoDup_Permutation; try apply NoDup_nodup. intros m. rewrite !nodup_In.
    split; apply Permutation_in; [|apply Permutation_sym]; now apply Permutation_map.
  - intros a b Ha Hb. rewrite (agree_project U sel (c_vars c') a b).
    + unfold project. cbn [map]. split; [now intros [= ->]|now intros ->].
    + intros v Hv. apply V. now apply (D a Ha).
    + intros v Hv. apply V. now apply (D b Hb).
Qed.
End Query.
