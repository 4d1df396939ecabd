(* The six permutations of an index: what is written to disk and read back answers the scans. *)
From Coq Require Import List NArith Arith Bool Lia ZifyN ZifyNat ZifyBool Sorted Permutation.
From Verif Require Import Bytes Std_Model Std_Proof ListAux Base Ops_Spec Ops_Proof Meta_Model Meta_Proof Meta_Thm Perm_Model Perm_Spec Perm_Proof Perm_Proof2 Perm_Proof3 Perm_Proof4.
Import ListNotations.
Open Scope N_scope.

(* ---------- lists with the same elements ---------- *)
Lemma same_length {A} (l l' : list A) : NoDup l -> NoDup l' -> (forall a, In a l <-> In a l') -> length l = length l'.
Proof. intros H1 H2 H. apply Permutation_length, NoDup_Permutation; auto. Qed.
Lemma sorted_nodup l : StronglySorted N.lt l -> NoDup l.
Proof. induction 1 as [|a l Hs IH Ha]; constructor; auto. intros Hi. rewrite Forall_forall in Ha. specialize (Ha a Hi). lia. Qed.
Lemma filter_nodup {A} (p : A -> bool) l : NoDup l -> NoDup (filter p l).
Proof. induction 1 as [|a l Ha H IH]; cbn [filter]; [constructor|]. destruct (p a); auto. constructor; auto. rewrite filter_In. tauto. Qed.
Lemma nodup_length_iff {A} (dec : forall a b : A, {a = b} + {a <> b}) l : length (nodup dec l) = length l <-> NoDup l.
Proof.
  induction l as [|a l IH]; [split; auto; constructor|]. cbn [nodup]. destruct (in_dec dec a l) as [Hi|Hi].
  - split; [|intros H; inversion H; contradiction]. intros H. pose proof (NoDup_incl_length (NoDup_nodup dec l) (fun x Hx => proj1 (nodup_In dec l x) Hx)). cbn [length] in H. lia.
  - cbn [length]. split; intros H; [constructor; auto; apply IH; lia|]. inversion H; subst. f_equal. now apply IH.
Qed.

Section Relation.
  Variables per thr : nat.
  Variables (key : triple -> triple) (T : list triple) (x : N) (data : list pair_t).
  Hypothesis Hgood : psorted data.
  Hypothesis Hmax : forall p, In p data -> fst p < MAX64.
  Hypothesis Hin : forall y z, In (y, z) data <-> exists t, In t T /\ key t = (x, y, z).

  Lemma relation_in y z : In (y, z) (relation key T x) <-> In (y, z) data.
  Proof.
    rewrite Hin. unfold relation. rewrite nodup_In, in_map_iff. split.
    - intros (t & Q & H). apply filter_In in H. destruct H as [H E]. exists t. split; auto. apply N.eqb_eq in E.
      destruct (key t) as [[a b] c]. cbn in *. congruence.
    - intros (t & H & Q). exists t. rewrite Q. split; auto. apply filter_In. split; auto. rewrite Q. apply N.eqb_refl.
  Qed.
  Lemma relation_length : length (relation key T x) = length data.
  Proof. apply same_length; [apply NoDup_nodup|now apply psorted_nodup|]. intros [y z]. apply relation_in. Qed.
  Lemma relation_lhs y : In y (lhs_of (relation key T x)) <-> In y (map fst data).
  Proof.
    unfold lhs_of. rewrite nodup_In, !in_map_iff. split; intros ([a b] & Q & H); exists (a, b); split; auto; now apply relation_in.
  Qed.
  Lemma relation_distinct : length (lhs_of (relation key T x)) = ndistinct data.
  Proof.
    unfold ndistinct. apply same_length; [apply NoDup_nodup|apply NoDup_nodup|]. intros y. rewrite nodup_In. apply relation_lhs.
  Qed.
  Lemma relation_functional : functional (relation key T x) <-> functionalb data = true.
  Proof.
    unfold functional. rewrite <- (nodup_length_iff N.eq_dec), map_length. fold (lhs_of (relation key T x)).
    rewrite relation_distinct, relation_length. unfold functionalb. rewrite Nat.eqb_eq. tauto.
  Qed.
  Lemma relation_unsafe y : negb (functionalb data) && Nat.ltb thr (length data) && unsafe per (lhss data) y = true <->
    past_block per thr (relation key T x) y.
  Proof.
    destruct (lhss_spec data Hgood Hmax) as (_ & Hs & Hl).
    assert (L : length (lhss data) = length (lhs_of (relation key T x))).
    { apply same_length; [now apply sorted_nodup|apply NoDup_nodup|]. intros a. rewrite Hl. symmetry. apply relation_lhs. }
    assert (S : smaller y (lhss data) = length (filter (fun a => a <? y) (lhs_of (relation key T x)))).
    { unfold smaller. apply same_length; [apply filter_nodup; now apply sorted_nodup|apply filter_nodup, NoDup_nodup|].
      intros a. rewrite !filter_In, Hl, relation_lhs. tauto. }
    assert (E : existsb (N.eqb y) (lhss data) = true <-> In y (lhs_of (relation key T x))) by (rewrite in_existsb, Hl; symmetry; apply relation_lhs).
    unfold past_block, unsafe. rewrite relation_functional, relation_length, L, S.
    rewrite !andb_true_iff, !negb_true_iff, orb_true_iff, !Nat.eqb_eq, !Nat.ltb_lt, <- E.
    rewrite <- !not_true_iff_false. tauto.
  Qed.

  Lemma data_answer : scan_answer key T x data.
  Proof. split; [exact Hgood|]. apply Hin. Qed.
  Lemma data_answer2 y : scan2_answer key T x y (map snd (eq_x y data)).
  Proof.
    split.
    - revert Hgood. clear. unfold psorted. induction 1 as [|a l Hs IH Ha]; [constructor|]. unfold eq_x in *. cbn [filter].
      destruct (N.eqb_spec (fst a) y); auto. cbn [map]. constructor; auto. apply Forall_forall. intros z Hz. apply in_map_iff in Hz.
      destruct Hz as (p & <- & Hp). apply filter_In in Hp. destruct Hp as [Hp E]. rewrite Forall_forall in Ha. destruct (Ha p Hp) as [|[_ H]]; [lia|exact H].
    - intros z. rewrite <- Hin, in_map_iff. unfold eq_x. split.
      + intros ([a b] & <- & H). apply filter_In in H. destruct H as [H E]. cbn in *. apply N.eqb_eq in E. now subst a.
      + intros H. exists (y, z). split; auto. apply filter_In. split; auto. cbn. apply N.eqb_refl.
  Qed.
End Relation.

(* ---------- sorting the triples ---------- *)
Lemma triple_less_spec key a b : triple_less key a b = true <-> tlt (key a) (key b).
Proof.
  unfold triple_less, tlt. destruct (key a) as [[a0 a1] a2], (key b) as [[b0 b1] b2]. cbn [fst snd].
  destruct (N.eqb_spec a0 b0), (N.eqb_spec a1 b1); lia.
Qed.
Lemma tlt_total a b : tlt a b \/ a = b \/ tlt b a.
Proof.
  destruct a as [[a0 a1] a2], b as [[b0 b1] b2]. unfold tlt. cbn [fst snd].
  destruct (N.lt_trichotomy a0 b0) as [|[->|]]; try lia. destruct (N.lt_trichotomy a1 b1) as [|[->|]]; try lia.
  destruct (N.lt_trichotomy a2 b2) as [|[->|]]; try lia. auto.
Qed.
Lemma tlt_irrefl a : ~ tlt a a.
Proof. unfold tlt. lia. Qed.
Lemma tlt_trans a b c : tlt a b -> tlt b c -> tlt a c.
Proof. unfold tlt. lia. Qed.
Lemma triple_less_swo key : strict_weak_order (triple_less key).
Proof.
  constructor.
  - intros a. destruct (triple_less key a a) eqn:E; auto. apply triple_less_spec in E. now apply tlt_irrefl in E.
  - intros a b c H1 H2. apply triple_less_spec in H1. apply triple_less_spec in H2. apply triple_less_spec. eapply tlt_trans; eauto.
  - intros a b c H1 H2. assert (N1 : ~ tlt (key a) (key b)) by (rewrite <- triple_less_spec; congruence).
    assert (N2 : ~ tlt (key b) (key c)) by (rewrite <- triple_less_spec; congruence).
    destruct (triple_less key a c) eqn:E; auto. apply triple_less_spec in E. exfalso.
    destruct (tlt_total (key a) (key b)) as [|[Q|]]; [contradiction|rewrite Q in *; contradiction|].
    apply N2. eapply tlt_trans; eauto.
Qed.
Lemma pair_less_swo : strict_weak_order pair_less.
Proof.
  unfold pair_less. constructor.
  - intros a. destruct (N.eqb_spec (fst a) (fst a)); lia.
  - intros a b c. destruct (N.eqb_spec (fst a) (fst b)), (N.eqb_spec (fst b) (fst c)), (N.eqb_spec (fst a) (fst c)); lia.
  - intros a b c. destruct (N.eqb_spec (fst a) (fst b)), (N.eqb_spec (fst b) (fst c)), (N.eqb_spec (fst a) (fst c)); lia.
Qed.
Lemma triple_eqb_eq a b : triple_eqb a b = true <-> a = b.
Proof.
  destruct a as [[a0 a1] a2], b as [[b0 b1] b2]. unfold triple_eqb. rewrite !andb_true_iff, !N.eqb_eq. split; [intros [[-> ->] ->]; auto|]. intros Q. injection Q as -> -> ->. auto.
Qed.
Lemma unique_in l : forall last t, In t (unique_by triple_eqb last l) \/ t = last <-> In t l \/ t = last.
Proof.
  induction l as [|a l IH]; intros last t; [tauto|]. cbn [unique_by In]. destruct (triple_eqb last a) eqn:E.
  - apply triple_eqb_eq in E. subst a. rewrite IH. intuition.
  - cbn [In]. specialize (IH a t). intuition.
Qed.
Lemma std_unique_in l t : In t (std_unique triple_eqb l) <-> In t l.
Proof. destruct l as [|a l]; [tauto|]. cbn [std_unique In]. pose proof (unique_in l a t). intuition. Qed.
Lemma unique_sorted (key : triple -> triple) (Hinj : forall a b, key a = key b -> a = b) l : forall last, StronglySorted (fun x y => triple_less key y x = false) (last :: l) ->
  StronglySorted (fun a b => tlt (key a) (key b)) (last :: unique_by triple_eqb last l).
Proof.
  assert (Le : forall a b, triple_less key b a = false -> a <> b -> tlt (key a) (key b)).
  { intros a b H Hn. destruct (tlt_total (key a) (key b)) as [|[Q|Q]]; auto; [now apply Hinj in Q|]. apply triple_less_spec in Q. congruence. }
  induction l as [|a l IH]; intros last H; cbn [unique_by]; [constructor; constructor|].
  inversion H as [|? ? H1 H2]; subst. destruct (triple_eqb last a) eqn:E.
  - apply triple_eqb_eq in E. subst a. apply IH. inversion H1; subst. exact H1.
  - assert (Hne : last <> a) by (intros ->; rewrite (proj2 (triple_eqb_eq a a) eq_refl) in E; discriminate).
    specialize (IH a H1). constructor; auto. inversion H2 as [|? ? H3 H4]; subst. pose proof (Le _ _ H3 Hne) as L.
    constructor; auto. inversion IH as [|? ? _ F]; subst. eapply Forall_impl; [|exact F]. cbn. intros b Hb. eapply tlt_trans; eauto.
Qed.
Lemma tsorted_map (key : triple -> triple) l : StronglySorted (fun a b => tlt (key a) (key b)) l -> tsorted (map key l).
Proof.
  unfold tsorted. induction 1 as [|a l H IH Ha]; cbn [map]; constructor; auto. apply Forall_forall. intros b Hb. apply in_map_iff in Hb.
  destruct Hb as (c & <- & Hc). rewrite Forall_forall in Ha. auto.
Qed.
Lemma sort_strict (key : triple -> triple) (Hinj : forall a b, key a = key b -> a = b) l l' : sort_result (triple_less key) l l' -> NoDup l -> tsorted (map key l') /\ Permutation l l'.
Proof.
  intros [P S] Hn. split; auto. apply tsorted_map. assert (Hn' : NoDup l') by (eapply Permutation_NoDup; eauto). clear P Hn.
  induction S as [|a l0 S IH Ha]; constructor; inversion Hn' as [|? ? Hx Hl]; subst; auto.
  rewrite Forall_forall in *. intros b Hb. specialize (Ha b Hb). destruct (tlt_total (key a) (key b)) as [|[Q|Q]]; auto.
  - apply Hinj in Q. subst. contradiction.
  - apply triple_less_spec in Q. congruence.
Qed.
Lemma tsorted_nodup l : tsorted l -> NoDup l.
Proof. induction 1 as [|a l H IH Ha]; constructor; auto. intros Hi. rewrite Forall_forall in Ha. now apply (tlt_irrefl a), Ha. Qed.

Lemma pso_inj a b : pso a = pso b -> a = b.
Proof. destruct a as [[? ?] ?], b as [[? ?] ?]. cbn. congruence. Qed.
Lemma spo_inj a b : spo a = spo b -> a = b.
Proof. destruct a as [[? ?] ?], b as [[? ?] ?]. cbn. congruence. Qed.
Lemma osp_inj a b : osp a = osp b -> a = b.
Proof. destruct a as [[? ?] ?], b as [[? ?] ?]. cbn. congruence. Qed.

(* ---------- the index ---------- *)
(* sorting algorithms: any that give a sorted permutation *)
Definition sorts (sort2 : list pair_t -> list pair_t) (sort3 : (triple -> triple) -> list triple -> list triple) : Prop :=
  (forall l, sort_result pair_less l (sort2 l)) /\ forall key l, sort_result (triple_less key) l (sort3 key l).
Definition triple_dec (a b : triple) : {a = b} + {a <> b}.
Proof. decide equality; [apply N.eq_dec|apply pair_dec]. Defined.
(* what an index is built from: ids of the vocabulary, fewer than 2^40 distinct triples *)
Definition input_ok (vocab : nat) (triples : list triple) : Prop :=
  N.of_nat vocab < MAX64 /\ N.of_nat (length (nodup triple_dec triples)) < 2 ^ 40 /\
  forall s p o, In (s, p, o) triples -> s < N.of_nat vocab /\ p < N.of_nat vocab /\ o < N.of_nat vocab.

(* a property of all permutations: the order, the files, and the first id if it is the primary permutation of a pair *)
Definition all_permutations (ix : index) (P : (triple -> triple) -> list N * rmap -> bool -> Prop) : Prop :=
  P PSO (x_pso ix) true /\ P POS (x_pos ix) false /\ P SPO (x_spo ix) true /\ P SOP (x_sop ix) false /\
  P OSP (x_osp ix) true /\ P OPS (x_ops ix) false.

Definition flip (t : triple) : triple := let '(a, b, c) := t in (a, c, b).

(* stored multiplicity; the counter of the first relation of a primary permutation starts with 1 *)
Definition multiplicity (logmult : N -> N -> N) (r : list pair_t) (extra : N) : N :=
  if Nat.eqb (length (lhs_of r)) (length r) then 0
  else logmult (N.of_nat (length r)) (N.of_nat (length (lhs_of r)) + extra).
Definition smallest (key : triple -> triple) (T : list triple) (x : N) : bool :=
  forallb (fun t => x <=? fst (fst (key t))) T.

Lemma relation_ext k k' T x : (forall t, k t = k' t) -> relation k T x = relation k' T x.
Proof.
  intros H. unfold relation. f_equal. rewrite (filter_ext (fun t => fst (fst (k t)) =? x) (fun t => fst (fst (k' t)) =? x)).
  - apply map_ext. intros t. now rewrite H.
  - intros t. now rewrite H.
Qed.

Section Index.
  Variables per thr : nat.
  Variable logmult : N -> N -> N.
  Variable sort2 : list pair_t -> list pair_t.
  Variable sort3 : (triple -> triple) -> list triple -> list triple.
  Hypothesis Hper : (0 < per)%nat.
  Hypothesis Hlog : forall a b, logmult a b < 256.
  Hypothesis Hsorts : sorts sort2 sort3.
  Variable vocab : nat.
  Variable T : list triple.
  Hypothesis Hok : input_ok vocab T.

  (* what the proofs give for one permutation *)
  Definition good_perm (key : triple -> triple) (p : list N * rmap) (primary : bool) : Prop :=
    exists m, load_permutation p = Ok m /\ forall x, x < N.of_nat vocab ->
      (relation key T x = [] /\ relation_exists x m = Ok false) \/
      (relation key T x <> [] /\ exists data f ob, get_rmd x m = Ok (f, ob) /\ stored per (fst p) f ob data /\ good data /\
        (forall y z, In (y, z) data <-> exists t, In t T /\ key t = (x, y, z)) /\
        is_functional (f_word f) = functionalb data /\
        has_blocks (f_word f) = negb (functionalb data) && Nat.ltb thr (length data) /\
        col1 (f_word f) = multiplicity logmult (relation key T x) (if primary && smallest key T x then 1 else 0) /\
        col2 (f_word f) = multiplicity logmult (relation (fun t => flip (key t)) T x) (if negb primary && smallest key T x then 1 else 0)).

  Lemma in_first key x : relation key T x <> [] <-> exists t, In t T /\ first (key t) = x.
  Proof.
    split.
    - intros H. destruct (relation key T x) as [|[y z] r] eqn:E; [congruence|]. assert (Hi : In (y, z) (relation key T x)) by (rewrite E; now left).
      unfold relation in Hi. rewrite nodup_In, in_map_iff in Hi. destruct Hi as (t & _ & Ht). apply filter_In in Ht. destruct Ht as [Ht Q].
      exists t. split; auto. now apply N.eqb_eq in Q.
    - intros (t & Ht & Q) E. assert (Hi : In (snd (fst (key t)), snd (key t)) (relation key T x)).
      { unfold relation. rewrite nodup_In, in_map_iff. exists t. split; auto. apply filter_In. split; auto. now apply N.eqb_eq. }
      rewrite E in Hi. destruct Hi.
  Qed.

  (* a pair of permutations, built from the sorted distinct triples *)
  Lemma pair_good key data0 vec : (forall a b, key a = key b -> a = b) ->
    (forall t, In t T -> first (key t) < N.of_nat vocab /\ fst (rest (key t)) < N.of_nat vocab /\ snd (rest (key t)) < N.of_nat vocab) ->
    (data0 = Hmap [] \/ data0 = Dense 0 (repeat empty_full vocab)) ->
    T <> [] -> tsorted (map key vec) -> (forall t, In t vec <-> In t T) ->
    exists p1 p2, permutation_pair per thr logmult sort2 data0 (map key vec) = Ok (Some (p1, p2)) /\
      good_perm key p1 true /\ good_perm (fun t => flip (key t)) p2 false.
  Proof.
    intros Hinj Hids Hd Hne Hs Hin. destruct Hok as (V1 & V2 & V3). destruct Hsorts as (So2 & _).
    assert (Hmem : forall x y z, In (x, y, z) (map key vec) <-> exists t, In t T /\ key t = (x, y, z)).
    { intros x y z. rewrite in_map_iff. split; intros (t & A & B); exists t; split; auto; now apply Hin. }
    assert (Hb : forall t, In t (map key vec) -> first t < MAX64 /\ fst (rest t) < MAX64 /\ snd (rest t) < MAX64).
    { intros t Ht. apply in_map_iff in Ht. destruct Ht as (u & <- & Hu). apply Hin in Hu. destruct (Hids u Hu) as (A & B & C). lia. }
    assert (Hkd : match kind data0 with None => True | Some n => forall t, In t (map key vec) -> (N.to_nat (first t) < n)%nat end).
    { destruct Hd as [->| ->]; cbn [kind]; auto. intros t Ht. rewrite repeat_length. apply in_map_iff in Ht. destruct Ht as (u & <- & Hu).
      apply Hin in Hu. destruct (Hids u Hu) as (A & _). lia. }
    assert (Hsize : N.of_nat (length (map key vec)) < 2 ^ 40).
    { rewrite map_length. replace (length vec) with (length (nodup triple_dec T)); auto. apply same_length; [apply NoDup_nodup| |].
      - apply tsorted_nodup in Hs. now apply NoDup_map_inv in Hs.
      - intros t. rewrite nodup_In. symmetry. apply Hin. }
    assert (Hnv : exists t v, map key vec = t :: v).
    { destruct T as [|t T']; [congruence|]. assert (H : In t vec) by (apply Hin; now left). destruct vec as [|u v]; [destruct H|]. eexists. eexists. reflexivity. }
    destruct Hnv as (t & v & Hv).
    assert (Hd' : data0 = Hmap [] \/ exists n, data0 = Dense 0 (repeat empty_full n) /\ N.of_nat n < W64).
    { destruct Hd as [H|H]; auto. right. exists vocab. split; auto. unfold W64, MAX64 in *. lia. }
    destruct (pair_ok per thr logmult Hper Hlog sort2 So2 (kind data0) (map key vec) Hs Hb Hkd Hsize (first t) data0 t v Hd' eq_refl Hv eq_refl)
      as (p1 & p2 & Hp & (m1 & L1 & A1 & B1) & (m2 & L2 & A2 & B2)).
    exists p1, p2. split; auto.
    assert (Hfirst : forall x, In x (map first (map key vec)) <-> relation key T x <> []).
    { intros x. rewrite in_first, map_map, in_map_iff. split; intros (u & A & B); exists u; split; auto; now apply Hin. }
    assert (Hfirst' : forall x, relation key T x <> [] <-> relation (fun t => flip (key t)) T x <> []).
    { intros x. rewrite !in_first. split; intros (u & A & B); exists u; split; auto; destruct (key u) as [[? ?] ?]; exact B. }
    assert (Hkk : forall x, x < N.of_nat vocab -> match kind data0 with None => True | Some n => (N.to_nat x < n)%nat end).
    { intros x Hx. destruct Hd as [->| ->]; cbn [kind]; auto. rewrite repeat_length. lia. }
    assert (Hsm : forall x, In x (map first (map key vec)) -> smallest key T x = (x =? first t)).
    { intros x Hx. apply eq_true_iff_eq. unfold smallest. rewrite forallb_forall, N.eqb_eq.
      assert (Min : forall u, In u T -> first t <= first (key u)).
      { intros u Hu. apply Hin in Hu. assert (Hk : In (key u) (map key vec)) by (now apply in_map). rewrite Hv in Hk, Hs. destruct Hk as [->|Hk]; [lia|].
        inversion Hs as [|? ? _ F]; subst. rewrite Forall_forall in F. specialize (F _ Hk). unfold tlt, first in *. lia. }
      assert (Ht : exists u, In u T /\ key u = t).
      { assert (H : In t (map key vec)) by (rewrite Hv; now left). apply in_map_iff in H. destruct H as (u & Q & Hu). exists u. split; auto. now apply Hin. }
      split.
      - intros H. destruct Ht as (u & Hu & Q). specialize (H u Hu). rewrite Q in H. rewrite map_map, in_map_iff in Hx. destruct Hx as (w & Qw & Hw).
        apply Hin in Hw. specialize (Min w Hw). unfold first in *. lia.
      - intros -> u Hu. specialize (Min u Hu). unfold first in *. lia. }
    assert (Hsm' : forall x, smallest (fun t => flip (key t)) T x = smallest key T x).
    { intros x. unfold smallest. apply eq_true_iff_eq. rewrite !forallb_forall. split; intros H u Hu; specialize (H u Hu); destruct (key u) as [[? ?] ?]; exact H. }
    assert (M1 : forall x y z, In (y, z) (D1 (map key vec) x) <-> exists t, In t T /\ key t = (x, y, z)).
    { intros x y z. unfold D1. rewrite rel_of_in. apply Hmem. }
    assert (M2 : forall x y z, In (y, z) (D2 sort2 (map key vec) x) <-> exists t, In t T /\ flip (key t) = (x, y, z)).
    { intros x y z. rewrite D2_in by assumption. rewrite Hmem. split; intros (u & A & B); exists u; split; auto.
      - rewrite B. reflexivity.
      - destruct (key u) as [[? ?] ?]. cbn in B. congruence. }
    assert (Mu1 : forall x, In x (map first (map key vec)) -> mult logmult (D1 (map key vec)) (g1 (first t)) x =
              multiplicity logmult (relation key T x) (if smallest key T x then 1 else 0)).
    { intros x Hx. destruct (A1 x Hx) as (f & ob & _ & _ & (G1 & G2 & G3) & _). unfold mult, multiplicity.
      rewrite (relation_distinct key T x (D1 (map key vec) x)) by apply M1.
      rewrite (relation_length key T x (D1 (map key vec) x)) by (auto; apply M1).
      unfold functionalb, g1. rewrite (Hsm x Hx). reflexivity. }
    assert (Mu2 : forall x, In x (map first (map key vec)) -> mult logmult (D2 sort2 (map key vec)) g2 x =
              multiplicity logmult (relation (fun t => flip (key t)) T x) 0).
    { intros x Hx. destruct (A2 x Hx) as (f & ob & _ & _ & (G1 & G2 & G3) & _). unfold mult, multiplicity.
      rewrite (relation_distinct _ T x (D2 sort2 (map key vec) x)) by apply M2.
      rewrite (relation_length _ T x (D2 sort2 (map key vec) x)) by (auto; apply M2).
      unfold functionalb, g2. reflexivity. }
    split.
    - exists m1. split; auto. intros x Hx. destruct (relation key T x) eqn:Er.
      + left. split; auto. apply B1; [rewrite Hfirst; now rewrite Er|exact (Hkk x Hx)].
      + right. rewrite <- Er. assert (Hne' : relation key T x <> []) by (rewrite Er; discriminate). split; auto.
        assert (Hx' : In x (map first (map key vec))) by (now apply Hfirst).
        destruct (A1 x Hx') as (f & ob & G & St & Go & F1 & F2 & F3 & F4). exists (D1 (map key vec) x), f, ob.
        split; auto. split; auto. split; auto. split; [apply M1|]. split; auto. split; auto. cbn [andb negb].
        split; [rewrite F2; now apply Mu1|rewrite F3; now apply Mu2].
    - exists m2. split; auto. intros x Hx. destruct (relation (fun t => flip (key t)) T x) eqn:Er.
      + left. split; auto. apply B2; [rewrite Hfirst, Hfirst'; now rewrite Er|exact (Hkk x Hx)].
      + right. rewrite <- Er. assert (Hne' : relation (fun t => flip (key t)) T x <> []) by (rewrite Er; discriminate). split; auto.
        assert (Hx' : In x (map first (map key vec))) by (now apply Hfirst, Hfirst').
        destruct (A2 x Hx') as (f & ob & G & St & Go & F1 & F2 & F3 & F4). exists (D2 sort2 (map key vec) x), f, ob.
        split; auto. split; auto. split; auto. split; [apply M2|]. split; auto. split; auto. cbn [andb negb].
        split; [rewrite F2; now apply Mu2|]. rewrite F3, Mu1, Hsm' by assumption. f_equal.
        apply relation_ext. intros u. destruct (key u) as [[? ?] ?]. reflexivity.
  Qed.

  Lemma index_good : T <> [] -> exists ix, create_index per thr logmult sort2 sort3 vocab T = Ok (Some ix) /\ all_permutations ix good_perm.
  Proof.
    intros Hne. destruct Hok as (V1 & V2 & V3). destruct Hsorts as (So2 & So3). unfold create_index.
    set (vec1 := std_unique triple_eqb (sort3 pso T)).
    assert (S1 : tsorted (map pso vec1)).
    { destruct (So3 pso T) as [_ S]. apply tsorted_map. unfold vec1, std_unique. destruct (sort3 pso T) as [|a l]; [constructor|].
      apply unique_sorted; auto using pso_inj. }
    assert (E1 : forall t, In t vec1 <-> In t T).
    { intros t. unfold vec1. rewrite std_unique_in. destruct (So3 pso T) as [P _]. split; apply Permutation_in; auto. now apply Permutation_sym. }
    assert (N1 : NoDup vec1) by (apply tsorted_nodup in S1; now apply NoDup_map_inv in S1). clearbody vec1.
    destruct (sort_strict spo spo_inj vec1 _ (So3 spo vec1) N1) as [S2 P2]. set (vec2 := sort3 spo vec1) in *. clearbody vec2.
    assert (N2 : NoDup vec2) by (eapply Permutation_NoDup; eauto).
    destruct (sort_strict osp osp_inj vec2 _ (So3 osp vec2) N2) as [S3 P3]. set (vec3 := sort3 osp vec2) in *. clearbody vec3.
    assert (E2 : forall t, In t vec2 <-> In t T).
    { intros t. rewrite <- E1. split; apply Permutation_in; auto. now apply Permutation_sym. }
    assert (E3 : forall t, In t vec3 <-> In t T).
    { intros t. rewrite <- E2. split; apply Permutation_in; auto. now apply Permutation_sym. }
    destruct (pair_good pso (Hmap []) vec1) as (a & b & Q1 & Ga & Gb); auto using pso_inj.
    { intros [[s p] o] Ht. destruct (V3 s p o Ht) as (? & ? & ?). cbn. auto. }
    destruct (pair_good spo (Dense 0 (repeat empty_full vocab)) vec2) as (c & d & Q2 & Gc & Gd); auto using spo_inj.
    { intros [[s p] o] Ht. destruct (V3 s p o Ht) as (? & ? & ?). cbn. auto. }
    destruct (pair_good osp (Dense 0 (repeat empty_full vocab)) vec3) as (e & f & Q3 & Ge & Gf); auto using osp_inj.
    { intros [[s p] o] Ht. destruct (V3 s p o Ht) as (? & ? & ?). cbn. auto. }
    rewrite Q1. cbn [bind]. rewrite Q2. cbn [bind]. rewrite Q3. cbn [bind]. eexists. split; [reflexivity|].
    assert (Ext : forall k k' p b, (forall t, k t = k' t) -> good_perm k p b -> good_perm k' p b).
    { intros k k' p b0 Hk (m & L & H). exists m. split; auto. intros x Hx.
      assert (R : relation k' T x = relation k T x).
      { apply relation_ext. intros u. now rewrite Hk. }
      assert (R' : relation (fun t => flip (k' t)) T x = relation (fun t => flip (k t)) T x).
      { apply relation_ext. intros u. now rewrite Hk. }
      assert (Sm : smallest k' T x = smallest k T x).
      { unfold smallest. apply eq_true_iff_eq. rewrite !forallb_forall. split; intros A u Hu; specialize (A u Hu); now rewrite Hk in *. }
      rewrite R, R', Sm. destruct (H x Hx) as [|(A & data & f0 & ob & G & S & Go & Mm & F)]; auto. right. split; auto. exists data, f0, ob.
      split; auto. split; auto. split; auto. split; auto. intros y z. rewrite Mm. split; intros (t & B & C); exists t; split; auto; now rewrite Hk in *. }
    unfold all_permutations. cbn [x_pso x_pos x_spo x_sop x_osp x_ops].
    split; [|split; [|split; [|split; [|split]]]]; eapply Ext; try eassumption; intros [[? ?] ?]; reflexivity.
  Qed.
End Index.

(* ---------- theorems ---------- *)
(* no triples: no files are written *)
Theorem C25_no_triples per thr logmult sort2 sort3 vocab : sorts sort2 sort3 ->
  create_index per thr logmult sort2 sort3 vocab [] = Ok None.
Proof.
  intros (_ & So3). unfold create_index. destruct (So3 pso []) as [P _]. apply Permutation_nil in P. rewrite P. cbn [std_unique].
  destruct (So3 spo []) as [P2 _]. apply Permutation_nil in P2. rewrite P2.
  destruct (So3 osp []) as [P3 _]. apply Permutation_nil in P3. rewrite P3. reflexivity.
Qed.

Section Theorems.
  Variables per thr : nat.
  Variable logmult : N -> N -> N.
  Variable sort2 : list pair_t -> list pair_t.
  Variable sort3 : (triple -> triple) -> list triple -> list triple.
  Hypothesis Hper : (0 < per)%nat.
  Hypothesis Hlog : forall a b, logmult a b < 256.
  Hypothesis Hsorts : sorts sort2 sort3.
  Variables (vocab : nat) (triples : list triple).
  Hypothesis Hok : input_ok vocab triples.

  (* building the index succeeds if there is a triple, and writes nothing otherwise *)
  Theorem C25_created : triples <> [] -> exists ix, create_index per thr logmult sort2 sort3 vocab triples = Ok (Some ix).
  Proof.
    intros Hne. destruct (index_good per thr logmult sort2 sort3 Hper Hlog Hsorts vocab triples Hok Hne) as (ix & H & _). eauto.
  Qed.

  Lemma index_perms ix : create_index per thr logmult sort2 sort3 vocab triples = Ok (Some ix) ->
    all_permutations ix (good_perm per thr logmult vocab triples).
  Proof.
    intros H. assert (Hne : triples <> []).
    { intros ->. rewrite C25_no_triples in H by assumption. discriminate. }
    destruct (index_good per thr logmult sort2 sort3 Hper Hlog Hsorts vocab triples Hok Hne) as (ix' & H' & G). rewrite H in H'. injection H' as <-. exact G.
  Qed.
  Lemma all_impl ix (P Q : (triple -> triple) -> list N * rmap -> bool -> Prop) : (forall k p b, P k p b -> Q k p b) ->
    all_permutations ix P -> all_permutations ix Q.
  Proof. unfold all_permutations. intros H (A & B & C & D & E & F). auto 10. Qed.

  (* one key: the file and the metadata read back from it give exactly the matching pairs, in order *)
  Theorem C25_scan ix : create_index per thr logmult sort2 sort3 vocab triples = Ok (Some ix) ->
    all_permutations ix (fun key p _ =>
      exists m, load_permutation p = Ok m /\
      forall x, x < N.of_nat vocab -> exists l, scan (fst p) m x = Ok l /\ scan_answer key triples x l).
  Proof.
    intros H. apply index_perms in H. revert H. apply all_impl. intros key p b (m & L & H). exists m. split; auto. intros x Hx.
    destruct (H x Hx) as [[E R]|(_ & data & f & ob & G & St & Go & Hin & _)].
    - exists []. split; [unfold scan; now rewrite R|]. split; [constructor|]. intros y z. split; [intros []|]. intros (t & Ht & Q).
      assert (N : relation key triples x <> []) by (apply in_first; exists t; split; auto; unfold first; now rewrite Q). congruence.
    - exists data. split; [eapply scan_stored; eauto|]. apply data_answer; auto. apply Go.
  Qed.

  (* two keys: exactly the matching third components, in order, unless the block that is searched holds smaller left
     hand sides only; then the code reads the element behind the end of a vector. *)
  Theorem C25_scan2_partial ix : create_index per thr logmult sort2 sort3 vocab triples = Ok (Some ix) ->
    all_permutations ix (fun key p _ =>
      exists m, load_permutation p = Ok m /\
      forall x y, x < N.of_nat vocab ->
        (past_block per thr (relation key triples x) y -> scan2 (fst p) m x y = UB) /\
        (~ past_block per thr (relation key triples x) y ->
           exists l, scan2 (fst p) m x y = Ok l /\ scan2_answer key triples x y l)).
  Proof.
    intros H. apply index_perms in H. revert H. apply all_impl. intros key p b (m & L & H). exists m. split; auto. intros x y Hx.
    destruct (H x Hx) as [[E R]|(_ & data & f & ob & G & St & Go & Hin & F1 & F2 & _)].
    - rewrite E. split; [intros (_ & _ & _ & Q & _); cbn in Q; lia|]. intros _. exists []. split; [unfold scan2; now rewrite R|].
      split; [constructor|]. intros z. split; [intros []|]. intros (t & Ht & Q).
      assert (N : relation key triples x <> []) by (apply in_first; exists t; split; auto; unfold first; now rewrite Q). congruence.
    - pose proof Go as (G1 & G2 & G3).
      pose proof (scan2_stored per Hper (fst p) m x f ob data y G St Go) as S.
      assert (O : (match ob with Some _ => unsafe per (lhss data) y | None => false end) = negb (functionalb data) && Nat.ltb thr (length data) && unsafe per (lhss data) y).
      { rewrite <- F2. unfold get_rmd in G. destruct (rmap_get x (i_data m)) as [f0| |]; cbn [bind] in G; try discriminate.
        destruct (has_blocks (f_word f0)) eqn:B; [destruct (amap_get x (i_blocks m)); [|discriminate]|]; injection G as <- <-; now rewrite B. }
      rewrite O in S. pose proof (relation_unsafe per thr key triples x data G1 (fun q Hq => proj1 (G3 q Hq)) Hin y) as U. rewrite S. split.
      + intros P. apply U in P. now rewrite P.
      + intros P. destruct (negb (functionalb data) && Nat.ltb thr (length data) && unsafe per (lhss data) y); [exfalso; apply P; now apply U|].
        eexists. split; [reflexivity|]. now apply data_answer2.
  Qed.

  (* in particular all keys that occur are answered, and so are all keys for small or functional relations *)
  Theorem C25_scan2_found_partial ix : create_index per thr logmult sort2 sort3 vocab triples = Ok (Some ix) ->
    all_permutations ix (fun key p _ =>
      exists m, load_permutation p = Ok m /\
      forall x y, x < N.of_nat vocab ->
        In y (map fst (relation key triples x)) \/ functional (relation key triples x) \/
        (length (relation key triples x) <= thr)%nat ->
        exists l, scan2 (fst p) m x y = Ok l /\ scan2_answer key triples x y l).
  Proof.
    intros H. apply C25_scan2_partial in H. revert H. apply all_impl. intros key p b (m & L & H). exists m. split; auto. intros x y Hx Hc.
    apply (H x y Hx). intros (A & B & C & D). unfold lhs_of in C. rewrite nodup_In in C. destruct Hc as [Hc|[Hc|Hc]]; [tauto|tauto|lia].
  Qed.

  (* the statistics: number of elements, the functional flag, and the two multiplicities; the counter of distinct left
     hand sides is one too large for the first relation of PSO, SPO and OSP *)
  Theorem C25_statistics ix : create_index per thr logmult sort2 sort3 vocab triples = Ok (Some ix) ->
    all_permutations ix (fun key p primary =>
      exists m, load_permutation p = Ok m /\
      forall x, x < N.of_nat vocab ->
        (relation key triples x = [] /\ relation_exists x m = Ok false) \/
        (relation key triples x <> [] /\ relation_exists x m = Ok true /\ exists f ob, get_rmd x m = Ok (f, ob) /\
          nof_elements (f_word f) = N.of_nat (length (relation key triples x)) /\
          (is_functional (f_word f) = true <-> functional (relation key triples x)) /\
          col1 (f_word f) = multiplicity logmult (relation key triples x) (if primary && smallest key triples x then 1 else 0) /\
          col2 (f_word f) = multiplicity logmult (relation (fun t => flip (key t)) triples x) (if negb primary && smallest key triples x then 1 else 0))).
  Proof.
    intros H. apply index_perms in H. revert H. apply all_impl. intros key p b (m & L & H). exists m. split; auto. intros x Hx.
    destruct (H x Hx) as [|(Hne & data & f & ob & G & St & Go & Hin & F1 & F2 & F3 & F4)]; auto. right. split; auto.
    split; [eapply get_exists; eauto|]. exists f, ob. split; auto. pose proof Go as (G1 & G2 & G3). destruct St as (Sn & _).
    split; [rewrite (relation_length key triples x data G1 Hin); exact Sn|]. split; [|auto]. rewrite F1. symmetry. now apply relation_functional.
  Qed.
End Theorems.

(* the answers are determined *)
Theorem C25_unique key T x l l' : scan_answer key T x l -> scan_answer key T x l' -> l = l'.
Proof.
  intros [S1 H1] [S2 H2]. assert (E : forall p, In p l <-> In p l') by (intros [y z]; rewrite H1, H2; tauto). clear H1 H2.
  revert l' S2 E. induction S1 as [|a l S1 IH Ha]; intros l' S2 E.
  - destruct l' as [|b l']; auto. exfalso. apply (E b). now left.
  - inversion S2 as [|b l2 S2' Hb]; subst; [exfalso; apply (E a); now left|]. rewrite Forall_forall in Ha, Hb.
    assert (Q : a = b).
    { destruct (proj1 (E a) (or_introl eq_refl)) as [|A]; auto. destruct (proj2 (E b) (or_introl eq_refl)) as [|B]; auto.
      specialize (Hb a A). specialize (Ha b B). unfold pair_lt in *. lia. }
    subst b. f_equal. apply IH; auto. intros p. specialize (E p). cbn in E. split; intros Hp.
    + destruct (proj1 E (or_intror Hp)) as [<-|]; auto. specialize (Ha a Hp). unfold pair_lt in Ha. lia.
    + destruct (proj2 E (or_intror Hp)) as [<-|]; auto. specialize (Hb a Hp). unfold pair_lt in Hb. lia.
Qed.

Print Assumptions C25_created.
Print Assumptions C25_scan.
Print Assumptions C25_scan2_partial.
Print Assumptions C25_scan2_found_partial.
Print Assumptions C25_statistics.
Print Assumptions C25_unique.
Print Assumptions C25_no_triples.

(* ---------- examples: blocks of 2, more than 3 pairs ---------- *)
Definition ex_sort3 (key : triple -> triple) := sort_by (triple_less key).
Definition ex_log (a b : N) : N := N.log2 (a / b) mod 256.
Lemma ex_sorts : sorts (sort_by pair_less) ex_sort3.
Proof. split; [apply sort_by_result, pair_less_swo|]. intros key l. apply (sort_by_result _ (triple_less_swo key)). Qed.
Definition ex_triples : list triple :=
  [(1, 0, 3); (0, 0, 2); (1, 0, 2); (3, 0, 3); (6, 0, 2); (6, 0, 5); (1, 0, 3); (2, 4, 2); (5, 4, 2); (2, 4, 6)].
Definition ex_index := create_index 2 3 ex_log (sort_by pair_less) ex_sort3 7 ex_triples.
Lemma ex_input : input_ok 7 ex_triples.
Proof.
  split; [reflexivity|]. split; [reflexivity|]. intros s p o H. cbn [ex_triples In] in H.
  repeat (destruct H as [H|H]; [injection H as <- <- <-; repeat split; reflexivity|]). destruct H.
Qed.
Definition ex_scan (get : index -> list N * rmap) (x : N) : outcome (list pair_t) :=
  bind ex_index (fun r => match r with None => Throw | Some ix => bind (load_permutation (get ix)) (fun m => scan (fst (get ix)) m x) end).
Definition ex_scan2 (get : index -> list N * rmap) (x y : N) : outcome (list N) :=
  bind ex_index (fun r => match r with None => Throw | Some ix => bind (load_permutation (get ix)) (fun m => scan2 (fst (get ix)) m x y) end).
Example C25_ex_scan : ex_scan x_pso 0 = Ok [(0, 2); (1, 2); (1, 3); (3, 3); (6, 2); (6, 5)] /\
  ex_scan x_pos 0 = Ok [(2, 0); (2, 1); (2, 6); (3, 1); (3, 3); (5, 6)] /\ ex_scan x_osp 2 = Ok [(0, 0); (1, 0); (2, 4); (5, 4); (6, 0)] /\
  ex_scan x_ops 2 = Ok [(0, 0); (0, 1); (0, 6); (4, 2); (4, 5)] /\ ex_scan x_spo 4 = Ok [].
Proof. vm_compute. repeat split. Qed.
Example C25_ex_scan2 : ex_scan2 x_pso 0 1 = Ok [2; 3] /\ ex_scan2 x_pso 0 3 = Ok [3] /\ ex_scan2 x_pso 0 6 = Ok [2; 5] /\
  ex_scan2 x_pos 0 2 = Ok [0; 1; 6] /\ ex_scan2 x_ops 2 4 = Ok [2; 5] /\ ex_scan2 x_sop 6 5 = Ok [0] /\ ex_scan2 x_sop 6 4 = Ok [] /\
  ex_scan2 x_ops 2 7 = UB.
Proof. vm_compute. repeat split. Qed.

(* C25 claims an answer for all keys; looking up a left hand side that is not there can read behind the block *)
Theorem C25_scan2_refuted : exists per thr logmult sort2 sort3 vocab triples ix m x y,
  (0 < per)%nat /\ (forall a b, logmult a b < 256) /\ sorts sort2 sort3 /\ input_ok vocab triples /\
  create_index per thr logmult sort2 sort3 vocab triples = Ok (Some ix) /\ load_permutation (x_pso ix) = Ok m /\
  x < N.of_nat vocab /\ y < N.of_nat vocab /\ scan2 (fst (x_pso ix)) m x y = UB.
Proof.
  assert (H : match create_index 2 3 ex_log (sort_by pair_less) ex_sort3 7 ex_triples with Ok (Some ix) => match load_permutation (x_pso ix) with Ok m =>
      match scan2 (fst (x_pso ix)) m 0 2 with UB => true | _ => false end | _ => false end | _ => false end = true) by (vm_compute; reflexivity).
  destruct (create_index 2 3 ex_log (sort_by pair_less) ex_sort3 7 ex_triples) as [[ix|]| |] eqn:E; try discriminate H. destruct (load_permutation (x_pso ix)) as [m| |] eqn:L; try discriminate H.
  destruct (scan2 (fst (x_pso ix)) m 0 2) eqn:Q; try discriminate H.
  exists 2%nat, 3%nat, ex_log, (sort_by pair_less), ex_sort3, 7%nat, ex_triples, ix, m, 0, 2. split; [lia|].
  split; [intros a b; apply N.mod_lt; lia|]. split; [exact ex_sorts|]. split; [exact ex_input|]. split; [exact E|]. split; [exact L|].
  split; [reflexivity|]. split; [reflexivity|]. exact Q.
Qed.
(* the first multiplicity is computed from one distinct value too many: six pairs, three distinct values, the stored
   one is that of four values *)
Definition ex_triples2 : list triple := [(1, 0, 3); (1, 0, 2); (2, 0, 3); (2, 0, 5); (4, 0, 1); (4, 0, 2)].
Theorem C25_multiplicity_refuted : exists ix m f ob,
  create_index 2 3 ex_log (sort_by pair_less) ex_sort3 7 ex_triples2 = Ok (Some ix) /\
  load_permutation (x_pso ix) = Ok m /\ get_rmd 0 m = Ok (f, ob) /\
  col1 (f_word f) = ex_log 6 4 /\ col1 (f_word f) <> ex_log 6 3.
Proof.
  assert (H : match create_index 2 3 ex_log (sort_by pair_less) ex_sort3 7 ex_triples2 with Ok (Some ix) =>
      match load_permutation (x_pso ix) with Ok m =>
      match get_rmd 0 m with Ok (f, ob) => (col1 (f_word f) =? ex_log 6 4) && negb (col1 (f_word f) =? ex_log 6 3) | _ => false end
      | _ => false end | _ => false end = true) by (vm_compute; reflexivity).
  destruct (create_index 2 3 ex_log (sort_by pair_less) ex_sort3 7 ex_triples2) as [[ix|]| |]; try discriminate H.
  destruct (load_permutation (x_pso ix)) as [m| |] eqn:L; try discriminate H.
  destruct (get_rmd 0 m) as [[f ob]| |] eqn:G; try discriminate H. exists ix, m, f, ob.
  apply andb_true_iff in H. destruct H as [A B]. apply N.eqb_eq in A. apply negb_true_iff, N.eqb_neq in B. auto.
Qed.
Print Assumptions C25_scan2_refuted.
Print Assumptions C25_multiplicity_refuted.
