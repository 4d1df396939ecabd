(* Solutions of a basic graph pattern; termination and undefined behaviour of planning. *)
From Coq Require Import String List NArith Arith Bool Lia Permutation Sorted.
From Verif Require Import Table_Spec Ops_Spec Ops_Model Vars_Model Vars_Thm Plan_Model Plan_Spec Plan_Proof1 Plan_Proof2 Plan_Proof3 Plan_Proof4 Plan_Proof5 Plan_Proof6 Plan_Proof7 Plan_Proof8 Lex_Proof.
Import ListNotations.
Local Open Scope nat_scope.

Lemma join_all_bag k bags : join_all k bags = bag k (fun i => nth i bags []) (N.ones (N.of_nat (length bags))) (length bags).
Proof.
  rewrite bag_all.
  - f_equal. apply nth_error_same. intros i. rewrite nth_error_map.
    destruct (Nat.lt_ge_cases i (length bags)) as [L|L].
    + rewrite (nth_error_nth' (seq 0 (length bags)) 0) by now rewrite seq_length. rewrite seq_nth by auto. cbn.
      now rewrite (nth_error_nth' bags []) by auto.
    + replace (nth_error (seq 0 (length bags)) i) with (@None nat) by (symmetry; apply nth_error_None; now rewrite seq_length).
      now apply nth_error_None.
  - intros i Hi. apply N.ones_spec_low. lia.
Qed.
Lemma total_map U m : NoDup U -> length m = length U -> (forall v, In v U -> get U m v <> None) ->
  exists mu : list N, m = map Some mu.
Proof.
  revert m. induction U as [|u V IH]; intros [|x m] N L H; cbn in L; try discriminate; [exists []; auto|].
  inversion N as [|? ? Nu NV]; subst. destruct (IH m NV ltac:(lia)) as (mu & ->).
  - intros v Hv. specialize (H v (or_intror Hv)). cbn in H. destruct (String.eqb_spec u v); [subst; contradiction|auto].
  - specialize (H u (or_introl eq_refl)). cbn in H. rewrite String.eqb_refl in H. destruct x as [x|]; [|congruence].
    exists (x :: mu). reflexivity.
Qed.
Lemma map_some_inj (a : list N) : forall b, map Some a = map Some b -> a = b.
Proof. induction a as [|x a IH]; intros [|y b] H; try discriminate; auto. cbn in H. injection H as -> H. f_equal. auto. Qed.
Lemma part_total U (a m : list N) : NoDup U -> length a = length U -> length m = length U ->
  part U (map Some a) (map Some m) -> a = m.
Proof.
  unfold part. revert a m. induction U as [|u V IH]; intros [|x a] [|y m] N La Lm H; cbn in La, Lm; try discriminate; auto.
  inversion N as [|? ? Nu NV]; subst. f_equal.
  - specialize (H u x). cbn in H. rewrite String.eqb_refl in H. specialize (H eq_refl). congruence.
  - apply IH; auto. intros v z Hz. specialize (H v z). cbn in H. destruct (String.eqb_spec u v) as [->|]; auto.
    exfalso. apply Nu. apply (get_length V (map Some a)). congruence.
Qed.

Lemma lens_of_in k (bags : list (list mapping)) i : (forall b, In b bags -> lens k b) -> lens k (nth i bags []).
Proof. intros H. destruct (nth_in_or_default i bags []) as [X | ->]; auto. constructor. Qed.
(* the join of the solutions of the triples consists of the mappings that make all triples true *)
Lemma join_solutions voc kb U ts mu : NoDup U -> (forall v, In v U -> is_var v = true) ->
  (forall v, In v U <-> exists t, In t ts /\ In v (triple_vars t)) -> length mu = length U ->
  (In (map Some mu) (join_all (length U) (map (tbag voc kb U) ts)) <->
   forall t, In t ts -> holds is_var voc kb U mu (t_s t, t_p t, t_o t)).
Proof.
  intros HU Hall HV L. rewrite join_all_bag.
  set (nb := fun i => nth i (map (tbag voc kb U) ts) []).
  assert (NL : forall i, lens (length U) (nb i)).
  { intros i. apply lens_of_in. intros b Hb. apply in_map_iff in Hb. destruct Hb as (t & <- & _). apply tbag_lens. }
  assert (NB : forall i t, nth_error ts i = Some t -> nb i = tbag voc kb U t).
  { intros i t H. unfold nb. apply nth_error_nth. now rewrite nth_error_map, H. }
  rewrite map_length. set (M := N.ones (N.of_nat (length ts))).
  assert (HM : forall i, i < length ts -> N.testbit M (N.of_nat i) = true) by (intros i Hi; apply N.ones_spec_low; lia).
  split.
  - intros Hin t Ht. apply In_nth_error in Ht. destruct Ht as (i & Hi).
    assert (Li : i < length ts) by (apply nth_error_Some; congruence).
    destruct (bag_parts U nb NL M (length ts) _ Hin i Li (HM i Li)) as (a & Ha & P). rewrite (NB i t Hi) in Ha.
    apply tbag_holds; eauto. intros v Hv. apply HV. exists t. split; auto. eapply nth_error_In; eauto.
  - intros H. destruct (bag_from_parts U nb HU NL M (length ts) (map Some mu)) as (b & Hb & P).
    + now rewrite map_length.
    + intros i Li _. destruct (nth_error ts i) as [t|] eqn:Hi; [|apply nth_error_None in Hi; lia]. rewrite (NB i t Hi).
      pose proof (nth_error_In _ _ Hi) as It. apply tbag_holds; auto. intros v Hv. apply HV. eauto.
    + assert (Lb : length b = length U) by exact (lens_in _ _ _ (bag_lens _ nb NL M (length ts)) Hb).
      destruct (total_map U b HU Lb) as (mb & ->).
      * intros v Hv. apply HV in Hv. destruct Hv as (t & Ht & Hv). apply In_nth_error in Ht. destruct Ht as (i & Hi).
        assert (Li : i < length ts) by (apply nth_error_Some; congruence).
        destruct (bag_parts U nb NL M (length ts) _ Hb i Li (HM i Li)) as (a & Ha & Pa). rewrite (NB i t Hi) in Ha.
        assert (Uv : In v U) by (apply HV; exists t; split; auto; eapply nth_error_In; eauto).
        pose proof (proj2 (tbag_dom voc kb U t a Hall Ha v Uv) Hv) as D. destruct (get U a v) eqn:E; [|congruence].
        rewrite (Pa v _ E). discriminate.
      * rewrite map_length in Lb. rewrite <- (part_total U mb mu HU Lb L P). exact Hb.
Qed.
Lemma join_total voc kb U ts m : NoDup U -> (forall v, In v U -> is_var v = true) ->
  (forall v, In v U <-> exists t, In t ts /\ In v (triple_vars t)) ->
  In m (join_all (length U) (map (tbag voc kb U) ts)) -> exists mu : list N, m = map Some mu /\ length mu = length U.
Proof.
  intros HU Hall HV. rewrite join_all_bag. intros Hb.
  set (nb := fun i => nth i (map (tbag voc kb U) ts) []) in *.
  assert (NL : forall i, lens (length U) (nb i)).
  { intros i. apply lens_of_in. intros b Hb'. apply in_map_iff in Hb'. destruct Hb' as (t & <- & _). apply tbag_lens. }
  rewrite map_length in Hb. set (M := N.ones (N.of_nat (length ts))) in *.
  assert (HM : forall i, i < length ts -> N.testbit M (N.of_nat i) = true) by (intros i Hi; apply N.ones_spec_low; lia).
  assert (Lb : length m = length U) by exact (lens_in _ _ _ (bag_lens _ nb NL M (length ts)) Hb).
  destruct (total_map U m HU Lb) as (mb & ->).
  - intros v Hv. apply HV in Hv. destruct Hv as (t & Ht & Hv). apply In_nth_error in Ht. destruct Ht as (i & Hi).
    assert (Li : i < length ts) by (apply nth_error_Some; congruence).
    destruct (bag_parts U nb NL M (length ts) _ Hb i Li (HM i Li)) as (a & Ha & Pa).
    assert (NB : nb i = tbag voc kb U t) by (unfold nb; apply nth_error_nth; now rewrite nth_error_map, Hi). rewrite NB in Ha.
    assert (Uv : In v U) by (apply HV; exists t; split; auto; eapply nth_error_In; eauto).
    pose proof (proj2 (tbag_dom voc kb U t a Hall Ha v Uv) Hv) as D. destruct (get U a v) eqn:E; [|congruence].
    rewrite (Pa v _ E). discriminate.
  - exists mb. split; auto. now rewrite map_length in Lb.
Qed.
Lemma join_nodup voc kb U ts : NoDup U -> NoDup kb -> (forall v, In v U -> is_var v = true) ->
  (forall t v, In t ts -> In v (triple_vars t) -> In v U) -> NoDup (join_all (length U) (map (tbag voc kb U) ts)).
Proof.
  intros HU Hkb Hall HV. rewrite join_all_bag. set (nb := fun i => nth i (map (tbag voc kb U) ts) []).
  apply (bag_nodup voc (fun _ _ => true) (fun _ _ => True) U 0
    (fun i => match nth_error ts i with Some t => triple_vars t | None => [] end) (fun _ => []) nb [] HU); try now intros.
  - intros i. apply lens_of_in. intros b Hb. apply in_map_iff in Hb. destruct Hb as (t & <- & _). apply tbag_lens.
  - intros i m Hm. unfold nb in Hm. destruct (nth_error ts i) as [t|] eqn:E.
    + rewrite (nth_error_nth _ _ _ (map_nth_error (tbag voc kb U) _ _ E)) in Hm. eapply tbag_dom; eauto.
    + rewrite nth_overflow in Hm; [destruct Hm|]. rewrite map_length. now apply nth_error_None.
  - intros i. unfold nb. destruct (nth_error ts i) as [t|] eqn:E.
    + rewrite (nth_error_nth _ _ _ (map_nth_error (tbag voc kb U) _ _ E)). apply tbag_nodup; auto.
      intros v. apply HV. eapply nth_error_In; eauto.
    + rewrite nth_overflow; [constructor|]. rewrite map_length. now apply nth_error_None.
Qed.

(* ---------- never out of fuel; undefined behaviour ---------- *)
Definition fine {A} (r : result A) : Prop := (exists a, r = Val a) \/ r = Throw.
Definition no_fuel {A} (r : result A) : Prop := r <> Fuel.
Lemma bind_no_fuel {A B} (r : result A) (f : A -> result B) : no_fuel r -> (forall a, r = Val a -> no_fuel (f a)) -> no_fuel (bind r f).
Proof. unfold no_fuel. destruct r; cbn; auto; discriminate. Qed.
Lemma bind_fine {A B} (r : result A) (f : A -> result B) : fine r -> (forall a, r = Val a -> fine (f a)) -> fine (bind r f).
Proof. intros [(a & ->) | ->] H; cbn; [auto|now right]. Qed.
Lemma fine_no_fuel {A} (r : result A) : fine r -> r <> Fuel /\ r <> Undef.
Proof. intros [(a & ->) | ->]; split; discriminate. Qed.
Ltac fine := solve [left; eauto | now right].

Section Outcome.
Variable o : oracle.
Variable ts : list triple.
Variable fs : list filt.
Lemma seeds_of_fine allp fr t : fine (seeds_of allp fr t).
Proof.
  unfold seeds_of. destruct (length (triple_vars t)) as [|[|[|k]]]; repeat match goal with |- context [if ?c then _ else _] => destruct c end; fine.
Qed.
Lemma triple_seeds_fine : forall l i, fine (triple_seeds o i l).
Proof.
  induction l as [|t l IH]; intros i; cbn [triple_seeds]; [fine|]. apply bind_fine; [apply seeds_of_fine|]. intros a _.
  apply bind_fine; auto. intros b _. fine.
Qed.
Lemma child_seeds_no_fuel : forall cs i, no_fuel (child_seeds i cs).
Proof.
  induction cs as [|c cs IH]; intros i; cbn [child_seeds]; [discriminate|]. destruct (_ && _); [discriminate|].
  apply bind_no_fuel; auto. discriminate.
Qed.
Lemma child_seeds_fine : forall cs i, i + length cs <= 64 -> fine (child_seeds i cs).
Proof.
  induction cs as [|c cs IH]; intros i H; cbn [child_seeds]; [fine|]. cbn [length] in H.
  destruct (Nat.leb_spec 64 i); [lia|]. cbn [andb]. apply bind_fine; [apply IH; lia|]. fine.
Qed.
Lemma connected_no_fuel a b : no_fuel (connected o ts a b).
Proof. unfold connected. repeat match goal with |- context [if ?c then _ else _] => destruct c end; discriminate. Qed.
Lemma connected_fine a b : length ts < 64 -> fine (connected o ts a b).
Proof.
  intros H. unfold connected. destruct (negb _); [fine|]. destruct (Nat.leb_spec 64 (length ts)); [lia|]. destruct (_ || _); fine.
Qed.
Lemma candidates_cases a b : candidates o ts a b = Throw \/ (exists l, candidates o ts a b = Val l) \/
  (candidates o ts a b = Undef /\ connected o ts a b = Undef) \/ (candidates o ts a b = Fuel /\ connected o ts a b = Fuel).
Proof.
  unfold candidates. destruct (connected o ts a b) as [c| | |]; cbn [bind]; auto.
  destruct (if c then _ else _) as [|j1 [|j2 [|j3 jcs]]]; repeat match goal with
    | |- context [if ?c then _ else _] => destruct c
    | |- context [match sorted_input ?a ?b with _ => _ end] => destruct (sorted_input a b) end; eauto 6.
Qed.
Lemma concat_no_fuel {A} : forall l : list (result (list A)), (forall r, In r l -> no_fuel r) -> no_fuel (concat_results l).
Proof.
  induction l as [|r l IH]; intros H; cbn [concat_results]; [discriminate|]. apply bind_no_fuel; [apply H; now left|]. intros a _.
  apply bind_no_fuel; [apply IH; intros; apply H; now right|discriminate].
Qed.
Lemma concat_fine {A} : forall l : list (result (list A)), (forall r, In r l -> fine r) -> fine (concat_results l).
Proof.
  induction l as [|r l IH]; intros H; cbn [concat_results]; [fine|]. apply bind_fine; [apply H; now left|]. intros a _.
  apply bind_fine; [apply IH; intros; apply H; now right|fine].
Qed.
Lemma merge_no_fuel a b : no_fuel (merge o ts a b).
Proof.
  unfold merge. apply bind_no_fuel; [|discriminate]. apply concat_no_fuel. intros r Hr. apply in_flat_map in Hr.
  destruct Hr as (x & _ & Hr). apply in_map_iff in Hr. destruct Hr as (y & <- & _).
  destruct (candidates_cases x y) as [-> | [(l & ->) | [[-> _]|[_ E]]]]; try discriminate. now apply connected_no_fuel in E.
Qed.
Lemma merge_fine a b : length ts < 64 -> fine (merge o ts a b).
Proof.
  intros L. unfold merge. apply bind_fine; [|fine]. apply concat_fine. intros r Hr. apply in_flat_map in Hr.
  destruct Hr as (x & _ & Hr). apply in_map_iff in Hr. destruct Hr as (y & <- & _).
  pose proof (fine_no_fuel _ (connected_fine x y L)) as [F1 F2].
  destruct (candidates_cases x y) as [-> | [(l & ->) | [[_ E]|[_ E]]]]; try fine; contradiction.
Qed.
Lemma filters_fine replace row : fine (apply_filters o fs replace row).
Proof. destruct (apply_filters_val o fs replace row) as (r & ->). fine. Qed.
Lemma row_no_fuel last rows k : forall m i row, no_fuel (row_loop o ts fs last rows k m i row).
Proof.
  induction m as [|m IH]; intros i row; cbn [row_loop]; [discriminate|]. apply bind_no_fuel; [apply merge_no_fuel|].
  intros [|p l] _; auto. apply bind_no_fuel; auto. apply (fine_no_fuel _ (filters_fine _ _)).
Qed.
Lemma row_fine last rows k : length ts < 64 -> forall m i row, fine (row_loop o ts fs last rows k m i row).
Proof.
  intros L. induction m as [|m IH]; intros i row; cbn [row_loop]; [fine|]. apply bind_fine; [now apply merge_fine|].
  intros [|p l] _; auto. apply bind_fine; auto. apply filters_fine.
Qed.
Lemma rows_no_fuel s : forall m k rows, no_fuel (rows_loop o ts fs s m k rows).
Proof.
  induction m as [|m IH]; intros k rows; cbn [rows_loop]; [discriminate|]. apply bind_no_fuel; [apply row_no_fuel|].
  intros [|p l] _; [discriminate|auto].
Qed.
Lemma rows_fine s : length ts < 64 -> forall m k rows, fine (rows_loop o ts fs s m k rows).
Proof.
  intros L. induction m as [|m IH]; intros k rows; cbn [rows_loop]; [fine|]. apply bind_fine; [now apply row_fine|].
  intros [|p l] _; [fine|auto].
Qed.
Lemma plan_no_fuel cs : no_fuel (plan_pattern o ts fs cs).
Proof.
  unfold plan_pattern, fill_dp_tab. apply bind_no_fuel.
  - destruct (64 <? length ts); [discriminate|]. destruct (64 <? length fs); [discriminate|]. apply bind_no_fuel.
    + unfold seeds. apply bind_no_fuel; [apply child_seeds_no_fuel|]. intros a _. apply bind_no_fuel; [|discriminate].
      apply (fine_no_fuel _ (triple_seeds_fine _ _)).
    + intros s _. apply bind_no_fuel; [apply (fine_no_fuel _ (filters_fine _ _))|]. intros r _. apply rows_no_fuel.
  - intros rows _. apply bind_no_fuel; [apply (fine_no_fuel _ (filters_fine _ _))|]. intros r _. destruct (cheapest o r); discriminate.
Qed.
Lemma plan_fine cs : length ts < 64 -> length ts + length cs <= 64 -> fine (plan_pattern o ts fs cs).
Proof.
  intros L1 L2. unfold plan_pattern, fill_dp_tab. apply bind_fine.
  - destruct (64 <? length ts); [fine|]. destruct (64 <? length fs); [fine|]. apply bind_fine.
    + unfold seeds. apply bind_fine; [now apply child_seeds_fine|]. intros a _. apply bind_fine; [apply triple_seeds_fine|fine].
    + intros s _. apply bind_fine; [apply filters_fine|]. intros r _. now apply rows_fine.
  - intros rows _. apply bind_fine; [apply filters_fine|]. intros r _. destruct (cheapest o r); fine.
Qed.
End Outcome.
