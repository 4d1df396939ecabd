(* Every plan in the planner's table satisfies the invariant; the loop over the filters ends. *)
From Coq Require Import String List NArith Arith Bool Lia Permutation Sorted.
From Verif Require Import Table_Spec Ops_Spec Ops_Model Vars_Model Vars_Thm Plan_Model Plan_Spec Plan_Proof1 Plan_Proof2 Plan_Proof3.
Import ListNotations.
Local Open Scope nat_scope.

(* ---------- results ---------- *)
Lemma bind_val {A B} (r : result A) (f : A -> result B) b : bind r f = Val b -> exists a, r = Val a /\ f a = Val b.
Proof. destruct r; cbn; try discriminate. eauto. Qed.
Lemma concat_val {A} (l : list (result (list A))) x : concat_results l = Val x ->
  forall a, In a x -> exists y, In (Val y) l /\ In a y.
Proof.
  revert x. induction l as [|r l IH]; cbn [concat_results]; intros x H a Ha.
  - injection H as <-. destruct Ha.
  - apply bind_val in H. destruct H as (y & -> & H). apply bind_val in H. destruct H as (z & Hz & H). injection H as <-.
    apply in_app_or in Ha. destruct Ha as [Ha|Ha]; [exists y; split; auto; now left|].
    destruct (IH z Hz a Ha) as (w & H1 & H2). exists w. split; auto. now right.
Qed.

(* ---------- pruning keeps some of the plans ---------- *)
Lemma group_add_in o p gs g q : In g (group_add o p gs) -> In q g -> q = p \/ exists g', In g' gs /\ In q g'.
Proof.
  revert g. induction gs as [|h gs IH]; cbn [group_add]; intros g Hg Hq.
  - destruct Hg as [<-|[]]. destruct Hq as [<-|[]]. auto.
  - destruct h as [|x h].
    + destruct Hg as [<-|Hg]; [right; exists []; split; auto; now left|].
      destruct (IH g Hg Hq) as [|(g' & H1 & H2)]; auto. right. exists g'. split; auto. now right.
    + destruct (key_eqb _ _).
      * destruct Hg as [<-|Hg].
        { apply in_app_or in Hq. destruct Hq as [Hq|[<-|[]]]; auto. right. exists (x :: h). split; auto. now left. }
        right. exists g. split; auto. now right.
      * destruct Hg as [<-|Hg]; [right; exists (x :: h); split; auto; now left|].
        destruct (IH g Hg Hq) as [|(g' & H1 & H2)]; auto. right. exists g'. split; auto. now right.
Qed.
Lemma group_in_gen o ps : forall gs g q, In g (fold_left (fun gs p => group_add o p gs) ps gs) -> In q g ->
  In q ps \/ exists g', In g' gs /\ In q g'.
Proof.
  induction ps as [|p ps IH]; cbn [fold_left]; intros gs g q Hg Hq; [eauto|].
  destruct (IH _ g q Hg Hq) as [|(g' & H1 & H2)]; [left; now right|].
  destruct (group_add_in _ _ _ _ _ H1 H2) as [->|]; auto. left. now left.
Qed.
Lemma group_in o ps g q : In g (group o ps) -> In q g -> In q ps.
Proof. intros Hg Hq. destruct (group_in_gen o ps [] g q Hg Hq) as [|(g' & [] & _)]; auto. Qed.
Lemma cheapest_loop_in o l : forall c best, cheapest_loop o c best l = best \/ In (cheapest_loop o c best l) l.
Proof.
  induction l as [|p l IH]; cbn [cheapest_loop]; intros c best; auto.
  destruct (N.ltb (cost o (p_tree p)) c).
  - destruct (IH (cost o (p_tree p)) p) as [->|H]; right; [now left|now right].
  - destruct (IH c best) as [->|H]; auto. right. now right.
Qed.
Lemma cheapest_in o l p : cheapest o l = Some p -> In p l.
Proof.
  destruct l as [|q l]; [discriminate|]. intros H. assert (E : p = cheapest_loop o MAX_SIZE_T q (q :: l)) by (now injection H).
  rewrite E. destruct (cheapest_loop_in o (q :: l) MAX_SIZE_T q) as [X|X]; auto. rewrite X. now left.
Qed.
Lemma merge_in o ts a b r : (forall gs, Permutation (shuffle o gs) gs) -> merge o ts a b = Val r ->
  forall p, In p r -> exists x y cs, In x a /\ In y b /\ candidates o ts x y = Val cs /\ In p cs.
Proof.
  intros Hs H p Hp. unfold merge in H. apply bind_val in H. destruct H as (cs & Hc & H). injection H as <-.
  apply in_flat_map in Hp. destruct Hp as (g & Hg & Hp). destruct (cheapest o g) as [q|] eqn:E; [|destruct Hp].
  destruct Hp as [<-|[]]. apply cheapest_in in E. apply (Permutation_in _ (Hs _)) in Hg.
  pose proof (group_in _ _ _ _ Hg E) as Hq. destruct (concat_val _ _ Hc q Hq) as (y & H1 & H2).
  apply in_flat_map in H1. destruct H1 as (x & Hx & H1). apply in_map_iff in H1. destruct H1 as (z & H1 & Hz). eauto 10.
Qed.

(* ---------- numbers of nodes ---------- *)
Definition count (n : nat) (M : N) : nat := length (filter (fun i => N.testbit M (N.of_nat i)) (seq 0 n)).
Lemma count_lor n A B : N.land A B = 0%N -> count n (N.lor A B) = count n A + count n B.
Proof.
  intros H. unfold count. induction (seq 0 n) as [|i l IH]; cbn [filter]; auto.
  assert (X : N.testbit A (N.of_nat i) && N.testbit B (N.of_nat i) = false) by now rewrite <- N.land_spec, H, N.bits_0.
  rewrite N.lor_spec. destruct (N.testbit A (N.of_nat i)), (N.testbit B (N.of_nat i)); cbn in *; try discriminate; lia.
Qed.
Lemma count_bit n i : i < n -> count n (bit i) = 1.
Proof.
  intros H. unfold count. rewrite (filter_ext _ (Nat.eqb i)) by (intros j; apply bit_spec).
  assert (X : forall k s, s <= i < s + k -> length (filter (Nat.eqb i) (seq s k)) = 1).
  { induction k as [|k IH]; intros s Hs; [lia|]. cbn [seq filter]. destruct (Nat.eqb_spec i s) as [->|].
    - cbn [length]. f_equal. rewrite Lex_Proof.filter_none_iff; auto. intros x Hx. apply in_seq in Hx. apply Nat.eqb_neq. lia.
    - apply IH. lia. }
  apply X. lia.
Qed.
Lemma filter_all_length {A} (f : A -> bool) l : length (filter f l) = length l -> forall x, In x l -> f x = true.
Proof.
  induction l as [|a l IH]; cbn; intros H x Hx; [destruct Hx|]. destruct (f a) eqn:E; cbn in H.
  - destruct Hx as [<-|Hx]; auto.
  - pose proof (filter_split_length f l). lia.
Qed.
Lemma count_full n M : count n M = n -> forall i, i < n -> N.testbit M (N.of_nat i) = true.
Proof.
  intros H i Hi. apply (filter_all_length (fun i => N.testbit M (N.of_nat i)) (seq 0 n)).
  - now rewrite seq_length.
  - apply in_seq. lia.
Qed.
Lemma land_disj A B : N.land A B = 0%N -> disj A B.
Proof. intros H i X Y. assert (N.testbit (N.land A B) i = false) by now rewrite H, N.bits_0. rewrite N.land_spec, X, Y in *. discriminate. Qed.

(* ---------- filters ---------- *)
Definition has_filter (i : nat) (p : plan) : bool := N.testbit (p_filters p) (N.of_nat i).
Lemma applicable_covered o p i f : applicable o p i f = true <->
  has_filter i p = false /\ forall v, In v (filter_vars f) -> var_find (vars o (p_tree p)) v <> None.
Proof.
  unfold applicable, has_filter, filter_vars, covered.
  assert (C : forall v, (match var_find (vars o (p_tree p)) v with Some _ => true | None => false end = true) <->
    var_find (vars o (p_tree p)) v <> None) by (intros v; destruct (var_find _ v); split; congruence).
  rewrite !andb_true_iff, negb_true_iff, forallb_forall, C, orb_true_iff, negb_true_iff, C. split.
  - intros [[[H1 H2] H3] H4]. split; auto. intros v [<-|Hv]; auto. apply in_app_or in Hv. destruct Hv as [Hv|Hv].
    + apply C, H3, Hv.
    + destruct (is_var (f_rhs f)); [|destruct Hv]. destruct Hv as [<-|[]]. destruct H4; [discriminate|auto].
  - intros [H1 H2]. repeat split; auto.
    + apply H2. now left.
    + intros v Hv. apply C, H2. right. apply in_or_app. auto.
    + destruct (is_var (f_rhs f)); auto. right. apply H2. right. apply in_or_app. right. now left.
Qed.
Lemma has_filtered p i j f : has_filter j (filtered p i f) = has_filter j p || Nat.eqb i j.
Proof. unfold has_filter, filtered. cbn [p_filters]. now rewrite N.lor_spec, bit_spec. Qed.
Lemma new_plans_in o p q : forall fs i, In q (new_plans o p i fs) ->
  exists j f, nth_error fs j = Some f /\ applicable o p (i + j) f = true /\ q = filtered p (i + j) f.
Proof.
  induction fs as [|f fs IH]; cbn [new_plans]; intros i H; [destruct H|]. apply in_app_or in H. destruct H as [H|H].
  - destruct (applicable o p i f) eqn:E; [|destruct H]. destruct H as [<-|[]]. exists 0, f. rewrite Nat.add_0_r. auto.
  - destruct (IH (S i) H) as (j & g & H1 & H2 & H3). exists (S j), g. rewrite Nat.add_succ_r. auto.
Qed.
(* the number of filters of p *)
Definition fcount (k : nat) (p : plan) : nat := length (filter (fun i => has_filter i p) (seq 0 k)).
Lemma new_plans_length o p : forall fs i,
  length (new_plans o p i fs) + length (filter (fun j => has_filter j p) (seq i (length fs))) <= length fs.
Proof.
  induction fs as [|f fs IH]; cbn [new_plans]; intros i; [cbn; lia|]. cbn [length seq filter]. rewrite app_length.
  specialize (IH (S i)). destruct (applicable o p i f) eqn:E.
  - apply applicable_covered in E. destruct E as [E _]. rewrite E. cbn [length]. lia.
  - destruct (has_filter i p); cbn [length]; lia.
Qed.
Lemma fcount_filtered k p i f : i < k -> has_filter i p = false -> fcount k (filtered p i f) = S (fcount k p).
Proof.
  intros Hi Hn. unfold fcount. rewrite (filter_ext (fun j => has_filter j (filtered p i f)) (fun j => has_filter j p || Nat.eqb i j))
    by (intros j; apply has_filtered).
  assert (X : forall n s, s <= i < s + n -> length (filter (fun j => has_filter j p || (i =? j)) (seq s n)) =
     S (length (filter (fun j => has_filter j p) (seq s n)))).
  { induction n as [|n IH]; intros s Hs; [lia|]. cbn [seq filter]. destruct (Nat.eqb_spec i s) as [->|].
    - rewrite orb_true_r, Hn. cbn [length]. f_equal. f_equal. apply Lex_Proof.filter_ext_In. intros x Hx. apply in_seq in Hx.
      replace (s =? x) with false by (symmetry; apply Nat.eqb_neq; lia). apply orb_false_r.
    - rewrite orb_false_r. destruct (has_filter s p); cbn [length]; rewrite IH by lia; auto. }
  apply X. lia.
Qed.
Fixpoint total (k : nat) (l : list plan) : nat := match l with [] => 0 | p :: l' => weight (k - fcount k p) + total k l' end.
Lemma total_app k a b : total k (a ++ b) = total k a + total k b.
Proof. induction a; cbn; lia. Qed.
Lemma weight_pos k : 1 <= weight k.
Proof. destruct k; cbn; lia. Qed.
Lemma weight_le k : forall k', k <= k' -> weight k <= weight k'.
Proof.
  induction 1 as [|m _ IH]; auto. cbn [weight]. lia.
Qed.
Lemma total_bound k l : total k l <= length l * weight k.
Proof.
  induction l as [|p l IH]; cbn [total length]; [lia|]. pose proof (weight_le (k - fcount k p) k ltac:(lia)). lia.
Qed.
Lemma total_const k c l : (forall p, In p l -> fcount k p = c) -> total k l = length l * weight (k - c).
Proof.
  induction l as [|p l IH]; intros H; cbn [total length]; auto. rewrite (H p) by now left. rewrite IH; [lia|].
  intros q Hq. apply H. now right.
Qed.
Lemma filters_loop_fuel o fs replace : forall fuel finished row, total (length fs) row <= fuel ->
  exists r, filters_loop o fuel fs replace finished row = Val r.
Proof.
  induction fuel as [|fuel IH]; intros finished row H.
  - destruct row as [|p row]; cbn [filters_loop]; [eauto|]. cbn [total] in H. pose proof (weight_pos (length fs - fcount (length fs) p)). lia.
  - destruct row as [|p row]; cbn [filters_loop]; [eauto|]. cbn [total] in H.
    pose proof (weight_pos (length fs - fcount (length fs) p)) as W.
    destruct (dummy (p_tree p)); [apply IH; lia|]. destruct replace; [apply IH; lia|]. apply IH.
    rewrite total_app. pose proof (new_plans_length o p fs 0) as L. fold (fcount (length fs) p) in L.
    rewrite (total_const (length fs) (S (fcount (length fs) p)) (new_plans o p 0 fs)).
    + remember (length fs - fcount (length fs) p) as d. destruct d as [|d].
      * assert (length (new_plans o p 0 fs) = 0) as -> by lia. lia.
      * replace (length fs - S (fcount (length fs) p)) with d by lia. cbn [weight] in H.
        pose proof (Nat.mul_le_mono_r (length (new_plans o p 0 fs)) (S d) (weight d) ltac:(lia)). cbn [Nat.mul] in *. lia.
    + intros q Hq. apply new_plans_in in Hq. destruct Hq as (j & f & E & A & ->). apply applicable_covered in A. destruct A as [A _].
      cbn [Nat.add] in *. apply fcount_filtered; auto. apply nth_error_Some. congruence.
Qed.
Lemma apply_filters_val o fs replace row : exists r, apply_filters o fs replace row = Val r.
Proof. apply filters_loop_fuel. apply total_bound. Qed.

(* what holds for all plans of the row, and is kept by adding a filter, holds for all plans of the new row *)
Lemma replace_loop_ind o (Q : plan -> Prop) fs0 :
  (forall p i f, Q p -> nth_error fs0 i = Some f -> applicable o p i f = true -> Q (filtered p i f)) ->
  forall fs i p, (forall j, nth_error fs j = nth_error fs0 (i + j)) -> Q p -> Q (replace_loop o p i fs).
Proof.
  intros HQ. induction fs as [|f fs IH]; intros i p E Hp; cbn [replace_loop]; auto. apply IH.
  - intros j. specialize (E (S j)). cbn [nth_error] in E. rewrite E. f_equal. lia.
  - destruct (applicable o p i f) eqn:A; auto. apply HQ; auto. specialize (E 0). rewrite Nat.add_0_r in E. auto.
Qed.
Lemma filters_loop_ind o fs replace (Q : plan -> Prop) :
  (forall p i f, Q p -> nth_error fs i = Some f -> applicable o p i f = true -> Q (filtered p i f)) ->
  forall fuel finished row r, (forall p, In p finished -> Q p) -> (forall p, In p row -> Q p) ->
  filters_loop o fuel fs replace finished row = Val r -> forall p, In p r -> Q p.
Proof.
  intros HQ. induction fuel as [|fuel IH]; intros finished row r Hf Hr E.
  - destruct row; cbn [filters_loop] in E; [injection E as <-; auto|discriminate].
  - destruct row as [|p row]; cbn [filters_loop] in E; [injection E as <-; auto|].
    assert (Hp : Q p) by (apply Hr; now left). assert (Hr' : forall q, In q row -> Q q) by (intros q Hq; apply Hr; now right).
    destruct (dummy (p_tree p)); [|destruct replace].
    + refine (IH _ _ _ _ _ E); auto. intros q Hq. apply in_app_or in Hq. destruct Hq as [|[<-|[]]]; auto.
    + refine (IH _ _ _ _ _ E); auto. intros q Hq. apply in_app_or in Hq. destruct Hq as [|[<-|[]]]; auto.
      apply (replace_loop_ind o Q fs HQ); auto.
    + refine (IH _ _ _ _ _ E); auto.
      * intros q Hq. apply in_app_or in Hq. destruct Hq as [|[<-|[]]]; auto.
      * intros q Hq. apply in_app_or in Hq. destruct Hq as [Hq|Hq]; auto.
        apply new_plans_in in Hq. destruct Hq as (j & f & E1 & E2 & ->). apply HQ; auto.
Qed.
(* with replace every plan that is not a full scan has all filters it can have *)
Lemma replace_loop_all o : forall fs i p j f, nth_error fs j = Some f ->
  (forall v, In v (filter_vars f) -> var_find (vars o (p_tree p)) v <> None) -> has_filter (i + j) (replace_loop o p i fs) = true.
Proof.
  assert (V : forall fs i p, vars o (p_tree (replace_loop o p i fs)) = vars o (p_tree p) /\
     forall j, has_filter j p = true -> has_filter j (replace_loop o p i fs) = true).
  { induction fs as [|f fs IH]; intros i p; cbn [replace_loop]; auto.
    destruct (IH (S i) (if applicable o p i f then filtered p i f else p)) as [E1 E2]. split.
    - rewrite E1. destruct (applicable o p i f); reflexivity.
    - intros j Hj. apply E2. destruct (applicable o p i f); auto. now rewrite has_filtered, Hj. }
  induction fs as [|f fs IH]; intros i p j g E C; [destruct j; discriminate|]. cbn [replace_loop]. destruct j as [|j]; cbn [nth_error] in E.
  - injection E as ->. rewrite Nat.add_0_r. apply V. destruct (applicable o p i g) eqn:A.
    + rewrite has_filtered, Nat.eqb_refl. apply orb_true_r.
    + destruct (has_filter i p) eqn:H; auto. enough (applicable o p i g = true) by congruence. apply applicable_covered. auto.
  - replace (i + S j) with (S i + j) by lia. apply (IH _ _ j g); auto. destruct (applicable o p i f); auto.
Qed.
Lemma replace_dummy o fs : forall i p, dummy (p_tree p) = false -> dummy (p_tree (replace_loop o p i fs)) = false.
Proof.
  induction fs as [|f fs IH]; intros i p H; cbn [replace_loop]; auto. apply IH. destruct (applicable o p i f); auto.
Qed.
Lemma replace_vars o : forall fs i p, vars o (p_tree (replace_loop o p i fs)) = vars o (p_tree p).
Proof.
  induction fs as [|f fs IH]; intros i p; cbn [replace_loop]; auto. rewrite IH. destruct (applicable o p i f); reflexivity.
Qed.
Lemma filters_loop_replace o fs : forall fuel finished row r,
  (forall p, In p finished -> dummy (p_tree p) = false -> forall j f, nth_error fs j = Some f ->
     (forall v, In v (filter_vars f) -> var_find (vars o (p_tree p)) v <> None) -> has_filter j p = true) ->
  filters_loop o fuel fs true finished row = Val r ->
  forall p, In p r -> dummy (p_tree p) = false -> forall j f, nth_error fs j = Some f ->
     (forall v, In v (filter_vars f) -> var_find (vars o (p_tree p)) v <> None) -> has_filter j p = true.
Proof.
  induction fuel as [|fuel IH]; intros finished row r Hf E.
  - destruct row; cbn [filters_loop] in E; [injection E as <-; auto|discriminate].
  - destruct row as [|p row]; cbn [filters_loop] in E; [injection E as <-; auto|].
    destruct (dummy (p_tree p)) eqn:D; refine (IH _ _ _ _ E); intros q Hq Dq; apply in_app_or in Hq; destruct Hq as [Hq|[<-|[]]];
      try exact (Hf q Hq Dq).
    + congruence.
    + intros j f Ej C. rewrite replace_vars in C. exact (replace_loop_all o fs 0 p j f Ej C).
Qed.

(* ---------- the table ---------- *)
Section Table.
Variable o : oracle.
Variable voc : string -> option N.
Variable ix : index.
Variable sat : filt -> list (option N) -> bool.
Variable leaf : nat -> table -> Prop.
Variable U : list string.
Variable n : nat.
Variable nvars npriv : nat -> list string.
Variable nbag : nat -> list mapping.
Variable fs : list filt.
Hypothesis HU : NoDup U.
Hypothesis Hiter : forall t, Permutation (iter o t) (vars o t).
Hypothesis Hshuffle : forall gs, Permutation (shuffle o gs) gs.
Hypothesis nlens : forall i, lens (length U) (nbag i).
Hypothesis npriv_disj : forall i j v, In v (npriv i) -> In v (npriv j) -> i = j.
Hypothesis ndom : forall i m, In m (nbag i) -> dom_is U (fun v => In v (nvars i)) m.
Hypothesis nnodup : forall i, NoDup (nbag i).
Hypothesis Hfs : forall f v i, In f fs -> In v (filter_vars f) -> ~ In v (npriv i).

Notation INV := (Inv o voc ix sat leaf U n nvars npriv nbag fs).
Definition good (p : plan) : Prop := INV (p_tree p) (p_nodes p) (p_filters p).

Lemma good_filtered p i f : good p -> nth_error fs i = Some f -> applicable o p i f = true -> good (filtered p i f).
Proof.
  intros G E A. apply applicable_covered in A. unfold good, filtered. cbn [p_tree p_nodes p_filters].
  apply inv_filter; auto. apply A.
Qed.
Lemma inv_same_vars t t' : vars o t = vars o t' -> forall j jcs, jcs_of (vars o t) j jcs -> jcs_of (vars o t') j jcs.
Proof. now intros ->. Qed.
Lemma sorted_input_inv t c t' M F : INV t M F -> sorted_input t c = Some t' ->
  INV t' M F /\ vars o t' = vars o t /\ first_is (sorted_of t') c = true /\ (dummy t' = true -> dummy t = true).
Proof.
  intros I. unfold sorted_input. destruct (first_is (sorted_of t) c) eqn:E.
  - intros H. injection H as <-. auto.
  - destruct (is_scan t); [discriminate|]. intros H. injection H as <-. split; [now apply inv_sort|].
    split; auto. split; [cbn; now rewrite Nat.eqb_refl|]. discriminate.
Qed.
Lemma make_two_inv l r j1 j2 Ml Fl Mr Fr F : INV l Ml Fl -> INV r Mr Fr -> disj Ml Mr ->
  jcs_of (vars o l) (vars o r) [j1; j2] -> sub F (N.lor Fl Fr) -> INV (make_two o l r j1 j2) (N.lor Ml Mr) F.
Proof.
  intros Il Ir D J SF. destruct j1 as [a b], j2 as [c d].
  assert (Sw : forall l r a b c d Ml Fl Mr Fr, INV l Ml Fl -> INV r Mr Fr -> disj Ml Mr ->
     jcs_of (vars o l) (vars o r) [(a, b); (c, d)] -> sub F (N.lor Fl Fr) -> INV (two_swap l r a c b d) (N.lor Ml Mr) F).
  { clear l r Ml Fl Mr Fr Il Ir D SF J a b c d. intros l r a b c d Ml Fl Mr Fr Il Ir D J SF.
    assert (J' : jcs_of (vars o l) (vars o r) [(c, d); (a, b)]) by (unfold jcs_of in *; rewrite <- J; apply perm_swap).
    assert (X : INV (TwoT l r a c b d) (N.lor Ml Mr) F) by (eapply inv_two; eauto).
    assert (Y : INV (TwoT l r c a d b) (N.lor Ml Mr) F) by (eapply inv_two; eauto).
    unfold two_swap. destruct (is_scan l && _); [destruct (c <? a); auto|]. destruct (is_scan r && _); [destruct (d <? b); auto|auto]. }
  unfold make_two. cbn [fst snd]. destruct (less o l r); [eapply Sw; eauto|].
  rewrite N.lor_comm. apply (Sw r l b a d c Mr Fr Ml Fl); auto using disj_sym.
  - pose proof (jcs_swap _ _ _ _ _ (full_desc _ _ (i_full _ _ _ _ _ _ _ _ _ _ _ _ _ _ Il)) (full_desc _ _ (i_full _ _ _ _ _ _ _ _ _ _ _ _ _ _ Ir)) J) as J'.
    exact J'.
  - now rewrite N.lor_comm.
Qed.
Lemma join_cols_of a b M F : INV a M F -> jcs_of (vars o a) (vars o b) (join_cols o a b).
Proof. intros _. unfold jcs_of, join_cols. apply join_columns_perm, Hiter. Qed.
Lemma good_candidates ts a b cs : good a -> good b -> candidates o ts a b = Val cs ->
  forall c, In c cs -> good c /\ p_nodes c = N.lor (p_nodes a) (p_nodes b) /\ N.land (p_nodes a) (p_nodes b) = 0%N.
Proof.
  intros Ga Gb H c Hc. unfold candidates in H. apply bind_val in H. destruct H as (conn & Hconn & H).
  destruct conn; [|cbn in H; injection H as <-; destruct Hc].
  assert (Z : N.land (p_nodes a) (p_nodes b) = 0%N).
  { unfold connected in Hconn. destruct (N.eqb_spec (N.land (p_nodes a) (p_nodes b)) 0); auto. discriminate. }
  pose proof (land_disj _ _ Z) as D. pose proof (join_cols_of _ (p_tree b) _ _ Ga) as J.
  enough (good c /\ p_nodes c = N.lor (p_nodes a) (p_nodes b)) by tauto.
  destruct (join_cols o (p_tree a) (p_tree b)) as [|j1 [|j2 [|j3 jcs]]].
  - injection H as <-. destruct Hc.
  - destruct (dummy (p_tree a) && dummy (p_tree b)) eqn:Dd; [injection H as <-; destruct Hc|].
    destruct (sorted_input (p_tree a) (fst j1)) as [l|] eqn:El; [|injection H as <-; destruct Hc].
    destruct (sorted_input (p_tree b) (snd j1)) as [r|] eqn:Er; [|injection H as <-; destruct Hc].
    injection H as <-. destruct Hc as [<-|[]]. split; [|reflexivity]. unfold good. cbn [p_tree p_nodes p_filters].
    destruct (sorted_input_inv _ _ _ _ _ Ga El) as (Il & Vl & Sl & Dl).
    destruct (sorted_input_inv _ _ _ _ _ Gb Er) as (Ir & Vr & Sr & Dr). destruct j1 as [x y]. cbn [fst snd] in *.
    rewrite <- Vl, <- Vr in J.
    assert (Dd' : dummy l && dummy r = false).
    { apply not_true_iff_false. rewrite andb_true_iff. intros [X Y]. rewrite (Dl X), (Dr Y) in Dd. discriminate. }
    unfold make_join. destruct (less o r l).
    + rewrite N.lor_comm, (N.lor_comm (p_filters a)). eapply inv_join; eauto using disj_sym.
      * pose proof (jcs_swap _ _ _ _ _ (full_desc _ _ (i_full _ _ _ _ _ _ _ _ _ _ _ _ _ _ Il)) (full_desc _ _ (i_full _ _ _ _ _ _ _ _ _ _ _ _ _ _ Ir)) J) as J'.
        exact J'.
      * now rewrite andb_comm.
    + eapply inv_join; eauto.
  - destruct (dummy (p_tree a) && dummy (p_tree b)) eqn:Dd; [injection H as <-; destruct Hc|].
    assert (E : exists x y, c = two_candidate o a b j1 j2 x y).
    { injection H as <-. destruct Hc as [<-|[<-|[<-|[<-|[]]]]]; eauto. }
    destruct E as (x & y & ->). split; [|reflexivity]. unfold good, two_candidate. cbn [p_tree p_nodes p_filters].
    eapply make_two_inv with (Fl := p_filters a) (Fr := p_filters b); auto.
    + destruct (first_is _ _ && _); [exact Ga|now apply inv_order_by].
    + destruct (first_is _ _ && _); [exact Gb|now apply inv_order_by].
    + repeat match goal with |- context [if ?c then _ else _] => destruct c end; exact J.
    + intros i Hi. now rewrite N.lor_spec, Hi.
  - injection H as <-. destruct Hc as [<-|[]]. split; [|reflexivity]. unfold good, multi_candidate. cbn [p_tree p_nodes p_filters].
    assert (Il : INV (if prefix_eqb (map fst (j1 :: j2 :: j3 :: jcs)) (sorted_of (p_tree a)) then p_tree a
                      else OrderByT (p_tree a) (map fst (j1 :: j2 :: j3 :: jcs))) (p_nodes a) (p_filters a)).
    { match goal with |- context [if ?c then _ else _] => destruct c end; [exact Ga|now apply inv_order_by]. }
    assert (Ir : INV (if prefix_eqb (map snd (j1 :: j2 :: j3 :: jcs)) (sorted_of (p_tree b)) then p_tree b
                      else OrderByT (p_tree b) (map snd (j1 :: j2 :: j3 :: jcs))) (p_nodes b) (p_filters b)).
    { match goal with |- context [if ?c then _ else _] => destruct c end; [exact Gb|now apply inv_order_by]. }
    assert (J' : jcs_of (vars o (if prefix_eqb (map fst (j1 :: j2 :: j3 :: jcs)) (sorted_of (p_tree a)) then p_tree a
                      else OrderByT (p_tree a) (map fst (j1 :: j2 :: j3 :: jcs))))
                   (vars o (if prefix_eqb (map snd (j1 :: j2 :: j3 :: jcs)) (sorted_of (p_tree b)) then p_tree b
                      else OrderByT (p_tree b) (map snd (j1 :: j2 :: j3 :: jcs)))) (j1 :: j2 :: j3 :: jcs)).
    { repeat match goal with |- context [if ?c then _ else _] => destruct c end; exact J. }
    unfold make_multi. destruct (less o _ _).
    + eapply inv_multi; eauto. discriminate.
    + rewrite N.lor_comm, (N.lor_comm (p_filters a)). eapply inv_multi; eauto using disj_sym; [|discriminate].
      exact (jcs_swap _ _ _ _ _ (full_desc _ _ (i_full _ _ _ _ _ _ _ _ _ _ _ _ _ _ Il)) (full_desc _ _ (i_full _ _ _ _ _ _ _ _ _ _ _ _ _ _ Ir)) J').
Qed.

(* plans with k nodes *)
Definition goodk (k : nat) (p : plan) : Prop := good p /\ count n (p_nodes p) = k.
Definition all (Q : plan -> Prop) (l : list plan) : Prop := forall p, In p l -> Q p.
Lemma all_filters k replace row r : all (goodk k) row -> apply_filters o fs replace row = Val r -> all (goodk k) r.
Proof.
  intros H E. refine (filters_loop_ind o fs replace (goodk k) _ _ [] row r _ H E); [|intros p []].
  intros p i f [G C] Hi A. split; [now apply good_filtered|exact C].
Qed.
Lemma all_merge ts i j a b r : all (goodk i) a -> all (goodk j) b -> merge o ts a b = Val r -> all (goodk (i + j)) r.
Proof.
  intros Ha Hb E p Hp. destruct (merge_in o ts a b r Hshuffle E p Hp) as (x & y & cs & Hx & Hy & Hc & Hi).
  destruct (Ha x Hx) as [Gx Cx]. destruct (Hb y Hy) as [Gy Cy].
  destruct (good_candidates ts x y cs Gx Gy Hc p Hi) as (G & M & Z). split; auto. rewrite M, count_lor by auto. lia.
Qed.
Definition rows_ok (rows : list (list plan)) : Prop := forall i, all (goodk (S i)) (nth i rows []).
Lemma all_row ts last rows k : rows_ok rows -> forall m i row r, all (goodk k) row -> 1 <= i -> i + m <= k ->
  row_loop o ts fs last rows k m i row = Val r -> all (goodk k) r.
Proof.
  intros Hr. induction m as [|m IH]; intros i row r Ha H1 H2 E; cbn [row_loop] in E; [injection E as <-; auto|].
  apply bind_val in E. destruct E as (new & En & E).
  assert (Hn : all (goodk k) new).
  { replace k with (i + (k - i)) by lia.
    replace i with (S (i - 1)) at 1 by lia. replace (k - i) with (S (k - i - 1)) by lia.
    eapply all_merge; [| |exact En]; apply Hr. }
  destruct new as [|p new]; [eapply IH; [exact Ha| | |exact E]; lia|].
  apply bind_val in E. destruct E as (row' & E1 & E2). eapply IH; [| | |exact E2]; try lia.
  eapply all_filters; [|exact E1]. intros q Hq. apply in_app_or in Hq. destruct Hq; auto.
Qed.
Lemma rows_snoc rows row : rows_ok rows -> all (goodk (S (length rows))) row -> rows_ok (rows ++ [row]).
Proof.
  intros H1 H2 i. destruct (Nat.lt_ge_cases i (length rows)).
  - rewrite app_nth1 by auto. apply H1.
  - rewrite app_nth2 by auto. destruct (Nat.eq_dec i (length rows)) as [->|].
    + rewrite Nat.sub_diag. exact H2.
    + replace (i - length rows) with (S (i - length rows - 1)) by lia. cbn. destruct (i - length rows - 1); intros p [].
Qed.
Lemma all_rows ts numSeeds : forall m k rows r, rows_ok rows -> length rows = k - 1 -> 2 <= k ->
  rows_loop o ts fs numSeeds m k rows = Val r -> rows_ok r /\ length r = k - 1 + m.
Proof.
  induction m as [|m IH]; intros k rows r Hr L K E; cbn [rows_loop] in E; [injection E as <-; split; auto; lia|].
  apply bind_val in E. destruct E as (row & E1 & E2). destruct row as [|p row]; [discriminate|].
  destruct (IH (S k) (rows ++ [p :: row]) r) as [H1 H2]; auto.
  - apply rows_snoc; auto. rewrite L. replace (S (k - 1)) with k by lia.
    eapply (all_row ts _ rows k Hr (k / 2) 1 []); [intros q []| | |exact E1]; auto.
    pose proof (Nat.div_le_upper_bound k 2 (k - 1) ltac:(lia) ltac:(lia)). lia.
  - rewrite app_length. cbn. lia.
  - split; auto. lia.
Qed.
Lemma last_nth {A} (l : list A) d : last l d = nth (length l - 1) l d.
Proof.
  induction l as [|x l IH]; auto. destruct l as [|y l]; auto. change (last (x :: y :: l) d) with (last (y :: l) d). rewrite IH.
  cbn [length]. replace (S (S (length l)) - 1) with (S (S (length l) - 1)) by lia. reflexivity.
Qed.
(* the chosen tree *)
Lemma pattern_planned ts children t : plan_pattern o ts fs children = Val t -> planned o ts fs children t.
Proof.
  intros E. unfold plan_pattern in E. apply bind_val in E. destruct E as (rows & E1 & E). apply bind_val in E.
  destruct E as (row & E2 & E3). destruct (cheapest o row) as [p|] eqn:Ec; [|discriminate]. injection E3 as <-.
  apply cheapest_in in Ec. exists row, p. split; [|auto]. unfold plan_row. rewrite E1. exact E2.
Qed.
Theorem plan_pattern_inv ts children t :
  n = length ts + length children ->
  (forall s, seeds o ts children = Val s -> all (goodk 1) s) ->
  planned o ts fs children t ->
  exists M F, INV t M F /\ (forall i, i < n -> N.testbit M (N.of_nat i) = true) /\
    (dummy t = false -> forall j f, nth_error fs j = Some f ->
       (forall v, In v (filter_vars f) -> var_find (vars o t) v <> None) -> N.testbit F (N.of_nat j) = true).
Proof.
  intros Hn Hs (row & p & E & Ec & Et). subst t. unfold plan_row in E. apply bind_val in E. destruct E as (rows & E1 & E2).
  unfold fill_dp_tab in E1. destruct (64 <? length ts); [discriminate|].
  destruct (64 <? length fs); [discriminate|]. apply bind_val in E1. destruct E1 as (s & Es & E1). apply bind_val in E1.
  destruct E1 as (row1 & Er & E1). rewrite <- Hn in *.
  assert (R1 : rows_ok [row1]).
  { intros [|i]; cbn; [eapply all_filters; [|exact Er]; auto|]. destruct i; intros q []. }
  destruct (all_rows ts n (n - 1) 2 [row1] rows R1 eq_refl ltac:(lia) E1) as [Hr L].
  destruct n as [|n'] eqn:En.
  { (* no seeds *)
    exfalso. assert (length ts = 0) by lia. assert (length children = 0) by lia.
    destruct ts; [|discriminate]. destruct children; [|discriminate]. cbn in Es. injection Es as <-.
    cbn in Er. injection Er as <-. cbn in E1. injection E1 as <-. cbn in E2. injection E2 as <-. destruct Ec. }
  rewrite <- En in *. cbn [Nat.sub Nat.add] in L.
  assert (Hl : all (goodk n) (last rows [])).
  { rewrite last_nth. replace n with (S (length rows - 1)) by lia. apply Hr. }
  destruct (all_filters _ _ _ _ Hl E2 p Ec) as [G C]. exists (p_nodes p), (p_filters p). split; [exact G|]. split; [now apply count_full|].
  intros D j f Ej Cv. exact (filters_loop_replace o fs _ [] _ row ltac:(intros q []) E2 p Ec D j f Ej Cv).
Qed.
End Table.
