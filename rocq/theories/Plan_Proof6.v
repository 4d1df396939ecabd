(* From the joins of the solutions of the nodes to the solutions of the pattern. *)
From Coq Require Import String List NArith Arith Bool Lia Permutation Sorted.
From Verif Require Import Table_Spec Ops_Spec Ops_Model Vars_Model Vars_Thm Plan_Model Plan_Spec Plan_Proof1 Plan_Proof2 Plan_Proof3 Plan_Proof4 Plan_Proof5 Lex_Proof.
Import ListNotations.
Local Open Scope nat_scope.

(* ---------- seeds ---------- *)
Lemma child_seeds_in : forall cs sh l, child_seeds sh cs = Val l -> forall p, In p l ->
  exists j c x, nth_error cs j = Some c /\ In x c /\ p = P x (bit (sh + j)) 0.
Proof.
  induction cs as [|c cs IH]; cbn [child_seeds]; intros sh l E p Hp; [injection E as <-; destruct Hp|].
  destruct (_ && _); [discriminate|]. apply bind_val in E. destruct E as (rest & Er & E). injection E as <-.
  apply in_app_or in Hp. destruct Hp as [Hp|Hp].
  - apply in_map_iff in Hp. destruct Hp as (x & <- & Hx). exists 0, c, x. rewrite Nat.add_0_r. auto.
  - destruct (IH _ _ Er p Hp) as (j & d & x & H1 & H2 & H3). exists (S j), d, x. rewrite Nat.add_succ_r. auto.
Qed.
Lemma triple_seeds_in o : forall ts i l, triple_seeds o i ts = Val l -> forall p, In p l ->
  exists j t r x, nth_error ts j = Some t /\ seeds_of (all_permutations o) (fresh o (i + j)) t = Val r /\ In x r /\
    p = P x (bit (i + j)) 0.
Proof.
  induction ts as [|t ts IH]; cbn [triple_seeds]; intros i l E p Hp; [injection E as <-; destruct Hp|].
  apply bind_val in E. destruct E as (r & Er & E). apply bind_val in E. destruct E as (rest & Es & E). injection E as <-.
  apply in_app_or in Hp. destruct Hp as [Hp|Hp].
  - apply in_map_iff in Hp. destruct Hp as (x & <- & Hx). exists 0, t, r, x. rewrite Nat.add_0_r. auto.
  - destruct (IH _ _ Es p Hp) as (j & t' & r' & x & H1 & H2 & H3 & H4). exists (S j), t', r', x. rewrite Nat.add_succ_r. auto.
Qed.

(* ---------- the solutions of one triple ---------- *)
Lemma tget_dom t x v : is_var v = true -> (tget t x v <> None <-> In v (triple_vars t)).
Proof.
  intros Hv. rewrite triple_vars_in. destruct x as [[i j] k]. unfold tget.
  destruct (String.eqb_spec (t_s t) v), (String.eqb_spec (t_p t) v), (String.eqb_spec (t_o t) v); intuition congruence.
Qed.
Lemma tbag_lens voc kb U t : lens (length U) (tbag voc kb U t).
Proof. apply Forall_forall. intros m Hm. apply in_map_iff in Hm. destruct Hm as (x & <- & _). apply map_length. Qed.
Lemma tbag_dom voc kb U t m : (forall v, In v U -> is_var v = true) -> In m (tbag voc kb U t) ->
  dom_is U (fun v => In v (triple_vars t)) m.
Proof.
  intros HU Hm v Hv. apply in_map_iff in Hm. destruct Hm as (x & <- & _). rewrite get_map by auto. apply tget_dom. auto.
Qed.
Lemma NoDup_map_in {A B} (f : A -> B) l : (forall x y, In x l -> In y l -> f x = f y -> x = y) -> NoDup l -> NoDup (map f l).
Proof.
  intros H N. induction N as [|x l Hx N IH]; cbn; constructor.
  - intros Hi. apply in_map_iff in Hi. destruct Hi as (y & E & Hy). apply H in E; [subst; auto|now right|now left].
  - apply IH. intros a b Ha Hb. apply H; now right.
Qed.
(* what a matching triple says about its three values *)
Lemma tmatch_value voc t i j k : tmatch voc t (i, j, k) = true ->
  (if is_var (t_s t) then tget t (i, j, k) (t_s t) else voc (t_s t)) = Some i /\
  (if is_var (t_p t) then tget t (i, j, k) (t_p t) else voc (t_p t)) = Some j /\
  (if is_var (t_o t) then tget t (i, j, k) (t_o t) else voc (t_o t)) = Some k.
Proof.
  unfold tmatch. rewrite !andb_true_iff. unfold term_ok, same_ok. intros [[[[[H1 H2] H3] H4] H5] H6].
  assert (C : forall x a, match voc x with Some j => N.eqb j a | None => false end = true -> voc x = Some a).
  { intros x a. destruct (voc x); [|discriminate]. rewrite N.eqb_eq. now intros ->. }
  split; [|split].
  - destruct (is_var (t_s t)); [|now apply C]. unfold tget. now rewrite String.eqb_refl.
  - destruct (is_var (t_p t)) eqn:E; [|now apply C]. unfold tget. destruct (String.eqb_spec (t_s t) (t_p t)) as [Q|Q].
    + rewrite Q, E in H4. cbn in H4. apply N.eqb_eq in H4. now subst.
    + now rewrite String.eqb_refl.
  - destruct (is_var (t_o t)) eqn:E; [|now apply C]. unfold tget. destruct (String.eqb_spec (t_s t) (t_o t)) as [Q|Q].
    + rewrite Q, E in H5. cbn in H5. apply N.eqb_eq in H5. now subst.
    + destruct (String.eqb_spec (t_p t) (t_o t)) as [Q'|Q'].
      * rewrite Q', E in H6. cbn in H6. apply N.eqb_eq in H6. now subst.
      * now rewrite String.eqb_refl.
Qed.
Lemma tbag_nodup voc kb U t : (forall v, In v (triple_vars t) -> In v U) -> NoDup kb -> NoDup (tbag voc kb U t).
Proof.
  intros HU N. apply NoDup_map_in; [|now apply NoDup_filter]. intros [[i j] k] [[i' j'] k'] H H' E.
  apply filter_In in H. apply filter_In in H'. destruct H as [_ M], H' as [_ M'].
  apply tmatch_value in M. apply tmatch_value in M'.
  assert (G : forall v, In v (triple_vars t) -> tget t (i, j, k) v = tget t (i', j', k') v).
  { intros v Hv. rewrite <- (get_map U (tget t (i, j, k)) v), <- (get_map U (tget t (i', j', k')) v) by auto. now rewrite E. }
  destruct M as (A & B & C), M' as (A' & B' & C').
  assert (X : forall x a a', x = t_s t \/ x = t_p t \/ x = t_o t ->
     (if is_var x then tget t (i, j, k) x else voc x) = Some a ->
     (if is_var x then tget t (i', j', k') x else voc x) = Some a' -> a = a').
  { intros x a a' Hx. destruct (is_var x) eqn:V; [|congruence]. rewrite G; [congruence|]. apply triple_vars_in. auto. }
  rewrite (X _ _ _ (or_introl eq_refl) A A'), (X _ _ _ (or_intror (or_introl eq_refl)) B B'),
    (X _ _ _ (or_intror (or_intror eq_refl)) C C'). reflexivity.
Qed.

(* ---------- parts of mappings ---------- *)
(* m has all the values of a *)
Definition part (U : list string) (a m : mapping) : Prop := forall v x, get U a v = Some x -> get U m v = Some x.
Lemma part_compat U a b m : NoDup U -> length a = length U -> length b = length U -> part U a m -> part U b m -> compat a b = true.
Proof.
  intros N La Lb Ha Hb. apply (compat_get U N); auto. intros v Hv. destruct (get U a v) eqn:E, (get U b v) eqn:E'; cbn; auto.
  apply Ha in E. apply Hb in E'. apply N.eqb_eq. congruence.
Qed.
Lemma part_merge U a b m : length a = length U -> length b = length U -> part U a m -> part U b m -> part U (merge_map a b) m.
Proof.
  intros La Lb Ha Hb v x E. rewrite get_merge in E by auto. destruct (get U a v) eqn:E'; cbn in E; [|auto].
  apply Ha. congruence.
Qed.
Lemma part_trans U a b c : part U a b -> part U b c -> part U a c.
Proof. intros H1 H2 v x E. auto. Qed.
Lemma merge_part_l U a b : length a = length U -> length b = length U -> part U a (merge_map a b).
Proof. intros La Lb v x E. rewrite get_merge, E by auto. reflexivity. Qed.
Lemma merge_part_r U a b : length a = length U -> length b = length U -> compat a b = true -> part U b (merge_map a b).
Proof. intros La Lb C. rewrite (merge_comm a b C). now apply merge_part_l. Qed.

Section Members.
Variable U : list string.
Variable nbag : nat -> list mapping.
Hypothesis HU : NoDup U.
Hypothesis nlens : forall i, lens (length U) (nbag i).
Lemma bag_parts M k b : In b (bag (length U) nbag M k) -> forall i, i < k -> N.testbit M (N.of_nat i) = true ->
  exists a, In a (nbag i) /\ part U a b.
Proof.
  revert b. induction k as [|k IH]; intros b Hb i Hi T; [lia|]. cbn [bag] in Hb.
  destruct (N.testbit M (N.of_nat k)) eqn:E.
  - apply bjoin_in in Hb. destruct Hb as (a & b' & Ha & Hb' & C & ->).
    assert (La := lens_in _ _ _ (nlens k) Ha). assert (Lb := lens_in _ _ _ (bag_lens _ nbag nlens M k) Hb').
    destruct (Nat.eq_dec i k) as [->|Ne]; [exists a; split; auto; now apply merge_part_l|].
    destruct (IH b' Hb' i ltac:(lia) T) as (a' & Ha' & P). exists a'. split; auto.
    eapply part_trans; [exact P|]. now apply merge_part_r.
  - destruct (Nat.eq_dec i k) as [->|Ne]; [congruence|]. apply IH; auto. lia.
Qed.
Lemma bag_from_parts M k m : length m = length U -> (forall i, i < k -> N.testbit M (N.of_nat i) = true ->
  exists a, In a (nbag i) /\ part U a m) -> exists b, In b (bag (length U) nbag M k) /\ part U b m.
Proof.
  intros Lm. induction k as [|k IH]; intros H.
  - exists (unit_map (length U)). split; [now left|]. intros v x E. exfalso. revert E. unfold unit_map. clear.
    induction U as [|u V IH]; cbn; [discriminate|]. destruct (String.eqb u v); [discriminate|auto].
  - destruct IH as (b & Hb & Pb); [intros i Hi; apply H; lia|]. cbn [bag]. destruct (N.testbit M (N.of_nat k)) eqn:E; [|eauto].
    destruct (H k ltac:(lia) E) as (a & Ha & Pa).
    assert (La := lens_in _ _ _ (nlens k) Ha). assert (Lb := lens_in _ _ _ (bag_lens _ nbag nlens M k) Hb).
    exists (merge_map a b). split; [|now apply part_merge]. apply bjoin_in. exists a, b. repeat split; auto.
    eapply (part_compat U a b m); eauto.
Qed.
End Members.

(* ---------- a triple holds under a total mapping ---------- *)
Lemma get_some U (mu : list N) v : length mu = length U -> In v U -> get U (map Some mu) v <> None.
Proof.
  revert mu. induction U as [|u V IH]; intros [|x mu] L Hv; cbn in *; try discriminate; try contradiction.
  destruct (String.eqb_spec u v); [discriminate|]. destruct Hv; [congruence|]. apply IH; auto.
Qed.
Lemma tbag_holds voc kb U t mu : (forall v, In v (triple_vars t) -> In v U) -> (forall v, In v U -> is_var v = true) ->
  length mu = length U ->
  ((exists a, In a (tbag voc kb U t) /\ part U a (map Some mu)) <->
   holds is_var voc kb U mu (t_s t, t_p t, t_o t)).
Proof.
  intros HU Hall L. unfold holds, term_value. split.
  - intros (a & Ha & P). apply in_map_iff in Ha. destruct Ha as ([[i j] k] & <- & Hx). apply filter_In in Hx. destruct Hx as [Hx M].
    apply tmatch_value in M. destruct M as (A & B & C). exists i, j, k.
    assert (X : forall x y, x = t_s t \/ x = t_p t \/ x = t_o t ->
       (if is_var x then tget t (i, j, k) x else voc x) = Some y ->
       (if is_var x then get U (map Some mu) x else voc x) = Some y).
    { intros x y Hxx E. destruct (is_var x) eqn:V; auto. apply P. rewrite get_map; auto. apply HU, triple_vars_in. auto. }
    repeat split; auto.
  - intros (i & j & k & A & B & C & Hx). exists (map (tget t (i, j, k)) U). split.
    + apply in_map_iff. exists (i, j, k). split; auto. apply filter_In. split; auto. unfold tmatch. rewrite !andb_true_iff.
      unfold term_ok, same_ok.
      assert (X : forall x y, (if is_var x then get U (map Some mu) x else voc x) = Some y ->
         is_var x || match voc x with Some z => N.eqb z y | None => false end = true).
      { intros x y. destruct (is_var x); auto. intros ->. apply N.eqb_refl. }
      assert (Y : forall x y a b, (if is_var x then get U (map Some mu) x else voc x) = Some a ->
         (if is_var y then get U (map Some mu) y else voc y) = Some b ->
         negb (is_var x && String.eqb x y) || N.eqb a b = true).
      { intros x y a b Ex Ey. destruct (String.eqb_spec x y) as [->|]; [|now rewrite andb_false_r].
        replace a with b by congruence. rewrite N.eqb_refl. apply orb_true_r. }
      repeat split; eauto.
    + intros v x E. assert (Hv : In v U) by (apply (get_length U (map (tget t (i, j, k)) U)); congruence).
      rewrite get_map in E by auto. unfold tget in E. pose proof (Hall v Hv) as V.
      destruct (String.eqb_spec (t_s t) v) as [Q|]; [rewrite Q, V in A; congruence|].
      destruct (String.eqb_spec (t_p t) v) as [Q|]; [rewrite Q, V in B; congruence|].
      destruct (String.eqb_spec (t_o t) v) as [Q|]; [rewrite Q, V in C; congruence|]. discriminate.
Qed.
