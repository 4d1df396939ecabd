(* A planned tree computes the join of the solutions of all nodes of the pattern. *)
From Coq Require Import String List NArith Arith Bool Lia Permutation Sorted.
From Verif Require Import Table_Spec Ops_Spec Ops_Model Vars_Model Vars_Thm Plan_Model Plan_Spec Plan_Proof1 Plan_Proof2 Plan_Proof3 Plan_Proof4 Plan_Proof5 Plan_Proof6 Lex_Proof.
Import ListNotations.
Local Open Scope nat_scope.

(* A nested graph pattern: the plans for it, its variables, the variables that the planner invented for it, and its
   solutions as mappings over all variables of the outer pattern. *)
Record child := C { c_trees : list tree; c_vars : list string; c_priv : list string; c_bag : list mapping }.
(* the plans compute the solutions *)
Definition child_ok (o : oracle) (voc : string -> option N) (ix : index) (sat : filt -> list (option N) -> bool)
  (leaf : nat -> table -> Prop) (U : list string) (c : child) : Prop :=
  Forall (fun m => length m = length U) (c_bag c) /\ NoDup (c_bag c) /\
  (forall m v, In m (c_bag c) -> In v U -> (get U m v <> None <-> In v (c_vars c))) /\
  forall t, In t (c_trees c) ->
    full (vars o t) (width_of t) /\
    (forall v, In v U -> (var_find (vars o t) v <> None <-> In v (c_vars c))) /\
    (forall v, ~ In v U -> var_find (vars o t) v <> None -> In v (c_priv c)) /\
    dummy t = false /\
    forall tab, computes o voc ix sat leaf t tab ->
      width (width_of t) tab /\ sorted_lex (sorted_of t) tab /\
      Permutation (map (fun r => map (value_of (vars o t) r) U) tab) (c_bag c).

(* the join of a list of bags *)
Definition join_all (k : nat) (bags : list (list mapping)) : list mapping :=
  fold_left (fun acc b => bjoin b acc) bags [repeat None k].
(* the mapping passes a filter *)
Definition passes (sat : filt -> list (option N) -> bool) (U : list string) (mu : mapping) (f : filt) : bool :=
  sat f (map (get U mu) (filter_vars f)).

Lemma bag_all k nbag M : forall n, (forall i, i < n -> N.testbit M (N.of_nat i) = true) ->
  bag k nbag M n = join_all k (map nbag (seq 0 n)).
Proof.
  induction n as [|n IH]; intros H; [reflexivity|]. cbn [bag]. rewrite H, IH by (auto; lia).
  unfold join_all. rewrite seq_S, map_app, fold_left_app. reflexivity.
Qed.
Lemma keep_all sat U fs G mu : (forall j f, nth_error fs j = Some f -> N.testbit G (N.of_nat j) = true) ->
  keep sat U fs G mu = forallb (passes sat U mu) fs.
Proof.
  intros H. unfold keep, passes, satm. apply eq_true_iff_eq. rewrite !forallb_forall. split.
  - intros K f Hf. apply In_nth_error in Hf. destruct Hf as (j & Hj). specialize (K j). rewrite (H j f Hj), Hj in K. cbn in K.
    apply K. apply in_seq. assert (j < length fs) by (apply nth_error_Some; congruence). lia.
  - intros K j _. destruct (nth_error fs j) eqn:E; [|apply orb_true_r]. rewrite K; [apply orb_true_r|]. eapply nth_error_In; eauto.
Qed.

Lemma nth_error_same {A} (a : list A) : forall b, (forall i, nth_error a i = nth_error b i) -> a = b.
Proof.
  induction a as [|x a IH]; intros [|y b] H; auto.
  - specialize (H 0). discriminate.
  - specialize (H 0). discriminate.
  - pose proof (H 0) as H0. injection H0 as ->. f_equal. apply IH. intros i. exact (H (S i)).
Qed.

Section Glue.
Variable o : oracle.
Variable voc : string -> option N.
Variable ix : index.
Variable sat : filt -> list (option N) -> bool.
Variable leaf : nat -> table -> Prop.
Variable kb : graph.
Variable U : list string.
Variable ts : list triple.
Variable cs : list child.
Variable fs : list filt.
Hypothesis HU : NoDup U.
Hypothesis HUall : forall v, In v U -> is_var v = true.
Hypothesis Hkb : NoDup kb.
Hypothesis Hix : forall ord, Permutation (ix ord) (map (perm_row ord) kb) /\ sorted_lex [0; 1; 2] (ix ord).
Hypothesis Hiter : forall t, Permutation (iter o t) (vars o t).
Hypothesis Hshuffle : forall gs, Permutation (shuffle o gs) gs.
Hypothesis Hfresh : forall i j, fresh o i = fresh o j -> i = j.
Hypothesis HfreshU : forall i, ~ In (fresh o i) U.
Hypothesis Hts : forall t v, In t ts -> In v (triple_vars t) -> In v U.
Hypothesis Hpred : forall t, In t ts -> predicate_ok t.
Hypothesis Hcs : forall c, In c cs -> child_ok o voc ix sat leaf U c.
Hypothesis Hpriv : forall i j c d v, nth_error cs i = Some c -> nth_error cs j = Some d -> In v (c_priv c) -> In v (c_priv d) -> i = j.
Hypothesis Hprivfresh : forall c i, In c cs -> ~ In (fresh o i) (c_priv c).
Hypothesis Hfs : forall f v, In f fs -> In v (filter_vars f) ->
  (exists t, In t ts /\ In v (triple_vars t)) \/ (exists c, In c cs /\ In v (c_vars c) /\ In v U).
Hypothesis HprivU : forall c v, In c cs -> In v (c_priv c) -> ~ In v U.

Definition ochild (i : nat) : child := match nth_error cs (i - length ts) with Some c => c | None => C [] [] [] [] end.
Definition nvars (i : nat) : list string := match nth_error ts i with Some t => triple_vars t | None => c_vars (ochild i) end.
Definition npriv (i : nat) : list string := match nth_error ts i with Some t => [fresh o i] | None => c_priv (ochild i) end.
Definition nbag (i : nat) : list mapping := match nth_error ts i with Some t => tbag voc kb U t | None => c_bag (ochild i) end.
Definition nnum : nat := length ts + length cs.

Lemma ochild_cases i : In (ochild i) cs \/ ochild i = C [] [] [] [].
Proof. unfold ochild. destruct (nth_error cs (i - length ts)) eqn:E; [left; eapply nth_error_In; eauto|now right]. Qed.
Lemma nlens i : lens (length U) (nbag i).
Proof.
  unfold nbag. destruct (nth_error ts i); [apply tbag_lens|]. destruct (ochild_cases i) as [H | ->]; [apply (Hcs _ H)|constructor].
Qed.
Lemma npriv_disj i j v : In v (npriv i) -> In v (npriv j) -> i = j.
Proof.
  unfold npriv, ochild. destruct (nth_error ts i) eqn:Ei, (nth_error ts j) eqn:Ej.
  - intros [<-|[]] [E|[]]. now apply Hfresh.
  - intros [<-|[]]. destruct (nth_error cs (j - length ts)) eqn:Ec; [|intros []]. intros H. elim (Hprivfresh c i); auto. eapply nth_error_In; eauto.
  - intros H [<-|[]]. revert H. destruct (nth_error cs (i - length ts)) eqn:Ec; [|intros []]. intros H. elim (Hprivfresh c j); auto. eapply nth_error_In; eauto.
  - apply nth_error_None in Ei. apply nth_error_None in Ej.
    destruct (nth_error cs (i - length ts)) eqn:Ec; [|intros []]. destruct (nth_error cs (j - length ts)) eqn:Ed; [|intros _ []].
    intros H1 H2. assert (i - length ts = j - length ts) by (eapply Hpriv; eauto). lia.
Qed.
Lemma ndom i m : In m (nbag i) -> dom_is U (fun v => In v (nvars i)) m.
Proof.
  unfold nbag, nvars. destruct (nth_error ts i); [now apply tbag_dom|]. destruct (ochild_cases i) as [H | ->]; [|intros []].
  intros Hm v Hv. apply (Hcs _ H); auto.
Qed.
Lemma nnodup i : NoDup (nbag i).
Proof.
  unfold nbag. destruct (nth_error ts i) eqn:E.
  - apply tbag_nodup; auto. intros v. apply Hts. eapply nth_error_In; eauto.
  - destruct (ochild_cases i) as [H | ->]; [apply (Hcs _ H)|constructor].
Qed.
Lemma nfs f v i : In f fs -> In v (filter_vars f) -> ~ In v (npriv i).
Proof.
  intros Hf Hv. assert (Uv : In v U) by (destruct (Hfs f v Hf Hv) as [(t & Ht & H)|(c & _ & _ & H)]; eauto).
  unfold npriv. destruct (nth_error ts i); [intros [<-|[]]; now apply (HfreshU i)|].
  destruct (ochild_cases i) as [H | ->]; [|intros []]. intros Hp. apply (HprivU _ _ H Hp Uv).
Qed.
Notation INV := (Inv o voc ix sat leaf U nnum nvars npriv nbag fs).

Lemma nbag_child c j : nth_error cs j = Some c -> nbag (length ts + j) = c_bag c /\ nvars (length ts + j) = c_vars c /\ npriv (length ts + j) = c_priv c.
Proof.
  intros H. unfold nbag, nvars, npriv, ochild. replace (nth_error ts (length ts + j)) with (@None triple)
    by (symmetry; apply nth_error_None; lia). replace (length ts + j - length ts) with j by lia. now rewrite H.
Qed.
Lemma child_inv c j t : nth_error cs j = Some c -> In t (c_trees c) -> INV t (bit (length ts + j)) 0.
Proof.
  intros Hc Ht. destruct (nbag_child c j Hc) as (Eb & Ev & Ep). pose proof (Hcs c (nth_error_In _ _ Hc)) as (_ & _ & _ & H).
  destruct (H t Ht) as (F & D & Pv & Nd & S).
  assert (Hi : length ts + j < nnum) by (unfold nnum; assert (j < length cs) by (apply nth_error_Some; congruence); lia).
  assert (B1 : forall k, N.testbit (bit (length ts + j)) (N.of_nat k) = true <-> k = length ts + j)
    by (intros k; rewrite bit_spec, Nat.eqb_eq; intuition).
  constructor; auto.
  - intros v Hv. rewrite D by auto. rewrite <- Ev. split; [intros K; exists (length ts + j); rewrite B1; auto|].
    intros (k & Hk & K). apply B1 in Hk. now subst.
  - intros v Nv Hv. exists (length ts + j). rewrite B1, Ep. auto.
  - intros k Hk. apply B1 in Hk. now subst.
  - intros k Hk. now rewrite N.bits_0 in Hk.
  - intros _ tab [Dn|(ord & vs & _ & E & _)]; [|congruence]. destruct (S tab Dn) as (S1 & S2 & S3). split; auto. split; auto.
    exists 0%N. split; [intros k; auto|]. split; [intros k Hk; now rewrite N.bits_0 in Hk|]. unfold solves.
    change (read U (vars o t)) with (fun r => map (value_of (vars o t) r) U). rewrite S3, <- Eb.
    rewrite <- (bag_single (length U) nbag nlens (length ts + j) nnum (bit (length ts + j))); auto; [|intros k; apply bit_spec].
    apply Permutation_refl'. symmetry. apply filter_id. intros mu _. unfold keep. apply forallb_forall. intros k _. now rewrite N.bits_0.
Qed.
Lemma seeds_good s : seeds o ts (map c_trees cs) = Val s -> 
  all (goodk o voc ix sat leaf U nnum nvars npriv nbag fs 1) s.
Proof.
  intros E. unfold seeds in E. apply bind_val in E. destruct E as (a & Ea & E). apply bind_val in E. destruct E as (b & Eb & E).
  injection E as <-. intros p Hp. apply in_app_or in Hp. destruct Hp as [Hp|Hp].
  - destruct (child_seeds_in _ _ _ Ea p Hp) as (j & l & x & Hj & Hx & ->). rewrite nth_error_map in Hj.
    destruct (nth_error cs j) as [c|] eqn:Ec; [|discriminate]. injection Hj as <-. split; cbn [p_tree p_nodes p_filters].
    + now apply (child_inv c).
    + apply count_bit. unfold nnum. assert (j < length cs) by (apply nth_error_Some; congruence). lia.
  - destruct (triple_seeds_in _ _ _ _ Eb p Hp) as (j & t & r & x & Hj & Er & Hx & ->). cbn [plus] in *.
    assert (L : j < nnum) by (unfold nnum; assert (j < length ts) by (apply nth_error_Some; congruence); lia).
    pose proof (nth_error_In _ _ Hj) as It.
    split; cbn [p_tree p_nodes p_filters]; [|now apply count_bit].
    unfold good. cbn [p_tree p_nodes p_filters].
    eapply (seeds_of_inv o voc ix sat leaf U nnum nvars npriv nbag fs kb Hix nlens j t L); eauto.
    + unfold nvars. rewrite Hj. tauto.
    + unfold nbag. now rewrite Hj.
    + unfold npriv. rewrite Hj. now left.
Qed.
Lemma nbag_list : map nbag (seq 0 nnum) = map (tbag voc kb U) ts ++ map c_bag cs.
Proof.
  unfold nnum. rewrite seq_app, map_app. f_equal.
  - apply nth_error_same. intros i. rewrite !nth_error_map. destruct (nth_error ts i) as [t|] eqn:E.
    + assert (L : i < length ts) by (apply nth_error_Some; congruence). rewrite (nth_error_nth' _ 0) by now rewrite seq_length.
      rewrite seq_nth by auto. cbn. f_equal. unfold nbag. now rewrite E.
    + apply nth_error_None in E. replace (nth_error (seq 0 (length ts)) i) with (@None nat); auto.
      symmetry. apply nth_error_None. now rewrite seq_length.
  - apply nth_error_same. intros i. rewrite !nth_error_map. destruct (nth_error cs i) as [c|] eqn:E.
    + assert (L : i < length cs) by (apply nth_error_Some; congruence). rewrite (nth_error_nth' _ 0) by now rewrite seq_length.
      rewrite seq_nth by auto. cbn. f_equal. now apply nbag_child.
    + apply nth_error_None in E. replace (nth_error (seq (0 + length ts) (length cs)) i) with (@None nat); auto.
      symmetry. apply nth_error_None. now rewrite seq_length.
Qed.

Lemma plan_bag t tab : planned o ts fs (map c_trees cs) t -> tree_ok o t = true ->
  computes o voc ix sat leaf t tab ->
  full (vars o t) (width_of t) /\ width (width_of t) tab /\ sorted_lex (sorted_of t) tab /\
  (forall v, In v U -> (var_find (vars o t) v <> None <-> exists i, i < nnum /\ In v (nvars i))) /\
  Permutation (map (fun r => map (value_of (vars o t) r) U) tab)
    (filter (fun mu => forallb (passes sat U mu) fs) (join_all (length U) (map (tbag voc kb U) ts ++ map c_bag cs))).
Proof.
  intros E Ok D.
  destruct (plan_pattern_inv o voc ix sat leaf U nnum nvars npriv nbag fs HU Hiter Hshuffle nlens npriv_disj ndom nnodup nfs
    ts (map c_trees cs) t) as (M & F & I & HM & HF); auto.
  { unfold nnum. now rewrite map_length. }
  { exact seeds_good. }
  assert (Dm : forall v, In v U -> (var_find (vars o t) v <> None <-> exists i, i < nnum /\ In v (nvars i))).
  { intros v Hv. rewrite (i_dom _ _ _ _ _ _ _ _ _ _ _ _ _ _ I v Hv). split; intros (i & H1 & H2); exists i; auto.
    split; auto. now apply (i_bits _ _ _ _ _ _ _ _ _ _ _ _ _ _ I). }
  assert (Nd : dummy t = false).
  { destruct (dummy t) eqn:Ed; auto. exfalso. clear - D Ed. unfold dummy in Ed. apply andb_true_iff in Ed. destruct Ed as [S W].
    destruct t as [ord bound vs| | | | | | | |]; try discriminate. inversion D as [? ? ? Q| | | | | | | | | | |]. unfold dummy in Q. rewrite S, W in Q. discriminate. }
  destruct (i_sem _ _ _ _ _ _ _ _ _ _ _ _ _ _ I Ok tab (or_introl D)) as (S1 & S2 & G & HG & _ & S3).
  split; [apply I|]. split; auto. split; auto. split; auto.
  unfold solves in S3. change (fun r => map (value_of (vars o t) r) U) with (read U (vars o t)). rewrite S3.
  unfold bagM. rewrite (bag_all _ _ M nnum HM), nbag_list. apply Permutation_refl'. apply filter_ext. intros mu. apply keep_all.
  intros j f Hj. apply HG, (HF Nd j f Hj). intros v Hv. pose proof (nth_error_In _ _ Hj) as If.
  destruct (Hfs f v If Hv) as [(t' & Ht & H)|(c & Hc & H & Hu)].
  - apply Dm; [eauto|]. apply In_nth_error in Ht. destruct Ht as (i & Hi). exists i. split.
    + unfold nnum. assert (i < length ts) by (apply nth_error_Some; congruence). lia.
    + unfold nvars. now rewrite Hi.
  - apply Dm; auto. apply In_nth_error in Hc. destruct Hc as (i & Hi). exists (length ts + i). split.
    + unfold nnum. assert (i < length cs) by (apply nth_error_Some; congruence). lia.
    + destruct (nbag_child c i Hi) as (_ & -> & _). exact H.
Qed.
End Glue.
