(* Property theorems: planning of basic graph patterns (C62, C63). *)
From Coq Require Import String List NArith Arith Bool Lia Permutation Sorted.
From Verif Require Import Table_Spec Ops_Spec Ops_Model Vars_Model Vars_Thm Plan_Model Plan_Spec Plan_Proof1 Plan_Proof2 Plan_Proof3 Plan_Proof4 Plan_Proof5 Plan_Proof6 Plan_Proof7 Plan_Proof8 Plan_Proof9 Plan_Proof10 Plan_Exec Lex_Proof.
Import ListNotations.
Local Open Scope string_scope.
Local Open Scope list_scope.
Local Open Scope nat_scope.

(* The index stores the triples of kb, each once, in every permutation in sorted order. *)
Definition index_of (ix : index) (kb : graph) : Prop :=
  NoDup kb /\ forall ord, Permutation (ix ord) (map (perm_row ord) kb) /\ sorted_lex [0; 1; 2] (ix ord).
(* The hash maps are iterated completely and without repetition; names that the planner invents are new. *)
Definition oracle_ok (o : oracle) (U : list string) : Prop :=
  (forall t, Permutation (iter o t) (vars o t)) /\ (forall gs, Permutation (shuffle o gs) gs) /\
  (forall i j, fresh o i = fresh o j -> i = j) /\ (forall i, ~ In (fresh o i) U).
Definition term_of (v : string) (t : triple) : Prop := v = t_s t \/ v = t_p t \/ v = t_o t.
(* U: the variables of the triples; no variable is a predicate and also subject or object of the same triple; filters
   have only variables of the triples *)
Definition query_ok (U : list string) (ts : list triple) (fs : list filt) : Prop :=
  NoDup U /\ (forall v, In v U <-> is_var v = true /\ exists t, In t ts /\ term_of v t) /\
  (forall t, In t ts -> is_var (t_p t) = true -> t_p t <> t_s t /\ t_p t <> t_o t) /\
  (forall f v, In f fs -> In v (filter_vars f) -> In v U).
(* what a query asks for *)
Definition answers (voc : string -> option N) (kb : graph) (sat : filt -> list (option N) -> bool) (U : list string)
  (ts : list triple) (fs : list filt) : list N -> Prop :=
  solution is_var voc kb U (map (fun t => (t_s t, t_p t, t_o t)) ts) (map (fun f => (filter_vars f, sat f)) fs).
(* the table has one row for every answer, and no others *)
Definition correct (m : var_map) (U : list string) (tab : table) (ans : list N -> Prop) : Prop :=
  exists sols, map (fun r => map (value_of m r) U) tab = map (map Some) sols /\ NoDup sols /\ forall mu, In mu sols <-> ans mu.

Lemma query_vars U ts fs : query_ok U ts fs -> forall v, In v U <-> exists t, In t ts /\ In v (triple_vars t).
Proof.
  intros (_ & H & _) v. rewrite H. setoid_rewrite triple_vars_in. unfold term_of. firstorder.
Qed.
Lemma map_map_some (l : list mapping) : (forall m, In m l -> exists mu : list N, m = map Some mu) -> exists sols, l = map (map Some) sols.
Proof.
  induction l as [|m l IH]; intros H; [exists []; auto|]. destruct IH as (s & ->); [intros; apply H; now right|].
  destruct (H m (or_introl eq_refl)) as (mu & ->). exists (mu :: s). reflexivity.
Qed.
Section Main.
Variable o : oracle.
Variable voc : string -> option N.
Variable ix : index.
Variable sat : filt -> list (option N) -> bool.
Variable leaf : nat -> table -> Prop.
Variable kb : graph.
Variable U : list string.
Variable ts : list triple.
Variable fs : list filt.
Hypothesis Ix : index_of ix kb.
Hypothesis Or : oracle_ok o U.
Hypothesis Qu : query_ok U ts fs.
Lemma plan_correct t tab : planned o ts fs [] t -> tree_ok o t = true -> computes o voc ix sat leaf t tab ->
  correct (vars o t) U tab (answers voc kb sat U ts fs).
Proof.
  intros E Ok D. pose proof (query_vars U ts fs Qu) as HV. destruct Ix as [Nk Hi]. destruct Or as (O1 & O2 & O3 & O4).
  destruct Qu as (Q1 & Q2 & Q3 & Q4).
  assert (Hall : forall v, In v U -> is_var v = true) by (intros v Hv; now apply Q2 in Hv).
  destruct (plan_bag o voc ix sat leaf kb U ts [] fs Q1 Hall Nk Hi O1 O2 O3 O4) with (t := t) (tab := tab) as (_ & _ & _ & _ & P); auto;
    try (now intros; cbn in *; contradiction).
  - intros t' v Ht Hv. apply HV. eauto.
  - intros [|i] j c d v H; discriminate.
  - intros f v Hf Hv. left. apply HV. eauto.
  - rewrite app_nil_r in P. cbn [map] in P. rewrite app_nil_r in P || idtac.
    set (rd := fun r => map (value_of (vars o t) r) U) in *.
    destruct (map_map_some (map rd tab)) as (sols & Es).
    { intros m Hm. apply (Permutation_in _ P) in Hm. apply filter_In in Hm. destruct Hm as [Hm _].
      destruct (join_total voc kb U ts m Q1 Hall HV Hm) as (mu & -> & _). eauto. }
    exists sols. split; auto. split.
    + apply (NoDup_map_inv (map Some)). rewrite <- Es. apply (Permutation_NoDup (Permutation_sym P)). apply NoDup_filter.
      apply join_nodup; auto. intros t' v Ht Hv. apply HV. eauto.
    + intros mu.
      assert (X : In mu sols <-> In (map Some mu) (map rd tab)).
      { rewrite Es, in_map_iff. split; [eauto|]. intros (x & H & Hx). apply map_some_inj in H. now subst. }
      rewrite X. assert (Y : In (map Some mu) (map rd tab) <-> In (map Some mu) (filter (fun mu => forallb (passes sat U mu) fs)
         (join_all (length U) (map (tbag voc kb U) ts)))) by (split; apply Permutation_in; auto using Permutation_sym).
      rewrite Y, filter_In. unfold answers, solution. split.
      * intros [H1 H2]. destruct (join_total voc kb U ts _ Q1 Hall HV H1) as (mu' & E1 & L). apply map_some_inj in E1. subst mu'.
        split; auto. rewrite (join_solutions voc kb U ts mu Q1 Hall HV L) in H1. split.
        -- intros t' Ht. apply in_map_iff in Ht. destruct Ht as (t0 & <- & Ht). auto.
        -- intros f Hf. apply in_map_iff in Hf. destruct Hf as (f0 & <- & Hf). rewrite forallb_forall in H2. exact (H2 f0 Hf).
      * intros (L & H1 & H2). split.
        -- apply (join_solutions voc kb U ts mu Q1 Hall HV L). intros t' Ht. apply (H1 (t_s t', t_p t', t_o t')).
           apply in_map_iff. eauto.
        -- apply forallb_forall. intros f Hf. apply (H2 (filter_vars f, sat f)). apply in_map_iff. eauto.
Qed.
Lemma tree_pattern_ok t : length U + length ts = 1 + list_sum (map (fun t => length (triple_vars t)) ts) ->
  planned o ts fs [] t -> tree_ok o t = true.
Proof.
  intros Cy E. pose proof (query_vars U ts fs Qu) as HV. destruct Ix as [Nk Hi]. destruct Or as (O1 & O2 & O3 & O4).
  destruct Qu as (Q1 & Q2 & Q3 & Q4).
  assert (Hall : forall v, In v U -> is_var v = true) by (intros v Hv; now apply Q2 in Hv).
  assert (Hts : forall t v, In t ts -> In v (triple_vars t) -> In v U) by (intros t' v Ht Hv; apply HV; eauto).
  assert (NP : forall i j v, In v (npriv o ts [] i) -> In v (npriv o ts [] j) -> i = j).
  { assert (E0 : forall i, npriv o ts [] i = match nth_error ts i with Some _ => [fresh o i] | None => [] end).
    { intros i. unfold npriv, ochild. destruct (nth_error ts i); auto. destruct (i - length ts); reflexivity. }
    intros i j v. rewrite !E0. destruct (nth_error ts i), (nth_error ts j); cbn; intuition (try subst; auto). }
  assert (Hfs : forall f v i, In f fs -> In v (filter_vars f) -> ~ In v (npriv o ts [] i)).
  { intros f v i Hf Hv. unfold npriv. destruct (nth_error ts i); [intros [<-|[]]; apply (O4 i); eauto|].
    unfold ochild. destruct (nth_error [] _) eqn:X; [destruct (i - length ts); discriminate|]. intros []. }
  assert (NV : forall i, nvars ts [] i = match nth_error ts i with Some t => triple_vars t | None => [] end).
  { intros i. unfold nvars, ochild. destruct (nth_error ts i); auto. destruct (i - length ts); reflexivity. }
  assert (SG : forall s, seeds o ts [] = Val s -> forall p, In p s ->
     goodk o voc ix sat leaf U (length ts) (nvars ts []) (npriv o ts []) (nbag voc kb U ts []) fs 1 p).
  { replace (length ts) with (nnum ts []) by (unfold nnum; cbn; lia). change [] with (map c_trees []) at 1.
    apply seeds_good; auto; try (now intros; cbn in *; contradiction). intros [|i] j c d v H; discriminate. }
  assert (F1 : forall i, lens (length U) (nbag voc kb U ts [] i)) by (intros i; apply (nlens o voc ix sat leaf); intros c []).
  assert (F2 : forall i m, In m (nbag voc kb U ts [] i) -> dom_is U (fun v => In v (nvars ts [] i)) m)
    by (intros i m; apply (ndom o voc ix sat leaf); auto; intros c []).
  assert (F3 : forall i, NoDup (nbag voc kb U ts [] i)) by (intros i; apply (nnodup o voc ix sat leaf); auto; intros c []).
  assert (F4 : forall i, NoDup (nvars ts [] i)) by (intros i; rewrite NV; destruct (nth_error ts i); [apply NoDup_nodup|constructor]).
  assert (F5 : forall i v, In v (nvars ts [] i) -> In v U)
    by (intros i v; rewrite NV; destruct (nth_error ts i) eqn:X; [|intros []]; apply Hts; eapply nth_error_In; eauto).
  apply (acyclic_ok o voc ix sat leaf U (length ts) (nvars ts []) (npriv o ts []) (nbag voc kb U ts []) fs ts Q1 O1 O2 F1 NP F2 F3 Hfs F4 F5 []); auto.
  - intros s Hs p Hp. split; [now apply (SG s)|].
    pose proof Hs as Hs'. unfold seeds in Hs. cbn [child_seeds bind] in Hs. apply bind_val in Hs. destruct Hs as (b & Eb & Hs). injection Hs as <-.
    destruct (SG _ Hs' p Hp) as [G _].
    cbn [app] in Hp. destruct (triple_seeds_in _ _ _ _ Eb p Hp) as (j & t' & r & x & Hj & Er & Hx & ->). cbn [plus] in *.
    apply (acct_seed o voc ix sat leaf U (length ts) (nvars ts []) (npriv o ts []) (nbag voc kb U ts []) fs); auto.
    + apply nth_error_Some. congruence.
    + clear - Er Hx. unfold seeds_of in Er. destruct (length (triple_vars t')) as [|[|[|k]]];
        repeat match type of Er with context [if ?c then _ else _] => destruct c end; try discriminate; injection Er as <-;
        repeat (destruct Hx as [<-|Hx]; [reflexivity|]); destruct Hx.
  - rewrite Cy. f_equal. f_equal. apply nth_error_same. intros i. rewrite !nth_error_map.
    destruct (nth_error ts i) as [t'|] eqn:X.
    + assert (L : i < length ts) by (apply nth_error_Some; congruence). rewrite (nth_error_nth' _ 0) by now rewrite seq_length.
      rewrite seq_nth by auto. cbn. now rewrite NV, X.
    + replace (nth_error (seq 0 (length ts)) i) with (@None nat); auto. symmetry. apply nth_error_None. rewrite seq_length.
      now apply nth_error_None.
  - intros v Hv. apply HV in Hv. destruct Hv as (t' & Ht & Hv). apply In_nth_error in Ht. destruct Ht as (i & X). exists i. split.
    + apply nth_error_Some. congruence.
    + now rewrite NV, X.
Qed.
Lemma candidates_nonscan a b l c : candidates o ts a b = Val l -> In c l -> is_scan (p_tree c) = false.
Proof.
  intros E Hc. unfold candidates in E. apply bind_val in E. destruct E as (conn & _ & E).
  destruct (if conn then _ else _) as [|j1 [|j2 [|j3 jcs]]].
  - injection E as <-. destruct Hc.
  - destruct (_ && _); [injection E as <-; destruct Hc|]. destruct (sorted_input _ _) as [x|]; [|injection E as <-; destruct Hc].
    destruct (sorted_input _ _) as [y|]; [|injection E as <-; destruct Hc]. injection E as <-. destruct Hc as [<-|[]].
    cbn [p_tree]. unfold make_join. now destruct (less o y x).
  - destruct (_ && _); [injection E as <-; destruct Hc|].
    assert (X : exists x y, c = two_candidate o a b j1 j2 x y) by (injection E as <-; destruct Hc as [<-|[<-|[<-|[<-|[]]]]]; eauto).
    destruct X as (x & y & ->). unfold two_candidate. cbn [p_tree]. unfold make_two, two_swap.
    repeat match goal with |- context [is_scan (if ?c then _ else _)] => destruct c end; reflexivity.
  - injection E as <-. destruct Hc as [<-|[]]. unfold multi_candidate, make_multi. cbn [p_tree].
    match goal with |- context [is_scan (if ?c then _ else _)] => destruct c end; reflexivity.
Qed.
Lemma connected_plan : (forall t, In t ts -> easy t) -> connected_pattern ts -> ts <> [] -> length ts < 64 -> length fs <= 64 ->
  exists t, plan_pattern o ts fs [] = Val t.
Proof.
  intros He Hc Nt L1 L2. pose proof (query_vars U ts fs Qu) as HV. destruct Ix as [Nk Hi]. destruct Or as (O1 & O2 & O3 & O4).
  destruct Qu as (Q1 & Q2 & Q3 & Q4).
  assert (Hall : forall v, In v U -> is_var v = true) by (intros v Hv; now apply Q2 in Hv).
  assert (Hts : forall t v, In t ts -> In v (triple_vars t) -> In v U) by (intros t' v Ht Hv; apply HV; eauto).
  assert (NP : forall i j v, In v (npriv o ts [] i) -> In v (npriv o ts [] j) -> i = j).
  { assert (E0 : forall i, npriv o ts [] i = match nth_error ts i with Some _ => [fresh o i] | None => [] end).
    { intros i. unfold npriv, ochild. destruct (nth_error ts i); auto. destruct (i - length ts); reflexivity. }
    intros i j v. rewrite !E0. destruct (nth_error ts i), (nth_error ts j); cbn; intuition (try subst; auto). }
  assert (Hfs : forall f v i, In f fs -> In v (filter_vars f) -> ~ In v (npriv o ts [] i)).
  { intros f v i Hf Hv. unfold npriv. destruct (nth_error ts i); [intros [<-|[]]; apply (O4 i); eauto|].
    unfold ochild. destruct (nth_error [] _) eqn:X; [destruct (i - length ts); discriminate|]. intros []. }
  assert (NV : forall i, nvars ts [] i = match nth_error ts i with Some t => triple_vars t | None => [] end).
  { intros i. unfold nvars, ochild. destruct (nth_error ts i); auto. destruct (i - length ts); reflexivity. }
  assert (SG : forall s, seeds o ts [] = Val s -> forall p, In p s ->
     goodk o voc ix sat leaf U (length ts) (nvars ts []) (npriv o ts []) (nbag voc kb U ts []) fs 1 p).
  { replace (length ts) with (nnum ts []) by (unfold nnum; cbn; lia). change [] with (map c_trees []) at 1.
    apply seeds_good; auto; try (now intros; cbn in *; contradiction). intros [|i] j c d v H; discriminate. }
  assert (F1 : forall i, lens (length U) (nbag voc kb U ts [] i)) by (intros i; apply (nlens o voc ix sat leaf); intros c []).
  assert (F2 : forall i m, In m (nbag voc kb U ts [] i) -> dom_is U (fun v => In v (nvars ts [] i)) m)
    by (intros i m; apply (ndom o voc ix sat leaf); auto; intros c []).
  assert (F3 : forall i, NoDup (nbag voc kb U ts [] i)) by (intros i; apply (nnodup o voc ix sat leaf); auto; intros c []).
  set (G := goodk o voc ix sat leaf U (length ts) (nvars ts []) (npriv o ts []) (nbag voc kb U ts []) fs) in *.
  apply (plan_exists o ts fs O1 O2 He Hc L1 (fun k p => G k p /\ (2 <= k -> is_scan (p_tree p) = false))); auto.
  - intros k p i f [[Gp C] _] E A. split; [|reflexivity]. split; [|exact C].
    apply (good_filtered o voc ix sat leaf U (length ts) (nvars ts []) (npriv o ts []) (nbag voc kb U ts []) fs); auto.
  - intros i j a b l c [[Ga Ca] _] [[Gb Cb] _] E Hin. split; [|intros _; eapply candidates_nonscan; eauto].
    destruct (good_candidates o voc ix sat leaf U (length ts) (nvars ts []) (npriv o ts []) (nbag voc kb U ts []) fs Q1 O1 F1 NP F2 F3 Hfs ts a b l Ga Gb E c Hin) as (X1 & X2 & X3).
    split; auto. rewrite X2, count_lor by auto. lia.
  - intros s Es p Hp. split; [now apply (SG s)|lia].
  - intros k p [[Gp C] _]. split; [exact C|]. apply (i_bits _ _ _ _ _ _ _ _ _ _ _ _ _ _ Gp).
  - intros k p i t v [[Gp C] _] B E Hv. apply (i_dom _ _ _ _ _ _ _ _ _ _ _ _ _ _ Gp v); [apply HV; exists t; split; auto; eapply nth_error_In; eauto|].
    exists i. split; auto. now rewrite NV, E.
  - intros k p [_ H]. auto.
Qed.
End Main.

(* ---------- C62: the plan of a basic graph pattern computes its answers ---------- *)
(* Whatever the cost estimates, string representations and iteration orders of hash maps are: if the triples of a pattern
   share variables like a tree (every triple but the first shares exactly one variable with the others; counted by
   |variables| + |triples| = 1 + total of the variables of the triples), then the plan that is chosen computes every
   answer that passes the filters exactly once and nothing else. *)
Theorem C62_tree_pattern : forall o voc ix sat leaf kb U ts fs t tab,
  index_of ix kb -> oracle_ok o U -> query_ok U ts fs ->
  length U + length ts = 1 + list_sum (map (fun t => length (triple_vars t)) ts) ->
  plan_pattern o ts fs [] = Val t -> computes o voc ix sat leaf t tab ->
  correct (vars o t) U tab (answers voc kb sat U ts fs).
Proof. intros. eapply plan_correct; eauto using pattern_planned. eapply tree_pattern_ok; eauto using pattern_planned. Qed.

(* Any pattern, if the chosen plan contains no join on two or more columns whose inputs are sorted by other columns than
   the join columns (tree_ok). Missing: that premise; see C62_two_column_refuted. *)
Theorem C62_pattern_partial : forall o voc ix sat leaf kb U ts fs t tab,
  index_of ix kb -> oracle_ok o U -> query_ok U ts fs -> tree_ok o t = true ->
  plan_pattern o ts fs [] = Val t -> computes o voc ix sat leaf t tab ->
  correct (vars o t) U tab (answers voc kb sat U ts fs).
Proof. intros. eapply plan_correct; eauto using pattern_planned. Qed.

(* With nested patterns cs (each a list of plans that compute the same bag of mappings without duplicates): the plan
   computes the join of the bags of the triples and of the nested patterns, restricted by the filters, and its columns,
   width and sort order are as declared. Missing: tree_ok, bags with duplicates, optional plans and MINUS. *)
Theorem C62_nested_partial : forall o voc ix sat leaf kb U ts cs fs t tab,
  index_of ix kb -> oracle_ok o U -> NoDup U -> (forall v, In v U -> is_var v = true) ->
  (forall t v, In t ts -> In v (triple_vars t) -> In v U) -> (forall t, In t ts -> predicate_ok t) ->
  (forall c, In c cs -> child_ok o voc ix sat leaf U c) ->
  (forall i j c d v, nth_error cs i = Some c -> nth_error cs j = Some d -> In v (c_priv c) -> In v (c_priv d) -> i = j) ->
  (forall c i, In c cs -> ~ In (fresh o i) (c_priv c)) -> (forall c v, In c cs -> In v (c_priv c) -> ~ In v U) ->
  (forall f v, In f fs -> In v (filter_vars f) ->
     (exists t, In t ts /\ In v (triple_vars t)) \/ (exists c, In c cs /\ In v (c_vars c) /\ In v U)) ->
  plan_pattern o ts fs (map c_trees cs) = Val t -> tree_ok o t = true -> computes o voc ix sat leaf t tab ->
  full (vars o t) (width_of t) /\ width (width_of t) tab /\ sorted_lex (sorted_of t) tab /\
  Permutation (map (fun r => map (value_of (vars o t) r) U) tab)
    (filter (fun mu => forallb (passes sat U mu) fs) (join_all (length U) (map (tbag voc kb U) ts ++ map c_bag cs))).
Proof.
  intros o voc ix sat leaf kb U ts cs fs t tab [Nk Hi] (O1 & O2 & O3 & O4) HU Hall Hts Hp Hcs H1 H2 H3 Hf E Ok D.
  destruct (plan_bag o voc ix sat leaf kb U ts cs fs HU Hall Nk Hi O1 O2 O3 O4 Hts Hp Hcs H1 H2 Hf H3 t tab (pattern_planned _ _ _ _ _ E) Ok D)
    as (A1 & A2 & A3 & _ & A4); auto.
Qed.

(* ---------- C63: planning ends ---------- *)
(* The recursion bounds of the model are never reached: the loop over the growing row of plans in applyFiltersIfPossible
   ends. *)
Theorem C63_terminates : forall o ts fs cs, plan_pattern o ts fs cs <> Fuel.
Proof. intros. apply plan_no_fuel. Qed.
(* With fewer than 64 triples and at most 64 triples and nested patterns, planning gives a plan or an exception. *)
Theorem C63_defined_partial : forall o ts fs cs, length ts < 64 -> length ts + length cs <= 64 ->
  (exists t, plan_pattern o ts fs cs = Val t) \/ plan_pattern o ts fs cs = Throw.
Proof. intros. now apply plan_fine. Qed.

(* A pattern that is connected by its variables gets a plan, if every triple has a variable, no variable is used twice as
   predicate and subject or object, and no triple has a variable predicate between a variable subject and a variable
   object. *)
Theorem C63_connected_partial : forall o U ts fs,
  oracle_ok o U -> query_ok U ts fs -> connected_pattern ts ->
  (forall t, In t ts -> triple_vars t <> [] /\ (is_var (t_p t) = true -> is_var (t_s t) = false \/ is_var (t_o t) = false)) ->
  ts <> [] -> length ts < 64 -> length fs <= 64 -> exists t, plan_pattern o ts fs [] = Val t.
Proof.
  intros o U ts fs Or Qu Hc He Nt L1 L2.
  apply (connected_plan o (fun _ => None) (fun _ => []) (fun _ _ => true) (fun _ _ => False) [] U ts fs); auto.
  - split; [constructor|]. intros ord. split; [constructor|]. constructor.
  - intros t Ht. destruct (He t Ht) as [H1 H2]. split; auto. split; auto. destruct Qu as (_ & _ & Q3 & _). exact (Q3 t Ht).
Qed.

(* ---------- findings ---------- *)
(* rank of the first word of asString(): IndexScan, Join, ... *)
Definition w_rank (t : tree) : N :=
  match t with
  | JoinT _ _ _ _ => 1 | MultiT _ _ _ => 2 | OrderByT _ _ => 3
  | Scan ord _ _ => 4 + (match ord with OPS => 0 | OSP => 1 | POS => 2 | PSO => 3 | SOP => 4 | SPO => 5 end)
  | SortT _ _ => 20 | TwoT _ _ _ _ _ _ => 21 | _ => 0
  end.
Definition w_less (a b : tree) : bool := N.ltb (w_rank a) (w_rank b).
Definition w_voc : string -> option N :=
  lookup [("<q>", 2%N); ("<r>", 3%N); ("<p>", 4%N)]%string.
Definition w_kb : graph :=
  [(10,2,20);(11,2,20);(12,2,21);(20,3,30);(20,3,31);(21,3,31);(30,4,20);(31,4,20);(31,4,21);(32,4,22);
   (50,3,70);(70,4,50);(51,3,71);(71,4,51);(52,3,72);(72,4,52);(53,3,73);(73,4,53);(54,3,74);(74,4,54);(55,3,75);(75,4,55);
   (56,3,76);(76,4,56);(57,3,77);(77,4,57);(58,3,78);(78,4,58);(59,3,79);(79,4,59);(60,3,80);(80,4,60);(61,3,81);(81,4,61)]%N.
Definition w_sat (f : filt) (l : list (option N)) : bool := true.
(* cost: total size of all intermediate results *)
Definition w_size (t : tree) : N :=
  match exec (ex_o w_less (fun _ => 0%N) true) w_voc (ix_of w_kb) w_sat t with Some l => N.of_nat (length l) | None => 1000 end.
Fixpoint w_cost (t : tree) : N :=
  (match t with
  | Scan _ _ _ | Leaf _ _ _ _ => w_size t
  | EqFilter t1 _ _ | FilterT t1 _ | SortT t1 _ | OrderByT t1 _ => w_cost t1 + 2 * w_size t1
  | JoinT l r _ _ | TwoT l r _ _ _ _ | MultiT l r _ => w_cost l + w_cost r + w_size t
  end)%N.
Definition w_o : oracle := ex_o w_less w_cost true.
Definition w_ts : list triple := [T "?x" "<q>" "?y"; T "?y" "<r>" "?z"; T "?z" "<p>" "?y"]%string.
Definition w_U : list string := ["?x"; "?y"; "?z"]%string.
Definition w_plan : tree :=
  TwoT (OrderByT (JoinT (Scan POS ["<q>"] ["?y"; "?x"]) (Scan POS ["<p>"] ["?y"; "?z"]) 0 0) [0; 1])
       (Scan PSO ["<r>"] ["?y"; "?z"]) 0 2 0 1%string.
Fixpoint nodup3 (l : list (N * N * N)) : bool :=
  match l with
  | [] => true
  | (a, b, c) :: l' => negb (existsb (fun x => match x with (a', b', c') => N.eqb a a' && N.eqb b b' && N.eqb c c' end) l') && nodup3 l'
  end.
Lemma nodup3_ok l : nodup3 l = true -> NoDup l.
Proof.
  induction l as [|[[a b] c] l IH]; [constructor|]. cbn [nodup3]. intros H. apply andb_true_iff in H. destruct H as [H1 H2].
  constructor; auto. intros Hin. apply negb_true_iff in H1. assert (X : existsb (fun x => match x with (a', b', c') => N.eqb a a' && N.eqb b b' && N.eqb c c' end) l = true).
  { apply existsb_exists. exists (a, b, c). split; auto. now rewrite !N.eqb_refl. }
  congruence.
Qed.
Lemma ix_index kb : nodup3 kb = true -> index_of (ix_of kb) kb.
Proof. intros H. split; [now apply nodup3_ok|]. intros ord. apply ix_of_ok. Qed.
Lemma ex_oracle less cost flip U : (forall v, In v U -> v <> "?:"%string /\ forall s, v <> ("??" ++ s)%string) ->
  oracle_ok (ex_o less cost flip) U.
Proof.
  intros H. split; [|split; [|split]].
  - intros t. apply ex_iter_ok.
  - intros gs. apply Permutation_refl.
  - intros i j. apply zeros_inj.
  - intros i Hi. cbn [fresh ex_o] in Hi. destruct (H _ Hi) as [H1 H2]. destruct i as [|[|i]]; [now apply H1| |];
      [now apply (H2 ":")|now apply (H2 (zeros i))].
Qed.
Definition qcheck (U : list string) (ts : list triple) (fs : list filt) : bool :=
  (length (nodup string_dec U) =? length U) &&
  forallb (fun v => is_var v && existsb (fun t => mem v [t_s t; t_p t; t_o t]) ts) U &&
  forallb (fun t => forallb (fun v => negb (is_var v) || mem v U) [t_s t; t_p t; t_o t]) ts &&
  forallb (fun t => negb (is_var (t_p t)) || (negb (String.eqb (t_p t) (t_s t)) && negb (String.eqb (t_p t) (t_o t)))) ts &&
  forallb (fun f => forallb (fun v => mem v U) (filter_vars f)) fs.
Lemma mem_in v l : mem v l = true <-> In v l.
Proof.
  unfold mem. rewrite existsb_exists. split.
  - intros (x & H & E). apply String.eqb_eq in E. now subst.
  - intros H. exists v. split; auto. apply String.eqb_refl.
Qed.
Lemma nodup_len (l : list string) : length (nodup string_dec l) = length l -> NoDup l.
Proof.
  assert (G : forall l : list string, length (nodup string_dec l) <= length l).
  { induction l0 as [|x l0 IH]; cbn; auto. destruct (in_dec _ _ _); cbn; lia. }
  induction l as [|x l IH]; [constructor|]. cbn [nodup]. destruct (in_dec _ _ _).
  - intros H. pose proof (G l). cbn in H. lia.
  - cbn. intros H. injection H as H. constructor; auto.
Qed.
Lemma qcheck_ok U ts fs : qcheck U ts fs = true -> query_ok U ts fs.
Proof.
  unfold qcheck. rewrite !andb_true_iff, !forallb_forall. intros ((((H1 & H2) & H3) & H4) & H5). split; [|split; [|split]].
  - apply nodup_len. now apply Nat.eqb_eq.
  - intros v. split.
    + intros H. specialize (H2 v H). apply andb_true_iff in H2. destruct H2 as [Hv H2]. split; auto. apply existsb_exists in H2.
      destruct H2 as (t & Ht & H2). exists t. split; auto. apply mem_in in H2. unfold term_of. cbn in H2. intuition auto.
    + intros (Hv & t & Ht & H). specialize (H3 t Ht). rewrite forallb_forall in H3. specialize (H3 v).
      rewrite Hv in H3. apply mem_in. apply H3. unfold term_of in H. cbn. intuition auto.
  - intros t Ht Hp. specialize (H4 t Ht). rewrite Hp in H4. cbn in H4. apply andb_true_iff in H4. destruct H4 as [A B].
    apply negb_true_iff in A. apply negb_true_iff in B. split; intros E; [rewrite E, String.eqb_refl in A|rewrite E, String.eqb_refl in B]; discriminate.
  - intros f v Hf Hv. specialize (H5 f Hf). rewrite forallb_forall in H5. now apply mem_in, H5.
Qed.
(* A pattern with a cycle can lose answers: for `?x <q> ?y . ?y <r> ?z . ?z <p> ?y` with exact cost estimates the plan that
   is chosen sorts the left input of a join on two columns by a column of the right input (QueryPlanner.cpp:2833-2838 with
   swap) and finds four of the five answers. *)
Theorem C62_two_column_refuted :
  exists o voc ix sat kb U ts t tab,
    index_of ix kb /\ oracle_ok o U /\ query_ok U ts [] /\
    plan_pattern o ts [] [] = Val t /\ (forall leaf, computes o voc ix sat leaf t tab) /\
    ~ correct (vars o t) U tab (answers voc kb sat U ts []).
Proof.
  exists w_o, w_voc, (ix_of w_kb), w_sat, w_kb, w_U, w_ts, w_plan, [[20; 10; 30]; [20; 10; 31]; [20; 11; 31]; [21; 12; 31]]%N.
  split; [apply ix_index; vm_compute; reflexivity|]. split.
  { apply ex_oracle. intros v H. cbn in H. destruct H as [<-|[<-|[<-|[]]]]; split; discriminate. }
  split; [apply qcheck_ok; reflexivity|]. split; [vm_compute; reflexivity|]. split.
  { intros leaf. apply exec_computes. vm_compute. reflexivity. }
  intros (sols & E & _ & H).
  assert (A : In [11; 20; 30]%N sols).
  { apply H. split; [reflexivity|]. split; [|intros f []].
    intros t Ht. cbn in Ht. destruct Ht as [<-|[<-|[<-|[]]]].
    - exists 11%N, 2%N, 20%N. repeat split. cbn. tauto.
    - exists 20%N, 3%N, 30%N. repeat split. cbn. tauto.
    - exists 30%N, 4%N, 20%N. repeat split. cbn. tauto. }
  assert (B : In (map Some [11; 20; 30]%N) (map (map Some) sols)) by (apply in_map; exact A).
  rewrite <- E in B. vm_compute in B. repeat destruct B as [B|B]; try discriminate. destruct B.
Qed.

(* does a tree sort by a column that its input does not have? *)
Fixpoint bad_sort (t : tree) : bool :=
  match t with
  | Scan _ _ _ | Leaf _ _ _ _ => false
  | EqFilter t _ _ | FilterT t _ => bad_sort t
  | SortT t c => bad_sort t || (width_of t <=? c)
  | OrderByT t key => bad_sort t || existsb (fun c => width_of t <=? c) key
  | JoinT l r _ _ | TwoT l r _ _ _ _ | MultiT l r _ => bad_sort l || bad_sort r
  end.
Fixpoint w_hash (k : N) (t : tree) : N :=
  ((match t with
  | Scan ord _ vs => (match ord with SPO => 1 | SOP => 2 | PSO => 3 | POS => 4 | OSP => 5 | OPS => 6 end) + N.of_nat (length vs) * 7
  | Leaf _ _ _ _ => 1
  | EqFilter t _ _ | FilterT t _ => 1 + w_hash k t
  | SortT t c => 5 + 3 * w_hash k t + N.of_nat c
  | OrderByT t key => 11 + 5 * w_hash k t
  | JoinT l r _ _ => 3 + 7 * w_hash k l + 11 * w_hash k r
  | TwoT l r _ _ _ _ => 17 + 13 * w_hash k l + 3 * w_hash k r
  | MultiT l r _ => 19 + 13 * w_hash k l + 5 * w_hash k r
  end) * k + k * k * 31) mod 1009.
(* With other cost estimates the plan for a pattern with a cycle sorts an input of two columns by its third column, that is
   by memory outside of the row. *)
Theorem C62_sort_column_refuted :
  exists o U ts t, oracle_ok o U /\ query_ok U ts [] /\ plan_pattern o ts [] [] = Val t /\ bad_sort t = true.
Proof.
  exists (ex_o (fun a b => N.ltb (w_hash 3 a) (w_hash 3 b)) (w_hash 1) false), w_U,
    [T "?x" "<a>" "<c>"; T "?x" "<q>" "?y"; T "?y" "<r>" "?z"; T "?z" "<p>" "?x"]%string.
  eexists. split.
  { apply ex_oracle. intros v H. cbn in H. destruct H as [<-|[<-|[<-|[]]]]; split; discriminate. }
  split.
  { apply qcheck_ok; reflexivity. }
  assert (X : exists t, plan_pattern (ex_o (fun a b => N.ltb (w_hash 3 a) (w_hash 3 b)) (w_hash 1) false)
    [T "?x" "<a>" "<c>"; T "?x" "<q>" "?y"; T "?y" "<r>" "?z"; T "?z" "<p>" "?x"]%string [] [] = Val t) by (eexists; vm_compute; reflexivity).
  split; vm_compute; reflexivity.
Qed.

Lemma cheapest_one o p : cheapest o [p] = Some p.
Proof. unfold cheapest, cheapest_loop. now destruct (N.ltb _ _). Qed.
(* The variable of `?x ?x <o>` is looked up in the vocabulary as if it were a predicate, so the result is empty for every
   graph, also for those with answers. *)
Theorem C62_variable_predicate_refuted :
  exists ts kb voc,
    (forall v, is_var v = true -> voc v = None) /\
    (forall sat, answers voc kb sat ["?x"%string] ts [] [1%N]) /\
    (forall o, exists t, plan_pattern o ts [] [] = Val t /\ forall ix sat leaf tab, computes o voc ix sat leaf t tab -> tab = []).
Proof.
  exists [T "?x" "?x" "<o>"]%string, [(1, 1, 2)%N], (lookup [("<o>", 2%N)]%string). split; [|split].
  - intros v Hv. unfold lookup. destruct (String.eqb_spec "<o>" v) as [<-|]; [discriminate|reflexivity].
  - intros sat. split; [reflexivity|]. split; [|intros f []]. intros t [<-|[]]. exists 1%N, 1%N, 2%N. repeat split. now left.
  - intros o. exists (Scan POS ["?x"; "<o>"] ["?x"])%string. split.
    + unfold plan_pattern. cbn [fill_dp_tab length Nat.ltb Nat.leb seeds child_seeds bind triple_seeds app].
      cbv -[cheapest]. now rewrite cheapest_one.
    + intros ix sat leaf tab H. inversion H. reflexivity.
Qed.
(* A filter on a variable that does not occur in the pattern is ignored instead of removing every row. *)
Theorem C62_foreign_filter_refuted :
  exists ts fs kb voc sat t tab,
    (forall f, sat f [None] = false) /\ (forall o, plan_pattern o ts fs [] = Val t) /\
    (forall o leaf, computes o voc (ix_of kb) sat leaf t tab) /\ tab <> [] /\
    (forall mu, ~ answers voc kb sat ["?x"%string] ts fs mu).
Proof.
  exists [T "?x" "<p>" "<o>"]%string, [F 0 "?z" [] "5"]%string, [(1, 2, 3)%N], (lookup [("<p>", 2%N); ("<o>", 3%N)]%string),
    (fun _ l => match l with [None] => false | _ => true end), (Scan POS ["<p>"; "<o>"] ["?x"])%string, [[1%N]].
  split; [reflexivity|]. split.
  { intros o. cbv -[cheapest]. now rewrite cheapest_one. }
  split; [intros o leaf; apply exec_computes; reflexivity|]. split; [discriminate|].
  intros mu (L & _ & H). specialize (H _ (or_introl eq_refl)). destruct mu as [|a [|b mu]]; discriminate.
Qed.

(* With exactly 64 triples the mask `size_t(1) << 64` in connected is undefined, although up to 64 triples are accepted. *)
Theorem C63_shift_refuted : exists ts, length ts = 64 /\ forall o, plan_pattern o ts [] [] = Undef.
Proof.
  exists (repeat (T "?x" "<p>" "<o>")%string 64). split; [reflexivity|]. intros o.
  assert (S : exists rest, seeds o (repeat (T "?x" "<p>" "<o>")%string 64) [] =
     Val (P (Scan POS ["<p>"; "<o>"] ["?x"])%string (bit 0) 0 :: P (Scan POS ["<p>"; "<o>"] ["?x"])%string (bit 1) 0 :: rest)).
  { eexists. vm_compute. reflexivity. }
  destruct S as (rest & S). unfold plan_pattern, fill_dp_tab.
  change (64 <? length (repeat (T "?x" "<p>" "<o>")%string 64)) with false. change (64 <? length (@nil filt)) with false. cbv iota zeta.
  rewrite S. cbn [bind]. set (a := P _ (bit 0) 0). set (b := P _ (bit 1) 0).
  assert (A : apply_filters o [] (Nat.eqb (length (repeat (T "?x" "<p>" "<o>")%string 64) + length (@nil (list tree))) 1) (a :: b :: rest) = Val (a :: b :: rest)).
  { change (Nat.eqb (length (repeat (T "?x" "<p>" "<o>")%string 64) + length (@nil (list tree))) 1) with false.
    assert (G : forall row fin, filters_loop o (length row) [] false fin row = Val (fin ++ row)).
    { induction row as [|p row IH]; intros fin; cbn [filters_loop length new_plans]; [now rewrite app_nil_r|].
      rewrite app_nil_r. destruct (dummy (p_tree p)); rewrite IH; now rewrite <- app_assoc. }
    unfold apply_filters. replace (length (a :: b :: rest) * weight (length (@nil filt))) with (length (a :: b :: rest)) by (cbn [weight length]; lia).
    now rewrite G. }
  rewrite A. cbn [bind]. change (length (repeat (T "?x" "<p>" "<o>")%string 64) + length (@nil (list tree)) - 1) with 63.
  assert (M : merge o (repeat (T "?x" "<p>" "<o>")%string 64) (a :: b :: rest) (a :: b :: rest) = Undef).
  { unfold merge. cbn [flat_map map app concat_results].
    assert (C1 : candidates o (repeat (T "?x" "<p>" "<o>")%string 64) a a = Val []) by reflexivity.
    assert (C2 : candidates o (repeat (T "?x" "<p>" "<o>")%string 64) a b = Undef) by reflexivity.
    rewrite C1, C2. reflexivity. }
  cbn [rows_loop row_loop]. change (2 / 2) with 1. cbn [row_loop]. change (1 - 1) with 0. change (2 - 1 - 1) with 0. cbn [nth].
  rewrite M. reflexivity.
Qed.
(* `?x ?p ?x` is a legal pattern, but the planner makes no plan for it and throws. *)
Theorem C63_repeated_variable_refuted : forall o, plan_pattern o [T "?x" "?p" "?x"]%string [] [] = Throw.
Proof. intros o. reflexivity. Qed.
(* The planner throws for a pattern that is not connected instead of computing the cross product. *)
Theorem C63_disconnected_refuted : forall o, (forall gs, Permutation (shuffle o gs) gs) ->
  plan_pattern o [T "?x" "<p>" "<a>"; T "?y" "<p>" "<a>"]%string [] [] = Throw.
Proof.
  intros o H. assert (E : shuffle o [] = []) by (apply Permutation_nil, Permutation_sym, H).
  cbv -[shuffle]. now rewrite E.
Qed.
(* The plan for `?s ?p ?o` alone cannot be executed: the full scan of the index is not implemented. *)
Theorem C63_full_scan_refuted : forall o t, plan_pattern o [T "?s" "?p" "?o"]%string [] [] = Val t ->
  forall voc ix sat leaf tab, ~ computes o voc ix sat leaf t tab.
Proof.
  intros o t E voc ix sat leaf tab D.
  assert (H : exists ord vs, t = Scan ord [] vs /\ length vs = 3).
  { destruct (all_permutations o) eqn:Ap.
    - assert (S : plan_pattern o [T "?s" "?p" "?o"]%string [] [] =
        match cheapest o (map (fun x => P x 1 0) [Scan SPO [] ["?s"; "?p"; "?o"]; Scan SOP [] ["?s"; "?o"; "?p"]; Scan PSO [] ["?p"; "?s"; "?o"];
                        Scan POS [] ["?p"; "?o"; "?s"]; Scan OSP [] ["?o"; "?s"; "?p"]; Scan OPS [] ["?o"; "?p"; "?s"]]%string) with Some p => Val (p_tree p) | None => Throw end).
      { unfold plan_pattern, fill_dp_tab, seeds, triple_seeds. rewrite Ap. cbv -[cheapest]. reflexivity. }
      rewrite S in E. destruct (cheapest o _) as [p|] eqn:Ec; [|discriminate]. injection E as <-.
      apply cheapest_in in Ec. apply in_map_iff in Ec. destruct Ec as (x & <- & Hx). cbn [p_tree].
      repeat (destruct Hx as [<-|Hx]; [eauto|]). destruct Hx.
    - exfalso. revert E. unfold plan_pattern, fill_dp_tab, seeds, triple_seeds. rewrite Ap. cbv -[cheapest]. discriminate. }
  destruct H as (ord & vs & -> & L). inversion D as [? ? ? Q| | | | | | | | | | |]. unfold dummy in Q. cbn in Q. rewrite L in Q. discriminate.
Qed.
(* A full scan that shares two variables with another triple is an input of a join on two columns, which evaluates it and
   throws. *)
Theorem C63_full_scan_two_refuted : exists o U ts t,
  oracle_ok o U /\ query_ok U ts [] /\ plan_pattern o ts [] [] = Val t /\
  forall voc ix sat leaf tab, ~ computes o voc ix sat leaf t tab.
Proof.
  exists (ex_o w_less tree_size false), ["?x"; "?p"; "?y"]%string, [T "?x" "?p" "?y"; T "?x" "<q>" "?y"]%string,
    (TwoT (Scan PSO ["<q>"] ["?x"; "?y"]) (Scan SPO [] ["?x"; "?p"; "?y"]) 0 1 0 2)%string.
  split; [apply ex_oracle; intros v H; cbn in H; destruct H as [<-|[<-|[<-|[]]]]; split; discriminate|]. split.
  { apply qcheck_ok; reflexivity. }
  split; [vm_compute; reflexivity|]. intros voc ix sat leaf tab D. inversion D as [| | | | | | | | | |l r ? ? ? ? a b ? Dl Dr|]; subst.
  inversion Dr as [? ? ? Q| | | | | | | | | | |]. discriminate.
Qed.

(* ---------- examples ---------- *)
Definition x_o : oracle := ex_o w_less tree_size false.
Definition x_voc : string -> option N := lookup [("<b>", 1%N); ("<q>", 2%N); ("<r>", 3%N); ("<p>", 4%N)].
Definition x_kb : graph :=
  [(10,2,20);(10,2,1);(11,2,20);(12,2,21);(12,2,1);(20,3,30);(21,3,31);(20,3,31);(30,4,40);(31,4,40);(31,4,41)]%N.
Definition x_ts : list triple := [T "?x" "<q>" "?y"; T "?y" "<r>" "?z"; T "?z" "<p>" "?w"; T "?x" "<q>" "<b>"].
Definition x_fs : list filt := [F 0 "?w" [] "41"].
Definition x_sat (f : filt) (l : list (option N)) : bool := match l with [Some 41%N] => true | _ => false end.
Definition x_U : list string := ["?x"; "?y"; "?z"; "?w"].
Lemma x_oracle : oracle_ok x_o x_U.
Proof. apply ex_oracle. intros v H. cbn in H. destruct H as [<-|[<-|[<-|[<-|[]]]]]; split; discriminate. Qed.
Example C62_tree_pattern_example : exists t tab,
  index_of (ix_of x_kb) x_kb /\ oracle_ok x_o x_U /\ query_ok x_U x_ts x_fs /\
  length x_U + length x_ts = 1 + list_sum (map (fun t => length (triple_vars t)) x_ts) /\
  plan_pattern x_o x_ts x_fs [] = Val t /\ (forall leaf, computes x_o x_voc (ix_of x_kb) x_sat leaf t tab) /\
  tab = [[31; 41; 20; 10]; [31; 41; 21; 12]]%N /\ map fst (vars x_o t) = ["?z"; "?w"; "?y"; "?x"].
Proof.
  assert (E : exists t, plan_pattern x_o x_ts x_fs [] = Val t /\ exec x_o x_voc (ix_of x_kb) x_sat t = Some [[31; 41; 20; 10]; [31; 41; 21; 12]]%N /\
    map fst (vars x_o t) = ["?z"; "?w"; "?y"; "?x"]).
  { eexists. split; [vm_compute; reflexivity|]. split; vm_compute; reflexivity. }
  destruct E as (t & E1 & E2 & E3). exists t, [[31; 41; 20; 10]; [31; 41; 21; 12]]%N.
  split; [apply ix_index; vm_compute; reflexivity|]. split; [exact x_oracle|]. split; [apply qcheck_ok; vm_compute; reflexivity|].
  split; [vm_compute; reflexivity|]. split; auto. split; [intros leaf; now apply exec_computes|auto].
Qed.
Definition y_ts : list triple := [T "?x" "<q>" "?y"; T "?y" "<r>" "?z"; T "?z" "<p>" "?x"].
Definition y_kb : graph := [(10,2,20);(11,2,20);(12,2,21);(20,3,30);(21,3,31);(20,3,31);(30,4,10);(31,4,11);(31,4,12)]%N.
(* a triangle: a plan with a join on two columns *)
Example C62_pattern_example : exists t tab,
  index_of (ix_of y_kb) y_kb /\ oracle_ok x_o w_U /\ query_ok w_U y_ts [] /\ tree_ok x_o t = true /\
  plan_pattern x_o y_ts [] [] = Val t /\ (forall leaf, computes x_o x_voc (ix_of y_kb) x_sat leaf t tab) /\
  tab = [[30; 20; 10]; [31; 20; 11]; [31; 21; 12]]%N.
Proof.
  assert (E : exists t, plan_pattern x_o y_ts [] [] = Val t /\ exec x_o x_voc (ix_of y_kb) x_sat t = Some [[30; 20; 10]; [31; 20; 11]; [31; 21; 12]]%N /\
    tree_ok x_o t = true).
  { eexists. split; [vm_compute; reflexivity|]. split; vm_compute; reflexivity. }
  destruct E as (t & E1 & E2 & E3). exists t, [[30; 20; 10]; [31; 20; 11]; [31; 21; 12]]%N.
  split; [apply ix_index; vm_compute; reflexivity|]. split.
  { apply ex_oracle. intros v H. cbn in H. destruct H as [<-|[<-|[<-|[]]]]; split; discriminate. }
  split; [apply qcheck_ok; vm_compute; reflexivity|]. split; auto. split; auto. split; [intros leaf; now apply exec_computes|auto].
Qed.
(* a nested pattern with the solutions (y, z) = (20, 5), (21, 6) *)
Definition z_leaf (id : nat) (tab : table) : Prop := tab = [[20; 5]; [21; 6]]%N.
Definition z_tree : tree := Leaf 7 2 [("?y", 0); ("?z", 1)] [0; 1].
Definition z_child : child := C [z_tree] ["?y"; "?z"] [] [[None; Some 20; Some 5]; [None; Some 21; Some 6]]%N.
Example C62_nested_example :
  child_ok x_o x_voc (ix_of x_kb) x_sat z_leaf w_U z_child /\
  exists t tab, plan_pattern x_o [T "?x" "<q>" "?y"] [] [[z_tree]] = Val t /\ tree_ok x_o t = true /\
    computes x_o x_voc (ix_of x_kb) x_sat z_leaf t tab /\ tab = [[20; 5; 10]; [20; 5; 11]; [21; 6; 12]]%N.
Proof.
  split.
  - split; [repeat constructor|]. split; [repeat constructor; cbn; intuition discriminate|]. split.
    + intros m v Hm Hv. cbn in Hm. destruct Hm as [<-|[<-|[]]]; cbn in Hv; destruct Hv as [<-|[<-|[<-|[]]]]; cbn; intuition discriminate.
    + intros t [<-|[]]. split.
      { split; [repeat constructor; cbn; intuition discriminate|]. cbn [vars z_tree width_of]. split; [|split].
        - intros v c. rewrite !find_cons. destruct (String.eqb "?y" v); [intros H; injection H as <-; lia|].
          destruct (String.eqb "?z" v); [intros H; injection H as <-; lia|discriminate].
        - intros v v' c. rewrite !find_cons. destruct (String.eqb_spec "?y" v), (String.eqb_spec "?y" v'),
            (String.eqb_spec "?z" v), (String.eqb_spec "?z" v'); subst; intros H1 H2; try discriminate H1; try discriminate H2; congruence.
        - intros [|[|c]] H; [exists "?y"; reflexivity|exists "?z"; reflexivity|lia]. }
      split; [intros v Hv; cbn in Hv; destruct Hv as [<-|[<-|[<-|[]]]]; cbn; intuition discriminate|]. split.
      { intros v Hv H. elim H. cbn [vars z_tree]. rewrite !find_cons. destruct (String.eqb_spec "?y" v) as [<-|]; [elim Hv; cbn; auto|].
        destruct (String.eqb_spec "?z" v) as [<-|]; [elim Hv; cbn; auto|]. reflexivity. }
      split; [reflexivity|]. intros tab D. inversion D as [|? ? ? ? ? H| | | | | | | | | |]. subst. red in H. subst tab.
      split; [repeat constructor|]. split; [|vm_compute; repeat constructor].
      constructor; [constructor; [constructor|constructor]|]. constructor. vm_compute. discriminate.
  - exists (JoinT z_tree (Scan POS ["<q>"] ["?y"; "?x"]) 0 0), [[20; 5; 10]; [20; 5; 11]; [21; 6; 12]]%N.
    split; [vm_compute; reflexivity|]. split; [reflexivity|]. split; [|reflexivity].
    apply (CJoin x_o x_voc (ix_of x_kb) x_sat z_leaf z_tree (Scan POS ["<q>"] ["?y"; "?x"]) 0 0 [[20; 5]; [21; 6]]%N
             [[1; 10]; [1; 12]; [20; 10]; [20; 11]; [21; 12]]%N); auto.
    + now constructor.
    + replace [[1; 10]; [1; 12]; [20; 10]; [20; 11]; [21; 12]]%N with (scan_table x_voc (ix_of x_kb) POS ["<q>"]) by (vm_compute; reflexivity).
      now constructor.
    + vm_compute. discriminate.
Qed.
(* if every triple but the first shares a variable with an earlier one, the pattern is connected *)
Definition grows (ts : list triple) : bool :=
  forallb (fun j => existsb (fun i => adjacent ts i j) (seq 0 j)) (seq 1 (length ts - 1)).
Lemma grows_connected ts : grows ts = true -> connected_pattern ts.
Proof.
  intros G S (i0 & L0 & S0) (j0 & L1 & S1). unfold grows in G. rewrite forallb_forall in G.
  assert (X : exists m, m < length ts /\ S m = negb (S 0)).
  { destruct (S 0) eqn:E0; [exists j0|exists i0]; auto. }
  assert (Y : exists m, m < length ts /\ S m = negb (S 0) /\ forall i, i < m -> S i = S 0).
  { destruct X as (m & Lm & Sm). induction m as [m IH] using lt_wf_ind.
    destruct (existsb (fun i => Bool.eqb (S i) (negb (S 0))) (seq 0 m)) eqn:E.
    - apply existsb_exists in E. destruct E as (i & Hi & E). apply in_seq in Hi. apply eqb_prop in E. apply (IH i); auto; lia.
    - exists m. split; auto. split; auto. intros i Hi. destruct (Bool.bool_dec (S i) (S 0)) as [|Ne]; auto.
      assert (X : existsb (fun i => Bool.eqb (S i) (negb (S 0))) (seq 0 m) = true); [|congruence].
      apply existsb_exists. exists i. split; [apply in_seq; lia|]. apply eqb_true_iff. destruct (S i), (S 0); try reflexivity; elim Ne; reflexivity. }
  destruct Y as (m & Lm & Sm & Hm). destruct m as [|m]; [destruct (S 0); discriminate|].
  specialize (G (Datatypes.S m)). rewrite in_seq in G. specialize (G ltac:(lia)). apply existsb_exists in G.
  destruct G as (i & Hi & A). apply in_seq in Hi. specialize (Hm i ltac:(lia)). unfold adjacent in A. apply andb_true_iff in A. destruct A as [_ A].
  destruct (nth_error ts i) as [a|] eqn:Ea; [|discriminate]. destruct (nth_error ts (Datatypes.S m)) as [b|] eqn:Eb; [|discriminate].
  apply existsb_exists in A. destruct A as (v & Va & Vb). apply mem_in in Vb. destruct (S 0) eqn:E0.
  - exists i, (Datatypes.S m), a, b, v. auto 10.
  - exists (Datatypes.S m), i, b, a, v. auto 10.
Qed.
Example C63_connected_example : oracle_ok x_o x_U /\ query_ok x_U x_ts x_fs /\ connected_pattern x_ts /\
  forall t, In t x_ts -> triple_vars t <> [] /\ (is_var (t_p t) = true -> is_var (t_s t) = false \/ is_var (t_o t) = false).
Proof.
  split; [exact x_oracle|]. split; [apply qcheck_ok; vm_compute; reflexivity|]. split; [apply grows_connected; vm_compute; reflexivity|].
  intros t H. cbn in H. repeat (destruct H as [<-|H]; [split; discriminate|]). destruct H.
Qed.

Print Assumptions C62_tree_pattern.
Print Assumptions C62_pattern_partial.
Print Assumptions C62_nested_partial.
Print Assumptions C63_terminates.
Print Assumptions C63_defined_partial.
Print Assumptions C63_connected_partial.
Print Assumptions C62_two_column_refuted.
Print Assumptions C62_sort_column_refuted.
Print Assumptions C62_variable_predicate_refuted.
Print Assumptions C62_foreign_filter_refuted.
Print Assumptions C63_shift_refuted.
Print Assumptions C63_repeated_variable_refuted.
Print Assumptions C63_disconnected_refuted.
Print Assumptions C63_full_scan_refuted.
Print Assumptions C63_full_scan_two_refuted.
