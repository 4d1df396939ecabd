(* Proofs about the responses to queries: DISTINCT and ORDER BY on the words of a result. *)
From Coq Require Import Ascii String List NArith Arith Bool Lia ZifyBool ZifyN ZifyNat Permutation Sorted.
From Verif Require Conv_Model Collate_Model Collate_Spec Vocab_Model Vocab_Proof Vocab_Thm Whole_Spec Whole_Thm Query_Spec Query_Model Query_Proof Ops_Spec Ops_Proof Ops_Thm Collate_Proof Collate_Thm Sparql_Model Sparql_Spec Filter_Model Filter_Proof.
From Verif Require Import Table_Spec Ops_Model Plan_Model Whole_Model.
From Verif Require Import SLex_Spec Sparql_Spec Serve_Spec Serve_Model Serve_Proof Serve_Proof2.
Import ListNotations.
Local Open Scope N_scope.

(* ---- ids and words ---- *)
Lemma sorted_nth {A} (R : A -> A -> Prop) l : StronglySorted R l -> forall i j a b, (i < j)%nat -> nth_error l i = Some a -> nth_error l j = Some b -> R a b.
Proof.
  induction 1 as [|x l S IH F]; intros i j a b L E1 E2; [destruct i; discriminate|]. destruct j as [|j]; [lia|]. cbn [nth_error] in E2. destruct i as [|i].
  - injection E1 as <-. rewrite Forall_forall in F. apply F. eapply nth_error_In; eauto.
  - apply (IH i j); auto. lia.
Qed.
Section Ids.
Variable v : vocabulary.
Variable disk : list (list N).
Hypothesis WF : Vocab_Thm.well_formed (v_loc v) (v_externalize v) (v_words v) disk (v_external v).
Hypothesis ND : NoDup (v_words v ++ disk).
Lemma shown_word id w : Whole_Thm.shows v id = Vocab_Model.Word w -> nth_error (v_words v ++ disk) (N.to_nat id) = Some w.
Proof using WF.
  intros H. destruct (N.ltb_spec id (2 ^ 64)) as [L|L].
  - unfold Whole_Thm.shows in H. rewrite (Vocab_Thm.C30_word_of_id _ _ _ _ _ _ WF L) in H.
    destruct (nth_error _ _); [congruence|]. destruct (id =? _); discriminate.
  - exfalso. destruct (Vocab_Thm.wf_loaded _ _ _ _ _ WF) as (E & T & L1 & L2 & _). destruct WF as (_ & _ & _ & _ & _ & B & _).
    assert (LE := Vocab_Proof.external_length disk).
    unfold Whole_Thm.shows, Vocab_Model.idToOptionalString in H. destruct (N.ltb_spec id (N.of_nat (length (v_words v)))); [lia|].
    destruct (id =? _); [discriminate|]. destruct (N.ltb_spec (id - N.of_nat (length (v_words v))) (Vocab_Model.ext_size (v_external v))) as [X|X]; [|discriminate].
    assert (S : Vocab_Model.ext_size (v_external v) = N.of_nat (length disk)) by (rewrite E; reflexivity). lia.
Qed.
Lemma unbound_shown w : Whole_Thm.shows v UNBOUND <> Vocab_Model.Word w.
Proof using WF.
  intros H. apply shown_word in H. assert (L : (N.to_nat UNBOUND < length (v_words v ++ disk))%nat) by (apply nth_error_Some; congruence).
  destruct (Vocab_Thm.wf_loaded _ _ _ _ _ WF) as (_ & _ & L1 & _). destruct WF as (_ & _ & _ & _ & _ & B & _). rewrite app_length in L.
  assert (E : UNBOUND = 2 ^ 64 - 3) by reflexivity. rewrite E in L. assert (LE := Vocab_Proof.external_length disk). lia.
Qed.
Lemma shown_inj i j w : Whole_Thm.shows v i = Vocab_Model.Word w -> Whole_Thm.shows v j = Vocab_Model.Word w -> i = j.
Proof using WF ND.
  intros H1 H2. apply shown_word in H1, H2. apply N2Nat.inj. apply (proj1 (NoDup_nth_error _) ND); [apply nth_error_Some; congruence|congruence].
Qed.
Lemma shown_before i j a b : Whole_Thm.shows v i = Vocab_Model.Word a -> Whole_Thm.shows v j = Vocab_Model.Word b -> i < j ->
  comes_before (v_loc v) (v_externalize v) a b.
Proof using WF.
  intros H1 H2 L. apply shown_word in H1, H2. destruct WF as (_ & S1 & S2 & F1 & F2 & _). rewrite Forall_forall in F1, F2.
  destruct (Nat.lt_ge_cases (N.to_nat i) (length (v_words v))) as [Hi|Hi]; destruct (Nat.lt_ge_cases (N.to_nat j) (length (v_words v))) as [Hj|Hj]; try lia;
    ((rewrite nth_error_app1 in H1 by assumption) || (rewrite nth_error_app2 in H1 by assumption)); ((rewrite nth_error_app1 in H2 by assumption) || (rewrite nth_error_app2 in H2 by assumption)).
  - right. split; [|eapply (sorted_nth _ _ S1 (N.to_nat i) (N.to_nat j)); eauto; lia].
    apply nth_error_In in H1, H2. now rewrite (F1 _ H1), (F1 _ H2).
  - left. apply nth_error_In in H1, H2. now rewrite (F1 _ H1), (F2 _ H2).
  - right. split; [|eapply (sorted_nth _ _ S2 (N.to_nat i - length (v_words v)) (N.to_nat j - length (v_words v))); eauto; lia].
    apply nth_error_In in H1, H2. now rewrite (F2 _ H1), (F2 _ H2).
Qed.

(* ---- conditions ---- *)
Lemma before_asym a b : comes_before (v_loc v) (v_externalize v) a b -> comes_before (v_loc v) (v_externalize v) b a -> False.
Proof using WF.
  destruct WF as (IC & _). assert (PR := Collate_Proof.pre_compare (v_loc v) Collate_Model.TOTAL IC). destruct PR as (_ & AN & _).
  intros [[A1 A2]|[A1 A2]] [[B1 B2]|[B1 B2]]; try congruence. apply Collate_Proof.compare_precedes in A2, B2. specialize (AN a b). cbn in AN. rewrite A2, B2 in AN. discriminate.
Qed.
Lemma shown_eq i j a b : Whole_Thm.shows v i = Vocab_Model.Word a -> Whole_Thm.shows v j = Vocab_Model.Word b -> (i = j <-> a = b).
Proof using WF ND.
  intros H1 H2. split; [intros ->; congruence|]. intros ->. now apply (shown_inj i j b).
Qed.
Lemma shown_order i j a b : Whole_Thm.shows v i = Vocab_Model.Word a -> Whole_Thm.shows v j = Vocab_Model.Word b ->
  (i < j <-> comes_before (v_loc v) (v_externalize v) a b).
Proof using WF ND.
  intros H1 H2. split; [now apply shown_before|]. intros C. destruct (N.lt_trichotomy i j) as [L|[E|L]]; [exact L| |]; exfalso.
  - apply (shown_eq i j a b H1 H2) in E. subst b. exact (before_asym a a C C).
  - exact (before_asym a b C (shown_before j i b a H2 H1 L)).
Qed.
(* <= and > need a word that is not greater than the constant *)
Definition constant_ok (c : condition) : Prop :=
  match c with
  | (_, r, GWord _ w) => r = Sparql_Model.LE \/ r = Sparql_Model.GT -> exists u, In u (v_words v) /\ ~ lower (v_loc v) w u
  | _ => True
  end.
Lemma equal_not_lower a b : alike_b (v_loc v) a b = negb (below_b (v_loc v) a b) && negb (below_b (v_loc v) b a).
Proof using WF.
  destruct WF as (IC & _). assert (PR := Collate_Proof.pre_compare (v_loc v) Collate_Model.QUARTERNARY IC). destruct PR as (_ & AN & _).
  unfold alike_b, below_b, Collate_Model.before. specialize (AN a b). cbn in AN. rewrite AN. destruct (Collate_Model.compare _ a b _); reflexivity.
Qed.
Lemma below_asym a b : below_b (v_loc v) a b = true -> below_b (v_loc v) b a = false.
Proof using WF.
  destruct WF as (IC & _). assert (PR := Collate_Proof.pre_compare (v_loc v) Collate_Model.QUARTERNARY IC). destruct PR as (_ & AN & _).
  unfold below_b, Collate_Model.before. specialize (AN a b). cbn in AN. rewrite AN. now destruct (Collate_Model.compare _ a b _).
Qed.
Lemma constant_filter op r i a w : comparison r = Some op -> op <> Ops_Spec.NE -> Whole_Thm.shows v i = Vocab_Model.Word a ->
  (r = Sparql_Model.LE \/ r = Sparql_Model.GT -> exists u, In u (v_words v) /\ ~ lower (v_loc v) w u) ->
  match Filter_Model.compute_filter_kb (fun a b => Collate_Model.before (v_loc v) a b Collate_Model.QUARTERNARY) (v_words v) op 0 w false [[i]] with Some (_ :: _) => true | _ => false end =
  constant_b (v_loc v) (v_externalize v) r a w.
Proof using WF.
  intros HC NE E HF. assert (WF' := WF). destruct WF' as (IC & S1 & _ & F1 & F2 & _). rewrite Forall_forall in F1, F2.
  assert (SW := Collate_Thm.C52_sortable (v_loc v) Collate_Model.QUARTERNARY IC).
  assert (SO : StronglySorted (fun x y => Collate_Model.before (v_loc v) y x Collate_Model.QUARTERNARY = false) (v_words v)).
  { clear - S1 IC. induction S1 as [|x l S IH F]; constructor; auto. eapply Forall_impl; [|exact F]. intros y P. apply Collate_Proof.compare_precedes in P.
    apply (Collate_Proof.compare_coarser _ Collate_Model.QUARTERNARY _ _ IC) in P. unfold Collate_Model.before.
    assert (PR := Collate_Proof.pre_compare (v_loc v) Collate_Model.QUARTERNARY IC). destruct PR as (_ & AN & _). specialize (AN x y). cbn in AN. rewrite AN.
    destruct (Collate_Model.compare _ x y _); try reflexivity. now elim P. }
  destruct (Filter_Proof.vocab_lb _ _ SW (v_words v) w SO) as (lb & LB & L1 & L2).
  destruct (Filter_Proof.vocab_ub _ _ SW (v_words v) w SO) as (ub & UB & U1 & U2).
  unfold Filter_Model.compute_filter_kb. rewrite LB, UB. clear LB UB SW SO.
  apply shown_word in E.
  assert (X : (v_externalize v a = false /\ i < N.of_nat (length (v_words v)) /\ below_b (v_loc v) a w = (N.to_nat i <? lb)%nat /\ below_b (v_loc v) w a = (ub <=? N.to_nat i)%nat) \/
              (v_externalize v a = true /\ N.of_nat (length (v_words v)) <= i)).
  { destruct (Nat.lt_ge_cases (N.to_nat i) (length (v_words v))) as [Hi|Hi].
    - left. rewrite nth_error_app1 in E by exact Hi. split; [apply F1; eapply nth_error_In; eauto|]. split; [lia|]. split; [apply L2; exact E|apply U2; exact E].
    - right. rewrite nth_error_app2 in E by exact Hi. split; [apply F2; eapply nth_error_In; eauto|lia]. }
  assert (P : (r = Sparql_Model.LE \/ r = Sparql_Model.GT -> (0 < ub)%nat)).
  { intros HR. destruct (HF HR) as (u & IU & NL). destruct (In_nth_error _ _ IU) as (k & NK). assert (Z := U2 k u NK). 
    assert (Z' : below_b (v_loc v) w u = false) by (apply not_true_iff_false; rewrite below_reflect; exact NL). unfold below_b in Z'. rewrite Z' in Z. lia. }
  assert (EL := equal_not_lower a w). assert (AS := below_asym a w).
  assert (CH : forall c : bool, match Some (if c then [[i]] else []) with Some (_ :: _) => true | _ => false end = c) by (intros []; reflexivity).
  destruct r; try discriminate; injection HC as <-; try (now elim NE); cbn [constant_b]; unfold Filter_Model.compute_filter_range, Filter_Model.compute_filter_fixed;
    cbn [filter Filter_Model.value_get Filter_Model.value_lt Filter_Model.value_le]; change (col 0 [i]) with i; rewrite CH, ?EL; clear CH HF NE E L2 U2 F1 F2;
    destruct X as [(X1 & X2 & X3 & X4)|(X1 & X2)]; rewrite X1, ?X3, ?X4; cbn [negb andb orb]; try specialize (P (or_introl eq_refl)); try specialize (P (or_intror eq_refl)).
  all: try rewrite X3 in AS; try rewrite X4 in AS.
  all: unfold Filter_Model.value_lt, Filter_Model.value_le, Filter_Model.value_get, Ops_Spec.entry_value; try replace (0 <? ub)%nat with true by lia; clear - L1 U1 X2 P AS; lia.
Qed.
Lemma filter_words U conds : (forall u, In u U -> exists r, u = 63 :: r /\ Forall byte u) -> (forall c, In c conds -> condition_in U c /\ constant_ok c) -> forall f l ws, In f (pfilters 0 conds) ->
  map (option_map (Whole_Thm.shows v)) l = map (option_map Vocab_Model.Word) ws ->
  filter_holds v (map filter_to conds) f l = word_sat (v_loc v) (v_externalize v) conds f ws.
Proof using WF ND.
  intros HU HR f l ws I E. apply pfilters_in in I as (k & [[x r] y] & N & ->). destruct (HR _ (nth_error_In _ _ N)) as ((R & _ & G) & K).
  unfold filter_holds, word_sat. cbn [pfilter Plan_Model.f_id Nat.add]. rewrite (map_nth_error filter_to _ _ N), N. cbn [filter_to Sparql_Model.f_type Sparql_Model.f_rhs].
  assert (CO : exists op, comparison r = Some op) by (unfold is_relation in R; destruct R as [<-|[<-|[<-|[<-|[<-|[<-|[]]]]]]]; eexists; reflexivity). destruct CO as (op & CO). rewrite CO.
  destruct y as [y|t w]; cbn [given_text].
  - destruct (HU y G) as (r' & -> & B). rewrite is_var_str by exact B. change (63 =? 63) with true. cbv iota.
    destruct l as [|[i|] [|[j|] [|? ?]]], ws as [|[a|] [|[b|] [|? ?]]]; try discriminate; try reflexivity.
    cbn [map option_map] in E. injection E as E1 E2.
    apply eq_true_iff_eq. rewrite related_reflect. assert (O := shown_order i j a b E1 E2). assert (O' := shown_order j i b a E2 E1). assert (Q := shown_eq i j a b E1 E2).
    destruct R as [<-|[<-|[<-|[<-|[<-|[<-|[]]]]]]]; cbn [comparison] in CO; injection CO as <-; cbn [related]; rewrite Ops_Thm.C15_filter_columns; cbn [filter Ops_Spec.holds Ops_Spec.entry_value];
      change (col 0 [i; j]) with i; change (col 1 [i; j]) with j; rewrite <- ?O, <- ?O', <- ?Q;
      match goal with |- context [if ?c then [[i; j]] else []] => destruct c eqn:X end; split; intros; try discriminate; try reflexivity; lia.
  - destruct G as (NE & CW & ST). rewrite starts_variable, CW by exact ST.
    destruct l as [|[i|] [|? ?]], ws as [|[a|] [|? ?]]; try discriminate; try reflexivity. cbn [map option_map] in E. injection E as E1.
    apply constant_filter; auto. intros ->. destruct r; try discriminate. now elim NE.
Qed.

(* ---- the words of a solution ---- *)
Variables U sel : list (list N).
Hypothesis HU : forall u, In u U -> exists r, u = 63 :: r.
Hypothesis Hsel : incl sel U.
Definition words_of (s : Query_Spec.sol) : list (list N) :=
  map (fun u => match Whole_Thm.shows v (s (str u)) with Vocab_Model.Word w => w | _ => [] end) U.
Definition known (s : Query_Spec.sol) : Prop := forall u, In u U -> exists w, Whole_Thm.shows v (s (str u)) = Vocab_Model.Word w.
Lemma value_words s u : known s -> In u U -> exists w, value U (words_of s) u = Some w /\ Whole_Thm.shows v (s (str u)) = Vocab_Model.Word w.
Proof using.
  unfold words_of, known. clear. induction U as [|a U' IH]; intros K I; [destruct I|]. cbn [map value].
  destruct (list_eq_dec N.eq_dec a u) as [->|NE].
  - destruct (K u (or_introl eq_refl)) as (w & E). rewrite E. eauto.
  - destruct I as [E|I]; [now elim NE|]. apply IH; auto. intros x Hx. apply K. now right.
Qed.
Lemma variable_shown u : In u U -> Query_Spec.shown_variable (str u) = str u.
Proof using HU. intros I. destruct (HU u I) as (r & ->). reflexivity. Qed.
Lemma selected_shown s t : known s -> known t ->
  (selected U sel (words_of s) = selected U sel (words_of t) <-> Query_Spec.shown (map str sel) s = Query_Spec.shown (map str sel) t).
Proof using WF ND HU Hsel.
  intros K1 K2. unfold selected, Query_Spec.shown. rewrite !map_map.
  assert (G : forall u, In u sel -> (value U (words_of s) u = value U (words_of t) u <-> s (Query_Spec.shown_variable (str u)) = t (Query_Spec.shown_variable (str u)))).
  { intros u I. apply Hsel in I. rewrite (variable_shown u I). destruct (value_words s u K1 I) as (w & A1 & A2), (value_words t u K2 I) as (x & B1 & B2).
    rewrite A1, B1. split; intros E.
    - injection E as ->. exact (shown_inj _ _ _ A2 B2).
    - rewrite E, B2 in A2. congruence. }
  clear Hsel. induction sel as [|u sel' IH]; [cbn; tauto|]. cbn [map].
  assert (Gu := G u (or_introl eq_refl)). assert (IH' := IH (fun x Hx => G x (or_intror Hx))). split; intros E; injection E as E1 E2; f_equal; (apply Gu + apply IH'); auto.
Qed.
Lemma order_words keys s t : known s -> known t -> incl (map fst keys) U ->
  Query_Spec.may_precede (map (fun k => (str (fst k), snd k)) keys) s t ->
  may_precede (comes_before (v_loc v) (v_externalize v)) U keys (words_of s) (words_of t).
Proof using WF ND.
  intros K1 K2. induction keys as [|[u desc] keys IH]; intros I H; [exact Logic.I|]. cbn [map fst snd Query_Spec.may_precede] in H. cbn [may_precede].
  destruct (value_words s u K1 (I u (or_introl eq_refl))) as (a & A1 & A2). destruct (value_words t u K2 (I u (or_introl eq_refl))) as (b & B1 & B2).
  exists a, b. split; auto. split; auto. destruct H as [H|[H1 H2]].
  - left. destruct desc; [exact (shown_before _ _ _ _ B2 A2 H)|exact (shown_before _ _ _ _ A2 B2 H)].
  - right. split; [rewrite H1, B2 in A2; congruence|]. apply IH; auto. intros x Hx. apply I. now right.
Qed.

(* ---- DISTINCT and ORDER BY ---- *)
Lemma distinct_rows_of q n n3 : Query_Proof.node_ok n -> Query_Model.distinct_step q n n3 ->
  Query_Model.n_width n3 = Query_Model.n_width n /\ incl (Query_Model.n_rows n3) (Query_Model.n_rows n).
Proof using.
  clear. intros Ok D. unfold Query_Model.distinct_step in D. destruct (Query_Spec.q_distinct q); [|subst; split; [auto|apply incl_refl]].
  destruct D as (mid & out & Pm & R & ->). split; [reflexivity|]. cbn [Query_Model.n_rows].
  assert (Kl := Query_Proof.keep_length n (Query_Spec.q_select q) Ok). destruct Ok as [Hs Hc].
  destruct (Ops_Proof.planned_distinct (Query_Model.n_width n) _ _ _ mid Hs Kl Pm) as (out' & R' & D1 & D2 & D3).
  rewrite R in R'. injection R' as <-. exact D2.
Qed.
Lemma order_rows_of q n n4 : Query_Proof.node_ok n -> Query_Model.order_step q n n4 ->
  Query_Model.n_width n4 = Query_Model.n_width n /\ incl (Query_Model.n_rows n4) (Query_Model.n_rows n).
Proof using.
  clear. intros [Hs Hc] O. unfold Query_Model.order_step in O. destruct (Query_Spec.q_order q) as [|k0 ks0] eqn:E; [subst; split; [auto|apply incl_refl]|].
  rewrite <- E in *. destruct O as (key & out & Ec & P & ->). assert (Ne : key <> []).
  { intros ->. rewrite E in Ec. cbn in Ec. destruct k0 as [x d]. destruct (var_find (Query_Model.n_vars n) x), (Query_Model.order_columns (Query_Model.n_vars n) ks0); discriminate. }
  destruct (Query_Proof.order_result _ _ _ _ Ne Hs P) as [P1 P2]. split; [reflexivity|]. cbn [Query_Model.n_rows]. intros r Hr. eapply Permutation_in; [apply Permutation_sym, P1|exact Hr].
Qed.
Lemma nodup_by {A B C} (f : A -> B) (h : A -> C) l : (forall a b, In a l -> In b l -> h a = h b -> f a = f b) -> NoDup (map f l) -> NoDup (map h l).
Proof using.
  clear. induction l as [|a l IH]; intros G N; [constructor|]. cbn [map] in *. inversion N as [|? ? N1 N2]; subst. constructor.
  - intros I. apply in_map_iff in I as (b & E & I). apply N1. apply in_map_iff. exists b. split; auto. apply G; [now right|now left|exact E].
  - apply IH; auto. intros x y Hx Hy. apply G; now right.
Qed.
Lemma sorted_map {A B} (R : A -> A -> Prop) (S : B -> B -> Prop) (f : A -> B) l : (forall a b, In a l -> In b l -> R a b -> S (f a) (f b)) ->
  StronglySorted R l -> StronglySorted S (map f l).
Proof using.
  clear. intros G H. induction H as [|a l H IH F]; [constructor|]. cbn [map]. constructor.
  - apply IH. intros x y Hx Hy. apply G; now right.
  - apply Forall_forall. intros y Hy. apply in_map_iff in Hy as (b & <- & Hb). rewrite Forall_forall in F. apply G; [now left|now right|now apply F].
Qed.
Lemma modified dis keys n mid res (P : list (list N) -> Prop) :
  let q := Query_Spec.Query (map str sel) dis (map (fun k => (str (fst k), snd k)) keys) [] [] [] in
  Query_Proof.node_ok n -> Forall known (Query_Proof.sols n) -> incl (map fst keys) U -> Whole_Spec.lists (map words_of (Query_Proof.sols n)) P ->
  Query_Model.distinct_step q n mid -> Query_Model.order_step q mid res ->
  solutions dis U sel P (map words_of (Query_Proof.sols res)) /\
  in_order (comes_before (v_loc v) (v_externalize v)) U keys (map words_of (Query_Proof.sols res)) /\ Forall known (Query_Proof.sols res) /\
  Query_Model.n_vars res = Query_Model.n_vars n /\ Query_Model.n_width res = Query_Model.n_width n /\ incl (Query_Model.n_rows res) (Query_Model.n_rows n).
Proof using WF ND HU Hsel.
  intros q Ok K IK [L1 L2] D O.
  assert (SO : Query_Spec.q_distinct q = true -> Forall (Query_Proof.select_ok (Query_Model.n_vars n)) (Query_Spec.q_select q)).
  { intros _. apply Forall_forall. intros x Hx. cbn [q Query_Spec.q_select] in Hx. apply in_map_iff in Hx as (u & <- & Hu). destruct (HU u (Hsel u Hu)) as (r & ->). left. split; reflexivity. }
  destruct (Query_Proof.distinct_ok q n mid Ok SO D) as (Ok3 & V3 & D3). destruct (distinct_rows_of q n mid Ok D) as [W3 I3].
  destruct (Query_Proof.order_ok q mid res Ok3 O) as (P4 & O4 & V4 & _). destruct (order_rows_of q mid res Ok3 O) as [W4 I4].
  rewrite Forall_forall in K.
  assert (KR : forall s, In s (Query_Proof.sols res) -> In s (Query_Proof.sols n)).
  { intros s Hs. unfold Query_Proof.sols in *. rewrite V4, V3 in Hs. apply in_map_iff in Hs as (r & <- & Hr). apply in_map. now apply I3, I4. }
  split; [|split; [|split; [|split; [|split]]]]; try congruence.
  - unfold solutions. cbn [q Query_Spec.q_distinct Query_Spec.q_select] in D3. destruct dis.
    + destruct D3 as (N & _ & A). assert (PM : forall s, In s (Query_Proof.sols mid) <-> In s (Query_Proof.sols res)).
      { intros s. split; apply Permutation_in; [exact P4|now apply Permutation_sym]. }
      split; [|split].
      * rewrite map_map. apply (nodup_by (Query_Spec.shown (map str sel))).
        -- intros a b Ha Hb E. apply selected_shown in E; auto.
        -- eapply Permutation_NoDup; [apply Permutation_map; exact P4|exact N].
      * intros mu I. apply in_map_iff in I as (s & <- & I). apply L2. apply in_map. auto.
      * intros mu Hm. apply L2 in Hm. apply in_map_iff in Hm as (s & <- & Is). destruct (A s Is) as (t & It & Et). exists (words_of t). split; [apply in_map; now apply PM|].
        apply selected_shown; auto. apply K, KR. now apply PM.
    + assert (PE : Permutation (map words_of (Query_Proof.sols n)) (map words_of (Query_Proof.sols res))) by (apply Permutation_map; eapply Permutation_trans; eauto).
      split; [eapply Permutation_NoDup; eauto|]. intros mu. rewrite <- L2. split; apply Permutation_in; [now apply Permutation_sym|exact PE].
  - unfold in_order. revert O4. unfold Query_Spec.in_order. cbn [q Query_Spec.q_order]. apply sorted_map. intros a b Ha Hb. apply order_words; auto.
  - apply Forall_forall. intros s Hs. auto.
  - intros r Hr. auto.
Qed.
End Ids.

(* the rows of the result of a plan *)
Lemma words_rows v U m tab : forall sols, map (fun r => map (fun u => option_map (Whole_Thm.shows v) (Plan_Model.value_of m r u)) (map str U)) tab = map (map (fun w => Some (Vocab_Model.Word w))) sols ->
  Forall (known v U) (map (Query_Model.value m) tab) /\ map (words_of v U) (map (Query_Model.value m) tab) = sols.
Proof.
  induction tab as [|r tab IH]; intros [|mu sols] E; try discriminate; [split; [constructor|reflexivity]|].
  cbn [map] in E. injection E as E1 E2. destruct (IH sols E2) as [I1 I2]. rewrite map_map in E1.
  assert (G : forall u w, option_map (Whole_Thm.shows v) (Plan_Model.value_of m r (str u)) = Some (Vocab_Model.Word w) ->
    Whole_Thm.shows v (Query_Model.value m r (str u)) = Vocab_Model.Word w).
  { intros u w X. rewrite Query_Proof.value_find. unfold Plan_Model.value_of in X. destruct (var_find m (str u)); [|discriminate]. cbn [option_map] in X. congruence. }
  cbn [map]. split; [constructor; [|exact I1]|f_equal; [|exact I2]].
  - clear - E1 G. unfold known. revert mu E1. induction U as [|a U' IH]; intros mu E1 u I; [destruct I|]. destruct mu as [|w mu]; [discriminate|].
    cbn [map] in E1. injection E1 as E1 E2. destruct I as [<-|I]; [exists w; now apply G|]. eapply IH; eauto.
  - clear - E1 G. unfold words_of. revert mu E1. induction U as [|a U' IH]; intros mu E1; destruct mu as [|w mu]; try discriminate; [reflexivity|].
    cbn [map] in E1. injection E1 as E1 E2. cbn [map]. rewrite (G _ _ E1). f_equal. now apply IH.
Qed.
