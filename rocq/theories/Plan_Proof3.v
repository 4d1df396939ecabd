(* The invariant of partial plans and its preservation by the operations. *)
From Coq Require Import String List NArith Arith Bool Lia Permutation Sorted.
From Verif Require Import Table_Spec Ops_Spec Ops_Model Vars_Model Vars_Thm Join_Model MultiJoin_Model Plan_Model
  Plan_Spec Plan_Proof1 Plan_Proof2 Ops_Thm Join_Proof Join_Thm MultiJoin_Thm Lex_Proof Ops_Proof ListAux.
Import ListNotations.
Local Open Scope nat_scope.

(* ---------- which trees the theorem is about ---------- *)
(* The inputs of TwoColumnJoin and MultiColumnJoin are sorted on the join columns according to their resultSortedOn(),
   the columns of ORDER BY exist, and the hash map of MultiColumnJoin's right input is iterated in the order of the
   columns. *)
Fixpoint tree_ok (o : oracle) (t : tree) : bool :=
  match t with
  | Scan _ _ _ | Leaf _ _ _ _ => true
  | EqFilter t _ _ | FilterT t _ | SortT t _ => tree_ok o t
  | OrderByT t key => tree_ok o t && forallb (fun c => c <? width_of t) key
  | JoinT l r _ _ => tree_ok o l && tree_ok o r
  | TwoT l r jc1l jc2l jc1r jc2r =>
      tree_ok o l && tree_ok o r &&
      (if right_filter r jc1r jc2r then prefix_eqb [jc1l; jc2l] (sorted_of l) && prefix_eqb [0; 1] (sorted_of r)
       else if right_filter l jc1l jc2l then prefix_eqb [jc1r; jc2r] (sorted_of r) && prefix_eqb [0; 1] (sorted_of l)
       else true)
  | MultiT l r jcs =>
      tree_ok o l && tree_ok o r && prefix_eqb (map fst jcs) (sorted_of l) && prefix_eqb (map snd jcs) (sorted_of r) &&
      prefix_eqb (map snd (iter o r)) (seq 0 (width_of r))
  end.

Lemma prefix_eqb_app p : forall l, prefix_eqb p l = true -> exists s, l = p ++ s.
Proof.
  induction p as [|x p IH]; intros l; cbn; [eauto|]. destruct l as [|y l]; [discriminate|].
  rewrite andb_true_iff, Nat.eqb_eq. intros [-> H]. destruct (IH l H) as (s & ->). eauto.
Qed.
Lemma sorted_lex_pre p l t : prefix_eqb p l = true -> sorted_lex l t -> sorted_lex p t.
Proof. intros H. destruct (prefix_eqb_app p l H) as (s & ->). apply sorted_lex_prefix. Qed.
Lemma Sorted_iff {A} (P Q : A -> A -> Prop) l : (forall x y, P x y <-> Q x y) -> (Sorted P l <-> Sorted Q l).
Proof.
  intros H. split; intros S; induction S as [|x t S IH Hh]; constructor; auto; destruct Hh; constructor; now apply H.
Qed.
Lemma sorted_lex_one c t : sorted_lex [c] t <-> sorted_on c t.
Proof.
  apply Sorted_iff. intros r s. unfold lex_le. cbn. destruct (N.compare_spec (col c r) (col c s)); split; try lia; congruence.
Qed.
Lemma first_is_sorted s c t : first_is s c = true -> sorted_lex s t -> sorted_on c t.
Proof.
  destruct s as [|x s]; cbn; [discriminate|]. rewrite Nat.eqb_eq. intros <- H. apply sorted_lex_one.
  apply (sorted_lex_prefix [x] s). exact H.
Qed.
Lemma width_perm w (a b : table) : Permutation a b -> width w a -> width w b.
Proof. intros P H. unfold width in *. eapply Permutation_Forall; eauto. Qed.
Lemma width_in w (t : table) r : width w t -> In r t -> length r = w.
Proof. unfold width. rewrite Forall_forall. auto. Qed.
Lemma width_filter w f (t : table) : width w t -> width w (filter f t).
Proof. unfold width. rewrite !Forall_forall. intros H x Hx. apply filter_In in Hx. apply H. tauto. Qed.
Lemma sorted_filter cs f t : sorted_lex cs t -> sorted_lex cs (filter f t).
Proof. intros H. exact (ksorted_sorted_lex _ _ (ksorted_filter _ _ _ (sorted_lex_ksorted _ _ H))). Qed.
Lemma agree_perm jcs jcs' ra rb : Permutation jcs jcs' -> agree jcs ra rb = agree jcs' ra rb.
Proof.
  intros P. unfold agree. induction P; cbn; auto.
  - now rewrite IHP.
  - rewrite !andb_assoc. f_equal. apply andb_comm.
  - congruence.
Qed.
Lemma compatible_sym ma mb ra rb : compatible ma mb ra rb -> compatible mb ma rb ra.
Proof. intros H v x y Hx Hy. symmetry. eapply H; eauto. Qed.
Lemma merged_sym ma mb ra rb v : compatible ma mb ra rb -> merged ma mb ra rb v = merged mb ma rb ra v.
Proof.
  intros H. unfold merged. destruct (value ma ra v) eqn:E, (value mb rb v) eqn:E'; auto. f_equal. eapply H; eauto.
Qed.
Lemma drop_cols_all (r : row) cs : (forall c, c < length r -> In c cs) -> drop_cols cs r = [].
Proof.
  intros H. unfold drop_cols. rewrite filter_none_iff; auto. intros c Hc. apply in_seq in Hc.
  apply negb_false_iff, existsb_exists. exists c. split; [apply H; lia|apply Nat.eqb_refl].
Qed.
Lemma drop_cols_ext cs cs' r : (forall c, In c cs <-> In c cs') -> drop_cols cs r = drop_cols cs' r.
Proof.
  intros H. unfold drop_cols. f_equal. apply filter_ext. intros c. f_equal.
  destruct (existsb (Nat.eqb c) cs) eqn:E, (existsb (Nat.eqb c) cs') eqn:E'; auto.
  - apply existsb_exists in E. destruct E as (x & Hx & X). apply Nat.eqb_eq in X. subst x. apply H in Hx.
    apply (proj1 (existsb_false_iff _ _) E') in Hx. now rewrite Nat.eqb_refl in Hx.
  - apply existsb_exists in E'. destruct E' as (x & Hx & X). apply Nat.eqb_eq in X. subst x. apply H in Hx.
    apply (proj1 (existsb_false_iff _ _) E) in Hx. now rewrite Nat.eqb_refl in Hx.
Qed.
Lemma multi_vars_ext jcs jcs' mb : (forall c, is_jc jcs c = is_jc jcs' c) ->
  forall m i, multi_vars m mb i jcs = multi_vars m mb i jcs'.
Proof.
  intros H. induction mb as [|[v c] mb IH]; intros m i; cbn; auto. fold (is_jc jcs c) (is_jc jcs' c). rewrite H.
  destruct (is_jc jcs' c); apply IH.
Qed.
Lemma drop_col_length c (r : row) : c < length r -> length (drop_col c r) = length r - 1.
Proof. intros H. unfold drop_col. rewrite app_length, firstn_length, skipn_length. lia. Qed.

Definition disj (A B : N) : Prop := forall i, N.testbit A i = true -> N.testbit B i = true -> False.
Definition sub (F G : N) : Prop := forall i, N.testbit F i = true -> N.testbit G i = true.
Lemma bit_spec i j : N.testbit (bit i) (N.of_nat j) = Nat.eqb i j.
Proof.
  unfold bit. destruct (Nat.eqb_spec i j) as [->|H].
  - rewrite N.shiftl_spec_high'; [|lia]. now rewrite N.sub_diag.
  - destruct (Nat.lt_ge_cases j i).
    + apply N.shiftl_spec_low. lia.
    + rewrite N.shiftl_spec_high' by lia. replace (N.of_nat j - N.of_nat i)%N with (N.succ (N.of_nat (j - i - 1))) by lia.
      apply N.bits_above_log2. cbn. lia.
Qed.
Lemma sub_lor A B A' B' : sub A A' -> sub B B' -> sub (N.lor A B) (N.lor A' B').
Proof. intros H1 H2 i. rewrite !N.lor_spec, !orb_true_iff. intros [H|H]; auto. Qed.
Lemma disj_sym A B : disj A B -> disj B A.
Proof. intros H i X Y. eapply H; eauto. Qed.
Lemma filter_map_comm {A B} (p : B -> bool) (g : A -> B) l : filter p (map g l) = map g (filter (fun x => p (g x)) l).
Proof. induction l; cbn; auto. destruct (p (g a)); cbn; now rewrite IHl. Qed.
Lemma relational_join_agree a lc b rc : relational_join a lc b rc =
  flat_map (fun ra => map (fun rb => ra ++ drop_col rc rb) (filter (agree [(lc, rc)] ra) b)) a.
Proof.
  unfold relational_join. apply flat_map_ext. intros ra. f_equal. apply filter_ext. intros rb. cbn. now rewrite andb_true_r.
Qed.
Lemma right_filter_eq r c d : right_filter r c d = true -> width_of r = 2 /\ c = 0 /\ d = 1.
Proof. unfold right_filter. rewrite !andb_true_iff, !Nat.eqb_eq. tauto. Qed.
Lemma two_cases l r a b j1 j2 k1 k2 : right_filter l j1 j2 || right_filter r k1 k2 = false ->
  two_column_join (width_of l) (width_of r) a b j1 j2 k1 k2 = TcjThrow.
Proof. unfold two_column_join, right_filter. now intros ->. Qed.
Lemma jcs_pair ma mb x y : jcs_of ma mb [x; y] -> join_columns ma mb = [x; y] \/ join_columns ma mb = [y; x].
Proof. intros H. apply Permutation_length_2_inv in H. tauto. Qed.
Lemma jcs_ok ma mb wa wb jcs : describes ma wa -> describes mb wb -> jcs_of ma mb jcs -> jcs <> [] -> join_columns_ok wa wb jcs.
Proof.
  intros Ha Hb J Ne. destruct (jcs_nodup _ _ _ _ _ Ha Hb J). split; auto. split; auto. split; auto.
  apply Forall_forall. intros p Hp. eapply jcs_lt; eauto.
Qed.
Lemma multi_join_width wa wb a b jcs : width wa a -> width wb b -> join_columns_ok wa wb jcs ->
  width (wa + wb - length jcs) (multi_join a b jcs).
Proof.
  intros Wa Wb (_ & _ & N2 & Lt). unfold width, multi_join. apply Forall_forall. intros x Hx. apply in_flat_map in Hx.
  destruct Hx as (ra & Ha & Hx). apply in_map_iff in Hx. destruct Hx as (rb & <- & Hb). apply filter_In in Hb.
  assert (L : Forall (fun c => c < wb) (map snd jcs)).
  { apply Forall_forall. intros c Hc. apply in_map_iff in Hc. destruct Hc as (p & <- & Hp). rewrite Forall_forall in Lt.
    apply (Lt p Hp). }
  pose proof (drop_cols_length _ N2 wb rb (width_in _ _ _ Wb (proj1 Hb)) L) as DL. rewrite map_length in DL.
  assert (length jcs <= wb).
  { rewrite <- (map_length snd). rewrite <- (seq_length wb 0). apply NoDup_incl_length; auto.
    intros c Hc. rewrite Forall_forall in L. apply in_seq. specialize (L c Hc). lia. }
  rewrite app_length, (width_in _ _ _ Wa Ha). lia.
Qed.
Lemma prefix_eq_same p l : prefix_eqb p l = true -> length p = length l -> p = l.
Proof.
  intros H L. destruct (prefix_eqb_app _ _ H) as (s & ->). rewrite app_length in L. destruct s; [now rewrite app_nil_r|cbn in L; lia].
Qed.

Section Inv.
Variable o : oracle.
Variable voc : string -> option N.
Variable ix : index.
Variable sat : filt -> list (option N) -> bool.
Variable leaf : nat -> table -> Prop.
Variable U : list string.
Variable n : nat.                                  (* number of nodes: triples and nested patterns *)
Variable nvars npriv : nat -> list string.         (* their variables, and those the planner invented for them *)
Variable nbag : nat -> list mapping.               (* their solutions *)
Variable fs : list filt.
Hypothesis HU : NoDup U.
Hypothesis Hiter : forall t, Permutation (iter o t) (vars o t).
Hypothesis nlens : forall i, lens (length U) (nbag i).
Hypothesis npriv_disj : forall i j v, In v (npriv i) -> In v (npriv j) -> i = j.
Hypothesis ndom : forall i m, In m (nbag i) -> dom_is U (fun v => In v (nvars i)) m.
Hypothesis nnodup : forall i, NoDup (nbag i).
Hypothesis Hfs : forall f v i, In f fs -> In v (filter_vars f) -> ~ In v (npriv i).

Notation runs := (computes o voc ix sat leaf).
Definition bagM (M : N) : list mapping := bag (length U) nbag M n.
Definition read (m : var_map) (r : row) : mapping := map (value m r) U.
Definition satm (f : filt) (mu : mapping) : bool := sat f (map (get U mu) (filter_vars f)).
Definition keep (G : N) (mu : mapping) : bool :=
  forallb (fun i => negb (N.testbit G (N.of_nat i)) ||
                    match nth_error fs i with Some f => satm f mu | None => true end) (seq 0 (length fs)).
(* a result of t; a full scan has none, but is joined as if it had *)
Definition denotes (t : tree) (tab : table) : Prop :=
  runs t tab \/ exists ord vs, t = Scan ord [] vs /\ dummy t = true /\ tab = ix ord.
Definition fcovered (t : tree) (i : nat) : Prop :=
  exists f, nth_error fs i = Some f /\ forall v, In v (filter_vars f) -> var_find (vars o t) v <> None.
Definition solves (m : var_map) (M G : N) (tab : table) : Prop :=
  Permutation (map (read m) tab) (filter (keep G) (bagM M)).
Definition sem (t : tree) (M F : N) (tab : table) : Prop :=
  width (width_of t) tab /\ sorted_lex (sorted_of t) tab /\
  exists G, sub F G /\ (forall i, N.testbit G (N.of_nat i) = true -> fcovered t i) /\ solves (vars o t) M G tab.

Record Inv (t : tree) (M F : N) : Prop := {
  i_full : full (vars o t) (width_of t);
  i_dom : forall v, In v U ->
    (var_find (vars o t) v <> None <-> exists i, N.testbit M (N.of_nat i) = true /\ In v (nvars i));
  i_priv : forall v, ~ In v U -> var_find (vars o t) v <> None ->
    exists i, N.testbit M (N.of_nat i) = true /\ In v (npriv i);
  i_bits : forall i, N.testbit M (N.of_nat i) = true -> i < n;
  i_filters : forall i, N.testbit F (N.of_nat i) = true -> fcovered t i;
  i_sem : tree_ok o t = true -> forall tab, denotes t tab -> sem t M F tab }.

(* ---------- the bags of sets of nodes ---------- *)
Lemma bag_dom M k m : In m (bag (length U) nbag M k) ->
  dom_is U (fun v => exists i, i < k /\ N.testbit M (N.of_nat i) = true /\ In v (nvars i)) m.
Proof.
  revert m. induction k as [|k IH]; intros m Hm; cbn [bag] in Hm.
  - destruct Hm as [<-|[]]. intros v Hv. split; [|intros (i & Hi & _); lia]. intros H. elim H. clear.
    unfold unit_map. induction U as [|u V IH]; cbn; auto. destruct (String.eqb u v); auto.
  - assert (X : forall v, In v U -> (exists i, i < S k /\ N.testbit M (N.of_nat i) = true /\ In v (nvars i)) <->
       (N.testbit M (N.of_nat k) = true /\ In v (nvars k)) \/
       (exists i, i < k /\ N.testbit M (N.of_nat i) = true /\ In v (nvars i))).
    { intros v Hv. split.
      - intros (i & Hi & H). destruct (Nat.eq_dec i k) as [->|]; [auto|]. right. exists i. split; [lia|auto].
      - intros [[H1 H2]|(i & Hi & H)]; [exists k|exists i]; (split; [lia|auto]). }
    intros v Hv. rewrite X by auto. destruct (N.testbit M (N.of_nat k)) eqn:E.
    + apply bjoin_in in Hm. destruct Hm as (a & b & Ha & Hb & _ & ->).
      pose proof (dom_merge U _ _ a b (lens_in _ _ _ (nlens k) Ha) (lens_in _ _ _ (bag_lens _ nbag nlens M k) Hb)
        (ndom k a Ha) (IH b Hb) v Hv) as D. rewrite D. intuition.
    + rewrite (IH m Hm v Hv). intuition congruence.
Qed.
Lemma bag_nodup M k : NoDup (bag (length U) nbag M k).
Proof.
  induction k; cbn [bag]; [repeat constructor; intros []|]. destruct (N.testbit M (N.of_nat k)); auto.
  apply (bjoin_nodup U HU (fun v => In v (nvars k)) (fun v => exists i, i < k /\ N.testbit M (N.of_nat i) = true /\ In v (nvars i)));
    auto using bag_lens. apply bag_dom.
Qed.
(* the variables of a set of nodes *)
Definition mvar (M : N) (v : string) : Prop := exists i, i < n /\ N.testbit M (N.of_nat i) = true /\ In v (nvars i).
Lemma bagM_dom M m : In m (bagM M) -> dom_is U (mvar M) m.
Proof. apply bag_dom. Qed.
Lemma bagM_lens M : lens (length U) (bagM M).
Proof. now apply bag_lens. Qed.

Lemma inv_mvar t M F v : Inv t M F -> In v U -> (var_find (vars o t) v <> None <-> mvar M v).
Proof.
  intros I Hv. rewrite (i_dom _ _ _ I v Hv). unfold mvar. split; intros (i & H); exists i; [|tauto].
  split; [|auto]. apply (i_bits _ _ _ I). tauto.
Qed.
Lemma inv_common l r Ml Fl Mr Fr v : Inv l Ml Fl -> Inv r Mr Fr -> disj Ml Mr ->
  var_find (vars o l) v <> None -> var_find (vars o r) v <> None -> In v U.
Proof.
  intros Il Ir D Hl Hr. destruct (in_dec string_dec v U) as [|N]; auto. exfalso.
  destruct (i_priv _ _ _ Il v N Hl) as (i & B1 & H1). destruct (i_priv _ _ _ Ir v N Hr) as (j & B2 & H2).
  assert (i = j) by eauto. subst. eapply D; eauto.
Qed.

(* ---------- filters ---------- *)
Lemma nat_of_bit i : exists j, i = N.of_nat j.
Proof. exists (N.to_nat i). now rewrite N2Nat.id. Qed.
Lemma keep_true G mu : keep G mu = true <->
  forall i f, nth_error fs i = Some f -> N.testbit G (N.of_nat i) = true -> satm f mu = true.
Proof.
  unfold keep. rewrite forallb_forall. split.
  - intros H i f E T. specialize (H i). rewrite T, E in H. cbn in H. apply H. apply in_seq.
    assert (i < length fs) by (apply nth_error_Some; congruence). lia.
  - intros H i Hi. destruct (N.testbit G (N.of_nat i)) eqn:T; cbn; auto. destruct (nth_error fs i) eqn:E; eauto.
Qed.
Lemma satm_ext f a b : (forall v, In v (filter_vars f) -> get U a v = get U b v) -> satm f a = satm f b.
Proof. intros H. unfold satm. f_equal. apply map_ext_in. exact H. Qed.
Lemma keep_lor G1 G2 a b : length a = length U -> length b = length U -> compat a b = true ->
  (forall i f v, nth_error fs i = Some f -> N.testbit G1 (N.of_nat i) = true -> In v (filter_vars f) -> get U a v <> None) ->
  (forall i f v, nth_error fs i = Some f -> N.testbit G2 (N.of_nat i) = true -> In v (filter_vars f) -> get U b v <> None) ->
  keep (N.lor G1 G2) (merge_map a b) = keep G1 a && keep G2 b.
Proof.
  intros La Lb C Ha Hb. apply eq_iff_eq_true. rewrite andb_true_iff, !keep_true.
  assert (E1 : forall i f, nth_error fs i = Some f -> N.testbit G1 (N.of_nat i) = true -> satm f (merge_map a b) = satm f a).
  { intros i f E T. apply satm_ext. intros v Hv. rewrite get_merge by auto. specialize (Ha i f v E T Hv).
    destruct (get U a v); [reflexivity|congruence]. }
  assert (E2 : forall i f, nth_error fs i = Some f -> N.testbit G2 (N.of_nat i) = true -> satm f (merge_map a b) = satm f b).
  { intros i f E T. rewrite (merge_comm a b C). apply satm_ext. intros v Hv. rewrite get_merge by auto.
    specialize (Hb i f v E T Hv). destruct (get U b v); [reflexivity|congruence]. }
  split.
  - intros H. split; intros i f E T; [rewrite <- (E1 i f E T)|rewrite <- (E2 i f E T)]; apply (H i f E);
      rewrite N.lor_spec, T; auto using orb_true_r.
  - intros [H1 H2] i f E T. rewrite N.lor_spec, orb_true_iff in T. destruct T as [T|T].
    + rewrite (E1 i f E T); eauto.
    + rewrite (E2 i f E T); eauto.
Qed.
Lemma fcovered_get t M F G i f v m : Inv t M F -> (forall i, N.testbit G (N.of_nat i) = true -> fcovered t i) ->
  nth_error fs i = Some f -> N.testbit G (N.of_nat i) = true -> In v (filter_vars f) -> In m (bagM M) -> get U m v <> None.
Proof.
  intros I HG E T Hv Hm. destruct (HG i T) as (f' & E' & C). rewrite E in E'. injection E' as <-. specialize (C v Hv).
  assert (Uv : In v U).
  { destruct (in_dec string_dec v U) as [|N]; auto. exfalso. destruct (i_priv _ _ _ I v N C) as (j & _ & P).
    apply (Hfs f v j); auto. eapply nth_error_In; eauto. }
  apply (bagM_dom M m Hm v Uv). apply (inv_mvar t M F v I Uv). exact C.
Qed.
Lemma bjoin_filters l r Ml Fl Mr Fr Gl Gr : Inv l Ml Fl -> Inv r Mr Fr -> disj Ml Mr ->
  (forall i, N.testbit Gl (N.of_nat i) = true -> fcovered l i) ->
  (forall i, N.testbit Gr (N.of_nat i) = true -> fcovered r i) ->
  Permutation (bjoin (filter (keep Gl) (bagM Ml)) (filter (keep Gr) (bagM Mr)))
    (filter (keep (N.lor Gl Gr)) (bagM (N.lor Ml Mr))).
Proof.
  intros Il Ir D Hl Hr. unfold bagM at 3. rewrite <- (perm_filter _ _ _ (bag_disjoint (length U) nbag nlens Ml Mr n D)).
  fold (bagM Ml) (bagM Mr). unfold bjoin. rewrite filter_flat_map, flat_map_filter.
  apply Permutation_refl'. apply flat_map_ext_in. intros a Ha. rewrite filter_flat_map.
  assert (La : length a = length U) by (eapply lens_in; [apply bagM_lens|eauto]).
  transitivity (flat_map (fun b => if compat a b then if keep Gl a && keep Gr b then [merge_map a b] else [] else []) (bagM Mr)).
  - destruct (keep Gl a) eqn:K.
    + rewrite flat_map_filter. apply flat_map_ext_in. intros b Hb. destruct (keep Gr b), (compat a b); reflexivity.
    + cbn [andb]. rewrite <- (Plan_Proof1.flat_map_nil (bagM Mr)) at 1. apply flat_map_ext_in. intros b Hb. now destruct (compat a b).
  - apply flat_map_ext_in. intros b Hb. destruct (compat a b) eqn:C; auto. cbn [filter].
    assert (Lb : length b = length U) by (eapply lens_in; [apply bagM_lens|eauto]).
    rewrite keep_lor; auto.
    + intros i f v E T Hv. eapply (fcovered_get l Ml Fl Gl); eauto.
    + intros i f v E T Hv. eapply (fcovered_get r Mr Fr Gr); eauto.
Qed.

(* ---------- reading rows as mappings ---------- *)
Lemma read_length m r : length (read m r) = length U.
Proof. apply map_length. Qed.
Lemma read_get m r v : In v U -> get U (read m r) v = value m r v.
Proof. intros H. apply get_map. exact H. Qed.
Lemma read_compat l r Ml Fl Mr Fr jcs ra rb : Inv l Ml Fl -> Inv r Mr Fr -> disj Ml Mr ->
  jcs_of (vars o l) (vars o r) jcs -> agree jcs ra rb = compat (read (vars o l) ra) (read (vars o r) rb).
Proof.
  intros Il Ir D J. pose proof (full_desc _ _ (i_full _ _ _ Il)) as Dl. pose proof (full_desc _ _ (i_full _ _ _ Ir)) as Dr.
  rewrite (agree_perm _ _ ra rb J). apply eq_iff_eq_true. rewrite (C46_join_columns _ _ _ _ ra rb Dl Dr).
  rewrite (compat_get U HU) by apply read_length. unfold compatible. split.
  - intros H v Hv. rewrite !read_get by auto. destruct (value (vars o l) ra v) eqn:E, (value (vars o r) rb v) eqn:E'; cbn; auto.
    apply N.eqb_eq. eapply H; eauto.
  - intros H v x y Hx Hy. assert (Uv : In v U).
    { eapply (inv_common l r); eauto; unfold value in *.
      - destruct (var_find (vars o l) v); discriminate.
      - destruct (var_find (vars o r) v); discriminate. }
    specialize (H v Uv). rewrite !read_get, Hx, Hy in H by auto. cbn in H. now apply N.eqb_eq.
Qed.
(* rows of a combined with rows of b *)
Lemma read_join l r Ml Fl Mr Fr jcs m comb (a b : table) : Inv l Ml Fl -> Inv r Mr Fr -> disj Ml Mr ->
  jcs_of (vars o l) (vars o r) jcs ->
  (forall ra rb v, In ra a -> In rb b -> agree jcs ra rb = true -> In v U ->
     value m (comb ra rb) v = merged (vars o l) (vars o r) ra rb v) ->
  map (read m) (flat_map (fun ra => map (comb ra) (filter (agree jcs ra) b)) a) =
  bjoin (map (read (vars o l)) a) (map (read (vars o r)) b).
Proof.
  intros Il Ir D J H. unfold bjoin. rewrite map_flat_map, flat_map_concat_map, (flat_map_concat_map _ (map _ a)), map_map.
  f_equal. apply map_ext_in. intros ra Ha. rewrite map_map.
  assert (H' : forall rb v, In rb b -> agree jcs ra rb = true -> In v U ->
     value m (comb ra rb) v = merged (vars o l) (vars o r) ra rb v) by (intros; apply H; auto).
  clear H Ha. induction b as [|rb b IH]; cbn; auto. rewrite (read_compat l r Ml Fl Mr Fr jcs) by auto.
  assert (IH' := IH (fun rb v Hb => H' rb v (or_intror Hb))).
  destruct (compat (read (vars o l) ra) (read (vars o r) rb)) eqn:C; cbn; [|exact IH']. f_equal; [|exact IH'].
  assert (A : agree jcs ra rb = true) by (rewrite (read_compat l r Ml Fl Mr Fr jcs); auto).
  apply (get_ext U HU); rewrite ?read_length; auto; [apply merge_length; apply read_length|].
  intros v Hv. rewrite get_merge by apply read_length. rewrite !read_get by auto. rewrite (H' rb v (or_introl eq_refl) A Hv).
  unfold merged, merge1. destruct (value (vars o l) ra v); reflexivity.
Qed.
Lemma solves_join l r Ml Fl Mr Fr Gl Gr jcs m comb (a b out : table) : Inv l Ml Fl -> Inv r Mr Fr -> disj Ml Mr ->
  jcs_of (vars o l) (vars o r) jcs ->
  (forall ra rb v, In ra a -> In rb b -> agree jcs ra rb = true -> In v U ->
     value m (comb ra rb) v = merged (vars o l) (vars o r) ra rb v) ->
  (forall i, N.testbit Gl (N.of_nat i) = true -> fcovered l i) ->
  (forall i, N.testbit Gr (N.of_nat i) = true -> fcovered r i) ->
  solves (vars o l) Ml Gl a -> solves (vars o r) Mr Gr b ->
  Permutation out (flat_map (fun ra => map (comb ra) (filter (agree jcs ra) b)) a) ->
  solves m (N.lor Ml Mr) (N.lor Gl Gr) out.
Proof.
  intros Il Ir D J H Cl Cr Sl Sr P. unfold solves. rewrite (Permutation_map (read m) P).
  rewrite (read_join l r Ml Fl Mr Fr) by auto. rewrite (bjoin_perm _ _ _ _ Sl Sr). eapply bjoin_filters; eauto.
Qed.

(* ---------- operations with one input ---------- *)
Lemma inv_unary t t' M F : Inv t M F -> vars o t' = vars o t -> width_of t' = width_of t -> tree_ok o t' = tree_ok o t \/
  (tree_ok o t' = true -> tree_ok o t = true) ->
  (forall tab, tree_ok o t' = true -> denotes t' tab -> exists a, runs t a /\
     (width (width_of t) a -> sorted_lex (sorted_of t) a -> sorted_lex (sorted_of t') tab) /\ Permutation tab a) ->
  Inv t' M F.
Proof.
  intros I Ev Ew Ok H. destruct I as [I1 I2 I3 I4 I5 I6]. constructor; unfold fcovered in *; rewrite ?Ev, ?Ew; auto.
  intros K tab D. destruct (H tab K D) as (a & R & Hs & P). assert (K' : tree_ok o t = true) by (destruct Ok as [<-|]; auto).
  destruct (I6 K' a (or_introl R)) as (W & S & G & G1 & G2 & G3). unfold sem, fcovered. rewrite Ev, Ew. split; [|split].
  - apply (width_perm _ _ _ (Permutation_sym P) W).
  - auto.
  - exists G. split; auto. split; auto. unfold solves in *. rewrite (Permutation_map _ P). auto.
Qed.
Lemma inv_sort t M F c : Inv t M F -> Inv (SortT t c) M F.
Proof.
  intros I. apply (inv_unary t); auto. intros tab _ [D|(ord & vs & E & _)]; [|discriminate].
  inversion D; subst. exists a. split; auto. split.
  - intros _ _. cbn [sorted_of]. eapply sort_sorted_lex; eauto.
  - apply Permutation_sym. match goal with H : sort_result _ _ _ |- _ => apply H end.
Qed.
Lemma inv_order_by t M F key : Inv t M F -> Inv (OrderByT t key) M F.
Proof.
  intros I. apply (inv_unary t); auto.
  - right. cbn [tree_ok]. rewrite andb_true_iff. tauto.
  - intros tab _ [D|(ord & vs & E & _)]; [|discriminate].
    inversion D; subst. exists a. split; auto. split.
    + intros _ _. cbn [sorted_of]. apply (order_by_sorted_lex key [] a tab). now rewrite app_nil_r.
    + apply Permutation_sym. match goal with H : sort_result _ _ _ |- _ => apply H end.
Qed.
Lemma keep_add G i f mu : nth_error fs i = Some f -> keep (N.lor G (bit i)) mu = keep G mu && satm f mu.
Proof.
  intros E. apply eq_iff_eq_true. rewrite andb_true_iff, !keep_true. split.
  - intros H. split.
    + intros j g Ej T. apply (H j g Ej). now rewrite N.lor_spec, T.
    + apply (H i f E). rewrite N.lor_spec, bit_spec, Nat.eqb_refl. apply orb_true_r.
  - intros [H1 H2] j g Ej T. rewrite N.lor_spec, bit_spec, orb_true_iff, Nat.eqb_eq in T. destruct T as [T|<-]; [eauto|congruence].
Qed.
Lemma inv_filter t M F i f : Inv t M F -> nth_error fs i = Some f ->
  (forall v, In v (filter_vars f) -> var_find (vars o t) v <> None) -> Inv (FilterT t f) M (N.lor F (bit i)).
Proof.
  intros I E C. pose proof I as [I1 I2 I3 I4 I5 I6]. constructor; auto.
  - intros j T. rewrite N.lor_spec, bit_spec, orb_true_iff, Nat.eqb_eq in T. destruct T as [T|<-]; [now apply I5|].
    exists f. auto.
  - intros K tab [D|(ord & vs & Q & _)]; [|discriminate]. inversion D; subst.
    match goal with H : runs t a |- _ => destruct (I6 K a (or_introl H)) as (W & S & G & G1 & G2 & G3) end.
    split; [|split].
    + now apply width_filter.
    + now apply sorted_filter.
    + exists (N.lor G (bit i)). split; [|split].
      * intros j. rewrite !N.lor_spec, !orb_true_iff. intros [T|T]; auto.
      * intros j T. rewrite N.lor_spec, bit_spec, orb_true_iff, Nat.eqb_eq in T. destruct T as [T|<-]; [now apply G2|].
        exists f. auto.
      * unfold solves in *. cbn [vars]. transitivity (filter (satm f) (map (read (vars o t)) a)).
        { rewrite filter_map_comm. apply Permutation_refl'. f_equal. apply filter_ext. intros r. unfold satm. f_equal.
          apply map_ext_in. intros v Hv. symmetry. apply read_get.
          destruct (in_dec string_dec v U) as [|Nv]; auto. exfalso. destruct (I3 v Nv (C v Hv)) as (j & _ & P).
          apply (Hfs f v j); auto. eapply nth_error_In; eauto. }
        rewrite (perm_filter _ _ _ G3), filter_filter. apply Permutation_refl'. apply filter_ext. intros mu.
        symmetry. now apply keep_add.
Qed.

(* ---------- joins ---------- *)
Lemma inv_combine l r t Ml Fl Mr Fr F : Inv l Ml Fl -> Inv r Mr Fr -> full (vars o t) (width_of t) ->
  (forall v, var_find (vars o t) v <> None <-> var_find (vars o l) v <> None \/ var_find (vars o r) v <> None) ->
  sub F (N.lor Fl Fr) ->
  (tree_ok o t = true -> forall tab, denotes t tab -> sem t (N.lor Ml Mr) F tab) -> Inv t (N.lor Ml Mr) F.
Proof.
  intros Il Ir Fu D SF H. constructor; auto.
  - intros v Hv. rewrite D, (i_dom _ _ _ Il v Hv), (i_dom _ _ _ Ir v Hv). split.
    + intros [(i & B & X)|(i & B & X)]; exists i; rewrite N.lor_spec, B; auto using orb_true_r.
    + intros (i & B & X). rewrite N.lor_spec, orb_true_iff in B. destruct B; eauto.
  - intros v Nv Hv. apply D in Hv. destruct Hv as [Hv|Hv].
    + destruct (i_priv _ _ _ Il v Nv Hv) as (i & B & X). exists i. now rewrite N.lor_spec, B.
    + destruct (i_priv _ _ _ Ir v Nv Hv) as (i & B & X). exists i. rewrite N.lor_spec, B. auto using orb_true_r.
  - intros i B. rewrite N.lor_spec, orb_true_iff in B. destruct B as [B|B]; [exact (i_bits _ _ _ Il i B)|exact (i_bits _ _ _ Ir i B)].
  - intros i B. apply SF in B. rewrite N.lor_spec, orb_true_iff in B.
    destruct B as [B|B]; [apply (i_filters _ _ _ Il) in B|apply (i_filters _ _ _ Ir) in B];
      destruct B as (f & E & C); exists f; split; auto; intros v Hv; apply D; auto.
Qed.
Lemma cov_combine l r t Gl Gr :
  (forall v, var_find (vars o t) v <> None <-> var_find (vars o l) v <> None \/ var_find (vars o r) v <> None) ->
  (forall i, N.testbit Gl (N.of_nat i) = true -> fcovered l i) ->
  (forall i, N.testbit Gr (N.of_nat i) = true -> fcovered r i) ->
  forall i, N.testbit (N.lor Gl Gr) (N.of_nat i) = true -> fcovered t i.
Proof.
  intros D Hl Hr i B. rewrite N.lor_spec, orb_true_iff in B.
  destruct B as [B|B]; [apply Hl in B|apply Hr in B]; destruct B as (f & E & C); exists f; split; auto; intros v Hv; apply D; auto.
Qed.
Lemma jcs_compat l r Ml Fl Mr Fr jcs ra rb : Inv l Ml Fl -> Inv r Mr Fr -> jcs_of (vars o l) (vars o r) jcs ->
  agree jcs ra rb = true -> compatible (vars o l) (vars o r) ra rb.
Proof.
  intros Il Ir J A. rewrite (agree_perm _ _ ra rb J) in A.
  exact (proj1 (C46_join_columns _ _ _ _ ra rb (full_desc _ _ (i_full _ _ _ Il)) (full_desc _ _ (i_full _ _ _ Ir))) A).
Qed.

Lemma join_dom l r lc rc Ml Fl Mr Fr v : Inv l Ml Fl -> Inv r Mr Fr -> jcs_of (vars o l) (vars o r) [(lc, rc)] ->
  first_is (sorted_of l) lc = true -> first_is (sorted_of r) rc = true -> dummy l && dummy r = false ->
  full (vars o (JoinT l r lc rc)) (width_of (JoinT l r lc rc)) /\
  (var_find (vars o (JoinT l r lc rc)) v <> None <-> var_find (vars o l) v <> None \/ var_find (vars o r) v <> None).
Proof.
  intros Il Ir J Sl Sr ND. pose proof (i_full _ _ _ Il) as Fl'. pose proof (i_full _ _ _ Ir) as Fr'.
  pose proof (full_desc _ _ Fl') as Dl. pose proof (full_desc _ _ Fr') as Dr. cbn [vars width_of].
  assert (Z : forall t c, dummy t = true -> first_is (sorted_of t) c = true -> c = 0 /\ width_of t = 3).
  { intros t c H1 H2. unfold dummy in H1. destruct t; cbn in H1; try discriminate. cbn in *.
    apply Nat.eqb_eq in H1. rewrite H1 in H2. cbn in H2. destruct c; [auto|discriminate]. }
  destruct (dummy l) eqn:El, (dummy r) eqn:Er; cbn [negb andb] in *; try discriminate.
  - destruct (Z l lc El Sl) as [-> W]. split; [eapply scan_left_full; eauto|].
    rewrite (scan_left_find _ _ _ _ _ v Dl Dr J).
    destruct (var_find (vars o l) v), (var_find (vars o r) v); cbn [option_map]; intuition congruence.
  - destruct (Z r rc Er Sr) as [-> W]. split; [eapply scan_right_full; eauto|].
    rewrite (scan_right_find _ _ _ _ _ v Dl Dr J).
    destruct (var_find (vars o l) v), (var_find (vars o r) v); cbn [option_map]; intuition congruence.
  - split; [eapply join_full; eauto|]. rewrite (join_find _ _ _ _ _ _ v Dl Dr J).
    destruct (var_find (vars o l) v), (var_find (vars o r) v); cbn [option_map]; intuition congruence.
Qed.

Lemma inv_join l r lc rc Ml Fl Mr Fr : Inv l Ml Fl -> Inv r Mr Fr -> disj Ml Mr ->
  jcs_of (vars o l) (vars o r) [(lc, rc)] -> first_is (sorted_of l) lc = true -> first_is (sorted_of r) rc = true ->
  dummy l && dummy r = false -> Inv (JoinT l r lc rc) (N.lor Ml Mr) (N.lor Fl Fr).
Proof.
  intros Il Ir D J Sl Sr ND. pose proof (fun v => join_dom l r lc rc Ml Fl Mr Fr v Il Ir J Sl Sr ND) as JD.
  pose proof (full_desc _ _ (i_full _ _ _ Il)) as Dl. pose proof (full_desc _ _ (i_full _ _ _ Ir)) as Dr.
  destruct (jcs_single_lt _ _ _ _ _ _ Dl Dr J) as [Lc Rc].
  apply (inv_combine l r _ Ml Fl Mr Fr); auto; [apply (JD ""%string)|intros v; apply JD|intros i; auto|].
  cbn [tree_ok]. rewrite andb_true_iff. intros [Kl Kr] tab [R|(ord & vs & Q & _)]; [|discriminate].
  inversion R; subst.
  - (* CJoin *)
    match goal with H : runs l a |- _ => destruct (i_sem _ _ _ Il Kl a (or_introl H)) as (Wa & Sa & Ga & A1 & A2 & A3) end.
    match goal with H : runs r b |- _ => destruct (i_sem _ _ _ Ir Kr b (or_introl H)) as (Wb & Sb & Gb & B1 & B2 & B3) end.
    assert (Sa' := first_is_sorted _ _ _ Sl Sa). assert (Sb' := first_is_sorted _ _ _ Sr Sb).
    match goal with H : join a lc b rc = Some tab |- _ => rewrite (C07_join_correct_partial a b lc rc Sa' Sb') in H by auto;
      injection H as <- end.
    split; [|split].
    + cbn [width_of]. unfold width, relational_join. apply Forall_forall. intros x Hx. apply in_flat_map in Hx.
      destruct Hx as (ra & Ha & Hx). apply in_map_iff in Hx. destruct Hx as (rb & <- & Hb). apply filter_In in Hb.
      rewrite app_length, drop_col_length; rewrite (width_in _ _ _ Wb (proj1 Hb)); [|auto].
      rewrite (width_in _ _ _ Wa Ha). lia.
    + cbn [sorted_of]. match goal with H : dummy l = false |- _ => rewrite H end. apply sorted_lex_one.
      eapply C07_join_sorted; eauto.
    + exists (N.lor Ga Gb). split; [now apply sub_lor|]. split; [apply (cov_combine l r); auto; intros v; apply JD|].
      eapply (solves_join l r) with (comb := fun ra rb => ra ++ drop_col rc rb); eauto.
      * intros ra rb v Ha Hb _ _. cbn [vars]. repeat match goal with H : dummy _ = false |- _ => rewrite H; clear H end.
        cbn [negb andb]. eapply C46_join; eauto using jcs_single; eapply width_in; eauto.
      * rewrite relational_join_agree. apply Permutation_refl.
  - (* CJoinEmpty *)
    match goal with H : runs l [] |- _ => destruct (i_sem _ _ _ Il Kl [] (or_introl H)) as (Wa & Sa & Ga & A1 & A2 & A3) end.
    split; [constructor|]. split; [constructor|]. exists (N.lor Ga Fr). split; [apply sub_lor; auto; intros i; auto|].
    pose proof (i_filters _ _ _ Ir) as B2. split; [apply (cov_combine l r); auto; intros v; apply JD|].
    unfold solves. cbn [map]. unfold solves in A3. cbn [map] in A3. apply Permutation_nil in A3.
    pose proof (bjoin_filters l r Ml Fl Mr Fr Ga Fr Il Ir D A2 B2) as P. rewrite A3 in P. exact P.
  - (* CFullLeft *)
    match goal with H : dummy (Scan ord [] vs) = true |- _ => rename H into Hd end.
    assert (Dn : denotes (Scan ord [] vs) (ix ord)) by (right; eauto).
    destruct (i_sem _ _ _ Il Kl _ Dn) as (Wa & Sa & Ga & A1 & A2 & A3).
    match goal with H : runs r b |- _ => destruct (i_sem _ _ _ Ir Kr b (or_introl H)) as (Wb & Sb & Gb & B1 & B2 & B3) end.
    assert (L3 : length vs = 3) by (unfold dummy in Hd; cbn in Hd; now apply Nat.eqb_eq).
    assert (lc = 0) as -> by (cbn in Sl; rewrite L3 in Sl; cbn in Sl; destruct lc; [auto|discriminate]).
    assert (Sb' := first_is_sorted _ _ _ Sr Sb).
    destruct (C07_full_scan_left (ix ord) b rc (full_scan_method ix ord) (fun id => eq_refl)) as [P SP].
    cbn [width_of] in Wa. rewrite L3 in Wa. split; [|split].
    + apply (width_perm _ _ _ (Permutation_sym P)). cbn [width_of]. rewrite L3. unfold width. apply Forall_forall. intros x Hx.
      apply in_flat_map in Hx. destruct Hx as (rb & Hb & Hx). apply in_map_iff in Hx. destruct Hx as (f & <- & Hf). apply filter_In in Hf.
      rewrite app_length, drop_col_length; rewrite (width_in _ _ _ Wa (proj1 Hf)); [|lia]. rewrite (width_in _ _ _ Wb Hb). lia.
    + cbn [sorted_of]. rewrite Hd. apply sorted_lex_one. auto.
    + exists (N.lor Ga Gb). split; [now apply sub_lor|]. split; [apply (cov_combine (Scan ord [] vs) r); auto; intros v; apply JD|].
      rewrite (N.lor_comm Ml), (N.lor_comm Ga). pose proof (jcs_swap _ _ _ _ _ Dl Dr J) as J'. cbn [map fst snd] in J'.
      eapply (solves_join r (Scan ord [] vs)) with (jcs := [(rc, 0)]) (comb := fun rb f => drop_col 0 f ++ rb); eauto using disj_sym.
      * intros rb f v Hb Hf A Hv. pose proof (jcs_compat _ _ _ _ _ _ _ _ _ Ir Il J' A) as Cm.
        rewrite (merged_sym _ _ _ _ v Cm). cbn [vars]. rewrite Hd. cbn [negb andb].
        replace (dummy r) with false by (symmetry; rewrite Hd in ND; exact ND).
        pose proof (width_in _ _ _ Wa Hf) as Lf. destruct f as [|x [|y [|z [|]]]]; cbn in Lf; try lia.
        cbn [drop_col firstn skipn app]. cbn in A. rewrite andb_true_r in A. apply N.eqb_eq in A.
        rewrite <- (C46_join_scan_left _ _ (width_of r) rc rb x y z v); auto.
        -- cbn [vars width_of] in Dl. rewrite L3 in Dl. exact Dl.
        -- exact (jcs_single _ _ _ _ J).
        -- eapply width_in; eauto.
      * rewrite P. apply Permutation_refl'. apply flat_map_ext. intros rb. f_equal. apply filter_ext. intros f. cbn.
        rewrite andb_true_r. apply N.eqb_sym.
  - (* CFullRight *)
    match goal with H : dummy (Scan ord [] vs) = true |- _ => rename H into Hd end.
    match goal with H : dummy l = false |- _ => rename H into Hl end.
    assert (Dn : denotes (Scan ord [] vs) (ix ord)) by (right; eauto).
    destruct (i_sem _ _ _ Ir Kr _ Dn) as (Wb & Sb & Gb & B1 & B2 & B3).
    match goal with H : runs l a |- _ => destruct (i_sem _ _ _ Il Kl a (or_introl H)) as (Wa & Sa & Ga & A1 & A2 & A3) end.
    assert (L3 : length vs = 3) by (unfold dummy in Hd; cbn in Hd; now apply Nat.eqb_eq).
    assert (rc = 0) as -> by (cbn in Sr; rewrite L3 in Sr; cbn in Sr; destruct rc; [auto|discriminate]).
    assert (Sa' := first_is_sorted _ _ _ Sl Sa).
    rewrite (C07_full_scan_right (ix ord) a lc (full_scan_method ix ord) (fun id => eq_refl)).
    cbn [width_of] in Wb. rewrite L3 in Wb. split; [|split].
    + cbn [width_of]. rewrite L3. unfold width, relational_join. apply Forall_forall. intros x Hx. apply in_flat_map in Hx.
      destruct Hx as (ra & Ha & Hx). apply in_map_iff in Hx. destruct Hx as (rb & <- & Hb). apply filter_In in Hb.
      rewrite app_length, drop_col_length; rewrite (width_in _ _ _ Wb (proj1 Hb)); [|lia].
      rewrite (width_in _ _ _ Wa Ha). lia.
    + cbn [sorted_of]. rewrite Hl. apply sorted_lex_one. eapply C07_join_sorted; eauto.
    + exists (N.lor Ga Gb). split; [now apply sub_lor|]. split; [apply (cov_combine l (Scan ord [] vs)); auto; intros v; apply JD|].
      eapply (solves_join l (Scan ord [] vs)) with (comb := fun ra rb => ra ++ drop_col 0 rb); eauto.
      * intros ra f v Ha Hf A Hv. cbn [vars]. rewrite Hd, Hl. cbn [negb andb].
        pose proof (width_in _ _ _ Wb Hf) as Lf. destruct f as [|x [|y [|z [|]]]]; cbn in Lf; try lia.
        cbn [drop_col firstn skipn app]. cbn in A. rewrite andb_true_r in A. apply N.eqb_eq in A.
        apply (C46_join_scan_right _ _ (width_of l) lc ra x y z v); auto.
        -- cbn [vars width_of] in Dr. rewrite L3 in Dr. exact Dr.
        -- exact (jcs_single _ _ _ _ J).
        -- eapply width_in; eauto.
      * rewrite relational_join_agree. apply Permutation_refl.
Qed.

Lemma solves_nodup m M G tab : solves m M G tab -> NoDup tab.
Proof.
  intros H. apply (NoDup_map_inv (read m)). eapply Permutation_NoDup; [apply Permutation_sym; exact H|].
  apply NoDup_filter, bag_nodup.
Qed.

Lemma two_dom l r j1 j2 k1 k2 Ml Fl Mr Fr v : Inv l Ml Fl -> Inv r Mr Fr ->
  jcs_of (vars o l) (vars o r) [(j1, k1); (j2, k2)] ->
  full (vars o (TwoT l r j1 j2 k1 k2)) (width_of (TwoT l r j1 j2 k1 k2)) /\
  (var_find (vars o (TwoT l r j1 j2 k1 k2)) v <> None <-> var_find (vars o l) v <> None \/ var_find (vars o r) v <> None).
Proof.
  intros Il Ir J. pose proof (i_full _ _ _ Il) as Fl'. pose proof (i_full _ _ _ Ir) as Fr'.
  pose proof (full_desc _ _ Fl') as Dl. pose proof (full_desc _ _ Fr') as Dr. cbn [vars width_of].
  pose proof (jcs_swap _ _ _ _ _ Dl Dr J) as J'. cbn [map fst snd] in J'.
  destruct (right_filter r k1 k2) eqn:R.
  - rewrite orb_true_r. unfold two_column_vars. fold (right_filter r k1 k2). rewrite R.
    destruct (right_filter_eq _ _ _ R) as (W & -> & ->). rewrite W. replace (width_of l + 2 - 2) with (width_of l) by lia.
    split; auto. pose proof (two_rel_vars _ _ _ _ _ _ v W Dl Dr J). tauto.
  - destruct (right_filter l j1 j2) eqn:L; cbn [orb].
    + unfold two_column_vars. fold (right_filter r k1 k2). rewrite R.
      destruct (right_filter_eq _ _ _ L) as (W & -> & ->). rewrite W. replace (2 + width_of r - 2) with (width_of r) by lia.
      split; auto. pose proof (two_rel_vars _ _ _ _ _ _ v W Dr Dl J'). tauto.
    + split; [exact (two_else_full _ _ _ _ _ _ Fl' Fr' J)|].
      pose proof (two_else_find _ _ _ _ (j1, k1) (j2, k2) v Dl Dr J) as Q. cbn [snd] in Q. rewrite Q.
      destruct (var_find (vars o l) v), (var_find (vars o r) v); cbn [option_map]; intuition congruence.
Qed.

Lemma inv_two l r j1 j2 k1 k2 Ml Fl Mr Fr F : Inv l Ml Fl -> Inv r Mr Fr -> disj Ml Mr ->
  jcs_of (vars o l) (vars o r) [(j1, k1); (j2, k2)] -> sub F (N.lor Fl Fr) ->
  Inv (TwoT l r j1 j2 k1 k2) (N.lor Ml Mr) F.
Proof.
  intros Il Ir D J SF. pose proof (fun v => two_dom l r j1 j2 k1 k2 Ml Fl Mr Fr v Il Ir J) as JD.
  pose proof (full_desc _ _ (i_full _ _ _ Il)) as Dl. pose proof (full_desc _ _ (i_full _ _ _ Ir)) as Dr.
  pose proof (jcs_swap _ _ _ _ _ Dl Dr J) as J'. cbn [map fst snd] in J'.
  apply (inv_combine l r _ Ml Fl Mr Fr); auto; [apply (JD ""%string)|intros v; apply JD|].
  cbn [tree_ok]. rewrite !andb_true_iff. intros [[Kl Kr] Ko] tab [R|(ord & vs & Q & _)]; [|discriminate].
  inversion R; subst.
  match goal with H : runs l a |- _ => destruct (i_sem _ _ _ Il Kl a (or_introl H)) as (Wa & Sa & Ga & A1 & A2 & A3) end.
  match goal with H : runs r b |- _ => destruct (i_sem _ _ _ Ir Kr b (or_introl H)) as (Wb & Sb & Gb & B1 & B2 & B3) end.
  match goal with H : two_column_join _ _ _ _ _ _ _ _ = _ |- _ => rename H into HT end.
  assert (SG : sub F (N.lor Ga Gb)) by (intros i Hi; apply SF in Hi; revert i Hi; now apply sub_lor).
  destruct (right_filter r k1 k2) eqn:Rr.
  - destruct (right_filter_eq _ _ _ Rr) as (W & -> & ->). apply andb_prop in Ko. destruct Ko as [K1 K2].
    pose proof (sorted_lex_pre _ _ _ K1 Sa) as Sa'. pose proof (sorted_lex_pre _ _ _ K2 Sb) as Sb'.
    rewrite W in HT, Wb. unfold two_column_join in HT. cbn [Nat.eqb andb] in HT. rewrite orb_true_r in HT.
    rewrite (C41_filter_is_join a b j1 j2 Sa' Sb' Wb (solves_nodup _ _ _ _ B3)) in HT. injection HT as <-.
    assert (OK : join_columns_ok (width_of l) (width_of r) [(j1, 0); (j2, 1)]) by (eapply jcs_ok; eauto; discriminate).
    split; [|split].
    + cbn [width_of]. rewrite <- W in Wb. exact (multi_join_width _ _ _ _ _ Wa Wb OK).
    + cbn [sorted_of]. rewrite Rr. exact (C43_multi_column_join_sorted _ _ _ a b OK Wa Sa').
    + exists (N.lor Ga Gb). split; auto. split; [apply (cov_combine l r); auto; intros v; apply JD|].
      eapply (solves_join l r) with (comb := fun ra rb => ra ++ drop_cols [0; 1] rb); eauto.
      intros ra rb v Ha Hb A Hv. rewrite drop_cols_all, app_nil_r.
      * cbn [vars]. rewrite Rr, orb_true_r. rewrite W. rewrite W in Dr. eapply C46_two_column_join; eauto using jcs_pair.
      * rewrite (width_in _ _ _ Wb Hb). intros c Hc. cbn. lia.
  - destruct (right_filter l j1 j2) eqn:Rl.
    + destruct (right_filter_eq _ _ _ Rl) as (W & -> & ->). apply andb_prop in Ko. destruct Ko as [K1 K2].
      pose proof (sorted_lex_pre _ _ _ K1 Sb) as Sb'. pose proof (sorted_lex_pre _ _ _ K2 Sa) as Sa'.
      unfold two_column_join in HT. unfold right_filter in Rr. rewrite W, Rr in HT. cbn [Nat.eqb andb orb] in HT. rewrite W in Wa.
      rewrite (C41_filter_is_join b a k1 k2 Sb' Sa' Wa (solves_nodup _ _ _ _ A3)) in HT. injection HT as <-.
      assert (OK : join_columns_ok (width_of r) (width_of l) [(k1, 0); (k2, 1)]) by (eapply jcs_ok; eauto; discriminate).
      split; [|split].
      * cbn [width_of]. rewrite <- W in Wa. rewrite (Nat.add_comm (width_of l)).
        exact (multi_join_width _ _ _ _ _ Wb Wa OK).
      * cbn [sorted_of]. unfold right_filter. rewrite Rr. exact (C43_multi_column_join_sorted _ _ _ b a OK Wb Sb').
      * exists (N.lor Ga Gb). split; auto. split; [apply (cov_combine l r); auto; intros v; apply JD|].
        rewrite (N.lor_comm Ml), (N.lor_comm Ga).
        eapply (solves_join r l) with (comb := fun ra rb => ra ++ drop_cols [0; 1] rb); eauto using disj_sym.
        intros ra rb v Ha Hb A Hv. rewrite drop_cols_all, app_nil_r.
        -- pose proof (jcs_compat _ _ _ _ _ _ _ _ _ Ir Il J' A) as Cm. rewrite (merged_sym _ _ _ _ v Cm). cbn [vars].
           fold (right_filter r k1 k2) in Rr. rewrite Rr, Rl. cbn [orb]. rewrite W in Dl.
           eapply C46_two_column_join_left; eauto using jcs_pair, compatible_sym.
           unfold right_filter in Rr. rewrite !andb_false_iff, !Nat.eqb_neq in Rr. tauto.
        -- rewrite (width_in _ _ _ Wa Hb). intros c Hc. cbn. lia.
    + rewrite two_cases in HT; [discriminate|]. now rewrite Rl, Rr.
Qed.

Lemma inv_multi l r jcs Ml Fl Mr Fr : Inv l Ml Fl -> Inv r Mr Fr -> disj Ml Mr ->
  jcs_of (vars o l) (vars o r) jcs -> jcs <> [] -> Inv (MultiT l r jcs) (N.lor Ml Mr) (N.lor Fl Fr).
Proof.
  intros Il Ir D J Ne. pose proof (i_full _ _ _ Il) as Fl'. pose proof (i_full _ _ _ Ir) as Fr'.
  pose proof (full_desc _ _ Fl') as Dl. pose proof (full_desc _ _ Fr') as Dr.
  assert (JD : forall v, var_find (vars o (MultiT l r jcs)) v <> None <->
    var_find (vars o l) v <> None \/ var_find (vars o r) v <> None).
  { intros v. cbn [vars]. eapply multi_dom; eauto. }
  apply (inv_combine l r _ Ml Fl Mr Fr); auto; [|intros i; auto|].
  { cbn [vars width_of]. eapply multi_full; eauto. }
  cbn [tree_ok]. rewrite !andb_true_iff. intros [[[[Kl Kr] K1] K2] K3] tab [R|(ord & vs & Q & _)]; [|discriminate].
  inversion R; subst.
  match goal with H : runs l a |- _ => destruct (i_sem _ _ _ Il Kl a (or_introl H)) as (Wa & Sa & Ga & A1 & A2 & A3) end.
  match goal with H : runs r b |- _ => destruct (i_sem _ _ _ Ir Kr b (or_introl H)) as (Wb & Sb & Gb & B1 & B2 & B3) end.
  match goal with H : multi_column_join _ _ _ _ = _ |- _ => rename H into HT end.
  pose proof (sorted_lex_pre _ _ _ K1 Sa) as Sa'. pose proof (sorted_lex_pre _ _ _ K2 Sb) as Sb'.
  assert (OK : join_columns_ok (width_of l) (width_of r) jcs) by (eapply jcs_ok; eauto).
  assert (E : tab = multi_join a b jcs).
  { destruct (le_gt_dec (width_of r) 32) as [L|L].
    - rewrite (C10_multi_column_join _ _ _ a b L OK Wb Sa' Sb') in HT. congruence.
    - unfold multi_column_join in HT. unfold multi_join. destruct a as [|ra a]; [injection HT as <-; reflexivity|].
      destruct b as [|rb b].
      + injection HT as <-. symmetry. cbn. transitivity (flat_map (fun _ : row => @nil row) a); [|apply Plan_Proof1.flat_map_nil].
        now apply flat_map_ext.
      + assert (X : forallb (fun c => c <? 32) (seq 0 (width_of r)) = false).
        { apply not_true_iff_false. rewrite forallb_forall. intros H. specialize (H 32). rewrite in_seq in H.
          assert (32 <? 32 = true) by (apply H; lia). discriminate. }
        rewrite X in HT. destruct (bitmap (map snd jcs)); discriminate. }
  subst tab. split; [|split].
  - exact (multi_join_width _ _ _ _ _ Wa Wb OK).
  - exact (C43_multi_column_join_sorted _ _ _ a b OK Wa Sa').
  - exists (N.lor Ga Gb). split; [now apply sub_lor|]. split; [apply (cov_combine l r); auto|].
    eapply (solves_join l r) with (comb := fun ra rb => ra ++ drop_cols (map snd jcs) rb); eauto.
    intros ra rb v Ha Hb A Hv. cbn [vars].
    assert (Ni : NoDup (map fst (iter o r))).
    { eapply Permutation_NoDup; [apply Permutation_map, Permutation_sym, Hiter|apply Dr]. }
    assert (FP : forall v, var_find (iter o r) v = var_find (vars o r) v) by (intros x; apply find_perm; auto).
    assert (EJ : join_columns (vars o l) (iter o r) = join_columns (vars o l) (vars o r)) by now apply join_columns_ext.
    assert (MS : map snd (iter o r) = seq 0 (width_of r)).
    { apply prefix_eq_same; auto. rewrite map_length, seq_length, <- (full_length _ _ Fr').
      apply Permutation_length, Hiter. }
    assert (SI : forall c, In c (map snd jcs) <-> In c (map snd (join_columns (vars o l) (iter o r)))).
    { intros c. rewrite EJ. split; intros Hi; [apply (Permutation_in _ (Permutation_map snd J))|
        apply (Permutation_in _ (Permutation_sym (Permutation_map snd J)))]; auto. }
    unfold multi_column_vars. rewrite (multi_vars_ext jcs (join_columns (vars o l) (iter o r))).
    + rewrite (drop_cols_ext _ _ rb SI). fold (multi_column_vars (vars o l) (iter o r) (join_columns (vars o l) (iter o r))).
      transitivity (merged (vars o l) (iter o r) ra rb v).
      * apply (C46_multi_column_partial _ _ (width_of l) (width_of r)); eauto using full_length; try (eapply width_in; eauto).
        apply full_desc. repeat split; auto.
        -- intros x c. rewrite FP. apply Fr'.
        -- intros x y c. rewrite !FP. apply Fr'.
        -- intros c. destruct Fr' as (_ & _ & _ & X). intros Hc. destruct (X c Hc) as (x & E). exists x. now rewrite FP.
      * unfold merged, value. now rewrite FP.
    + intros c. apply eq_iff_eq_true. rewrite !is_jc_in. apply SI.
Qed.
End Inv.
