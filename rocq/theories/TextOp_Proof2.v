(* The columns of the text operations. *)
From Coq Require Import String List NArith Arith Lia Bool Permutation.
From Verif Require Import Std_Model Base ListAux Table_Spec Ops_Model Vars_Model Vars_Thm Fts_Model Fts_Spec TextOp_Spec
  TextOp_Model TextOp_Proof.
Import ListNotations.
Local Open Scope nat_scope.

Definition text_ok (o : text_op) : Prop :=
  NoDup (t_vars o) /\ In (t_cvar o) (t_vars o) /\ ~ In (score_name (t_cvar o)) (t_vars o).
Definition entity_vars (o : text_op) : list string := filter (fun v => negb (String.eqb v (t_cvar o))) (t_vars o).

Lemma value_in_value m r v : value_in m r v = value m r v.
Proof. unfold value_in, value, var_find. destruct (find _ m); reflexivity. Qed.
Lemma var_set_fresh m v c : ~ In v (map fst m) -> var_set m v c = m ++ [(v, c)].
Proof.
  induction m as [|[w d] m IH]; intros H; [reflexivity|]. cbn [var_set app]. destruct (String.eqb_spec w v) as [->|].
  - elim H. now left.
  - rewrite IH; auto. intros Hi. apply H. now right.
Qed.
Lemma add_columns_eq lo vs : forall m c, NoDup vs -> (forall v, In v vs -> lo v = false -> ~ In v (map fst m)) ->
  let kept := filter (fun v => negb (lo v)) vs in
  add_columns lo m c vs = (m ++ combine kept (seq c (length kept)), c + length kept).
Proof.
  induction vs as [|v vs IH]; intros m c N H; cbn [add_columns filter].
  - cbn. now rewrite app_nil_r, Nat.add_0_r.
  - inversion N as [|? ? N1 N2]; subst. destruct (lo v) eqn:E; cbn [negb].
    + apply IH; auto. intros; apply H; simpl; auto.
    + rewrite IH; auto.
      * cbn zeta. rewrite var_set_fresh by (apply H; simpl; auto). cbn [length seq combine].
        rewrite <- app_assoc. cbn [app]. f_equal. lia.
      * intros x Hx Lx. rewrite var_set_fresh by (apply H; simpl; auto). rewrite map_app, in_app_iff. cbn [map fst In].
        intros [C|[C|[]]]; [revert C; apply H; simpl; auto|]. subst x. contradiction.
Qed.

Section Op.
  Variable o : text_op.
  Hypothesis OK : text_ok o.
  Notation cv := (t_cvar o).
  Notation ev := (entity_vars o).
  Notation n := (nof_vars o).

  Lemma score_other : score_name cv <> cv.
  Proof. destruct OK as (_ & H1 & H2). intros E. now rewrite E in H2. Qed.
  Lemma first_columns_eq : first_columns o = [(cv, 0); (score_name cv, 1)].
  Proof.
    unfold first_columns. cbn [var_set]. destruct (String.eqb_spec cv (score_name cv)) as [E|]; [|reflexivity].
    symmetry in E. now apply score_other in E.
  Qed.
  Lemma entity_in v : In v ev <-> In v (t_vars o) /\ v <> cv.
  Proof. unfold entity_vars. rewrite filter_In, negb_true_iff, String.eqb_neq. reflexivity. Qed.
  Lemma entity_nodup : NoDup ev.
  Proof. apply NoDup_filter. apply OK. Qed.
  Lemma entity_length : length ev = n.
  Proof.
    unfold nof_vars, entity_vars. destruct OK as (H1 & H2 & _). revert H1 H2. generalize (t_vars o) as l. generalize cv as c.
    induction l as [|x l IH]; intros N I; [destruct I|]. inversion N as [|? ? N1 N2]; subst. cbn [filter length].
    destruct (String.eqb_spec x c) as [->|Hn]; cbn [negb].
    - clear IH N I. rewrite Nat.sub_succ, Nat.sub_0_r. f_equal.
      induction l as [|y l IH]; cbn [filter]; auto. inversion N2; subst. destruct (String.eqb_spec y c) as [->|]; cbn [negb].
      + elim N1. now left.
      + cbn [length]. f_equal. apply IH; auto. intros C; apply N1; now right.
    - cbn [length]. destruct I as [->|I]; [congruence|]. rewrite IH by auto.
      assert (0 < length l) by (destruct l; [destruct I|cbn; lia]). lia.
  Qed.
  Lemma fresh_vars v : In v (t_vars o) -> v <> cv -> ~ In v (map fst (first_columns o)).
  Proof.
    intros H1 H2. rewrite first_columns_eq. cbn [map fst In]. intros [E|[E|[]]]; [congruence|]. destruct OK as (_ & _ & H).
    apply H. now rewrite E.
  Qed.
  Lemma text_columns_eq : text_columns o = (cv, 0) :: (score_name cv, 1) :: combine ev (seq 2 n).
  Proof.
    unfold text_columns. rewrite add_columns_eq.
    - cbn [fst]. fold ev. rewrite entity_length, first_columns_eq. reflexivity.
    - apply OK.
    - intros v H E. apply fresh_vars; auto. now apply String.eqb_neq.
  Qed.

  (* ---------- one variable in common with the filter ---------- *)
  Variables (fm : var_map) (fw i fcol : nat).
  Hypothesis FM : describes fm fw.
  Hypothesis J : join_columns (text_columns o) fm = [(2 + i, fcol)].

  Lemma join_columns_in ma mb c d : In (c, d) (join_columns ma mb) <-> exists v, In (v, c) ma /\ var_find mb v = Some d.
  Proof.
    induction ma as [|[v e] ma IH]; cbn [join_columns]; [split; [intros []|intros (v & [] & _)]|].
    destruct (var_find mb v) eqn:E; cbn [In]; rewrite IH; split.
    - intros [Q|(w & H1 & H2)]; [injection Q as <- <-|]; eauto.
    - intros (w & [Q|H1] & H2); [|eauto]. injection Q as -> ->. left. congruence.
    - intros (w & H1 & H2); eauto.
    - intros (w & [Q|H1] & H2); [|eauto]. congruence.
  Qed.
  Lemma combine_in (vs : list string) c v x : In (v, x) (combine vs (seq c (length vs))) <-> exists j, x = c + j /\ nth_error vs j = Some v.
  Proof.
    revert c. induction vs as [|w vs IH]; intros c; cbn [length seq combine In].
    - split; [intros []|]. intros (j & _ & H). destruct j; discriminate H.
    - rewrite IH. split.
      + intros [Q|(j & -> & H)]; [injection Q as <- <-; exists 0; split; [lia|auto]|]. exists (S j). split; [lia|auto].
      + intros ([|j] & -> & H); cbn [nth_error] in H; [left; injection H as ->; f_equal; lia|right; exists j; split; [lia|auto]].
  Qed.
  Lemma nth_error_ev j v : nth_error ev j = Some v -> In (v, 2 + j) (text_columns o).
  Proof.
    intros H. rewrite text_columns_eq. right. right. rewrite <- entity_length. apply combine_in. exists j. auto.
  Qed.
  Lemma shared_only v c d : In (v, c) (text_columns o) -> var_find fm v = Some d -> c = 2 + i /\ d = fcol.
  Proof.
    intros H1 H2. assert (H : In (c, d) (join_columns (text_columns o) fm)) by (apply join_columns_in; eauto).
    rewrite J in H. destruct H as [H|[]]. split; congruence.
  Qed.
  Lemma shared_var : exists v, nth_error ev i = Some v /\ var_find fm v = Some fcol.
  Proof.
    assert (H : In (2 + i, fcol) (join_columns (text_columns o) fm)) by (rewrite J; now left).
    apply join_columns_in in H. destruct H as (v & H1 & H2). exists v. split; auto. rewrite text_columns_eq in H1.
    destruct H1 as [H1|[H1|H1]]; [injection H1; lia|injection H1; lia|]. rewrite <- entity_length in H1.
    apply combine_in in H1. destruct H1 as (j & E & H1). replace i with j by lia. exact H1.
  Qed.
  Lemma shared_index : i < n.
  Proof.
    destruct shared_var as (v & H & _). rewrite <- entity_length. apply nth_error_Some. congruence.
  Qed.
  Lemma cvar_unshared : var_find fm cv = None.
  Proof.
    destruct (var_find fm cv) as [d|] eqn:E; auto. exfalso. destruct (shared_only cv 0 d) as [H _]; auto; [|discriminate H].
    rewrite text_columns_eq. now left.
  Qed.
  Lemma score_unshared : var_find fm (score_name cv) = None.
  Proof.
    destruct (var_find fm (score_name cv)) as [d|] eqn:E; auto. exfalso. destruct (shared_only (score_name cv) 1 d) as [H _]; auto; [|discriminate H].
    rewrite text_columns_eq. right. now left.
  Qed.
  Lemma entity_unshared j v : nth_error ev j = Some v -> j <> i -> var_find fm v = None.
  Proof.
    intros H Hj. destruct (var_find fm v) as [d|] eqn:E; auto. exfalso. apply nth_error_ev in H.
    destruct (shared_only _ _ _ H E). lia.
  Qed.

  (* the variables with columns of their own *)
  Lemma split_ev : exists l1 v l2, ev = l1 ++ v :: l2 /\ length l1 = i /\ var_find fm v = Some fcol /\
    Forall (fun x => var_find fm x = None) l1 /\ Forall (fun x => var_find fm x = None) l2.
  Proof.
    destruct shared_var as (v & H1 & H2). destruct (nth_error_split _ _ H1) as (l1 & l2 & E & L).
    exists l1, v, l2. split; auto. split; auto. split; auto. split; apply Forall_forall; intros x Hx.
    - apply In_nth_error in Hx. destruct Hx as [j Hj]. apply (entity_unshared j x).
      + rewrite E, nth_error_app1; auto. apply nth_error_Some. congruence.
      + assert (j < length l1) by (apply nth_error_Some; congruence). lia.
    - apply In_nth_error in Hx. destruct Hx as [j Hj]. apply (entity_unshared (S (i + j)) x); [|lia].
      rewrite E, nth_error_app2 by lia. replace (S (i + j) - length l1) with (S j) by lia. exact Hj.
  Qed.
  Lemma own_vars l1 v l2 : ev = l1 ++ v :: l2 -> var_find fm v = Some fcol ->
    Forall (fun x => var_find fm x = None) l1 -> Forall (fun x => var_find fm x = None) l2 ->
    filter (fun x => negb (String.eqb x cv || known fm x)) (t_vars o) = l1 ++ l2.
  Proof.
    intros E V H1 H2.
    assert (E1 : filter (fun x => negb (String.eqb x cv || known fm x)) (t_vars o) = filter (fun x => negb (known fm x)) ev).
    { unfold entity_vars. generalize (t_vars o). induction l as [|x l IH]; cbn [filter]; auto.
      destruct (String.eqb x cv); cbn [orb negb filter]; auto. destruct (known fm x); cbn [negb]; congruence. }
    rewrite E1, E, filter_app. cbn [filter].
    assert (G : forall l, Forall (fun x => var_find fm x = None) l -> filter (fun x => negb (known fm x)) l = l).
    { induction 1 as [|x l Hx Hl IH]; cbn [filter]; auto. unfold known at 1. rewrite Hx. cbn [negb]. now rewrite IH. }
    unfold known at 2. rewrite V. cbn [negb]. now rewrite !G.
  Qed.
  Lemma find_app m m' x : var_find (m ++ m') x = match var_find m x with Some c => Some c | None => var_find m' x end.
  Proof.
    induction m as [|[w d] m IH]; [reflexivity|]. cbn [app]. rewrite !find_cons. destruct (String.eqb w x); auto.
  Qed.
  Lemma filter_columns_find l1 v l2 x : ev = l1 ++ v :: l2 -> var_find fm v = Some fcol ->
    Forall (fun x => var_find fm x = None) l1 -> Forall (fun x => var_find fm x = None) l2 ->
    var_find (text_filter_columns o fm) x =
    match var_find fm x with
    | Some c => Some (2 + length (l1 ++ l2) + c)
    | None => var_find ((cv, 0) :: (score_name cv, 1) :: combine (l1 ++ l2) (seq 2 (length (l1 ++ l2)))) x
    end.
  Proof.
    intros E V H1 H2. unfold text_filter_columns. rewrite add_columns_eq.
    - rewrite (own_vars l1 v l2) by auto. cbn beta iota zeta. rewrite first_columns_eq.
      change (fold_left (fun m p => var_set m (fst p) (2 + length (l1 ++ l2) + snd p)) fm
        ([(cv, 0); (score_name cv, 1)] ++ combine (l1 ++ l2) (seq 2 (length (l1 ++ l2)))))
        with (add_vars (fun c => Some (2 + length (l1 ++ l2) + c))
          ([(cv, 0); (score_name cv, 1)] ++ combine (l1 ++ l2) (seq 2 (length (l1 ++ l2)))) fm).
      rewrite find_add by apply FM. destruct (var_find fm x); reflexivity.
    - apply OK.
    - intros y Hy Ly. apply orb_false_iff in Ly. destruct Ly as [Ly _]. apply fresh_vars; auto. now apply String.eqb_neq.
  Qed.

  (* ---------- reading rows ---------- *)
  Fixpoint zlook (x : string) (vs : list string) (vals : list N) : option N :=
    match vs, vals with
    | v :: vs', a :: vals' => if String.eqb v x then Some a else zlook x vs' vals'
    | _, _ => None
    end.
  Lemma value_combine x vs : forall c (r : row), c + length vs <= length r ->
    value (combine vs (seq c (length vs))) r x = zlook x vs (skipn c r).
  Proof.
    induction vs as [|v vs IH]; intros c r H; [reflexivity|]. cbn [length seq combine] in *.
    assert (S : exists a, skipn c r = a :: skipn (S c) r /\ col c r = a).
    { clear - H. assert (H' : c < length r) by lia. clear H. revert r H'. unfold col.
      induction c as [|c IH]; intros [|a r] H; cbn [length] in H; try lia.
      - exists a. auto.
      - destruct (IH r) as (b & B1 & B2); [lia|]. exists b. split; [exact B1|exact B2]. }
    destruct S as (a & E1 & E2). rewrite E1. cbn [zlook]. unfold value. rewrite find_cons.
    destruct (String.eqb v x); cbn [option_map]; [now rewrite E2|]. apply IH. lia.
  Qed.
  Lemma zlook_app x l1 : forall k1 l2 k2, length l1 = length k1 ->
    zlook x (l1 ++ l2) (k1 ++ k2) = match zlook x l1 k1 with Some a => Some a | None => zlook x l2 k2 end.
  Proof.
    induction l1 as [|v l1 IH]; intros [|a k1] l2 k2 L; try discriminate L; [reflexivity|]. cbn [app zlook].
    destruct (String.eqb v x); auto.
  Qed.
  Lemma zlook_more x vs : forall vals more, length vs = length vals -> zlook x vs (vals ++ more) = zlook x vs vals.
  Proof.
    induction vs as [|v vs IH]; intros [|a vals] more L; try discriminate L.
    - cbn. destruct more; reflexivity.
    - cbn [app zlook]. destruct (String.eqb v x); auto.
  Qed.
  Lemma value_cons2 c cnt (rest : row) m x :
    value ((cv, 0) :: (score_name cv, 1) :: m) (c :: cnt :: rest) x =
    if String.eqb cv x then Some c else if String.eqb (score_name cv) x then Some cnt else value m (c :: cnt :: rest) x.
  Proof.
    unfold value. rewrite !find_cons. destruct (String.eqb cv x); [reflexivity|].
    destruct (String.eqb (score_name cv) x); reflexivity.
  Qed.
  Lemma text_value c cnt (key : row) x : length key = n ->
    value (text_columns o) (c :: cnt :: key) x =
    if String.eqb cv x then Some c else if String.eqb (score_name cv) x then Some cnt else zlook x ev key.
  Proof.
    intros L. rewrite text_columns_eq, value_cons2. destruct (String.eqb cv x); auto. destruct (String.eqb _ x); auto.
    rewrite <- entity_length, value_combine; [reflexivity|]. cbn [length]. rewrite entity_length. lia.
  Qed.

  (* a row of the text operation with filter gives every variable the value it has in the two rows *)
  Lemma filter_value c cnt (key f : row) x : length key = n -> length f = fw -> nth fcol f 0%N = nth i key 0%N ->
    value_in (text_filter_columns o fm) (c :: cnt :: without i key ++ f) x =
    either (text_columns o) fm (c :: cnt :: key) f x.
  Proof.
    intros L LF E. unfold either. rewrite !value_in_value, text_value by auto.
    destruct split_ev as (l1 & v & l2 & EV & L1 & V & F1 & F2).
    assert (Ln : length (l1 ++ l2) = n - 1).
    { rewrite <- entity_length, EV, !app_length. cbn [length]. lia. }
    pose proof shared_index as Hi.
    assert (Hlt : fcol < fw) by (eapply desc_lt; [exact FM|exact V]).
    assert (Lw : length (without i key) = n - 1) by (rewrite without_length; lia).
    pose proof (TextOp_Proof.nth_split 0%N key i) as SK. rewrite L in SK. specialize (SK Hi).
    assert (NE : ~ In v (l1 ++ l2) /\ In v ev).
    { split; [|rewrite EV; apply in_elt]. intros C. pose proof entity_nodup as ND. rewrite EV in ND. now apply NoDup_remove_2 in ND. }
    unfold value at 1. rewrite (filter_columns_find l1 v l2) by auto. rewrite Ln.
    destruct (var_find fm x) as [d|] eqn:X.
    - assert (Hd : d < fw) by (eapply desc_lt; [exact FM|exact X]). cbn [option_map].
      assert (EC : col (2 + (n - 1) + d) (c :: cnt :: without i key ++ f) = col d f).
      { unfold col. change (nth (2 + (n - 1) + d) (c :: cnt :: without i key ++ f) 0%N) with (nth (n - 1 + d) (without i key ++ f) 0%N).
        rewrite <- Lw. apply app_nth2_plus. }
      rewrite EC. destruct (String.eqb_spec cv x) as [Q|]; [subst x; rewrite cvar_unshared in X; discriminate X|].
      destruct (String.eqb_spec (score_name cv) x) as [Q|]; [subst x; rewrite score_unshared in X; discriminate X|].
      rewrite EV, SK, zlook_app by (rewrite firstn_length; lia).
      assert (Z1 : zlook x l1 (firstn i key) = None).
      { assert (Lf : length l1 = length (firstn i key)) by (rewrite firstn_length; lia). revert Lf F1 X.
        generalize (firstn i key). clear. induction l1 as [|w l1 IH]; intros [|a k] Lf F1 X; try discriminate Lf; [reflexivity|].
        inversion F1; subst. cbn [zlook]. destruct (String.eqb_spec w x) as [->|]; [congruence|]. apply IH; auto. }
      rewrite Z1. cbn [zlook]. destruct (String.eqb_spec v x) as [Q|Q].
      + subst x. assert (d = fcol) by congruence. subst d. f_equal. rewrite <- E. unfold col. apply nth_indep. lia.
      + assert (Z2 : zlook x l2 (skipn (S i) key) = None).
        { revert F2 X. generalize (skipn (S i) key). clear. induction l2 as [|w l2 IH]; intros [|a k] F2 X; auto.
          inversion F2; subst. cbn [zlook]. destruct (String.eqb_spec w x) as [->|]; [congruence|]. apply IH; auto. }
        rewrite Z2. unfold value. now rewrite X.
    - fold (value ((cv, 0) :: (score_name cv, 1) :: combine (l1 ++ l2) (seq 2 (n - 1))) (c :: cnt :: without i key ++ f) x).
      rewrite value_cons2. destruct (String.eqb cv x); auto. destruct (String.eqb _ x); auto.
      rewrite <- Ln, value_combine.
      2:{ cbn [length]. rewrite Ln, app_length, Lw. lia. }
      cbn [skipn]. rewrite zlook_more by lia. unfold without. rewrite EV. rewrite SK at 3.
      rewrite !zlook_app by (rewrite firstn_length; lia).
      destruct (zlook x l1 (firstn i key)); auto. cbn [zlook]. destruct (String.eqb_spec v x) as [->|]; [congruence|].
      unfold value. rewrite X. cbn [option_map]. destruct (zlook x l2 (skipn (S i) key)); reflexivity.
  Qed.

  (* agreeing on the variables in common is agreeing on the column of the filter *)
  Lemma agree_column (t f : row) : length t = 2 + n -> length f = fw ->
    agree (text_columns o) fm t f = (nth fcol f 0 =? nth (2 + i) t 0)%N.
  Proof.
    intros Lt Lf. destruct shared_var as (v & H1 & H2). pose proof shared_index as Hi.
    assert (Hlt : fcol < fw) by (eapply desc_lt; [exact FM|exact H2]).
    assert (C1 : col fcol f = nth fcol f 0%N) by (unfold col; apply nth_indep; lia).
    assert (C2 : col (2 + i) t = nth (2 + i) t 0%N) by (unfold col; apply nth_indep; lia).
    unfold agree. rewrite <- C1, <- C2. apply eq_true_iff_eq. rewrite forallb_forall. split.
    - intros H. specialize (H (v, 2 + i) (nth_error_ev _ _ H1)). cbn [fst snd] in H. rewrite value_in_value in H.
      unfold value in H. rewrite H2 in H. exact H.
    - intros H [x c] Hx. cbn [fst snd]. rewrite value_in_value. unfold value. destruct (var_find fm x) as [d|] eqn:X; [|reflexivity].
      cbn [option_map]. destruct (shared_only _ _ _ Hx X) as [-> ->]. exact H.
  Qed.
End Op.
