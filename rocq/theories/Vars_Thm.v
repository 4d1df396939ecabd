(* Property C46: every variable is read from the column that holds it. *)
From Coq Require Import String List NArith Arith Lia Bool.
From Verif Require Import Table_Spec Ops_Spec Ops_Model ListAux Vars_Model Path_Spec Path_Model.
Import ListNotations.
Local Open Scope nat_scope.

(* ---------- vocabulary ---------- *)
(* the value of variable v in row r, read through the mapping m; None: m does not know v *)
Definition value (m : var_map) (r : row) (v : string) : option N := option_map (fun c => col c r) (var_find m v).
(* a mapping that describes rows of w columns *)
Definition describes (m : var_map) (w : nat) : Prop :=
  NoDup (map fst m) /\ NoDup (map snd m) /\ Forall (fun c => c < w) (map snd m).
(* a variable has the value it has in the left row; if it does not occur there, the one it has in the right row *)
Definition merged (ma mb : var_map) (ra rb : row) (v : string) : option N :=
  match value ma ra v with Some x => Some x | None => value mb rb v end.
(* the rows agree on the variables they have in common *)
Definition compatible (ma mb : var_map) (ra rb : row) : Prop :=
  forall v x y, value ma ra v = Some x -> value mb rb v = Some y -> x = y.

(* ---------- auxiliary facts ---------- *)
Lemma nth_repeat_lt {A} (a d : A) n i : i < n -> nth i (repeat a n) d = a.
Proof. revert i. induction n; intros [|i] H; simpl; auto; try lia. apply IHn. lia. Qed.
Lemma find_set m v c w : var_find (var_set m v c) w = if String.eqb v w then Some c else var_find m w.
Proof.
  induction m as [|[x d] m IH]; cbn [var_set].
  - unfold var_find. cbn [find fst snd]. destruct (String.eqb v w); reflexivity.
  - destruct (String.eqb_spec x v) as [->|Hn].
    + unfold var_find. cbn [find fst snd]. destruct (String.eqb_spec v w); reflexivity.
    + unfold var_find in *. cbn [find fst snd]. destruct (String.eqb_spec x w) as [->|Hw].
      * destruct (String.eqb_spec v w); congruence.
      * exact IH.
Qed.

Definition add_vars (f : nat -> option nat) (m mb : var_map) : var_map :=
  fold_left (fun m p => match f (snd p) with Some i => var_set m (fst p) i | None => m end) mb m.

Lemma find_cons v c m w : var_find ((v, c) :: m) w = if String.eqb v w then Some c else var_find m w.
Proof. unfold var_find. cbn [find fst snd]. destruct (String.eqb v w); reflexivity. Qed.

Lemma find_notin m v : ~ In v (map fst m) -> var_find m v = None.
Proof.
  induction m as [|[x d] m IH]; intros H; auto. rewrite find_cons. destruct (String.eqb_spec x v) as [->|Hn].
  - elim H. now left.
  - apply IH. intros Hi. apply H. now right.
Qed.
Lemma find_in m v c : NoDup (map fst m) -> (var_find m v = Some c <-> In (v, c) m).
Proof.
  induction m as [|[x d] m IH]; intros H; [split; [discriminate|intros []]|].
  inversion H as [|? ? Hx Hm]; subst. rewrite find_cons. destruct (String.eqb_spec x v) as [->|Hn].
  - split; [intros E; injection E as ->; now left|]. intros [E|E]; [congruence|].
    elim Hx. now apply (in_map fst) in E.
  - rewrite IH by exact Hm. split; [now right|]. intros [E|E]; [congruence|exact E].
Qed.

Lemma find_add f mb : forall m v, NoDup (map fst mb) ->
  var_find (add_vars f m mb) v =
  match var_find mb v with
  | Some c => match f c with Some i => Some i | None => var_find m v end
  | None => var_find m v
  end.
Proof.
  induction mb as [|[x d] mb IH]; intros m v H; [reflexivity|].
  inversion H as [|? ? Hx Hm]; subst. unfold add_vars in *. cbn [fold_left]. rewrite IH by exact Hm.
  rewrite find_cons. cbn [fst snd] in *. destruct (String.eqb_spec x v) as [->|Hn].
  - rewrite (find_notin mb v Hx). destruct (f d); auto. rewrite find_set, String.eqb_refl. reflexivity.
  - assert (E : var_find (match f d with Some i => var_set m x i | None => m end) v = var_find m v).
    { destruct (f d); auto. rewrite find_set. destruct (String.eqb_spec x v); congruence. }
    rewrite E. reflexivity.
Qed.

Lemma value_some m r v x : NoDup (map fst m) ->
  (value m r v = Some x <-> exists c, In (v, c) m /\ col c r = x).
Proof.
  intros H. unfold value. destruct (var_find m v) as [c|] eqn:E; cbn [option_map].
  - pose proof E as E'. apply find_in in E'; auto. split.
    + intros Q. injection Q as <-. eauto.
    + intros (d & Hd & <-). apply find_in in Hd; auto. congruence.
  - split; [discriminate|]. intros (d & Hd & _). apply find_in in Hd; auto. congruence.
Qed.

Lemma col_app_l c (r s : row) : c < length r -> col c (r ++ s) = col c r.
Proof. intros H. unfold col. now rewrite app_nth1. Qed.
Lemma col_app_r c (r s : row) : length r <= c -> col c (r ++ s) = col (c - length r) s.
Proof. intros H. unfold col. now rewrite app_nth2. Qed.

Lemma desc_lt m w v c : describes m w -> var_find m v = Some c -> c < w.
Proof.
  intros (H1 & H2 & H3) E. apply find_in in E; auto. rewrite Forall_forall in H3. apply H3.
  now apply (in_map snd) in E.
Qed.
Lemma desc_inj m w v v' c : describes m w -> var_find m v = Some c -> var_find m v' = Some c -> v = v'.
Proof.
  intros (H1 & H2 & H3) E E'. apply find_in in E, E'; auto.
  clear H1 H3. induction m as [|[x d] m IH]; [destruct E|]. inversion H2; subst. destruct E as [E|E], E' as [E'|E'].
  - congruence.
  - injection E as -> ->. elim H1. now apply (in_map snd) in E'.
  - injection E' as -> ->. elim H1. now apply (in_map snd) in E.
  - auto.
Qed.

(* the position of a column after dropping columns *)
Lemma dropped_pos cs : NoDup cs -> forall w c (r : row), length r = w -> c < w -> ~ In c cs ->
  col (c - length (filter (fun d => d <? c) cs)) (drop_cols cs r) = col c r.
Proof.
  intros Hn w c r Hl Hc Hi. unfold drop_cols. rewrite Hl.
  set (P := fun c => negb (existsb (Nat.eqb c) cs)).
  assert (HP : P c = true).
  { unfold P. apply negb_true_iff. destruct (existsb (Nat.eqb c) cs) eqn:E; auto. exfalso.
    apply existsb_exists in E. destruct E as (x & Hx & E). apply Nat.eqb_eq in E. now subst x. }
  (* the dropped columns below c *)
  assert (Hcount : length (filter P (seq 0 c)) + length (filter (fun d => d <? c) cs) = c).
  { assert (E : length (filter (fun x => negb (P x)) (seq 0 c)) = length (filter (fun d => d <? c) cs)).
    { apply Nat.le_antisymm; apply NoDup_incl_length.
      - apply NoDup_filter, seq_NoDup.
      - intros x Hx. apply filter_In in Hx. destruct Hx as [Hx Px]. apply in_seq in Hx.
        unfold P in Px. rewrite negb_involutive in Px. apply existsb_exists in Px. destruct Px as (y & Hy & E).
        apply Nat.eqb_eq in E. subst y. apply filter_In. split; auto. apply Nat.ltb_lt. lia.
      - now apply NoDup_filter.
      - intros x Hx. apply filter_In in Hx. destruct Hx as [Hx Px]. apply Nat.ltb_lt in Px.
        apply filter_In. split; [apply in_seq; lia|]. unfold P. rewrite negb_involutive.
        apply existsb_exists. exists x. split; auto. apply Nat.eqb_refl. }
    rewrite <- E. transitivity (length (seq 0 c)); [|apply seq_length]. clear.
    induction (seq 0 c) as [|y l IH]; auto. cbn [filter]. destruct (P y); cbn [negb length]; lia. }
  replace (c - length (filter (fun d => d <? c) cs)) with (length (filter P (seq 0 c))) by lia.
  unfold col at 1, cols.
  replace (seq 0 w) with (seq 0 c ++ [c] ++ seq (S c) (w - S c)).
  2:{ replace w with (c + (1 + (w - S c))) at 2 by lia. rewrite seq_app. reflexivity. }
  rewrite filter_app, map_app, app_nth2; rewrite map_length; [|lia]. rewrite Nat.sub_diag. cbn [app filter].
  rewrite HP. reflexivity.
Qed.

Lemma drop_cols_length cs : NoDup cs -> forall w (r : row), length r = w -> Forall (fun c => c < w) cs ->
  length (drop_cols cs r) = w - length cs.
Proof.
  intros Hn w r Hl Hc. unfold drop_cols, cols. rewrite map_length, Hl.
  set (P := fun c => negb (existsb (Nat.eqb c) cs)).
  assert (L : length (filter P (seq 0 w)) + length (filter (fun x => negb (P x)) (seq 0 w)) = w).
  { rewrite <- (seq_length w 0) at 3. induction (seq 0 w) as [|y l IH]; auto. cbn [filter].
    destruct (P y); cbn [negb length]; lia. }
  assert (E : length (filter (fun x => negb (P x)) (seq 0 w)) = length cs).
  { apply Nat.le_antisymm; apply NoDup_incl_length.
    - apply NoDup_filter, seq_NoDup.
    - intros x Hx. apply filter_In in Hx. destruct Hx as [Hx Px].
      unfold P in Px. rewrite negb_involutive in Px. apply existsb_exists in Px. destruct Px as (y & Hy & E).
      apply Nat.eqb_eq in E. now subst y.
    - exact Hn.
    - intros x Hx. rewrite Forall_forall in Hc. specialize (Hc x Hx).
      apply filter_In. split; [apply in_seq; lia|]. unfold P. rewrite negb_involutive.
      apply existsb_exists. exists x. split; auto. apply Nat.eqb_refl. }
  lia.
Qed.

(* the join columns are those of the common variables *)
Lemma join_columns_in ma mb p : In p (join_columns ma mb) <->
  exists v, In (v, fst p) ma /\ var_find mb v = Some (snd p).
Proof.
  induction ma as [|[x c] ma IH]; cbn [join_columns].
  - split; [intros []|intros (v & [] & _)].
  - destruct (var_find mb x) as [d|] eqn:E.
    + cbn [In]. rewrite IH. split.
      * intros [<-|(v & Hv & E')]; [exists x; auto|exists v; auto].
      * intros (v & [Q|Hv] & E'); [|right; eauto]. left. destruct p as [p1 p2].
        cbn [fst snd] in *. injection Q as -> ->. congruence.
    + rewrite IH. split; intros (v & Hv & E'); exists v; split; auto; [now right|].
      destruct Hv as [Q|Hv]; auto. injection Q as -> _. congruence.
Qed.

Lemma join_columns_nodup ma mb wa wb : describes ma wa -> describes mb wb ->
  NoDup (map fst (join_columns ma mb)) /\ NoDup (map snd (join_columns ma mb)).
Proof.
  intros Ha Hb. destruct Ha as (A1 & A2 & A3). clear A3.
  induction ma as [|[x c] ma IH]; cbn [join_columns]; [split; constructor|].
  cbn [map fst snd] in A1, A2. inversion A1 as [|? ? N1 A1']; subst. inversion A2 as [|? ? N2 A2']; subst.
  destruct (IH A1' A2') as [I1 I2]. destruct (var_find mb x) as [d|] eqn:E; [|auto].
  cbn [map fst snd]. split; constructor; auto.
  - intros Hin. apply in_map_iff in Hin. destruct Hin as ([p q] & <- & Hp). apply join_columns_in in Hp.
    destruct Hp as (v & Hv & _). cbn [fst] in *. apply N2. now apply (in_map snd) in Hv.
  - intros Hin. apply in_map_iff in Hin. destruct Hin as ([p q] & Q & Hp). cbn [snd] in Q. subst q.
    apply join_columns_in in Hp. destruct Hp as (v & Hv & Ev). cbn [fst snd] in *.
    assert (v = x) by (eapply desc_inj; eauto). subst v. apply N1. now apply (in_map fst) in Hv.
Qed.

Lemma join_columns_lt ma mb wb : describes mb wb -> Forall (fun c => c < wb) (map snd (join_columns ma mb)).
Proof.
  intros Hb. apply Forall_forall. intros c Hc. apply in_map_iff in Hc. destruct Hc as (p & <- & Hp).
  apply join_columns_in in Hp. destruct Hp as (v & _ & E). eapply desc_lt; eauto.
Qed.

(* a column of b is a join column exactly if its variable occurs in a *)
Lemma is_join_column ma mb wb v c : NoDup (map fst ma) -> describes mb wb -> var_find mb v = Some c ->
  (In c (map snd (join_columns ma mb)) <-> var_find ma v <> None).
Proof.
  intros Ha Hb E. rewrite in_map_iff. split.
  - intros (p & <- & Hp). apply join_columns_in in Hp. destruct Hp as (v' & Hv & E').
    assert (v' = v) by (eapply desc_inj; eauto). subst v'. apply find_in in Hv; auto. congruence.
  - intros H. destruct (var_find ma v) as [d|] eqn:E'; [|congruence]. exists (d, c). split; auto.
    apply join_columns_in. exists v. cbn [fst snd]. split; auto. now apply find_in.
Qed.

(* ---------- C46 ---------- *)

(* rows agree on the planner's join columns exactly if they agree on the common variables *)
Theorem C46_join_columns ma mb wa wb ra rb : describes ma wa -> describes mb wb ->
  (agree (join_columns ma mb) ra rb = true <-> compatible ma mb ra rb).
Proof.
  intros Ha Hb. unfold agree. rewrite forallb_forall. split.
  - intros H v x y Hx Hy. apply value_some in Hx; [|apply Ha]. destruct Hx as (c & Hc & <-).
    unfold value in Hy. destruct (var_find mb v) as [d|] eqn:E; [|discriminate]. injection Hy as <-.
    specialize (H (c, d)). cbn [fst snd] in H. apply N.eqb_eq, H, join_columns_in. exists v. auto.
  - intros H p Hp. apply join_columns_in in Hp. destruct Hp as (v & Hv & E). apply N.eqb_eq.
    apply (H v).
    + apply value_some; [apply Ha|]. eauto.
    + unfold value. rewrite E. reflexivity.
Qed.

(* merging is symmetric on compatible rows: a variable has in the merged row the value it has in every row it
   occurs in *)
Theorem C46_merged_both ma mb ra rb v : compatible ma mb ra rb ->
  (forall x, value ma ra v = Some x -> merged ma mb ra rb v = Some x) /\
  (forall y, value mb rb v = Some y -> merged ma mb ra rb v = Some y) /\
  (merged ma mb ra rb v = None <-> var_find ma v = None /\ var_find mb v = None).
Proof.
  intros H. unfold merged. repeat split.
  - intros x ->. reflexivity.
  - intros y Hy. destruct (value ma ra v) as [x|] eqn:E; auto. f_equal. eapply H; eauto.
  - unfold value in *. destruct (var_find ma v); [discriminate|]. reflexivity.
  - unfold value in *. destruct (var_find ma v); [discriminate|]. destruct (var_find mb v); [discriminate|reflexivity].
  - intros [E1 E2]. unfold value. rewrite E1, E2. reflexivity.
Qed.

(* ---- OPTIONAL ---- *)
Lemma optional_vars_add mb : forall m lw jcs,
  optional_vars m mb lw jcs = add_vars (fun c => shifted jcs c (lw + c)) m mb.
Proof. induction mb as [|[v c] mb IH]; intros; cbn [optional_vars]; auto. rewrite IH. reflexivity. Qed.

Lemma shifted_spec jcs c : forall i,
  shifted jcs c i = if existsb (Nat.eqb c) (map snd jcs) then None
                    else Some (i - length (filter (fun d => d <? c) (map snd jcs))).
Proof.
  induction jcs as [|[x d] jcs IH]; intros i; cbn [shifted map snd existsb filter].
  - now rewrite Nat.sub_0_r.
  - destruct (Nat.ltb_spec d c) as [H|H].
    + rewrite IH. destruct (Nat.eqb_spec c d); [lia|]. cbn [orb].
      destruct (existsb (Nat.eqb c) (map snd jcs)); auto. f_equal. cbn [length]. lia.
    + rewrite (Nat.eqb_sym d c). destruct (Nat.eqb_spec c d); cbn [orb]; auto.
Qed.

Lemma below_count cs c : NoDup cs -> length (filter (fun d => d <? c) cs) <= c.
Proof.
  intros H. transitivity (length (seq 0 c)); [|now rewrite seq_length]. apply NoDup_incl_length; [now apply NoDup_filter|].
  intros x Hx. apply filter_In in Hx. destruct Hx as [_ Hx]. apply Nat.ltb_lt in Hx. apply in_seq. lia.
Qed.

Lemma optional_find ma mb wa wb v : describes ma wa -> describes mb wb ->
  var_find (optional_vars ma mb wa (join_columns ma mb)) v =
  match var_find ma v with
  | Some c => Some c
  | None => match var_find mb v with
            | Some c => Some (wa + (c - length (filter (fun d => d <? c) (map snd (join_columns ma mb)))))
            | None => None
            end
  end.
Proof.
  intros Ha Hb. rewrite optional_vars_add, find_add by apply Hb.
  destruct (var_find mb v) as [c|] eqn:E; [|destruct (var_find ma v); reflexivity].
  rewrite shifted_spec. pose proof (is_join_column ma mb wb v c (proj1 Ha) Hb E) as J.
  destruct (existsb (Nat.eqb c) (map snd (join_columns ma mb))) eqn:X.
  - apply existsb_exists in X. destruct X as (y & Hy & Ey). apply Nat.eqb_eq in Ey. subst y.
    apply J in Hy. destruct (var_find ma v); congruence.
  - assert (N : ~ In c (map snd (join_columns ma mb))).
    { intros Hy. enough (existsb (Nat.eqb c) (map snd (join_columns ma mb)) = true) by congruence.
      apply existsb_exists. exists c. split; auto. apply Nat.eqb_refl. }
    destruct (var_find ma v) as [d|] eqn:E'; [elim N; apply J; congruence|].
    f_equal. pose proof (below_count (map snd (join_columns ma mb)) c (proj2 (join_columns_nodup _ _ _ _ Ha Hb))). lia.
Qed.

(* the columns lie in the result *)
Theorem C46_optional_columns ma mb wa wb v c : describes ma wa -> describes mb wb ->
  var_find (optional_vars ma mb wa (join_columns ma mb)) v = Some c ->
  c < wa + wb - length (join_columns ma mb).
Proof.
  intros Ha Hb. rewrite (optional_find _ _ wa wb) by assumption.
  pose proof (join_columns_nodup _ _ _ _ Ha Hb) as [_ N]. pose proof (join_columns_lt ma mb wb Hb) as L.
  pose proof (drop_cols_length _ N wb (repeat 0%N wb) (repeat_length _ _) L) as DL. rewrite map_length in DL.
  assert (B : length (join_columns ma mb) <= wb).
  { rewrite <- (map_length snd). rewrite <- (seq_length wb 0). apply NoDup_incl_length; auto.
    intros x Hx. rewrite Forall_forall in L. apply in_seq. specialize (L x Hx). lia. }
  destruct (var_find ma v) as [d|] eqn:E.
  - intros Q. injection Q as <-. pose proof (desc_lt _ _ _ _ Ha E). lia.
  - destruct (var_find mb v) as [d|] eqn:E'; [|discriminate]. intros Q. injection Q as <-.
    pose proof (desc_lt _ _ _ _ Hb E') as Hd.
    assert (Nj : ~ In d (map snd (join_columns ma mb))).
    { intros Hj. apply (is_join_column ma mb wb v d (proj1 Ha) Hb E') in Hj. congruence. }
    (* d and the dropped columns above it *)
    set (cs := map snd (join_columns ma mb)) in *.
    assert (H : length (d :: filter (fun x => negb (x <? d)) cs) <= wb - d).
    { rewrite <- (seq_length (wb - d) d). apply NoDup_incl_length.
      - constructor; [|now apply NoDup_filter]. intros Hi. apply filter_In in Hi. tauto.
      - intros x [<-|Hx]; [apply in_seq; lia|]. apply filter_In in Hx. destruct Hx as [Hx Hd'].
        apply negb_true_iff, Nat.ltb_ge in Hd'. rewrite Forall_forall in L. specialize (L x Hx). apply in_seq. lia. }
    assert (S : length (filter (fun x => x <? d) cs) + length (filter (fun x => negb (x <? d)) cs) = length cs).
    { clear. induction cs as [|y l IH]; auto. cbn [filter]. destruct (y <? d); cbn [negb length]; lia. }
    unfold cs in S. rewrite map_length in S. fold cs in S. cbn [length] in H.
    pose proof (below_count cs d N). lia.
Qed.

(* a matched row: every variable has its value *)
Theorem C46_optional_matched ma mb wa wb ra rb v :
  describes ma wa -> describes mb wb -> length ra = wa -> length rb = wb ->
  value (optional_vars ma mb wa (join_columns ma mb)) (ra ++ drop_cols (map snd (join_columns ma mb)) rb) v =
  merged ma mb ra rb v.
Proof.
  intros Ha Hb La Lb. unfold merged, value. rewrite (optional_find _ _ wa wb) by assumption.
  destruct (var_find ma v) as [c|] eqn:E; cbn [option_map].
  - rewrite col_app_l; auto. rewrite La. eapply desc_lt; eauto.
  - destruct (var_find mb v) as [c|] eqn:E'; cbn [option_map]; auto. f_equal.
    rewrite col_app_r by lia. rewrite La. replace (wa + _ - wa) with (c - length (filter (fun d => d <? c) (map snd (join_columns ma mb)))) by lia.
    apply dropped_pos with wb; auto.
    + apply (join_columns_nodup _ _ _ _ Ha Hb).
    + eapply desc_lt; eauto.
    + intros Hj. apply (is_join_column ma mb wb v c (proj1 Ha) Hb E') in Hj. congruence.
Qed.

(* a row of the left input without partner: its variables have their values, the others are unbound *)
Theorem C46_optional_unmatched ma mb wa wb ra v :
  describes ma wa -> describes mb wb -> length ra = wa ->
  value (optional_vars ma mb wa (join_columns ma mb)) (ra ++ repeat UNBOUND (wb - length (join_columns ma mb))) v =
  match value ma ra v with
  | Some x => Some x
  | None => option_map (fun _ => UNBOUND) (var_find mb v)
  end.
Proof.
  intros Ha Hb La. pose proof (C46_optional_columns ma mb wa wb v) as C.
  unfold value. rewrite (optional_find _ _ wa wb) in * by assumption.
  destruct (var_find ma v) as [c|] eqn:E; cbn [option_map].
  - rewrite col_app_l; auto. rewrite La. eapply desc_lt; eauto.
  - destruct (var_find mb v) as [c|] eqn:E'; cbn [option_map]; auto. f_equal.
    specialize (C _ Ha Hb eq_refl). rewrite col_app_r by lia. rewrite La. unfold col.
    apply nth_repeat_lt. lia.
Qed.

(* a row of the right input without partner, if the left side is optional *)
Theorem C46_optional_right_only ma mb wa wb rb v :
  describes ma wa -> describes mb wb -> length rb = wb ->
  value (optional_vars ma mb wa (join_columns ma mb)) (right_only_row wa (join_columns ma mb) rb) v =
  match value mb rb v with
  | Some y => Some y
  | None => option_map (fun _ => UNBOUND) (var_find ma v)
  end.
Proof.
  intros Ha Hb Lb. unfold right_only_row.
  set (lrow := map _ (seq 0 wa)).
  assert (Ll : length lrow = wa) by (unfold lrow; now rewrite map_length, seq_length).
  assert (Hl : forall c, c < wa -> col c lrow = match find (fun p => Nat.eqb (fst p) c) (join_columns ma mb) with
                                              | Some p => col (snd p) rb | None => UNBOUND end).
  { intros c Hc. unfold col at 1. rewrite (nth_indep _ 0%N (nth 0 lrow 0%N)) by lia. unfold lrow. set (g := fun c0 : nat => _). destruct wa as [|wa']; [lia|].
    change (nth 0 (map g (seq 0 (S wa'))) 0%N) with (g 0). rewrite map_nth, seq_nth by exact Hc. reflexivity. }
  clearbody lrow.
  pose proof (join_columns_nodup _ _ _ _ Ha Hb) as [N1 N2].
  unfold value. rewrite (optional_find _ _ wa wb) by assumption.
  destruct (var_find ma v) as [c|] eqn:E; cbn [option_map].
  - pose proof (desc_lt _ _ _ _ Ha E) as Hc. rewrite col_app_l by lia. rewrite Hl by exact Hc.
    destruct (find (fun p => Nat.eqb (fst p) c) (join_columns ma mb)) as [p|] eqn:F.
    + apply find_some in F. destruct F as [F1 F2]. apply Nat.eqb_eq in F2. subst c.
      apply join_columns_in in F1. destruct F1 as (v' & Hv & E').
      assert (v' = v). { apply find_in in Hv; [|apply Ha]. exact (desc_inj _ _ _ _ _ Ha Hv E). }
      subst v'. rewrite E'. reflexivity.
    + destruct (var_find mb v) as [d|] eqn:E'; auto. exfalso.
      assert (J : In (c, d) (join_columns ma mb)).
      { apply join_columns_in. exists v. cbn [fst snd]. split; auto. apply find_in; auto. apply Ha. }
      apply (find_none _ _ F) in J. cbn [fst] in J. rewrite Nat.eqb_refl in J. discriminate.
  - destruct (var_find mb v) as [c|] eqn:E'; cbn [option_map]; auto. f_equal.
    rewrite col_app_r by lia. rewrite Ll.
    replace (wa + _ - wa) with (c - length (filter (fun d => d <? c) (map snd (join_columns ma mb)))) by lia.
    apply dropped_pos with wb; auto.
    + eapply desc_lt; eauto.
    + intros Hj. apply (is_join_column ma mb wb v c (proj1 Ha) Hb E') in Hj. congruence.
Qed.

(* ---- join on one column ---- *)
Lemma join_vars_add mb : forall m lw jc2,
  join_vars m mb lw jc2 =
  add_vars (fun c => if c <? jc2 then Some (lw + c) else if jc2 <? c then Some (lw + c - 1) else None) m mb.
Proof.
  induction mb as [|[v c] mb IH]; intros; cbn [join_vars]; auto. rewrite IH. unfold add_vars. cbn [fold_left snd fst].
  destruct (Nat.ltb_spec c jc2), (Nat.ltb_spec jc2 c); try lia; reflexivity.
Qed.

Lemma drop_col_pos c d (r : row) : c <> d -> d < length r ->
  col (if c <? d then c else c - 1) (drop_col d r) = col c r.
Proof.
  intros Hn Hd. unfold drop_col. assert (Lf : length (firstn d r) = d) by (rewrite firstn_length; lia).
  destruct (Nat.ltb_spec c d).
  - rewrite col_app_l by lia. unfold col. rewrite <- (firstn_skipn d r) at 2. rewrite app_nth1 by lia. reflexivity.
  - rewrite col_app_r by lia. rewrite Lf. unfold col.
    rewrite <- (firstn_skipn (S d) r) at 2.
    assert (L2 : length (firstn (S d) r) = S d) by (rewrite firstn_length; lia).
    rewrite app_nth2 by lia. rewrite L2. f_equal. lia.
Qed.

Theorem C46_join ma mb wa wb jc1 jc2 ra rb v :
  describes ma wa -> describes mb wb -> join_columns ma mb = [(jc1, jc2)] -> length ra = wa -> length rb = wb ->
  value (join_vars ma mb wa jc2) (ra ++ drop_col jc2 rb) v = merged ma mb ra rb v.
Proof.
  intros Ha Hb J La Lb. unfold merged, value. rewrite join_vars_add, find_add by apply Hb.
  pose proof (join_columns_lt ma mb wb Hb) as L. rewrite J in L. inversion L as [|? ? L1 _]; subst. cbn [snd] in L1.
  destruct (var_find mb v) as [c|] eqn:E.
  - pose proof (is_join_column ma mb _ v c (proj1 Ha) Hb E) as Jc. rewrite J in Jc. cbn [map snd In] in Jc.
    destruct (Nat.eq_dec c jc2) as [->|Hn].
    + replace (jc2 <? jc2) with false by (symmetry; apply Nat.ltb_irrefl).
      destruct (var_find ma v) as [d|] eqn:E'; cbn [option_map].
      * rewrite col_app_l; auto. eapply desc_lt; eauto.
      * exfalso. apply Jc; auto.
    + destruct (var_find ma v) as [d|] eqn:E'; cbn [option_map].
      { exfalso. assert (X : Some d <> None) by discriminate. apply Jc in X. destruct X as [X|[]]. congruence. }
      pose proof (drop_col_pos c jc2 rb Hn L1) as P. destruct (Nat.ltb_spec c jc2).
      * cbn [option_map]. rewrite col_app_r by lia. replace (length ra + c - length ra) with c by lia. now rewrite P.
      * replace (jc2 <? c) with true by (symmetry; apply Nat.ltb_lt; lia). cbn [option_map].
        rewrite col_app_r by lia. replace (length ra + c - 1 - length ra) with (c - 1) by lia. now rewrite P.
  - destruct (var_find ma v) as [d|] eqn:E'; cbn [option_map]; auto. rewrite col_app_l; auto. eapply desc_lt; eauto.
Qed.

(* ---- join with a full index scan: the scan has the join column first and two more; `scan` is the row of these
   two columns, found for the value of the join column ---- *)
Lemma scan_right_add mb : forall m lw,
  join_vars_scan_right m mb lw = add_vars (fun c => if c =? 0 then None else Some (lw + c - 1)) m mb.
Proof.
  induction mb as [|[v c] mb IH]; intros; cbn [join_vars_scan_right]; auto. rewrite IH. unfold add_vars.
  cbn [fold_left snd fst]. destruct (c =? 0); reflexivity.
Qed.
Lemma scan_left_add ma : forall m,
  scan_left_vars m ma = add_vars (fun c => if c =? 0 then None else Some (c - 1)) m ma.
Proof.
  induction ma as [|[v c] ma IH]; intros; cbn [scan_left_vars]; auto. rewrite IH. unfold add_vars.
  cbn [fold_left snd fst]. destruct (c =? 0); reflexivity.
Qed.
Lemma scan_left2_add mb : forall m, scan_left_vars2 m mb = add_vars (fun c => Some (2 + c)) m mb.
Proof. induction mb as [|[v c] mb IH]; intros; cbn [scan_left_vars2]; auto. rewrite IH. reflexivity. Qed.

Theorem C46_join_scan_right ma mb wa jc1 ra x y z v :
  describes ma wa -> describes mb 3 -> join_columns ma mb = [(jc1, 0)] -> length ra = wa -> col jc1 ra = x ->
  value (join_vars_scan_right ma mb wa) (ra ++ [y; z]) v = merged ma mb ra [x; y; z] v.
Proof.
  intros Ha Hb J La Hx. unfold merged, value. rewrite scan_right_add, find_add by apply Hb.
  destruct (var_find mb v) as [c|] eqn:E.
  - pose proof (is_join_column ma mb _ v c (proj1 Ha) Hb E) as Jc. rewrite J in Jc. cbn [map snd In] in Jc.
    pose proof (desc_lt _ _ _ _ Hb E) as Hc.
    destruct (var_find ma v) as [d|] eqn:E'; cbn [option_map].
    + assert (X : Some d <> None) by discriminate. apply Jc in X. destruct X as [<-|[]]. cbn [Nat.eqb option_map].
      rewrite col_app_l; auto. rewrite La. eapply desc_lt; eauto.
    + destruct (Nat.eqb_spec c 0) as [->|Hn]; [exfalso; apply Jc; auto|].
      cbn [option_map]. rewrite col_app_r by lia. rewrite La. replace (wa + c - 1 - wa) with (c - 1) by lia.
      destruct c as [|[|[|c]]]; try lia; reflexivity.
  - destruct (var_find ma v) as [d|] eqn:E'; cbn [option_map]; auto. rewrite col_app_l; auto. rewrite La. eapply desc_lt; eauto.
Qed.

Theorem C46_join_scan_left ma mb wb jc2 rb x y z v :
  describes ma 3 -> describes mb wb -> join_columns ma mb = [(0, jc2)] -> length rb = wb -> col jc2 rb = x ->
  value (join_vars_scan_left ma mb) ([y; z] ++ rb) v = merged ma mb [x; y; z] rb v.
Proof.
  intros Ha Hb J Lb Hx. unfold merged, value, join_vars_scan_left.
  rewrite scan_left2_add, find_add by apply Hb. rewrite scan_left_add, find_add by apply Ha.
  destruct (var_find mb v) as [c|] eqn:E.
  - pose proof (is_join_column ma mb _ v c (proj1 Ha) Hb E) as Jc. rewrite J in Jc. cbn [map snd In] in Jc.
    cbn [option_map]. rewrite col_app_r by (cbn [length]; lia). cbn [length].
    replace (2 + c - 2) with c by lia.
    destruct (var_find ma v) as [d|] eqn:E'; cbn [option_map]; auto. f_equal.
    assert (X : Some d <> None) by discriminate. apply Jc in X. destruct X as [<-|[]].
    assert (d = 0). { assert (Q : In (d, jc2) (join_columns ma mb)).
      { apply join_columns_in. exists v. cbn [fst snd]. split; auto. apply find_in; auto. apply Ha. }
      rewrite J in Q. destruct Q as [Q|[]]. congruence. }
    subst d. rewrite Hx. reflexivity.
  - destruct (var_find ma v) as [d|] eqn:E'; cbn [option_map]; auto.
    pose proof (desc_lt _ _ _ _ Ha E') as Hd. destruct (Nat.eqb_spec d 0) as [->|Hn].
    + exfalso. assert (Q : In (0, jc2) (join_columns ma mb)) by (rewrite J; now left).
      apply join_columns_in in Q. destruct Q as (w & Hw & Ew). cbn [fst snd] in *. apply find_in in Hw; [|apply Ha].
      assert (w = v) by exact (desc_inj _ _ _ _ _ Ha Hw E'). congruence.
    + cbn [option_map]. destruct d as [|[|[|d]]]; try lia; reflexivity.
Qed.

(* ---- join on two columns by filtering: the result rows are rows of one input ---- *)
Theorem C46_two_column_join ma mb wa wb ra rb v c d :
  describes ma wa -> describes mb 2 -> wb = 2 ->
  join_columns ma mb = [(c, 0); (d, 1)] \/ join_columns ma mb = [(d, 1); (c, 0)] ->
  value (two_column_vars wb 0 1 ma mb) ra v = merged ma mb ra rb v.
Proof.
  intros Ha Hb -> J. unfold two_column_vars. cbn [Nat.eqb andb]. unfold merged, value.
  destruct (var_find ma v) as [x|] eqn:E; cbn [option_map]; auto.
  destruct (var_find mb v) as [x|] eqn:E'; auto. exfalso.
  pose proof (is_join_column ma mb _ v x (proj1 Ha) Hb E') as Jc.
  pose proof (desc_lt _ _ _ _ Hb E') as Hc.
  assert (X : In x (map snd (join_columns ma mb))).
  { destruct J as [-> | ->]; cbn [map snd In]; lia. }
  apply Jc in X. congruence.
Qed.
(* the left input is the filter, so the result has rows of the right one *)
Theorem C46_two_column_join_left ma mb wb ra rb v c d jc1r jc2r :
  describes ma 2 -> describes mb wb ->
  join_columns ma mb = [(0, c); (1, d)] \/ join_columns ma mb = [(1, d); (0, c)] ->
  wb <> 2 \/ jc1r <> 0 \/ jc2r <> 1 -> compatible ma mb ra rb ->
  value (two_column_vars wb jc1r jc2r ma mb) rb v = merged ma mb ra rb v.
Proof.
  intros Ha Hb J Hn C.
  assert (T : two_column_vars wb jc1r jc2r ma mb = mb).
  { unfold two_column_vars. destruct (Nat.eqb_spec wb 2), (Nat.eqb_spec jc1r 0), (Nat.eqb_spec jc2r 1); cbn [andb]; auto; lia. }
  rewrite T. unfold merged. destruct (value ma ra v) as [x|] eqn:E; auto.
  unfold value in E. destruct (var_find ma v) as [i|] eqn:E'; [|discriminate]. injection E as <-.
  assert (X : exists j, In (i, j) (join_columns ma mb)).
  { pose proof (desc_lt _ _ _ _ Ha E') as Hi. destruct J as [-> | ->]; cbn [In];
      (destruct i as [|[|i]]; [exists c|exists d|lia]; auto). }
  destruct X as (j & Hj). apply join_columns_in in Hj. destruct Hj as (w & Hw & Ew). cbn [fst snd] in *.
  apply find_in in Hw; [|apply Ha]. assert (w = v) by exact (desc_inj _ _ _ _ _ Ha Hw E'). subst w.
  assert (Vb : value mb rb v = Some (col j rb)) by (unfold value; rewrite Ew; reflexivity).
  rewrite Vb. f_equal. symmetry. eapply C; [|exact Vb]. unfold value. rewrite E'. reflexivity.
Qed.

(* ---- Bind: the new value comes last ---- *)
Theorem C46_bind m w target (r : row) x v : describes m w -> length r = w ->
  value (bind_vars m target w) (r ++ [x]) v = if String.eqb target v then Some x else value m r v.
Proof.
  intros Hm Hl. unfold value, bind_vars. rewrite find_set. destruct (String.eqb target v).
  - cbn [option_map]. rewrite col_app_r by lia. rewrite Hl, Nat.sub_diag. reflexivity.
  - destruct (var_find m v) as [c|] eqn:E; cbn [option_map]; auto. rewrite col_app_l; auto. rewrite Hl.
    eapply desc_lt; eauto.
Qed.

(* ---- VALUES: column i holds the i-th variable ---- *)
Lemma values_other vs v : ~ In v vs -> forall m k, var_find (values_vars m k vs) v = var_find m v.
Proof.
  induction vs as [|x vs IH]; intros H m k; cbn [values_vars]; auto. rewrite IH by (intros Hi; apply H; now right).
  rewrite find_set. destruct (String.eqb_spec x v) as [->|]; auto. elim H. now left.
Qed.
Theorem C46_values vs v i : NoDup vs -> nth_error vs i = Some v -> var_find (values_vars [] 0 vs) v = Some i.
Proof.
  intros H E. enough (G : forall m k, var_find (values_vars m k vs) v = Some (k + i)) by (rewrite G; reflexivity).
  revert i E. induction H as [|x vs Hx H IH]; intros [|i] E m k; try discriminate; cbn [values_vars nth_error] in *.
  - injection E as ->. rewrite values_other by exact Hx. rewrite find_set, String.eqb_refl. f_equal. lia.
  - rewrite (IH i E). f_equal. lia.
Qed.

(* ---- paths with a table for one end: columns 0 and 1 are the ends, then the other columns of the table ---- *)
Lemma path_bind_add side : forall m inputCol,
  path_bind_vars m side inputCol =
  add_vars (fun c => if c =? inputCol then None else if inputCol <? c then Some (c + 1) else Some (c + 2)) m side.
Proof.
  induction side as [|[v c] side IH]; intros; cbn [path_bind_vars]; auto. rewrite IH. unfold add_vars.
  cbn [fold_left snd fst]. destruct (c =? inputCol), (inputCol <? c); reflexivity.
Qed.

(* the row x, y, rest of r; `here` is the variable of the bound end, `there` the one of the other end *)
Theorem C46_path_bound side w sc here there (r : row) x y v (left : bool) :
  describes side w -> length r = w -> var_find side here = Some sc -> var_find side there = None -> here <> there ->
  (if left then x else y) = col sc r ->
  value (path_bind_vars (if left then path_vars here there else path_vars there here) side sc)
        ([x; y] ++ drop_col sc r) v =
  if String.eqb there v then Some (if left then y else x) else value side r v.
Proof.
  intros Hs Hl Hh Ht Hne Hx. rewrite path_bind_add. unfold value. rewrite find_add by apply Hs.
  pose proof (desc_lt _ _ _ _ Hs Hh) as Hsc.
  assert (Hp : forall a b, var_find (path_vars a b) v = if String.eqb b v then Some 1 else if String.eqb a v then Some 0 else None).
  { intros a b. unfold path_vars. rewrite !find_set. destruct (String.eqb b v); auto. }
  destruct (String.eqb_spec there v) as [->|Hnt].
  - rewrite Ht. destruct left; rewrite Hp, String.eqb_refl; [reflexivity|].
    destruct (String.eqb_spec here v); [congruence|]. reflexivity.
  - destruct (var_find side v) as [c|] eqn:E.
    + destruct (Nat.eqb_spec c sc) as [->|Hn].
      * assert (here = v) by (eapply desc_inj; eauto). subst v. cbn [option_map]. rewrite <- Hx.
        destruct left; rewrite Hp, String.eqb_refl; [|reflexivity].
        destruct (String.eqb_spec there here); [congruence|]. reflexivity.
      * pose proof (drop_col_pos c sc r Hn ltac:(lia)) as P.
        destruct (Nat.ltb_spec sc c); cbn [option_map]; rewrite col_app_r by (cbn [length]; lia); cbn [length].
        -- destruct (Nat.ltb_spec c sc); [lia|]. replace (c + 1 - 2) with (c - 1) by lia. now rewrite P.
        -- destruct (Nat.ltb_spec c sc); [|lia]. replace (c + 2 - 2) with c by lia. now rewrite P.
    + cbn [option_map]. destruct (String.eqb_spec here v) as [->|Hnh]; [congruence|].
      destruct left; rewrite Hp; destruct (String.eqb_spec there v); try congruence;
        destruct (String.eqb_spec here v); try congruence; reflexivity.
Qed.

(* ---- join on several columns: correct if the hash map of the right input happens to be iterated by column and
   all columns have variables ---- *)
Theorem C46_multi_column_partial ma mb wa wb ra rb v :
  describes ma wa -> describes mb wb -> length ra = wa -> length rb = wb ->
  length ma = wa -> map snd mb = seq 0 wb ->
  value (multi_column_vars ma mb (join_columns ma mb)) (ra ++ drop_cols (map snd (join_columns ma mb)) rb) v =
  merged ma mb ra rb v.
Proof.
  intros Ha Hb La Lb Lm Hseq. rewrite <- (C46_optional_matched ma mb wa wb) by assumption.
  f_equal. unfold multi_column_vars. rewrite Lm.
  set (jcs := join_columns ma mb) in *. set (cs := map snd jcs) in *.
  assert (N : NoDup cs) by apply (join_columns_nodup _ _ _ _ Ha Hb).
  assert (G : forall l m k, map snd l = seq k (length l) ->
    multi_vars m l (wa + (k - length (filter (fun d => d <? k) cs))) jcs = optional_vars m l wa jcs).
  { induction l as [|[x c] l IH]; intros m k Hk; cbn [multi_vars optional_vars]; auto.
    cbn [map snd length seq] in Hk. injection Hk as -> Hk. rewrite shifted_spec.
    assert (Ex : existsb (fun p : nat * nat => snd p =? k) jcs = existsb (Nat.eqb k) (map snd jcs)).
    { clear. induction jcs as [|p l IH]; auto. cbn [existsb map]. now rewrite IH, Nat.eqb_sym. }
    rewrite Ex. fold cs.
    assert (Cnt : length (filter (fun d => d <? S k) cs) =
                  length (filter (fun d => d <? k) cs) + (if existsb (Nat.eqb k) cs then 1 else 0)).
    { clear -N. induction N as [|y l Hy N IH]; auto. cbn [filter existsb].
      assert (X : In k l -> existsb (Nat.eqb k) l = true).
      { intros Hi. apply existsb_exists. exists k. split; auto. apply Nat.eqb_refl. }
      assert (Y : existsb (Nat.eqb k) l = true -> In k l).
      { intros E. apply existsb_exists in E. destruct E as (z & Hz & E). apply Nat.eqb_eq in E. now subst z. }
      destruct (Nat.ltb_spec y (S k)), (Nat.ltb_spec y k), (Nat.eqb_spec k y); cbn [length orb]; try lia.
      subst y. destruct (existsb (Nat.eqb k) l); [elim Hy; auto|]. lia. }
    pose proof (below_count cs k N) as B.
    destruct (existsb (Nat.eqb k) cs) eqn:E.
    - replace (wa + (k - length (filter (fun d => d <? k) cs))) with (wa + (S k - length (filter (fun d => d <? S k) cs))) by lia.
      apply IH. exact Hk.
    - replace (wa + (k - length (filter (fun d => d <? k) cs))) with (wa + k - length (filter (fun d => d <? k) cs)) by lia.
      replace (wa + k - length (filter (fun d => d <? k) cs) + 1) with (wa + (S k - length (filter (fun d => d <? S k) cs))) by lia.
      apply IH. exact Hk. }
  assert (L : length mb = wb). { rewrite <- (map_length snd), Hseq. apply seq_length. }
  specialize (G mb ma 0). rewrite L in G. specialize (G Hseq). cbn [Nat.sub] in G. rewrite Nat.add_0_r in G.
  exact G.
Qed.
Print Assumptions C46_join_columns.
Print Assumptions C46_merged_both.
Print Assumptions C46_optional_columns.
Print Assumptions C46_optional_matched.
Print Assumptions C46_optional_unmatched.
Print Assumptions C46_optional_right_only.
Print Assumptions C46_join.
Print Assumptions C46_join_scan_right.
Print Assumptions C46_join_scan_left.
Print Assumptions C46_two_column_join.
Print Assumptions C46_two_column_join_left.
Print Assumptions C46_bind.
Print Assumptions C46_values.
Print Assumptions C46_path_bound.
Print Assumptions C46_multi_column_partial.

(* ---------- examples ---------- *)
Local Open Scope string_scope. Local Open Scope list_scope.
Definition ex_a : var_map := [("?x", 0); ("?y", 1); ("?u", 2)].
Definition ex_b : var_map := [("?z", 3); ("?y", 1); ("?w", 0); ("?x", 2)].
Ltac desc := split; [repeat constructor; simpl; intuition (discriminate || lia)
                    |split; [repeat constructor; simpl; intuition (discriminate || lia)|repeat constructor]].
Lemma ex_a_ok : describes ex_a 3. Proof. desc. Qed.
Lemma ex_b_ok : describes ex_b 4. Proof. desc. Qed.
Example C46_ex_columns : join_columns ex_a ex_b = [(0, 2); (1, 1)] /\
  optional_vars ex_a ex_b 3 (join_columns ex_a ex_b) = [("?x", 0); ("?y", 1); ("?u", 2); ("?z", 4); ("?w", 3)].
Proof. split; reflexivity. Qed.
Example C46_ex_matched :
  let ra := [1; 2; 3]%N in let rb := [10; 2; 1; 40]%N in
  agree (join_columns ex_a ex_b) ra rb = true /\
  map (value (optional_vars ex_a ex_b 3 (join_columns ex_a ex_b)) (ra ++ drop_cols (map snd (join_columns ex_a ex_b)) rb))
      ["?x"; "?y"; "?u"; "?w"; "?z"] = [Some 1; Some 2; Some 3; Some 10; Some 40]%N.
Proof. split; reflexivity. Qed.
Example C46_ex_join :
  join_columns ex_a [("?w", 0); ("?y", 1); ("?z", 2)] = [(1, 1)] /\
  map (value (join_vars ex_a [("?w", 0); ("?y", 1); ("?z", 2)] 3 1) ([1; 2; 3] ++ drop_col 1 [10; 2; 40])%N)
      ["?x"; "?y"; "?u"; "?w"; "?z"] = [Some 1; Some 2; Some 3; Some 10; Some 40]%N.
Proof. split; reflexivity. Qed.
Example C46_ex_path :
  map (value (path_bind_vars (path_vars "?y" "?e") ex_a 1) ([2; 9] ++ drop_col 1 [1; 2; 3])%N) ["?x"; "?y"; "?u"; "?e"]
  = [Some 1; Some 2; Some 3; Some 9]%N.
Proof. reflexivity. Qed.

(* ---------- findings ---------- *)
(* MultiColumnJoin numbers the columns of the right input in the iteration order of its hash map, but the rows have
   them in column order: here ?z and ?w get each other's values *)
Theorem C46_multi_column_refuted : exists ma mb wa wb ra rb v,
  describes ma wa /\ describes mb wb /\ length ra = wa /\ length rb = wb /\ compatible ma mb ra rb /\
  length ma = wa /\ length mb = wb /\
  value (multi_column_vars ma mb (join_columns ma mb)) (ra ++ drop_cols (map snd (join_columns ma mb)) rb) v <>
  merged ma mb ra rb v.
Proof.
  exists ex_a, ex_b, 3, 4, [1; 2; 3]%N, [10; 2; 1; 40]%N, "?w".
  split; [apply ex_a_ok|]. split; [apply ex_b_ok|]. split; [reflexivity|]. split; [reflexivity|]. split.
  - apply (C46_join_columns ex_a ex_b 3 4); [apply ex_a_ok|apply ex_b_ok|]. reflexivity.
  - split; [reflexivity|]. split; [reflexivity|]. vm_compute. discriminate.
Qed.
(* columns without a variable on the left also shift the numbers, with any iteration order *)
Theorem C46_multi_column_hidden_refuted : exists ma mb wa wb ra rb v,
  describes ma wa /\ describes mb wb /\ length ra = wa /\ length rb = wb /\ compatible ma mb ra rb /\
  map snd mb = seq 0 wb /\
  value (multi_column_vars ma mb (join_columns ma mb)) (ra ++ drop_cols (map snd (join_columns ma mb)) rb) v <>
  merged ma mb ra rb v.
Proof.
  exists [("?x", 0)], [("?x", 0); ("?y", 1)], 2, 2, [1; 2]%N, [1; 3]%N, "?y".
  split; [desc|]. split; [desc|]. split; [reflexivity|]. split; [reflexivity|]. split.
  - apply (C46_join_columns _ _ 2 2); [desc|desc|]. reflexivity.
  - split; [reflexivity|]. vm_compute. discriminate.
Qed.
(* a path from a variable to itself: both ends are mapped to column 1, the row (1, 2) counts as a solution ?x = 2 of
   ?x p+ ?x although there is no path from 2 to 2 *)
Theorem C46_path_same_variable_refuted : exists sub res,
  compute_path 100 (fun l => l) sub true true 0 1 0 0 1 (2 ^ 64 - 1) = Some res /\ In [1; 2]%N res /\
  value (path_vars "?x" "?x") [1; 2]%N "?x" = Some 2%N /\
  ~ path_between (edge sub 0 1) 1 (2 ^ 64 - 1) 2 2.
Proof.
  exists [[1; 2]]%N. eexists. split; [vm_compute; reflexivity|]. split; [left; reflexivity|]. split; [reflexivity|].
  intros (n & Hn & W).
  assert (N : forall y, ~ edge [[1; 2]]%N 0 1 2 y).
  { intros y (r & [<-|[]] & E & _). vm_compute in E. discriminate. }
  inversion W as [|k x y z E _]; subst; [lia|]. eapply N. exact E.
Qed.

Print Assumptions C46_multi_column_refuted.
Print Assumptions C46_multi_column_hidden_refuted.
Print Assumptions C46_path_same_variable_refuted.
