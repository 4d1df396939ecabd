(* The mappings from variables to columns of the joins made by the planner. *)
From Coq Require Import String List NArith Arith Bool Lia Permutation.
From Verif Require Import Table_Spec Ops_Model Vars_Model Vars_Thm Plan_Model.
Import ListNotations.
Local Open Scope nat_scope.

(* every column has exactly one variable *)
Definition full (m : var_map) (w : nat) : Prop :=
  NoDup (map fst m) /\ (forall v c, var_find m v = Some c -> c < w) /\
  (forall v v' c, var_find m v = Some c -> var_find m v' = Some c -> v = v') /\
  (forall c, c < w -> exists v, var_find m v = Some c).

Lemma nodup_snd (m : var_map) : NoDup (map fst m) ->
  (forall v v' c, var_find m v = Some c -> var_find m v' = Some c -> v = v') -> NoDup (map snd m).
Proof.
  intros H1 H2. assert (H : forall v v' c, In (v, c) m -> In (v', c) m -> v = v').
  { intros v v' c E E'. apply (H2 v v' c); now apply find_in. }
  clear H2. induction m as [|[v c] m IH]; cbn [map snd]; constructor.
  - intros Hi. apply in_map_iff in Hi. destruct Hi as ([v' c'] & E & Hi). cbn [snd] in E. subst c'.
    cbn [map fst] in H1. inversion H1; subst. apply H3.
    assert (v = v') by (apply (H v v' c); [now left|now right]). subst. now apply (in_map fst) in Hi.
  - apply IH; [now inversion H1|]. intros x x' d Hx Hx'. apply (H x x' d); now right.
Qed.
Lemma full_desc m w : full m w -> describes m w.
Proof.
  intros (H1 & H2 & H3 & H4). split; auto. split; [now apply nodup_snd|].
  apply Forall_forall. intros c Hc. apply in_map_iff in Hc. destruct Hc as ([v d] & <- & Hi). cbn [snd].
  apply (H2 v). now apply find_in.
Qed.
Lemma full_length m w : full m w -> length m = w.
Proof.
  intros H. pose proof (full_desc _ _ H) as (D1 & D2 & D3). destruct H as (H1 & H2 & H3 & H4).
  rewrite <- (map_length snd m). transitivity (length (seq 0 w)); [|apply seq_length]. apply Nat.le_antisymm; apply NoDup_incl_length; auto using seq_NoDup.
  - intros c Hc. apply in_seq. rewrite Forall_forall in D3. specialize (D3 c Hc). lia.
  - intros c Hc. apply in_seq in Hc. destruct (H4 c) as (v & E); [lia|]. apply find_in in E; auto.
    now apply (in_map snd) in E.
Qed.

Lemma set_fst m v c : map fst (var_set m v c) = if existsb (String.eqb v) (map fst m) then map fst m else map fst m ++ [v].
Proof.
  induction m as [|[x d] m IH]; cbn; auto. rewrite (String.eqb_sym v x). destruct (String.eqb_spec x v); cbn; auto.
  rewrite IH. destruct (existsb (String.eqb v) (map fst m)); auto.
Qed.
Lemma set_nodup m v c : NoDup (map fst m) -> NoDup (map fst (var_set m v c)).
Proof.
  intros H. rewrite set_fst. destruct (existsb (String.eqb v) (map fst m)) eqn:E; auto.
  apply ListAux.NoDup_app_intro; auto; [repeat constructor; intros []|].
  intros x Hx [<-|[]]. enough (existsb (String.eqb v) (map fst m) = true) by congruence.
  apply existsb_exists. exists v. split; auto. apply String.eqb_refl.
Qed.
Lemma add_nodup f mb : forall m, NoDup (map fst m) -> NoDup (map fst (add_vars f m mb)).
Proof.
  induction mb as [|[v c] mb IH]; intros m H; cbn; auto. apply IH. destruct (f c); auto using set_nodup.
Qed.

(* the general form of a join's mapping: the columns of ma are moved by ga, the columns of mb that are not join columns
   by gb *)
Lemma comb_full ma mb wa wb m w ga gb (nonjoin : nat -> Prop) :
  full ma wa -> full mb wb -> NoDup (map fst m) ->
  (forall v, var_find m v = match var_find ma v with
                            | Some c => Some (ga c)
                            | None => option_map gb (var_find mb v)
                            end) ->
  (forall v d, var_find mb v = Some d -> (var_find ma v = None <-> nonjoin d)) ->
  (forall c, c < wa -> ga c < w) -> (forall c c', c < wa -> c' < wa -> ga c = ga c' -> c = c') ->
  (forall d, d < wb -> nonjoin d -> gb d < w) ->
  (forall d d', d < wb -> d' < wb -> nonjoin d -> nonjoin d' -> gb d = gb d' -> d = d') ->
  (forall c d, c < wa -> d < wb -> nonjoin d -> ga c <> gb d) ->
  (forall c, c < w -> (exists c', c' < wa /\ ga c' = c) \/ (exists d, d < wb /\ nonjoin d /\ gb d = c)) ->
  full m w.
Proof.
  intros (A1 & A2 & A3 & A4) (B1 & B2 & B3 & B4) Hn Hf Hj G1 G2 G3 G4 G5 G6. split; auto. split; [|split].
  - intros v c. rewrite Hf. destruct (var_find ma v) as [x|] eqn:E.
    + intros Q. injection Q as <-. apply G1. eauto.
    + destruct (var_find mb v) as [d|] eqn:E'; [|discriminate]. cbn. intros Q. injection Q as <-.
      apply G3; eauto. apply (Hj v d); auto.
  - intros v v' c. rewrite !Hf.
    destruct (var_find ma v) as [x|] eqn:E; destruct (var_find ma v') as [x'|] eqn:E'.
    + intros Q Q'. injection Q as Q. injection Q' as Q'. assert (x = x') by (apply G2; eauto; congruence). subst.
      eapply A3; eauto.
    + destruct (var_find mb v') as [d'|] eqn:F'; [|discriminate]. cbn. intros Q Q'. injection Q as Q. injection Q' as Q'.
      destruct (G5 x d'); eauto; [|congruence]. apply (Hj v' d'); auto.
    + destruct (var_find mb v) as [d|] eqn:F; [|discriminate]. cbn. intros Q Q'. injection Q as Q. injection Q' as Q'.
      destruct (G5 x' d); eauto; [|congruence]. apply (Hj v d); auto.
    + destruct (var_find mb v) as [d|] eqn:F; [|discriminate]. destruct (var_find mb v') as [d'|] eqn:F'; [|discriminate].
      cbn. intros Q Q'. injection Q as Q. injection Q' as Q'.
      assert (d = d'). { apply G4; eauto; [apply (Hj v d)|apply (Hj v' d')|congruence]; auto. }
      subst. eapply B3; eauto.
  - intros c Hc. destruct (G6 c Hc) as [(c' & Hc' & <-)|(d & Hd & Nd & <-)].
    + destruct (A4 c' Hc') as (v & Ev). exists v. rewrite Hf, Ev. reflexivity.
    + destruct (B4 d Hd) as (v & Ev). exists v. rewrite Hf, Ev. pose proof (proj2 (Hj v d Ev) Nd) as Ea. rewrite Ea. reflexivity.
Qed.

(* ---------- join columns ---------- *)
Lemma join_columns_flat ma mb : join_columns ma mb =
  flat_map (fun p => match var_find mb (fst p) with Some d => [(snd p, d)] | None => [] end) ma.
Proof. induction ma as [|[v c] ma IH]; cbn; auto. rewrite IH. destruct (var_find mb v); auto. Qed.
Lemma join_columns_perm ma ma' mb : Permutation ma ma' -> Permutation (join_columns ma mb) (join_columns ma' mb).
Proof. intros H. rewrite !join_columns_flat. now apply Permutation_flat_map. Qed.
Lemma find_perm m m' v : NoDup (map fst m) -> Permutation m m' -> var_find m v = var_find m' v.
Proof.
  intros H P. assert (H' : NoDup (map fst m')) by (eapply Permutation_NoDup; [apply Permutation_map; exact P|auto]).
  destruct (var_find m v) as [c|] eqn:E.
  - apply find_in in E; auto. symmetry. apply find_in; auto. eapply Permutation_in; eauto.
  - destruct (var_find m' v) as [c|] eqn:E'; auto. apply find_in in E'; auto.
    apply Permutation_sym in P. apply (Permutation_in _ P) in E'. apply find_in in E'; auto. congruence.
Qed.
Lemma join_columns_ext ma mb mb' : (forall v, var_find mb v = var_find mb' v) -> join_columns ma mb = join_columns ma mb'.
Proof. intros H. rewrite !join_columns_flat. apply flat_map_ext. intros p. now rewrite H. Qed.
Lemma join_columns_nodup_pairs ma mb wa wb : describes ma wa -> describes mb wb -> NoDup (join_columns ma mb).
Proof. intros Ha Hb. apply (NoDup_map_inv fst). now apply (join_columns_nodup ma mb wa wb). Qed.
Lemma join_columns_swap ma mb wa wb : describes ma wa -> describes mb wb ->
  Permutation (map (fun p => (snd p, fst p)) (join_columns ma mb)) (join_columns mb ma).
Proof.
  intros Ha Hb. apply NoDup_Permutation.
  - apply FinFun.Injective_map_NoDup; [|eapply join_columns_nodup_pairs; eauto].
    intros [a b] [c d] E. cbn in E. congruence.
  - eapply join_columns_nodup_pairs; eauto.
  - intros [d c]. rewrite in_map_iff, join_columns_in. cbn [fst snd]. split.
    + intros ([x y] & E & H). cbn in E. injection E as <- <-. apply join_columns_in in H. destruct H as (v & H1 & H2).
      cbn [fst snd] in *. exists v. split; [now apply find_in; [apply Hb|]|now apply find_in; [apply Ha|]].
    + intros (v & H1 & H2). exists (c, d). split; auto. apply join_columns_in. cbn [fst snd]. exists v.
      split; [now apply find_in; [apply Ha|]|now apply find_in; [apply Hb|]].
Qed.

(* the pairs of columns of the common variables *)
Definition jcs_of (ma mb : var_map) (jcs : list (nat * nat)) : Prop := Permutation jcs (join_columns ma mb).
Lemma jcs_in ma mb jcs p : jcs_of ma mb jcs ->
  (In p jcs <-> exists v, In (v, fst p) ma /\ var_find mb v = Some (snd p)).
Proof.
  intros H. rewrite <- join_columns_in. split; intros Hi; [now apply (Permutation_in _ H)|].
  apply (Permutation_in _ (Permutation_sym H)); auto.
Qed.
Lemma jcs_swap ma mb wa wb jcs : describes ma wa -> describes mb wb -> jcs_of ma mb jcs ->
  jcs_of mb ma (map (fun p => (snd p, fst p)) jcs).
Proof.
  intros Ha Hb H. unfold jcs_of in *. rewrite <- (join_columns_swap ma mb wa wb) by auto. now apply Permutation_map.
Qed.
Lemma jcs_nonjoin ma mb wb jcs v d : NoDup (map fst ma) -> describes mb wb -> jcs_of ma mb jcs ->
  var_find mb v = Some d -> (var_find ma v = None <-> ~ In d (map snd jcs)).
Proof.
  intros Ha Hb H E. pose proof (is_join_column ma mb wb v d Ha Hb E) as J.
  assert (I : In d (map snd jcs) <-> In d (map snd (join_columns ma mb))).
  { split; intros Hi; [apply (Permutation_in _ (Permutation_map snd H))|
      apply (Permutation_in _ (Permutation_sym (Permutation_map snd H)))]; auto. }
  rewrite I, J. destruct (var_find ma v); intuition congruence.
Qed.
Lemma jcs_single ma mb c d : jcs_of ma mb [(c, d)] -> join_columns ma mb = [(c, d)].
Proof. intros H. now apply Permutation_length_1_inv in H. Qed.
Lemma jcs_single_lt ma mb wa wb c d : describes ma wa -> describes mb wb -> jcs_of ma mb [(c, d)] -> c < wa /\ d < wb.
Proof.
  intros Ha Hb H. destruct (proj1 (jcs_in ma mb _ (c, d) H)) as (v & H1 & H2); [now left|]. cbn [fst snd] in *.
  split; [|eapply desc_lt; eauto]. eapply desc_lt; [exact Ha|]. apply find_in; [apply Ha|eauto].
Qed.
Lemma jcs_lt ma mb wa wb jcs p : describes ma wa -> describes mb wb -> jcs_of ma mb jcs -> In p jcs ->
  fst p < wa /\ snd p < wb.
Proof.
  intros Ha Hb H Hp. destruct (proj1 (jcs_in ma mb _ p H) Hp) as (v & H1 & H2).
  split; [|eapply desc_lt; eauto]. eapply desc_lt; [exact Ha|]. apply find_in; [apply Ha|eauto].
Qed.
Lemma jcs_nodup ma mb wa wb jcs : describes ma wa -> describes mb wb -> jcs_of ma mb jcs ->
  NoDup (map fst jcs) /\ NoDup (map snd jcs).
Proof.
  intros Ha Hb H. destruct (join_columns_nodup ma mb wa wb Ha Hb) as [N1 N2].
  split; [apply (Permutation_NoDup (Permutation_sym (Permutation_map fst H)) N1)|
    apply (Permutation_NoDup (Permutation_sym (Permutation_map snd H)) N2)].
Qed.

(* ---------- the forms of joins ---------- *)
Lemma join_find ma mb wa wb lc rc v : describes ma wa -> describes mb wb -> jcs_of ma mb [(lc, rc)] ->
  var_find (join_vars ma mb wa rc) v =
  match var_find ma v with
  | Some c => Some c
  | None => option_map (fun d => wa + (if d <? rc then d else d - 1)) (var_find mb v)
  end.
Proof.
  intros Ha Hb J. rewrite join_vars_add, find_add by apply Hb.
  destruct (var_find mb v) as [d|] eqn:E; [|destruct (var_find ma v); reflexivity].
  pose proof (jcs_nonjoin ma mb wb _ v d (proj1 Ha) Hb J E) as Q. cbn [map snd In] in Q. cbn [option_map].
  destruct (Nat.ltb_spec d rc).
  - destruct (var_find ma v) as [c|]; auto. exfalso. assert (Some c = None); [|discriminate]. apply Q. lia.
  - destruct (Nat.ltb_spec rc d).
    + destruct (var_find ma v) as [c|]; [|f_equal; lia]. exfalso. assert (Some c = None); [|discriminate]. apply Q. lia.
    + assert (d = rc) by lia. subst. destruct (var_find ma v) as [c|]; auto. exfalso. apply (proj1 Q); auto.
Qed.
Lemma join_full ma mb wa wb lc rc : full ma wa -> full mb wb -> jcs_of ma mb [(lc, rc)] ->
  full (join_vars ma mb wa rc) (wa + wb - 1).
Proof.
  intros Fa Fb J. pose proof (full_desc _ _ Fa) as Ha. pose proof (full_desc _ _ Fb) as Hb.
  destruct (jcs_single_lt ma mb wa wb lc rc Ha Hb J) as [Lc Rc].
  apply (comb_full ma mb wa wb _ _ (fun c => c) (fun d => wa + (if d <? rc then d else d - 1)) (fun d => d <> rc)); auto.
  - rewrite join_vars_add. apply add_nodup. apply Ha.
  - intros v. rewrite (join_find ma mb wa wb lc rc) by auto. reflexivity.
  - intros v d E. rewrite (jcs_nonjoin ma mb wb _ v d (proj1 Ha) Hb J E). cbn. intuition.
  - intros c Hc. lia.
  - intros d Hd Nd. destruct (Nat.ltb_spec d rc); lia.
  - intros d d' Hd Hd' Nd Nd'. destruct (Nat.ltb_spec d rc), (Nat.ltb_spec d' rc); lia.
  - intros c d Hc Hd Nd. destruct (Nat.ltb_spec d rc); lia.
  - intros c Hc. destruct (Nat.ltb_spec c wa); [left; eauto|right].
    destruct (Nat.ltb_spec (c - wa) rc).
    + exists (c - wa). split; [lia|]. split; [lia|]. destruct (Nat.ltb_spec (c - wa) rc); lia.
    + exists (S (c - wa)). split; [lia|]. split; [lia|]. destruct (Nat.ltb_spec (S (c - wa)) rc); lia.
Qed.

Lemma scan_right_find ma mb wa wb lc v : describes ma wa -> describes mb wb -> jcs_of ma mb [(lc, 0)] ->
  var_find (join_vars_scan_right ma mb wa) v =
  match var_find ma v with
  | Some c => Some c
  | None => option_map (fun d => wa + d - 1) (var_find mb v)
  end.
Proof.
  intros Ha Hb J. rewrite scan_right_add, find_add by apply Hb.
  destruct (var_find mb v) as [d|] eqn:E; [|destruct (var_find ma v); reflexivity].
  pose proof (jcs_nonjoin ma mb wb _ v d (proj1 Ha) Hb J E) as Q. cbn [map snd In] in Q. cbn [option_map].
  destruct (Nat.eqb_spec d 0).
  - subst. destruct (var_find ma v) as [c|]; auto. exfalso. apply (proj1 Q); auto.
  - destruct (var_find ma v) as [c|]; auto. exfalso. assert (Some c = None); [|discriminate]. apply Q. lia.
Qed.
Lemma scan_right_full ma mb wa wb lc : full ma wa -> full mb wb -> jcs_of ma mb [(lc, 0)] ->
  full (join_vars_scan_right ma mb wa) (wa + wb - 1).
Proof.
  intros Fa Fb J. pose proof (full_desc _ _ Fa) as Ha. pose proof (full_desc _ _ Fb) as Hb.
  destruct (jcs_single_lt ma mb wa wb lc 0 Ha Hb J) as [Lc Rc].
  apply (comb_full ma mb wa wb _ _ (fun c => c) (fun d => wa + d - 1) (fun d => d <> 0)); auto.
  - rewrite scan_right_add. apply add_nodup. apply Ha.
  - intros v. apply (scan_right_find ma mb wa wb lc); auto.
  - intros v d E. rewrite (jcs_nonjoin ma mb wb _ v d (proj1 Ha) Hb J E). cbn. intuition.
  - intros c Hc. lia.
  - intros d Hd Nd. lia.
  - intros d d' Hd Hd' Nd Nd'. lia.
  - intros c d Hc Hd Nd. lia.
  - intros c Hc. destruct (Nat.ltb_spec c wa); [left; eauto|right].
    exists (S (c - wa)). split; [lia|]. split; lia.
Qed.

Lemma scan_left_find ma mb wa wb rc v : describes ma wa -> describes mb wb -> jcs_of ma mb [(0, rc)] ->
  var_find (join_vars_scan_left ma mb) v =
  match var_find mb v with
  | Some c => Some (2 + c)
  | None => option_map (fun d => d - 1) (var_find ma v)
  end.
Proof.
  intros Ha Hb J. unfold join_vars_scan_left. rewrite scan_left2_add, find_add by apply Hb.
  rewrite scan_left_add, find_add by apply Ha. destruct (var_find mb v) as [d|] eqn:E; auto.
  destruct (var_find ma v) as [c|] eqn:Ea; auto.
  pose proof (jcs_nonjoin mb ma wa _ v c (proj1 Hb) Ha (jcs_swap _ _ _ _ _ Ha Hb J) Ea) as Q.
  cbn [map snd fst In] in Q. cbn [option_map]. destruct (Nat.eqb_spec c 0); auto. subst.
  exfalso. apply (proj1 Q); auto.
Qed.
Lemma scan_left_full ma mb wa wb rc : wa = 3 -> full ma wa -> full mb wb -> jcs_of ma mb [(0, rc)] ->
  full (join_vars_scan_left ma mb) (wa + wb - 1).
Proof.
  intros W Fa Fb J. pose proof (full_desc _ _ Fa) as Ha. pose proof (full_desc _ _ Fb) as Hb.
  destruct (jcs_single_lt ma mb wa wb 0 rc Ha Hb J) as [Lc Rc].
  apply (comb_full mb ma wb wa _ _ (fun c => 2 + c) (fun d => d - 1) (fun d => d <> 0)); auto.
  - unfold join_vars_scan_left. rewrite scan_left2_add. apply add_nodup. rewrite scan_left_add. apply add_nodup. constructor.
  - intros v. apply (scan_left_find ma mb wa wb rc); auto.
  - intros v d E. rewrite (jcs_nonjoin mb ma wa _ v d (proj1 Hb) Ha (jcs_swap _ _ _ _ _ Ha Hb J) E). cbn. intuition.
  - intros c Hc. lia.
  - intros c c' Hc Hc' E. lia.
  - intros d Hd Nd. lia.
  - intros d d' Hd Hd' Nd Nd'. lia.
  - intros c d Hc Hd Nd. lia.
  - intros c Hc. destruct (Nat.ltb_spec c 2); [right|left].
    + exists (S c). split; [lia|]. split; lia.
    + exists (c - 2). split; lia.
Qed.

(* two columns, operation not implemented *)
Lemma two_else_add ma mb lw c d : two_column_else ma mb lw c d = add_vars (two_column_shift lw c d) ma mb.
Proof. reflexivity. Qed.
Lemma two_shift_none lw c d x : c <> d -> (two_column_shift lw c d x = None <-> x = c \/ x = d).
Proof.
  intros H. unfold two_column_shift. destruct (Nat.ltb_spec x c), (Nat.ltb_spec x d), (Nat.ltb_spec c x), (Nat.ltb_spec d x);
    try lia; split; intros Q; try discriminate; try lia; reflexivity.
Qed.
Definition two_pos (lw c d x : nat) : nat := match two_column_shift lw c d x with Some i => i | None => 0 end.
Lemma two_else_find ma mb wa wb j1 j2 v : describes ma wa -> describes mb wb -> jcs_of ma mb [j1; j2] ->
  var_find (two_column_else ma mb wa (snd j1) (snd j2)) v =
  match var_find ma v with
  | Some c => Some c
  | None => option_map (two_pos wa (snd j1) (snd j2)) (var_find mb v)
  end.
Proof.
  intros Ha Hb J. rewrite two_else_add, find_add by apply Hb.
  destruct (var_find mb v) as [d|] eqn:E; [|destruct (var_find ma v); reflexivity].
  pose proof (jcs_nonjoin ma mb wb _ v d (proj1 Ha) Hb J E) as Q. cbn [map In] in Q. cbn [option_map].
  destruct (jcs_nodup ma mb wa wb _ Ha Hb J) as [_ N2]. cbn [map] in N2. inversion N2 as [|? ? N3 _]; subst.
  assert (D : snd j1 <> snd j2) by (intros X; apply N3; rewrite X; now left).
  pose proof (two_shift_none wa (snd j1) (snd j2) d D) as T. unfold two_pos.
  destruct (two_column_shift wa (snd j1) (snd j2) d) as [i|] eqn:S.
  - destruct (var_find ma v) as [c|]; auto. exfalso. assert (Some c = None); [|discriminate].
    apply Q. intros [X|[X|[]]]; assert (Z : Some i = None) by (apply T; auto); discriminate.
  - destruct (proj1 T eq_refl) as [X|X]; destruct (var_find ma v) as [c|]; auto; exfalso; apply (proj1 Q); auto.
Qed.
Lemma two_else_full ma mb wa wb j1 j2 : full ma wa -> full mb wb -> jcs_of ma mb [j1; j2] ->
  full (two_column_else ma mb wa (snd j1) (snd j2)) (wa + wb - 2).
Proof.
  intros Fa Fb J. pose proof (full_desc _ _ Fa) as Ha. pose proof (full_desc _ _ Fb) as Hb.
  destruct (jcs_lt ma mb wa wb _ j1 Ha Hb J) as [_ L1]; [now left|].
  destruct (jcs_lt ma mb wa wb _ j2 Ha Hb J) as [_ L2]; [now right; left|].
  destruct (jcs_nodup ma mb wa wb _ Ha Hb J) as [_ N2]. cbn [map] in N2. inversion N2 as [|? ? N3 _]; subst.
  assert (D : snd j1 <> snd j2) by (intros X; apply N3; rewrite X; now left).
  set (c := snd j1) in *. set (d := snd j2) in *.
  apply (comb_full ma mb wa wb _ _ (fun c => c) (two_pos wa c d) (fun x => x <> c /\ x <> d)); auto.
  - rewrite two_else_add. apply add_nodup. apply Ha.
  - intros v. apply (two_else_find ma mb wa wb j1 j2); auto.
  - intros v x E. rewrite (jcs_nonjoin ma mb wb _ v x (proj1 Ha) Hb J E). cbn. fold c d. intuition.
  - intros x Hx. lia.
  - intros x Hx [N4 N5]. unfold two_pos, two_column_shift.
    destruct (Nat.ltb_spec x c), (Nat.ltb_spec x d), (Nat.ltb_spec c x), (Nat.ltb_spec d x); lia.
  - intros x y Hx Hy [N4 N5] [N6 N7]. unfold two_pos, two_column_shift.
    destruct (Nat.ltb_spec x c), (Nat.ltb_spec x d), (Nat.ltb_spec c x), (Nat.ltb_spec d x); try lia;
    destruct (Nat.ltb_spec y c), (Nat.ltb_spec y d), (Nat.ltb_spec c y), (Nat.ltb_spec d y); lia.
  - intros x y Hx Hy [N4 N5]. unfold two_pos, two_column_shift.
    destruct (Nat.ltb_spec y c), (Nat.ltb_spec y d), (Nat.ltb_spec c y), (Nat.ltb_spec d y); lia.
  - intros x Hx. destruct (Nat.ltb_spec x wa); [left; eauto|right].
    exists (if (x - wa <? c) && (x - wa <? d) then x - wa
            else if (x - wa + 1 <? c) || (x - wa + 1 <? d) then x - wa + 1 else x - wa + 2).
    unfold two_pos, two_column_shift.
    destruct (Nat.ltb_spec (x - wa) c), (Nat.ltb_spec (x - wa) d); cbn [andb];
      [|destruct (Nat.ltb_spec (x - wa + 1) c), (Nat.ltb_spec (x - wa + 1) d); cbn [orb]..];
      try lia;
      repeat match goal with |- context [?p <? ?q] => destruct (Nat.ltb_spec p q) end; try lia.
Qed.

(* two columns, implemented: the relation has no further variables *)
Lemma two_rel_vars ma mb wa wb j1 j2 v : wb = 2 -> describes ma wa -> describes mb wb -> jcs_of ma mb [j1; j2] ->
  var_find mb v <> None -> var_find ma v <> None.
Proof.
  intros W Ha Hb J. destruct (var_find mb v) as [d|] eqn:E; [intros _|congruence].
  pose proof (jcs_nonjoin ma mb wb _ v d (proj1 Ha) Hb J E) as Q. cbn [map In] in Q. intros N. apply (proj1 Q); auto.
  destruct (jcs_lt ma mb wa wb _ j1 Ha Hb J) as [_ L1]; [now left|].
  destruct (jcs_lt ma mb wa wb _ j2 Ha Hb J) as [_ L2]; [now right; left|].
  destruct (jcs_nodup ma mb wa wb _ Ha Hb J) as [_ N2]. cbn [map] in N2. inversion N2 as [|? ? N3 _]; subst.
  assert (D : snd j1 <> snd j2) by (intros X; apply N3; rewrite X; now left).
  pose proof (desc_lt _ _ _ _ Hb E). lia.
Qed.

(* many columns *)
Fixpoint multi_pos (jc : nat -> bool) (mb : var_map) (i : nat) (v : string) : option nat :=
  match mb with
  | [] => None
  | (x, c) :: mb' => if jc c then multi_pos jc mb' i v
                     else if String.eqb x v then Some i else multi_pos jc mb' (i + 1) v
  end.
Definition is_jc (jcs : list (nat * nat)) (c : nat) : bool := existsb (fun p => Nat.eqb (snd p) c) jcs.
Lemma multi_pos_dom jc v mb : forall i, NoDup (map fst mb) ->
  (multi_pos jc mb i v <> None <-> exists d, var_find mb v = Some d /\ jc d = false).
Proof.
  induction mb as [|[x c] mb IH]; intros i N; cbn [multi_pos].
  - split; [congruence|]. intros (d & E & _). discriminate.
  - cbn [map fst] in N. inversion N as [|? ? Nx N']; subst. rewrite find_cons. destruct (jc c) eqn:J.
    + rewrite IH by auto. destruct (String.eqb_spec x v) as [->|]; [|reflexivity].
      split; intros (d & E & F); [|congruence]. apply find_in in E; auto. apply (in_map fst) in E. contradiction.
    + destruct (String.eqb_spec x v) as [->|]; [|now apply IH]. split; [eauto|discriminate].
Qed.
Lemma multi_pos_ge jc v mb : forall i c, multi_pos jc mb i v = Some c -> i <= c.
Proof.
  induction mb as [|[x d] mb IH]; intros i c; cbn [multi_pos]; [discriminate|]. destruct (jc d); [apply IH|].
  destruct (String.eqb x v); [intros Q; injection Q as <-; auto|]. intros Q. apply IH in Q. lia.
Qed.
Lemma multi_find jcs mb : forall m i v, NoDup (map fst mb) ->
  var_find (multi_vars m mb i jcs) v =
  match multi_pos (is_jc jcs) mb i v with Some c => Some c | None => var_find m v end.
Proof.
  induction mb as [|[x c] mb IH]; intros m i v N; cbn [multi_vars multi_pos]; auto.
  cbn [map fst] in N. inversion N as [|? ? Nx N']; subst. fold (is_jc jcs c). destruct (is_jc jcs c) eqn:J; [now apply IH|].
  rewrite IH by auto. rewrite find_set. destruct (String.eqb_spec x v) as [->|]; auto.
  assert (X : multi_pos (is_jc jcs) mb (i + 1) v = None).
  { destruct (multi_pos (is_jc jcs) mb (i + 1) v) eqn:E; auto. exfalso.
    assert (Y : multi_pos (is_jc jcs) mb (i + 1) v <> None) by congruence. apply multi_pos_dom in Y; auto.
    destruct Y as (d & F & _). apply find_in in F; auto. apply (in_map fst) in F. contradiction. }
  now rewrite X.
Qed.
Lemma multi_nodup jcs mb : forall m i, NoDup (map fst m) -> NoDup (map fst (multi_vars m mb i jcs)).
Proof.
  induction mb as [|[x c] mb IH]; intros m i N; cbn [multi_vars]; auto.
  destruct (existsb _ jcs); auto using set_nodup.
Qed.
Lemma multi_pos_lt jc v mb : forall i c, multi_pos jc mb i v = Some c ->
  c < i + length (filter (fun p => negb (jc (snd p))) mb).
Proof.
  induction mb as [|[x d] mb IH]; intros i c; cbn [multi_pos filter snd]; [discriminate|]. destruct (jc d) eqn:J; cbn [negb].
  - apply IH.
  - cbn [length]. destruct (String.eqb x v); [intros Q; injection Q as <-; lia|]. intros Q. apply IH in Q. lia.
Qed.
Lemma multi_pos_inj jc mb : forall i v v' c, multi_pos jc mb i v = Some c -> multi_pos jc mb i v' = Some c -> v = v'.
Proof.
  induction mb as [|[x d] mb IH]; intros i v v' c; cbn [multi_pos]; [discriminate|]. destruct (jc d); [apply IH|].
  destruct (String.eqb_spec x v), (String.eqb_spec x v'); subst; auto.
  - intros Q Q'. injection Q as <-. apply multi_pos_ge in Q'. lia.
  - intros Q Q'. injection Q' as <-. apply multi_pos_ge in Q. lia.
  - apply IH.
Qed.
Lemma multi_pos_surj jc mb : forall i c, NoDup (map fst mb) ->
  i <= c -> c < i + length (filter (fun p => negb (jc (snd p))) mb) -> exists v, multi_pos jc mb i v = Some c.
Proof.
  induction mb as [|[x d] mb IH]; intros i c N; cbn [multi_pos filter snd length]; [lia|].
  cbn [map fst] in N. inversion N as [|? ? Nx N']; subst.
  destruct (jc d) eqn:J; cbn [negb length]; [now apply IH|]. intros H1 H2. destruct (Nat.eq_dec i c) as [->|].
  - exists x. now rewrite String.eqb_refl.
  - destruct (IH (i + 1) c N') as (v & E); try lia. exists v. destruct (String.eqb_spec x v) as [->|]; auto.
    exfalso. assert (Y : multi_pos jc mb (i + 1) v <> None) by congruence. apply multi_pos_dom in Y; auto.
    destruct Y as (e & F & _). apply find_in in F; auto. apply (in_map fst) in F. contradiction.
Qed.
Lemma is_jc_in jcs c : is_jc jcs c = true <-> In c (map snd jcs).
Proof.
  unfold is_jc. rewrite existsb_exists, in_map_iff. split; intros (p & H1 & H2); exists p.
  - apply Nat.eqb_eq in H2. auto.
  - split; auto. now apply Nat.eqb_eq.
Qed.
Lemma filter_split_length {A} (f : A -> bool) l : length (filter f l) + length (filter (fun x => negb (f x)) l) = length l.
Proof. induction l as [|a l IH]; cbn; auto. destruct (f a); cbn; lia. Qed.
(* number of columns that are not join columns *)
Lemma multi_count ma mb wa wb jcs : full ma wa -> full mb wb -> jcs_of ma mb jcs ->
  length (filter (fun p => negb (is_jc jcs (snd p))) mb) = wb - length jcs /\ length jcs <= wb.
Proof.
  intros Fa Fb J. pose proof (full_desc _ _ Fa) as Ha. pose proof (full_desc _ _ Fb) as Hb.
  pose proof (full_length _ _ Fb) as L. destruct (jcs_nodup ma mb wa wb _ Ha Hb J) as [_ N2].
  assert (E : length (filter (fun p => is_jc jcs (snd p)) mb) = length jcs).
  { rewrite <- (map_length snd jcs). rewrite <- (map_length snd (filter _ mb)).
    assert (Nd : NoDup (map snd (filter (fun p => is_jc jcs (snd p)) mb))).
    { destruct Hb as (_ & N & _). clear -N. induction mb as [|[x d] mb IH]; cbn; [constructor|]. inversion N; subst.
      destruct (is_jc jcs d); cbn; auto. constructor; auto. intros Hi. apply H1.
      apply in_map_iff in Hi. destruct Hi as (p & <- & Hp). apply filter_In in Hp. apply in_map. tauto. }
    apply Nat.le_antisymm; apply NoDup_incl_length; auto.
    - intros c Hc. apply in_map_iff in Hc. destruct Hc as (p & <- & Hp). apply filter_In in Hp. apply is_jc_in. tauto.
    - intros c Hc. apply in_map_iff in Hc. destruct Hc as (p & <- & Hp). pose proof Hp as Hp'.
      apply (jcs_in ma mb jcs p J) in Hp'. destruct Hp' as (v & _ & Ev). apply find_in in Ev; [|apply Hb].
      apply in_map_iff. exists (v, snd p). split; auto. apply filter_In. split; auto. cbn [snd].
      apply is_jc_in. now apply in_map. }
  pose proof (filter_split_length (fun p : string * nat => is_jc jcs (snd p)) mb) as S. lia.
Qed.
Lemma multi_full ma mb mb' wa wb jcs : full ma wa -> full mb wb -> Permutation mb' mb -> jcs_of ma mb jcs ->
  full (multi_column_vars ma mb' jcs) (wa + wb - length jcs).
Proof.
  intros Fa Fb P J. assert (N' : NoDup (map fst mb')).
  { eapply Permutation_NoDup; [apply Permutation_map, Permutation_sym; exact P|apply Fb]. }
  assert (FP : forall v, var_find mb' v = var_find mb v) by (intros v; apply find_perm; auto).
  assert (Fb' : full mb' wb).
  { split; auto. destruct Fb as (_ & B2 & B3 & B4). split; [|split].
    - intros v c. rewrite FP. apply B2.
    - intros v v' c. rewrite !FP. apply B3.
    - intros c Hc. destruct (B4 c Hc) as (v & E). exists v. now rewrite FP. }
  assert (J' : jcs_of ma mb' jcs).
  { unfold jcs_of in *. now rewrite (join_columns_ext ma mb' mb). }
  clear P FP J Fb. pose proof (full_desc _ _ Fa) as Ha. pose proof (full_desc _ _ Fb') as Hb.
  destruct (multi_count ma mb' wa wb jcs Fa Fb' J') as [Cn Cl]. unfold multi_column_vars.
  rewrite (full_length _ _ Fa). set (jc := is_jc jcs).
  assert (Nj : forall v d, var_find mb' v = Some d -> (var_find ma v = None <-> jc d = false)).
  { intros v d E. rewrite (jcs_nonjoin ma mb' wb _ v d (proj1 Ha) Hb J' E). unfold jc. pose proof (is_jc_in jcs d).
    destruct (is_jc jcs d); intuition. }
  assert (Mn : forall v i, multi_pos jc mb' i v <> None <-> exists d, var_find mb' v = Some d /\ var_find ma v = None).
  { intros v i. rewrite multi_pos_dom by auto. split; intros (d & E & F); exists d; split; auto; apply (Nj v d); auto. }
  destruct Fa as (A1 & A2 & A3 & A4). split; [now apply multi_nodup|]. split; [|split].
  - intros v c. rewrite multi_find by auto. fold jc. destruct (multi_pos jc mb' wa v) eqn:E.
    + intros Q. injection Q as <-. apply multi_pos_lt in E. fold jc in Cn. lia.
    + intros Q. apply A2 in Q. lia.
  - intros v v' c. rewrite !multi_find by auto. fold jc.
    destruct (multi_pos jc mb' wa v) eqn:E; destruct (multi_pos jc mb' wa v') eqn:E'.
    + intros Q Q'. injection Q as <-. injection Q' as ->. eapply multi_pos_inj; eauto.
    + intros Q Q'. injection Q as <-. apply multi_pos_ge in E. apply A2 in Q'. lia.
    + intros Q Q'. injection Q' as <-. apply multi_pos_ge in E'. apply A2 in Q. lia.
    + apply A3.
  - intros c Hc. destruct (Nat.ltb_spec c wa) as [L|L].
    + destruct (A4 c L) as (v & E). exists v. rewrite multi_find by auto. fold jc.
      destruct (multi_pos jc mb' wa v) eqn:E'; auto. exfalso.
      assert (X : multi_pos jc mb' wa v <> None) by congruence. apply Mn in X. destruct X as (d & _ & F). congruence.
    + destruct (multi_pos_surj jc mb' wa c N' L) as (v & E); [fold jc in Cn; lia|].
      exists v. rewrite multi_find by auto. fold jc. now rewrite E.
Qed.
(* the variables of the result are those of the inputs *)
Lemma multi_dom ma mb mb' wa wb jcs v : full ma wa -> full mb wb -> Permutation mb' mb -> jcs_of ma mb jcs ->
  (var_find (multi_column_vars ma mb' jcs) v <> None <-> var_find ma v <> None \/ var_find mb v <> None).
Proof.
  intros Fa Fb P J. assert (N' : NoDup (map fst mb')).
  { eapply Permutation_NoDup; [apply Permutation_map, Permutation_sym; exact P|apply Fb]. }
  assert (FP : forall v, var_find mb' v = var_find mb v) by (intros x; apply find_perm; auto).
  pose proof (full_desc _ _ Fa) as Ha. pose proof (full_desc _ _ Fb) as Hb.
  unfold multi_column_vars. rewrite multi_find by auto.
  pose proof (multi_pos_dom (is_jc jcs) v mb' (length ma) N') as M. rewrite FP in M.
  destruct (multi_pos (is_jc jcs) mb' (length ma) v) eqn:E.
  - destruct (proj1 M) as (d & F & _); [congruence|]. rewrite F. split; [intros _; right; congruence|congruence].
  - split; [auto|]. intros [H|H]; auto. destruct (var_find mb v) as [d|] eqn:F; [|congruence].
    pose proof (jcs_nonjoin ma mb wb _ v d (proj1 Ha) Hb J F) as Q. pose proof (is_jc_in jcs d) as I.
    intros Z. destruct (is_jc jcs d) eqn:X.
    + apply (proj1 Q Z). now apply I.
    + apply (proj2 M); eauto.
Qed.
