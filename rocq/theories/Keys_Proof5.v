(* Proofs about cache keys: every operation can be read back from its key. *)
From Coq Require Import Ascii String List NArith Bool Lia ZifyBool ZifyN ZifyNat.
From Verif Require Import Conv_Model Keys_Model Keys_Spec Keys_Proof Keys_Proof2 Keys_Proof3 Keys_Proof4.
Import ListNotations.
Open Scope N_scope.

Ltac tree IH H A :=
  apply IH in H as [A H]; [|assumption|assumption].

Lemma reads_tree_of o w vs : reads o -> reads_tree (Tree o w vs).
Proof.
  intros IH [o2 w2 vs2] i r s H1 H2 H. cbn [treeString] in H. rewrite <- !app_assoc in H.
  cbn [tree_ok] in H1, H2. do 3 step H. apply IH in H as [[S V] H]; try assumption.
  do 2 step H. step H. repeat step H. split; [|assumption].
  unfold alike_tree, shape_tree. cbn [tree_width hidden_tree eval_tree]. auto.
Qed.

Lemma reads_side_none : reads_side NoSide.
Proof.
  intros [|t c] i h r s _ _ Hr Hs H.
  - cbn in H. subst. split; [|reflexivity]. split; auto.
  - exfalso. cbn [sideString] in H. rewrite <- !app_assoc in H. cbn [app] in H. apply Hr in H. assumption.
Qed.

Lemma reads_side_some t c : reads_tree t -> reads_side (Side t c).
Proof.
  intros IH [|t2 c2] i h r s H1 H2 Hr Hs H.
  - exfalso. cbn [sideString] in H. rewrite <- !app_assoc in H. cbn [app] in H. symmetry in H. apply Hs in H. assumption.
  - cbn [sideString] in H. rewrite <- !app_assoc in H. do 2 step H. tree IH H Al. step H. split; [|assumption].
    destruct Al as (_ & S & V). split.
    + unfold shape_side. cbn [hidden_side]. apply shape_own. cbn [map]. unfold shape_tree in S. now rewrite S.
    + cbn [hidden_side eval_side]. intros E R A. injection E as -> E. now rewrite (V E R A).
Qed.

Lemma reads_join l r a b : reads_tree l -> reads_tree r -> reads (Join l r a b).
Proof.
  intros IL IR o2 i x y [K1 K2] H2 H. open H. destruct o2; try discriminate T. destruct H2 as [J1 J2].
  cbn [asString] in H. rewrite <- ?app_assoc in H.
  do 3 step H. tree IL H A1. do 7 step H. tree IR H A2. do 4 step H. split; [|assumption].
  eapply alike_two; try reflexivity; try assumption. intros _ R A El Er. cbn [eval].
  destruct A1 as [-> _], A2 as [-> _]. now rewrite El, Er.
Qed.

Lemma reads_multi l r jcs : reads_tree l -> reads_tree r -> reads (MultiJoin l r jcs).
Proof.
  intros IL IR o2 i x y [K1 K2] H2 H. open H. destruct o2; try discriminate T. destruct H2 as [J1 J2].
  cbn [asString] in H. rewrite <- ?app_assoc in H.
  do 3 step H. tree IL H A1. step H. apply read_columns in H as [E1 H]. do 4 step H. tree IR H A2. step H.
  apply read_columns in H as [E2 H]. step H. split; [|assumption].
  pose proof (fst_snd_eq _ _ E1 E2) as ->.
  eapply alike_two; try reflexivity; try assumption. intros _ R A El Er. cbn [eval]. now rewrite El, Er.
Qed.

Lemma reads_optional l r lo ro jcs : reads_tree l -> reads_tree r -> reads (Optional l r lo ro jcs).
Proof.
  intros IL IR o2 i x y [K1 K2] H2 H. open H. destruct o2; try discriminate T. destruct H2 as [J1 J2].
  cbn [asString] in H. rewrite <- ?app_assoc in H.
  do 3 step H. tree IL H A1. step H. apply read_columns in H as [E1 H]. do 4 step H. tree IR H A2. step H.
  apply read_columns in H as [E2 H]. step H. split; [|assumption].
  pose proof (fst_snd_eq _ _ E1 E2) as ->.
  eapply alike_two; try reflexivity; try assumption. intros E R A El Er. cbn [eval]. rewrite El, Er.
  unfold flag in E. injection E as F1 F2.
  destruct lo, lopt, ro, ropt; try discriminate; reflexivity.
Qed.

Lemma reads_two l r a b c d : reads_tree l -> reads_tree r -> reads (TwoJoin l r a b c d).
Proof.
  intros IL IR o2 i x y [K1 K2] H2 H. open H. destruct o2; try discriminate T. destruct H2 as [J1 J2].
  cbn [asString] in H. rewrite <- ?app_assoc in H.
  do 4 step H. tree IL H A1. do 12 step H. tree IR H A2. do 8 step H. split; [|assumption].
  eapply alike_two; try reflexivity; try assumption. intros _ R A El Er. cbn [eval].
  destruct A1 as [-> _], A2 as [-> _]. now rewrite El, Er.
Qed.

Lemma reads_minus l r m : reads_tree l -> reads_tree r -> reads (Minus l r m).
Proof.
  intros IL IR o2 i x y [K1 K2] H2 H. open H. destruct o2; try discriminate T. destruct H2 as [J1 J2].
  cbn [asString] in H. rewrite <- ?app_assoc in H.
  do 3 step H. tree IL H A1. step H. tree IR H A2. do 2 step H. split; [|assumption].
  eapply alike_two; try reflexivity; try assumption. intros E R A El Er. cbn [eval]. rewrite El, Er.
  injection E as E1 E2. f_equal. eapply map_pair_eq; [exact E1|exact E2|].
  intros [] [] F1 F2. cbn in *. congruence.
Qed.

Lemma reads_union l r os : reads_tree l -> reads_tree r -> reads (Union l r os).
Proof.
  intros IL IR o2 i x y [K1 K2] H2 H. open H. destruct o2; try discriminate T. destruct H2 as [J1 J2].
  cbn [asString] in H. rewrite <- ?app_assoc in H.
  tree IL H A1. do 4 step H. tree IR H A2. do 2 step H. split; [|assumption].
  eapply alike_two; try reflexivity; try assumption. intros E R A El Er. cbn [eval]. rewrite El, Er.
  injection E as E1 E2. f_equal. now apply fst_snd_eq.
Qed.

Lemma order_one c : order_text [(c, false)] = bytes "asc(" ++ decimal c ++ bytes ") ".
Proof. cbn [order_text]. now rewrite ?app_nil_r. Qed.

(* A Sort is an OrderBy of one column. *)
Lemma sort_as_order i t c : asString i (Sort t c) = asString i (OrderBy t [(c, false)]).
Proof. cbn [asString]. rewrite order_one, <- !app_assoc. reflexivity. Qed.

Lemma reads_order_order t l o2t l2 i x y : reads_tree t -> tree_ok t -> tree_ok o2t ->
  asString i (OrderBy t l) ++ nl ++ x = asString i (OrderBy o2t l2) ++ nl ++ y ->
  l = l2 /\ alike_tree t o2t /\ x = y.
Proof.
  intros IH K1 K2 H. cbn [asString] in H. rewrite <- ?app_assoc in H. do 2 step H.
  apply read_order in H as [-> H]. tree IH H A. step H. auto.
Qed.

Lemma reads_order t l : reads_tree t -> reads (OrderBy t l).
Proof.
  intros IH o2 i x y K1 H2 H. pose proof (same_tag _ _ _ _ _ H) as T. destruct o2; try discriminate T.
  - rewrite sort_as_order in H. cbn [texts_ok] in K1, H2. apply reads_order_order in H as (-> & A & ->); auto.
    split; [|reflexivity]. eapply alike_one; try reflexivity; try assumption. discriminate.
  - cbn [texts_ok] in K1, H2. apply reads_order_order in H as (-> & A & ->); auto.
    split; [|reflexivity]. eapply alike_one; try reflexivity; try assumption.
    intros _ R B E. cbn [eval]. now rewrite E.
Qed.

Lemma reads_sort t c : reads_tree t -> reads (Sort t c).
Proof.
  intros IH o2 i x y K1 H2 H. pose proof (same_tag _ _ _ _ _ H) as T. destruct o2; try discriminate T.
  - rewrite !sort_as_order in H. cbn [texts_ok] in K1, H2. apply reads_order_order in H as (E & A & ->); auto.
    injection E as ->. split; [|reflexivity]. eapply alike_one; try reflexivity; try assumption.
    intros _ R B E. cbn [eval]. now rewrite E.
  - rewrite sort_as_order in H. cbn [texts_ok] in K1, H2. apply reads_order_order in H as (<- & A & ->); auto.
    split; [|reflexivity]. eapply alike_one; try reflexivity; try assumption. discriminate.
Qed.

Lemma reads_distinct t keep : reads_tree t -> reads (Distinct t keep).
Proof.
  intros IH o2 i x y K1 H2 H. open H. destruct o2; try discriminate T. cbn [asString] in H. rewrite <- ?app_assoc in H.
  cbn [texts_ok] in K1, H2. do 2 step H. tree IH H A. step H. split; [|assumption].
  eapply alike_one; try reflexivity; try assumption. intros E R B Et. cbn [eval]. rewrite Et.
  injection E as E. now rewrite (map_some_inj _ _ E).
Qed.

Lemma reads_filter t lhs ty rhs ic st add : reads_tree t -> reads (Filter t lhs ty rhs ic st add).
Proof.
  intros IH o2 i x y K1 H2 H. open H. destruct o2; try discriminate T. cbn [asString] in H. rewrite <- ?app_assoc in H.
  cbn [texts_ok] in K1, H2. destruct K1 as [K1 F1], H2 as [K2 F2].
  do 2 step H. tree IH H A. step H. apply read_filter in H as (-> & -> & E & -> & -> & -> & H); try assumption.
  step H. split; [|assumption].
  eapply alike_one; try reflexivity; try assumption. intros Ho R B Et. cbn [eval]. rewrite Et.
  injection Ho as E1 E2 E3. rewrite E1. change (match type with REGEX => ic | _ => false end) with (effective type ic).
  change (match type with REGEX => ignore_case | _ => false end) with (effective type ignore_case). rewrite E.
  f_equal.
  - unfold filter_arg. destruct (starts_with_question rhs0); [now rewrite E2|reflexivity].
  - clear -E3. induction additional as [|[v p] l IH]; [reflexivity|]. cbn [map fst snd] in *. injection E3 as -> E3.
    f_equal. auto.
Qed.

Lemma reads_group t g als : reads_tree t -> reads (GroupBy t g als).
Proof.
  intros IH o2 i x y K1 H2 H. open H. destruct o2; try discriminate T. cbn [asString] in H. rewrite <- ?app_assoc in H.
  cbn [texts_ok] in K1, H2. destruct K1 as (K1 & G1 & D1), H2 as (K2 & G2 & D2).
  do 2 step H. apply read_group in H as [E1 H]; [|apply aliases_nondigit|apply aliases_nondigit].
  apply read_aliases in H as [E2 H].
  - tree IH H A. step H. split; [|assumption].
    eapply alike_one; try reflexivity; try assumption. intros Ho R B Et. cbn [eval]. rewrite Et.
    injection Ho as E3 E4. clear -E1 E2 E3 E4. f_equal.
    + clear E2 E4. revert E1 E3. generalize (group_columns g als), (group_columns group aliases). intros m m'.
      revert group. induction g as [|a g IHg]; intros [|b g'] H1 H2; cbn in *; try discriminate; [reflexivity|].
      injection H1 as Ha H1. injection H2 as Hb H2. rewrite (IHg g' H1 H2). unfold group_arg at 1 3. now rewrite Ha, Hb.
    + clear E1 E3. revert E2 E4. generalize (group_columns g als), (group_columns group aliases). intros m m'.
      revert aliases. induction als as [|a l IHl]; intros [|b l'] H1 H2; cbn in *; try discriminate; [reflexivity|].
      unfold alias_shown in H1 at 1 3. injection H1 as Ha Hb Hc Hd H1. unfold flag in H2 at 1 3. injection H2 as He H2.
      rewrite (IHl l' H1 H2). unfold alias_arg at 1 3. rewrite Ha, Hc, Hd in *. rewrite Hb.
      replace (al_distinct b) with (al_distinct a); [reflexivity|].
      destruct (al_distinct a), (al_distinct b); try discriminate; reflexivity.
  - eapply Forall_impl; [|exact D1]. now intros a [_ D].
  - eapply Forall_impl; [|exact D2]. now intros a [_ D].
Qed.

Lemma reads_path t ls rs lv rv mn mx w lt rt : reads_tree t -> reads_side lt -> reads_side rt ->
  reads (Path t ls rs lv rv mn mx w lt rt).
Proof.
  intros IH IL IR o2 i x y K1 H2 H. open H. destruct o2; try discriminate T. cbn [asString] in H. rewrite <- ?app_assoc in H.
  cbn [texts_ok] in K1, H2. destruct K1 as (K1 & L1 & R1), H2 as (K2 & L2 & R2).
  do 4 step H. apply read_number in H as [E1 H];
    [|destruct lv, rv; reflexivity|destruct lval, rval; reflexivity].
  assert (E2 : lv = lval /\ rv = rval).
  { destruct lv, rv, lval, rval; rewrite <- ?app_assoc in H; cbn [app] in H;
      try (exfalso; revert H; apply clash_ok; reflexivity); repeat step H; auto;
      exfalso; revert H; apply clash_ok; reflexivity. }
  destruct E2 as [-> ->]. do 2 step H. do 4 step H. step H. tree IH H A. step H.
  assert (NT : forall t1 r c h u, c <> 32 -> c <> 123 -> treeString i t1 ++ r <> (c :: h) ++ u).
  { intros t1 r c h u C1 C2 E. destruct (tree_first i t1) as (z & q & Ez & Z). rewrite Ez in E. cbn in E.
    injection E as E _. subst. destruct Z; congruence. }
  apply IL in H as [AL H]; try assumption; try (intros; apply NT; discriminate).
  tree IH H A'. step H.
  apply IR in H as [AR H]; try assumption; try (intros; apply (clash_ok [10] [82]); reflexivity).
  step H. split; [|assumption]. subst.
  destruct A as (_ & S & V), AL as [SL VL], AR as [SR VR]. split.
  - unfold shape. cbn [hidden]. apply shape_own. cbn [map]. unfold shape_tree, shape_side in *. now rewrite S, SL, SR.
  - cbn [hidden eval]. intros E R B. injection E as Ew Et El Er. subst.
    now rewrite (V Et R B), (VL El R B), (VR Er R B).
Qed.

Lemma reads_line h a b x y : free_of 10 a -> free_of 10 b -> (h ++ a) ++ nl ++ x = (h ++ b) ++ nl ++ y -> a = b /\ x = y.
Proof.
  intros F1 F2 H. rewrite <- !app_assoc in H. apply app_inv_head in H. now apply read_until_app in H.
Qed.

Lemma reads_has_s ob : reads (HasPredS ob).
Proof.
  intros o2 i x y K1 H2 H. open H. destruct o2; try discriminate T. cbn [asString] in H. rewrite <- ?app_assoc in H.
  cbn [texts_ok] in K1, H2. do 2 step H. apply read_until_app in H as [-> ->]; try assumption. split; [|reflexivity].
  now apply alike_none.
Qed.

Lemma reads_has_o s : reads (HasPredO s).
Proof.
  intros o2 i x y K1 H2 H. open H. destruct o2; try discriminate T; cbn [asString] in H; rewrite <- ?app_assoc in H;
    cbn [texts_ok] in K1, H2; destruct K1 as (F1 & A1 & B1).
  - destruct H2 as (F2 & A2 & B2). do 2 step H. apply read_until_app in H as [-> ->]; try assumption. split; [|reflexivity].
    now apply alike_none.
  - exfalso. do 2 step H. destruct (tree_first i sub) as (z & q & E & Z). rewrite E in H. cbn in H.
    destruct s as [|d s]; cbn in H; injection H as Ec _.
    + destruct Z; subst; discriminate.
    + destruct Z; subst; [apply A1|apply B1]; now exists s.
Qed.

Lemma reads_has_all : reads HasPredAll.
Proof.
  intros o2 i x y _ _ H. open H. destruct o2; try discriminate T. cbn [asString] in H. rewrite <- ?app_assoc in H. do 3 step H. split; [|assumption]. now apply alike_none.
Qed.

Lemma reads_has_sub t c : reads_tree t -> reads (HasPredSub t c).
Proof.
  intros IH o2 i x y K1 H2 H. open H. destruct o2; try discriminate T; cbn [asString] in H; rewrite <- ?app_assoc in H;
    cbn [texts_ok] in K1, H2.
  - exfalso. destruct H2 as (F2 & A2 & B2). do 2 step H. destruct (tree_first i t) as (z & q & E & Z). rewrite E in H. cbn in H.
    destruct subject as [|d s]; cbn in H; injection H as Ec _.
    + destruct Z; subst; discriminate.
    + destruct Z; subst; [apply A2|apply B2]; now exists s.
  - do 2 step H. tree IH H A. step H. split; [|assumption].
    eapply alike_one; try reflexivity; try assumption. intros E R B Et. cbn [eval]. injection E as ->. now rewrite Et.
Qed.

Lemma reads_count_entity e : reads (CountEntity e).
Proof.
  intros o2 i x y K1 H2 H. open H. destruct o2; try discriminate T; cbn [asString] in H; rewrite <- ?app_assoc in H;
    cbn [texts_ok] in K1, H2; destruct K1 as [F1 D1].
  - destruct H2 as [F2 D2]. do 2 step H. apply read_until_app in H as [-> ->]; try assumption. split; [|reflexivity].
    now apply alike_none.
  - exfalso. step H.
    change (bytes "COUNT_AVAILABLE_PREDICATES for all entities") with
      (bytes "COUNT_AVAILABLE_PREDICATES for " ++ bytes "all entities") in H. rewrite <- ?app_assoc in H. step H.
    apply read_until_app in H as [-> _]; try assumption; [now apply D1|].
    intros HH. cbn in HH. repeat destruct HH as [HH|HH]; try discriminate; contradiction.
Qed.

Lemma reads_count_all : reads CountAll.
Proof.
  intros o2 i x y _ H2 H. open H. destruct o2; try discriminate T; cbn [asString] in H; rewrite <- ?app_assoc in H.
  - exfalso. destruct H2 as [F2 D2]. step H.
    change (bytes "COUNT_AVAILABLE_PREDICATES for all entities") with
      (bytes "COUNT_AVAILABLE_PREDICATES for " ++ bytes "all entities") in H. rewrite <- ?app_assoc in H. step H.
    apply read_until_app in H as [E _]; try assumption; [now apply D2|].
    intros HH. cbn in HH. repeat destruct HH as [HH|HH]; try discriminate; contradiction.
  - do 3 step H. split; [|assumption]. now apply alike_none.
Qed.

Lemma reads_count_sub t c : reads_tree t -> reads (CountSub t c).
Proof.
  intros IH o2 i x y K1 H2 H. open H. destruct o2; try discriminate T. cbn [asString] in H. rewrite <- ?app_assoc in H.
  cbn [texts_ok] in K1, H2. do 5 step H. tree IH H A. step H. split; [|assumption].
  eapply alike_one; try reflexivity; try assumption. intros E R B Et. cbn [eval]. now rewrite Et.
Qed.

Lemma reads_text w n lim : reads (Text w n lim).
Proof.
  intros o2 i x y K1 H2 H. open H. destruct o2; try discriminate T. cbn [asString] in H. rewrite <- ?app_assoc in H.
  cbn [texts_ok] in K1, H2. do 4 step H. apply read_until_app in H as [-> H]; try assumption. do 6 step H.
  split; [|assumption]. now apply alike_none.
Qed.

Lemma reads_text_filter w n lim t c : reads_tree t -> reads (TextFilter w n lim t c).
Proof.
  intros IH o2 i x y K1 H2 H. open H. destruct o2; try discriminate T. cbn [asString] in H. rewrite <- ?app_assoc in H.
  cbn [texts_ok] in K1, H2. destruct K1 as [F1 K1], H2 as [F2 K2].
  do 4 step H. apply read_until_app in H as [-> H]; try assumption. do 6 step H. tree IH H A. do 5 step H.
  split; [|assumption]. eapply alike_one; try reflexivity; try assumption. intros E R B Et. cbn [eval]. now rewrite Et.
Qed.

Lemma reads_bind t e target : reads_tree t -> reads (Bind t e target).
Proof.
  intros IH o2 i x y K1 H2 H. open H. destruct o2; try discriminate T. cbn [asString] in H. rewrite <- ?app_assoc in H.
  cbn [texts_ok] in K1, H2. destruct K1 as [K1 F1], H2 as [K2 F2]. do 2 step H.
  apply read_bind in H as [E H]; [|exact F1|exact F2]. tree IH H A. step H. split; [|assumption].
  eapply alike_one; try reflexivity; try assumption. intros _ R B Et. cbn [eval]. now rewrite E, Et.
Qed.

Lemma reads_values vs rows : reads (Values vs rows).
Proof.
  intros o2 i x y K1 H2 H. open H. destruct o2; try discriminate T. cbn [asString] in H. rewrite <- ?app_assoc in H.
  cbn [texts_ok] in K1, H2. destruct K1 as (N1 & V1 & R1), H2 as (N2 & V2 & R2). do 2 step H.
  change (bytes ") {") with ([41] ++ bytes " {") in H. rewrite <- ?app_assoc in H.
  apply (read_words _ readable_variable) in H as [-> H]; try assumption. step H.
  apply read_rows in H as [-> H]; try assumption.
  - step H. split; [|assumption]. now apply alike_none.
  - destruct variables; [congruence|cbn; lia].
Qed.

Theorem keys_read : (forall o, reads o) /\ (forall t, reads_tree t) /\ (forall s, reads_side s).
Proof.
  apply op_tree_side_ind; intros;
    auto using reads_scan, reads_join, reads_multi, reads_two, reads_optional, reads_minus, reads_sort, reads_order,
      reads_distinct, reads_filter, reads_group, reads_union, reads_path, reads_has_s, reads_has_o, reads_has_all,
      reads_has_sub, reads_count_entity, reads_count_all, reads_count_sub, reads_text, reads_text_filter, reads_bind,
      reads_values, reads_tree_of, reads_side_none, reads_side_some.
Qed.
