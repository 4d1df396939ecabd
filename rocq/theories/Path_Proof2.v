From Coq Require Import List NArith Arith Bool Lia Permutation Sorted ZifyBool ZifyN ZifyNat.
From Verif Require Import Table_Spec Ops_Model Path_Spec Path_Model ListAux Ops_Proof Path_Proof.
Import ListNotations.
Open Scope N_scope.

(* One fuel for finitely many start nodes. *)
Lemma common_fuel order sub fc tc lo hi (l : list N) : order_ok order ->
  exists fuel0, forall fuel, (fuel0 <= fuel)%nat -> forall x, In x l ->
    exists res, search fuel order (build_edges sub fc tc) lo hi x = Some res.
Proof.
  intros Hord. induction l as [|x l (f0 & IH)].
  - exists O. intros fuel _ x [].
  - destruct (search_total order Hord sub fc tc lo hi x) as (f1 & res & E1).
    exists (max f0 f1). intros fuel Hf y [<-|Hy].
    + exists res. eapply search_mono; [|exact E1]. lia.
    + apply IH; auto. lia.
Qed.

(* The reached nodes, as a function of the start node. *)
Definition reach fuel order edges lo hi x : list N :=
  match search fuel order edges lo hi x with Some l => l | None => [] end.

Lemma search_all_eq fuel order edges lo hi pair nodes : 1 <= lo ->
  (forall x, In x nodes -> exists res, search fuel order edges lo hi x = Some res) ->
  search_all fuel order edges lo hi pair nodes =
  Some (flat_map (fun x => map (pair x) (reach fuel order edges lo hi x)) nodes).
Proof.
  intros Hlo. induction nodes as [|x nodes IH]; intros H; cbn [search_all flat_map]; auto.
  assert (E0 : (lo =? 0) = false) by lia. rewrite E0.
  destruct (H x (or_introl eq_refl)) as (res & E). unfold reach at 1. rewrite E.
  rewrite IH; auto. intros y Hy. apply H. right. auto.
Qed.

Lemma reach_spec order sub fc tc lo hi fuel x res : order_ok order -> 1 <= lo ->
  lo + N.of_nat (length sub) <= hi + 1 ->
  search fuel order (build_edges sub fc tc) lo hi x = Some res ->
  reach_ok (reach fuel order (build_edges sub fc tc) lo hi) (edge sub fc tc) lo hi x.
Proof.
  intros Hord Hlo Hhi E. unfold reach_ok, reach. rewrite E.
  destruct (search_sound order Hord sub fc tc fuel lo hi x res E) as [H1 H2]. split; auto.
  intros y. split; auto. eapply search_complete; eauto.
Qed.

Lemma path_flip sub lc rc lo hi x y :
  path_between (edge sub rc lc) lo hi x y <-> path_between (edge sub lc rc) lo hi y x.
Proof.
  split; intros (k & Hk & Hw); exists k; split; auto; (eapply walk_flip; [|exact Hw]);
    intros a b (r & H1 & H2 & H3); exists r; auto.
Qed.

Lemma path_source sub lc rc lo hi x y : 1 <= lo ->
  path_between (edge sub lc rc) lo hi x y -> exists r, In r sub /\ col lc r = x.
Proof.
  intros Hlo (k & Hk & Hw). inversion Hw as [|k' a b c (r & H1 & H2 & _)]; subst; [lia|]. exists r. auto.
Qed.

Lemma NoDup_map_inj {A B} (f : A -> B) l : (forall x y, f x = f y -> x = y) -> NoDup l -> NoDup (map f l).
Proof.
  intros Hf. induction 1 as [|x l Hx Hl IH]; simpl; constructor; auto.
  intros H. apply in_map_iff in H. destruct H as (y & E & Hy). apply Hf in E. now subst.
Qed.

Lemma NoDup_flat_map {A B C} (g : B -> C) (h : A -> C) (f : A -> list B) l :
  NoDup l -> (forall x, In x l -> NoDup (f x)) -> (forall x y, In y (f x) -> g y = h x) ->
  (forall x y, h x = h y -> x = y) -> NoDup (flat_map f l).
Proof.
  intros Hl Hf Hg Hh. induction Hl as [|x l Hx Hl IH]; simpl; [constructor|].
  apply NoDup_app_intro.
  - apply Hf. left. auto.
  - apply IH. intros y Hy. apply Hf. right. auto.
  - intros b Hb Hb'. apply in_flat_map in Hb'. destruct Hb' as (y & Hy & Hb').
    apply Hg in Hb. apply Hg in Hb'. assert (h x = h y) by congruence. apply Hh in H. now subst.
Qed.

Lemma compute_path_correct order sub lv rv lc rc lval rval lo hi : order_ok order ->
  1 <= lo -> lo + N.of_nat (length sub) <= hi + 1 -> lv || rv = true ->
  exists fuel0, forall fuel, (fuel0 <= fuel)%nat ->
    exists res, compute_path fuel order sub lv rv lc rc lval rval lo hi = Some res /\
      NoDup res /\ forall r, In r res <-> path_rows lv rv lval rval sub lc rc lo hi r.
Proof.
  intros Hord Hlo Hhi Hv. unfold compute_path.
  replace (negb lv && negb rv) with false by (destruct lv, rv; auto; discriminate).
  destruct rv.
  - set (nodes := if lv then build_nodes [] sub lc else [lval]).
    destruct (common_fuel order sub lc rc lo hi nodes Hord) as (f0 & Hf0).
    exists f0. intros fuel Hfuel. specialize (Hf0 fuel Hfuel).
    rewrite search_all_eq by auto. eexists. split; [reflexivity|].
    set (f := reach fuel order (build_edges sub lc rc) lo hi).
    assert (Hr : forall x, In x nodes -> reach_ok f (edge sub lc rc) lo hi x).
    { intros x Hx. destruct (Hf0 x Hx) as (res & E). eapply reach_spec; eauto. }
    assert (Hn : NoDup nodes).
    { unfold nodes. destruct lv; [apply build_nodes_spec|repeat constructor; auto]. }
    split.
    + apply (NoDup_flat_map (fun r => col 0 r) (fun x => x)); auto.
      * intros x Hx. apply NoDup_map_inj; [congruence|]. apply (proj1 (Hr x Hx)).
      * intros x y Hy. apply in_map_iff in Hy. destruct Hy as (z & <- & _). reflexivity.
    + intros r. rewrite in_flat_map. split.
      * intros (x & Hx & H). apply in_map_iff in H. destruct H as (y & <- & Hy).
        exists x, y. split; [auto|split; [now apply (Hr x Hx)|split; [|auto]]].
        unfold nodes in Hx. destruct lv; auto. destruct Hx as [<-|[]]. auto.
      * intros (x & y & -> & Hp & Hl & _). assert (Hx : In x nodes).
        { unfold nodes. destruct lv.
          - apply build_nodes_spec. split; [auto|]. eapply path_source; eauto.
          - destruct Hl; [discriminate|]. subst. simpl. auto. }
        exists x. split; auto. apply in_map_iff. exists y. split; auto. now apply (Hr x Hx).
  - destruct lv; [|discriminate].
    destruct (common_fuel order sub rc lc lo hi [rval] Hord) as (f0 & Hf0).
    exists f0. intros fuel Hfuel. specialize (Hf0 fuel Hfuel).
    rewrite search_all_eq by auto. eexists. split; [reflexivity|].
    set (f := reach fuel order (build_edges sub rc lc) lo hi).
    assert (Hr : reach_ok f (edge sub rc lc) lo hi rval).
    { destruct (Hf0 rval (or_introl eq_refl)) as (res & E). eapply reach_spec; eauto. }
    cbn [flat_map]. rewrite app_nil_r. split.
    + apply NoDup_map_inj; [congruence|]. apply Hr.
    + intros r. rewrite in_map_iff. split.
      * intros (y & <- & Hy). apply Hr in Hy. exists y, rval.
        split; [auto|split; [now apply path_flip|auto]].
      * intros (x & y & -> & Hp & _ & [H|H]); [discriminate|]. subst y. exists x. split; auto.
        apply Hr. now apply path_flip.
Qed.

(* Without the bound on the distances: what is returned is right and nothing is repeated. *)
Lemma compute_path_sound order sub lv rv lc rc lval rval lo hi fuel res : order_ok order ->
  compute_path fuel order sub lv rv lc rc lval rval lo hi = Some res ->
  NoDup res /\ forall r, In r res -> path_rows lv rv lval rval sub lc rc lo hi r.
Proof.
  intros Hord. unfold compute_path.
  assert (Hgen : forall fc tc pair nodes t (h : row -> N),
    (forall x y, h (pair x y) = x) -> (forall x y y', pair x y = pair x y' -> y = y') ->
    NoDup nodes -> search_all fuel order (build_edges sub fc tc) lo hi pair nodes = Some t ->
    NoDup t /\ forall r, In r t -> exists x y, In x nodes /\ r = pair x y /\ path_between (edge sub fc tc) lo hi x y).
  { intros fc tc pair nodes t h Hh Hp Hn. revert t. induction Hn as [|x nodes Hx Hn IH]; intros t; cbn [search_all].
    - intros E. injection E as <-. split; [constructor|intros r []].
    - destruct (lo =? 0); [discriminate|].
      destruct (search fuel order (build_edges sub fc tc) lo hi x) as [ys|] eqn:Es; [|discriminate].
      destruct (search_all fuel order (build_edges sub fc tc) lo hi pair nodes) as [rest|]; [|discriminate].
      intros E. injection E as <-. destruct (IH rest eq_refl) as [H1 H2].
      destruct (search_sound order Hord sub fc tc fuel lo hi x ys Es) as [H3 H4]. split.
      + apply NoDup_app_intro; auto.
        * apply NoDup_map_inj; auto. intros a b. apply Hp.
        * intros r Hr Hr'. apply in_map_iff in Hr. destruct Hr as (y & <- & Hy).
          apply H2 in Hr'. destruct Hr' as (x' & y' & Hx' & E & _).
          assert (h (pair x y) = h (pair x' y')) by now rewrite E. rewrite !Hh in H. now subst.
      + intros r Hr. apply in_app_iff in Hr. destruct Hr as [Hr|Hr].
        * apply in_map_iff in Hr. destruct Hr as (y & <- & Hy). exists x, y.
          split; [left; auto|split; auto].
        * destruct (H2 r Hr) as (x' & y' & Hx' & E & Hp'). exists x', y'. split; [right; auto|auto]. }
  destruct (negb lv && negb rv) eqn:Ev.
  { intros E. injection E as <-. split; [constructor|intros r []]. }
  destruct rv.
  - intros E. apply (Hgen lc rc _ _ res (fun r => col 0 r)) in E; try (intros; reflexivity); try (intros; congruence).
    + destruct E as [H1 H2]. split; auto. intros r Hr. destruct (H2 r Hr) as (x & y & Hx & -> & Hp).
      exists x, y. split; [auto|split; [auto|split; [|auto]]]. destruct lv; auto. destruct Hx as [<-|[]]. auto.
    + destruct lv; [apply build_nodes_spec|repeat constructor; auto].
  - intros E. apply (Hgen rc lc _ _ res (fun r => col 1 r)) in E; try (intros; reflexivity); try (intros; congruence).
    + destruct E as [H1 H2]. split; auto. intros r Hr. destruct (H2 r Hr) as (x & y & [<-|[]] & -> & Hp).
      exists y, rval. split; [auto|split; [now apply path_flip|split; [|auto]]].
      destruct lv; auto; discriminate.
    + repeat constructor; auto.
Qed.

(* ---- bound sides ---- *)

Lemma nth_drop_col c r k : (c < length r)%nat -> nth k (drop_col c r) 0 = nth (if k <? c then k else S k)%nat r 0.
Proof.
  intros Hc. unfold drop_col. destruct (k <? c)%nat eqn:E.
  - apply Nat.ltb_lt in E. rewrite app_nth1 by (rewrite firstn_length; lia).
    rewrite <- (firstn_skipn c r) at 2. rewrite app_nth1 by (rewrite firstn_length; lia). reflexivity.
  - apply Nat.ltb_ge in E. rewrite app_nth2 by (rewrite firstn_length; lia).
    rewrite firstn_length, Nat.min_l by lia.
    rewrite <- (firstn_skipn (S c) r) at 2. rewrite app_nth2 by (rewrite firstn_length; lia).
    rewrite firstn_length, Nat.min_l by lia. f_equal; lia.
Qed.
Lemma length_drop_col c r : (c < length r)%nat -> length (drop_col c r) = (length r - 1)%nat.
Proof. intros H. unfold drop_col. rewrite app_length, firstn_length, skipn_length. lia. Qed.

(* position written for k *)
Definition wpos (sc k : nat) : nat := if (k - 2 <? sc)%nat then k else (k - 1)%nat.

Lemma fill_row_spec sc r : (sc < length r)%nat -> forall n k acc,
  (2 <= k)%nat -> (k + n = 2 + length r)%nat -> length acc = S (length r) ->
  exists out, fill_row (seq k n) sc r acc = Some out /\ length out = S (length r) /\
    forall j, nth j out 0 =
      if existsb (fun k' => negb (k' - 2 =? sc)%nat && (wpos sc k' =? j)%nat) (seq k n)
      then nth (if (j - 2 <? sc)%nat then j - 2 else j - 1)%nat r 0 else nth j acc 0.
Proof.
  intros Hsc. induction n as [|n IH]; intros k acc Hk Hn Hl; cbn [seq fill_row existsb].
  - exists acc. auto.
  - assert (Hin : nth_error r (k - 2) = Some (nth (k - 2) r 0)) by (apply nth_error_nth'; lia).
    destruct (Nat.compare (k - 2) sc) eqn:Ec.
    + apply Nat.compare_eq in Ec. destruct (IH (S k) acc) as (out & E & H1 & H2); try lia.
      exists out. split; [auto|split; [auto|]]. intros j. rewrite H2, Ec, Nat.eqb_refl. reflexivity.
    + apply Nat.compare_lt_iff in Ec. rewrite Hin.
      destruct (list_set_spec acc k (nth (k - 2) r 0)) as (acc' & E & H1 & H2); [lia|]. rewrite E.
      destruct (IH (S k) acc') as (out & E' & H3 & H4); try lia.
      exists out. split; [auto|split; [auto|]]. intros j. rewrite H4, H2.
      assert (W : wpos sc k = k) by (unfold wpos; destruct (k - 2 <? sc)%nat eqn:E3; lia). rewrite W.
      destruct (existsb _ _) eqn:E4; [now rewrite orb_true_r|]. rewrite orb_false_r.
      replace (negb (k - 2 =? sc)%nat) with true by lia. cbn [andb].
      destruct (j =? k)%nat eqn:E5.
      * apply Nat.eqb_eq in E5. subst j. rewrite Nat.eqb_refl.
        replace (k - 2 <? sc)%nat with true by lia. reflexivity.
      * replace (k =? j)%nat with false by lia. reflexivity.
    + apply Nat.compare_gt_iff in Ec. rewrite Hin.
      destruct (list_set_spec acc (k - 1) (nth (k - 2) r 0)) as (acc' & E & H1 & H2); [lia|]. rewrite E.
      destruct (IH (S k) acc') as (out & E' & H3 & H4); try lia.
      exists out. split; [auto|split; [auto|]]. intros j. rewrite H4, H2.
      assert (W : wpos sc k = (k - 1)%nat) by (unfold wpos; destruct (k - 2 <? sc)%nat eqn:E3; lia). rewrite W.
      destruct (existsb _ _) eqn:E4; [now rewrite orb_true_r|]. rewrite orb_false_r.
      replace (negb (k - 2 =? sc)%nat) with true by lia. cbn [andb].
      destruct (j =? k - 1)%nat eqn:E5.
      * apply Nat.eqb_eq in E5. subst j. rewrite Nat.eqb_refl.
        destruct (k - 1 - 2 <? sc)%nat eqn:E6; f_equal; lia.
      * replace (k - 1 =? j)%nat with false by lia. reflexivity.
Qed.

Lemma bound_row_spec blank sc c0 c1 r : (sc < length r)%nat -> length blank = S (length r) ->
  bound_row blank (S (length r)) sc c0 c1 r = Some (c0 :: c1 :: drop_col sc r).
Proof.
  intros Hsc Hb. unfold bound_row.
  destruct (list_set_spec blank 0 c0) as (a1 & -> & H1 & H2); [lia|].
  destruct (list_set_spec a1 1 c1) as (a2 & -> & H3 & H4); [lia|].
  replace (S (length r) - 1)%nat with (length r) by lia.
  destruct (fill_row_spec sc r Hsc (length r) 2 a2) as (out & -> & H5 & H6); try lia.
  f_equal. apply (nth_ext _ _ 0 0).
  - cbn [length]. rewrite length_drop_col by auto. lia.
  - intros j Hj. rewrite H6. destruct j as [|[|j]].
    + destruct (existsb _ _) eqn:E; [exfalso|].
      * apply existsb_exists in E. destruct E as (k & Hk & E). apply in_seq in Hk. unfold wpos in E.
        destruct (k - 2 <? sc)%nat eqn:E2; lia.
      * rewrite H4. cbn [Nat.eqb]. rewrite H2. reflexivity.
    + destruct (existsb _ _) eqn:E; [exfalso|].
      * apply existsb_exists in E. destruct E as (k & Hk & E). apply in_seq in Hk. unfold wpos in E.
        destruct (k - 2 <? sc)%nat eqn:E2; lia.
      * rewrite H4. reflexivity.
    + cbn [nth]. rewrite nth_drop_col by auto.
      replace (S (S j) - 2)%nat with j by lia. replace (S (S j) - 1)%nat with (S j) by lia.
      destruct (existsb _ _) eqn:E; auto. exfalso.
      assert (E' : existsb (fun k' : nat => negb (k' - 2 =? sc)%nat && (wpos sc k' =? S (S j))%nat) (seq 2 (length r)) = true); [|congruence].
      apply existsb_exists. exists (if j <? sc then S (S j) else S (S (S j)))%nat. split.
      * apply in_seq. destruct (j <? sc)%nat eqn:E2; lia.
      * unfold wpos. destruct (j <? sc)%nat eqn:E2;
          [destruct (S (S j) - 2 <? sc)%nat eqn:E3|destruct (S (S (S j)) - 2 <? sc)%nat eqn:E3]; lia.
Qed.

Lemma bound_rows_spec blank sc pair ys r : (sc < length r)%nat -> length blank = S (length r) ->
  bound_rows blank (S (length r)) sc pair ys r =
  Some (map (fun y => fst (pair y) :: snd (pair y) :: drop_col sc r) ys).
Proof.
  intros Hsc Hb. induction ys as [|y ys IH]; cbn [bound_rows map]; auto.
  rewrite bound_row_spec, IH by auto. reflexivity.
Qed.

Lemma bound_loop_spec fuel order edges lo hi isVar value pair blank sc w side : 1 <= lo ->
  width w side -> (sc < w)%nat -> length blank = S w ->
  (forall r, In r side -> exists res, search fuel order edges lo hi (col sc r) = Some res) ->
  adjacent_same sc side ->
  forall last_elem last_block,
  (match side with r :: _ => col sc r = last_elem ->
     last_block = bound_block (reach fuel order edges lo hi) isVar value pair sc r | [] => True end) ->
  bound_loop fuel order edges lo hi isVar value pair blank (S w) sc last_elem last_block side =
  Some (flat_map (bound_block (reach fuel order edges lo hi) isVar value pair sc) side).
Proof.
  intros Hlo Hw Hsc Hb. set (f := reach fuel order edges lo hi).
  induction side as [|r side IH]; intros Hs Ha le lb Hl; cbn [bound_loop flat_map]; auto.
  inversion Hw as [|? ? Hr Hw']; subst.
  assert (Ha' : adjacent_same sc side).
  { intros i a b H1 H2. apply (Ha (S i) a b); auto. }
  assert (Hs' : forall r0, In r0 side -> exists res, search fuel order edges lo hi (col sc r0) = Some res)
    by (intros r0 H0; apply Hs; right; auto).
  assert (Hnext : match side with r' :: _ => col sc r' = col sc r -> 
      bound_block f isVar value pair sc r = bound_block f isVar value pair sc r' | [] => True end).
  { destruct side as [|r' side']; auto. intros E. unfold bound_block. rewrite E.
    rewrite (Ha O r r' eq_refl eq_refl (eq_sym E)). reflexivity. }
  destruct (col sc r =? le) eqn:E.
  - apply N.eqb_eq in E. specialize (Hl E). subst le.
    rewrite IH; auto.
    + cbn [option_map]. rewrite Hl. reflexivity.
    + destruct side as [|r' side']; auto. intros E2. rewrite Hl. apply Hnext. auto.
  - replace (lo =? 0) with false by lia. destruct (Hs r (or_introl eq_refl)) as (ys & Ey). rewrite Ey.
    rewrite bound_rows_spec by lia. rewrite IH; auto.
    + cbn [option_map]. unfold bound_block at 2, f, reach. rewrite Ey. reflexivity.
    + destruct side as [|r' side']; auto. intros E2. rewrite <- Hnext by auto.
      unfold bound_block, f, reach. rewrite Ey. reflexivity.
Qed.

Lemma bound_correct order sub fc tc isVar value pair blank sc w side lo hi : order_ok order ->
  1 <= lo -> lo + N.of_nat (length sub) <= hi + 1 ->
  width w side -> (sc < w)%nat -> length blank = S w -> adjacent_same sc side ->
  (forall r, In r side -> col sc r < 2 ^ 64 - 1) ->
  exists fuel0, forall fuel, (fuel0 <= fuel)%nat -> exists f,
    (forall r, In r side -> reach_ok f (edge sub fc tc) lo hi (col sc r)) /\
    bound_loop fuel order (build_edges sub fc tc) lo hi isVar value pair blank (S w) sc (2 ^ 64 - 1) [] side
    = Some (flat_map (bound_block f isVar value pair sc) side).
Proof.
  intros Hord Hlo Hhi Hw Hsc Hb Ha Hv.
  destruct (common_fuel order sub fc tc lo hi (map (col sc) side) Hord) as (f0 & Hf0).
  exists f0. intros fuel Hfuel. specialize (Hf0 fuel Hfuel).
  exists (reach fuel order (build_edges sub fc tc) lo hi). split.
  - intros r Hr. destruct (Hf0 (col sc r)) as (res & E); [now apply in_map|]. eapply reach_spec; eauto.
  - apply bound_loop_spec; auto.
    + intros r Hr. apply Hf0. now apply in_map.
    + destruct side as [|r side']; auto. intros E. specialize (Hv r (or_introl eq_refl)). lia.
Qed.

(* ---- sort order ---- *)

Lemma sorted_flat_blocks (c : nat) (f : row -> table) (key : row -> N) t :
  (forall r x, In x (f r) -> col c x = key r) ->
  StronglySorted (fun r s => key r <= key s) t ->
  StronglySorted (fun r s => col c r <= col c s) (flat_map f t).
Proof.
  intros Hf. induction 1 as [|r t Ht IH Hr]; simpl; [constructor|].
  assert (H : forall l, (forall x, In x l -> col c x = key r) -> StronglySorted (fun r s => col c r <= col c s) (l ++ flat_map f t)).
  { induction l as [|x l IHl]; simpl; auto. intros Hl. constructor; [apply IHl; intros; apply Hl; auto|].
    apply Forall_forall. intros y Hy. rewrite (Hl x (or_introl eq_refl)). apply in_app_iff in Hy. destruct Hy as [Hy|Hy].
    - rewrite (Hl y) by auto. lia.
    - apply in_flat_map in Hy. destruct Hy as (s & Hs & Hy). rewrite (Hf s y Hy).
      rewrite Forall_forall in Hr. apply Hr. auto. }
  apply H. intros x. apply Hf.
Qed.

Lemma sorted_on_strong c t : sorted_on c t -> StronglySorted (fun r s => col c r <= col c s) t.
Proof. apply Sorted_StronglySorted. intros x y z. lia. Qed.
Lemma strong_sorted_on c t : StronglySorted (fun r s => col c r <= col c s) t -> sorted_on c t.
Proof. apply StronglySorted_Sorted. Qed.

Lemma build_nodes_sorted c sub : sorted_on c sub -> forall seen, StronglySorted N.le (build_nodes seen sub c).
Proof.
  intros H. apply sorted_on_strong in H. induction H as [|r t Ht IH Hr]; intros seen; simpl; [constructor|].
  destruct (existsb _ _); auto. constructor; auto. apply Forall_forall. intros x Hx.
  apply build_nodes_spec in Hx. destruct Hx as (_ & s & Hs & <-). rewrite Forall_forall in Hr. auto.
Qed.

Lemma compute_path_sorted fuel order sub lc rc lval rval lo hi res : sorted_on lc sub ->
  compute_path fuel order sub true true lc rc lval rval lo hi = Some res -> sorted_on 0 res.
Proof.
  intros Hs. unfold compute_path. cbn [negb andb].
  pose proof (build_nodes_sorted lc sub Hs []) as Hn. intros E. apply strong_sorted_on.
  revert res E. induction Hn as [|x nodes Hn IH Hx]; intros res; cbn [search_all].
  - intros E. injection E as <-. constructor.
  - destruct (lo =? 0); [discriminate|]. destruct (search _ _ _ _ _ x) as [ys|]; [|discriminate].
    destruct (search_all _ _ _ _ _ _ nodes) as [rest|] eqn:Er; [|discriminate].
    intros E. injection E as <-. specialize (IH rest eq_refl).
    assert (Hrest : forall r, In r rest -> x <= col 0 r).
    { clear IH. revert rest Er. induction Hx as [|z nodes Hz Hx IH]; intros rest; cbn [search_all].
      - intros E. injection E as <-. intros r [].
      - destruct (lo =? 0); [discriminate|]. destruct (search _ _ _ _ _ z) as [zs|]; [|discriminate].
        destruct (search_all _ _ _ _ _ _ nodes) as [rest'|] eqn:Er; [|discriminate].
        intros E. injection E as <-. intros r Hr. apply in_app_iff in Hr. destruct Hr as [Hr|Hr].
        + apply in_map_iff in Hr. destruct Hr as (y & <- & _). exact Hz.
        + inversion Hn; subst. eapply IH; eauto. }
    clear - IH Hrest. induction ys as [|y ys IHy]; simpl; auto. constructor; auto.
    apply Forall_forall. intros r Hr. apply in_app_iff in Hr. destruct Hr as [Hr|Hr]; [|apply Hrest; auto].
    apply in_map_iff in Hr. destruct Hr as (z & <- & _). cbn. lia.
Qed.

(* The columns 0 and 1 of the output rows for a row of the bound side always come from the
   searched value, also when the output of the previous row is repeated. *)
Lemma bound_loop_sorted fuel order edges lo hi isVar value pair blank sc w c : (c < 2)%nat -> 
  (forall x y, (if Nat.eqb c 0 then fst (pair x y) else snd (pair x y)) = x) ->
  (sc < w)%nat -> length blank = S w -> forall side, width w side -> sorted_on sc side ->
  forall le lb res, (forall r, In r lb -> col c r = le) ->
  (lb <> [] -> forall r, In r side -> le <= col sc r) ->
  bound_loop fuel order edges lo hi isVar value pair blank (S w) sc le lb side = Some res ->
  StronglySorted (fun r s => col c r <= col c s) res /\
  (forall r, In r res -> exists s, In s side /\ col c r = col sc s).
Proof.
  intros Hc Hp Hsc Hb side Hw Hs. apply sorted_on_strong in Hs.
  induction Hs as [|r side Hs IH Hr]; intros le lb res Hlb Hle; cbn [bound_loop].
  - intros E. injection E as <-. split; [constructor|intros r []].
  - inversion Hw as [|? ? Hwr Hw']; subst. specialize (IH Hw').
    assert (Hcons : forall blk rest, (forall x, In x blk -> col c x = col sc r) ->
      StronglySorted (fun r s => col c r <= col c s) rest ->
      (forall x, In x rest -> exists s, In s side /\ col c x = col sc s) ->
      StronglySorted (fun r s => col c r <= col c s) (blk ++ rest) /\
      (forall x, In x (blk ++ rest) -> exists s, In s (r :: side) /\ col c x = col sc s)).
    { intros blk rest H1 H2 H3. split.
      - clear - H1 H2 H3 Hr. induction blk as [|x blk IHb]; simpl; auto.
        constructor; [apply IHb; intros; apply H1; right; auto|].
        apply Forall_forall. intros y Hy. rewrite (H1 x (or_introl eq_refl)).
        apply in_app_iff in Hy. destruct Hy as [Hy|Hy]; [rewrite (H1 y (or_intror Hy)); lia|].
        destruct (H3 y Hy) as (s & Hs & ->). rewrite Forall_forall in Hr. auto.
      - intros x Hx. apply in_app_iff in Hx. destruct Hx as [Hx|Hx].
        + exists r. split; [left; auto|auto].
        + destruct (H3 x Hx) as (s & H & E). exists s. split; [right; auto|auto]. }
    destruct (col sc r =? le) eqn:E.
    + apply N.eqb_eq in E.
      destruct (bound_loop fuel order edges lo hi isVar value pair blank (S (length r)) sc le lb side) as [rest|] eqn:Er; [|discriminate].
      intros H. injection H as <-. apply IH in Er; auto.
      * apply Hcons; try apply Er. intros x Hx. rewrite E. auto.
      * intros Hne s Hin. apply Hle; [auto|right; auto].
    + destruct (lo =? 0); [discriminate|].
      destruct (search fuel order edges lo hi (col sc r)) as [ys|]; [|discriminate].
      rewrite bound_rows_spec by lia.
      match goal with |- context[bound_loop _ _ _ _ _ _ _ _ _ _ _ ?a ?b side] =>
        set (lb' := b); destruct (bound_loop fuel order edges lo hi isVar value pair blank (S (length r)) sc a lb' side) as [rest|] eqn:Er end; [|discriminate].
      assert (Hlb' : forall x, In x lb' -> col c x = col sc r).
      { intros x Hx. unfold lb' in Hx. apply in_map_iff in Hx. destruct Hx as (y & <- & _).
        specialize (Hp (col sc r) y). destruct c as [|[|c]]; [exact Hp|exact Hp|lia]. }
      intros H. injection H as <-. apply IH in Er; auto.
      * apply Hcons; auto; apply Er.
      * intros _ s Hin. rewrite Forall_forall in Hr. apply Hr. auto.
Qed.
