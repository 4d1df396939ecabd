From Coq Require Import List NArith Arith Bool Lia Permutation Sorted ZifyBool ZifyN ZifyNat.
From Verif Require Import Table_Spec Ops_Model Path_Spec Path_Model ListAux Ops_Proof.
Import ListNotations.
Open Scope N_scope.

Definition mem (x : N) (l : list N) := existsb (N.eqb x) l.
Lemma mem_spec x l : mem x l = true <-> In x l.
Proof.
  unfold mem. rewrite existsb_exists. split.
  - intros (y & H & E). apply N.eqb_eq in E. now subst.
  - intros H. exists x. split; auto. apply N.eqb_refl.
Qed.
Lemma mem_false x l : mem x l = false <-> ~ In x l.
Proof. rewrite <- mem_spec. destruct (mem x l); intuition congruence. Qed.

(* ---- the edge map ---- *)

Lemma set_insert_spec s x : NoDup s ->
  NoDup (set_insert s x) /\ (forall y, In y (set_insert s x) <-> In y s \/ y = x).
Proof.
  intros Hd. unfold set_insert. fold (mem x s). destruct (mem x s) eqn:E.
  - apply mem_spec in E. split; auto. intros y. split; auto. intros [H|H]; subst; auto.
  - apply mem_false in E. split.
    + apply NoDup_app_intro; auto. repeat constructor; auto.
      intros z Hz [H|[]]. now subst.
    + intros y. rewrite in_app_iff. simpl. intuition.
Qed.

Lemma find_add_edge m l r x : find_edges (add_edge m l r) x =
  if x =? l then Some (match find_edges m l with Some s => set_insert s r | None => [r] end)
  else find_edges m x.
Proof.
  unfold find_edges. induction m as [|[k s] m IH]; simpl.
  - rewrite (N.eqb_sym l x). destruct (x =? l); reflexivity.
  - destruct (k =? l) eqn:E; simpl.
    + apply N.eqb_eq in E. subst k. rewrite (N.eqb_sym l x). destruct (x =? l) eqn:E2; simpl; reflexivity.
    + destruct (k =? x) eqn:E2; simpl.
      * apply N.eqb_eq in E2. subst k. now rewrite E.
      * exact IH.
Qed.

Definition map_ok (m : edge_map) (E : N -> N -> Prop) : Prop :=
  forall x, match find_edges m x with
            | Some s => NoDup s /\ s <> [] /\ forall y, In y s <-> E x y
            | None => forall y, ~ E x y
            end.

Lemma map_ok_ext m E E' : (forall x y, E x y <-> E' x y) -> map_ok m E -> map_ok m E'.
Proof.
  intros H Hm x. specialize (Hm x). destruct (find_edges m x).
  - destruct Hm as (H1 & H2 & H3). split; [auto|split; [auto|]]. intros y. now rewrite H3.
  - intros y. rewrite <- H. apply Hm.
Qed.

Lemma add_edge_ok m E l r : map_ok m E ->
  map_ok (add_edge m l r) (fun x y => E x y \/ (x = l /\ y = r)).
Proof.
  intros Hm x. rewrite find_add_edge. destruct (x =? l) eqn:Ex.
  - apply N.eqb_eq in Ex. subst x. specialize (Hm l). destruct (find_edges m l) as [s|].
    + destruct Hm as (H1 & H2 & H3). destruct (set_insert_spec s r H1) as [H4 H5].
      split; [auto|split].
      * intros H. assert (In r []) by (rewrite <- H; apply H5; auto). contradiction.
      * intros y. rewrite H5, H3. intuition.
    + split; [repeat constructor; auto|split; [discriminate|]]. intros y. simpl. specialize (Hm y).
      intuition.
  - apply N.eqb_neq in Ex. specialize (Hm x). destruct (find_edges m x) as [s|].
    + destruct Hm as (H1 & H2 & H3). split; [auto|split; [auto|]]. intros y. rewrite H3. intuition.
    + intros y. specialize (Hm y). intuition.
Qed.

Lemma build_edges_ok_gen fc tc sub : forall m E, map_ok m E ->
  map_ok (fold_left (fun m r => add_edge m (col fc r) (col tc r)) sub m)
    (fun x y => E x y \/ edge sub fc tc x y).
Proof.
  induction sub as [|r sub IH]; intros m E Hm; simpl.
  - eapply map_ok_ext; [|exact Hm]. intros x y. split; auto. intros [H|(r & [] & _)]; auto.
  - eapply map_ok_ext; [|apply IH, add_edge_ok, Hm]. intros x y. cbv beta. unfold edge. split.
    + intros [[H|[H1 H2]]|(r' & H1 & H2)]; auto.
      * right. exists r. simpl. auto.
      * right. exists r'. simpl. auto.
    + intros [H|(r' & [H1|H1] & H2 & H3)]; auto.
      * subst r'. left. right. auto.
      * right. exists r'. auto.
Qed.

Lemma build_edges_ok sub fc tc : map_ok (build_edges sub fc tc) (edge sub fc tc).
Proof.
  unfold build_edges. eapply map_ok_ext; [|apply (build_edges_ok_gen fc tc sub [] (fun _ _ => False))].
  - intros x y. cbv beta. tauto.
  - intros x. simpl. auto.
Qed.

Lemma build_nodes_spec sub fc : forall seen,
  NoDup (build_nodes seen sub fc) /\
  (forall x, In x (build_nodes seen sub fc) <-> ~ In x seen /\ exists r, In r sub /\ col fc r = x).
Proof.
  induction sub as [|r sub IH]; intros seen; simpl.
  - split; [constructor|]. intros x. split; [tauto|]. intros (_ & r & [] & _).
  - fold (mem (col fc r) seen). destruct (mem (col fc r) seen) eqn:E.
    + apply mem_spec in E. destruct (IH seen) as [H1 H2]. split; auto. intros x. rewrite H2. split.
      * intros (H & r' & H3 & H4). split; auto. exists r'. auto.
      * intros (H & r' & [H3|H3] & H4); [subst; contradiction|]. split; auto. exists r'. auto.
    + apply mem_false in E. destruct (IH (col fc r :: seen)) as [H1 H2]. split.
      * constructor; auto. rewrite H2. simpl. tauto.
      * intros x. simpl. rewrite H2. simpl. split.
        { intros [H|(H & r' & H3 & H4)].
          - subst. split; auto. exists r. auto.
          - split; [tauto|]. exists r'. auto. }
        { intros (H & r' & [H3|H3] & H4).
          - subst. auto.
          - destruct (N.eq_dec (col fc r) x); auto. right. split; [tauto|]. exists r'. auto. }
Qed.

(* ---- walks ---- *)

Lemma walk_snoc E k x y z : walk E k x y -> E y z -> walk E (S k) x z.
Proof.
  induction 1 as [x|k x y y' Hxy Hw IH]; intros H.
  - econstructor; [eauto|constructor].
  - econstructor; [eauto|auto].
Qed.
Lemma walk_flip (E E' : N -> N -> Prop) k x y : (forall a b, E a b -> E' b a) -> walk E k x y -> walk E' k y x.
Proof.
  intros HE. induction 1 as [x|k x y z Hxy Hw IH]; [constructor|].
  eapply walk_snoc; eauto.
Qed.
Lemma walk_ext (E E' : N -> N -> Prop) k x y : (forall a b, E a b -> E' a b) -> walk E k x y -> walk E' k x y.
Proof. intros HE. induction 1; econstructor; eauto. Qed.

(* ---- the search ---- *)

Lemma nodup_room (marks V : list N) c : NoDup marks -> incl marks V -> In c V -> ~ In c marks ->
  (length marks < length V)%nat.
Proof.
  intros H1 H2 H3 Hc. change (length (c :: marks) <= length V)%nat.
  apply NoDup_incl_length; [constructor; auto|]. intros y [<-|Hy]; auto.
Qed.

Section Search.
  Variable succ : N -> option (list N).
  Variable E : N -> N -> Prop.
  Variable V : list N.
  Variable minD maxD : N.
  Variable root : N.
  Definition sl x := match succ x with Some s => s | None => [] end.
  Hypothesis sl_spec : forall x y, In y (sl x) <-> E x y.
  Hypothesis E_V : forall x y, E x y -> In y V.
  Hypothesis min_pos : 1 <= minD.

  (* soundness *)
  Fixpoint levels_ok (st : list (list N)) : Prop :=
    match st with
    | [] => True
    | s :: b => (forall c, In c s -> walk E (length st) root c) /\ levels_ok b
    end.

  Definition marks_ok marks := NoDup marks /\ forall y, In y marks -> path_between E minD maxD root y.

  Lemma dfs_sound : forall fuel st marks res, levels_ok st -> marks_ok marks ->
    dfs fuel succ minD maxD st marks = Some res -> marks_ok res.
  Proof using sl_spec. clear E_V min_pos V.
    induction fuel as [|fuel IH]; intros st marks res Hst Hm; cbn [dfs]; [discriminate|].
    destruct st as [|[|c rest] below].
    - intros H. injection H as <-. auto.
    - apply IH; auto. apply Hst.
    - set (d := N.of_nat (length ((c :: rest) :: below))).
      assert (Hst' : levels_ok (rest :: below)).
      { cbn [levels_ok] in Hst |- *. destruct Hst as [H1 H2]. split; auto.
        intros y Hy. apply (H1 y). right. auto. }
      assert (Hw : walk E (length ((c :: rest) :: below)) root c)
        by (apply (proj1 Hst); left; reflexivity).
      destruct ((d <=? maxD) && negb (existsb (N.eqb c) marks)) eqn:Ec; [|apply IH; auto].
      apply andb_true_iff in Ec. destruct Ec as [E1 E2]. apply negb_true_iff in E2.
      apply N.leb_le in E1. fold (mem c marks) in E2. apply mem_false in E2.
      assert (Hm' : marks_ok (if minD <=? d then marks ++ [c] else marks)).
      { destruct (minD <=? d) eqn:E3; auto. destruct Hm as [H1 H2]. split.
        - apply NoDup_app_intro; auto. repeat constructor; auto. intros z Hz [<-|[]]. auto.
        - intros y Hy. apply in_app_iff in Hy. destruct Hy as [Hy|[<-|[]]]; auto.
          exists (length ((c :: rest) :: below)). split; auto. fold d. lia. }
      destruct (succ c) as [s|] eqn:Es.
      + apply IH; auto. cbn [levels_ok]. split; [|exact Hst'].
        intros y Hy. eapply walk_snoc; [exact Hw|]. apply sl_spec. unfold sl. now rewrite Es.
      + apply IH; auto.
  Qed.

  (* completeness *)
  Fixpoint pend (st : list (list N)) (d : nat) (c : N) : Prop :=
    match st with
    | [] => False
    | s :: b => (d = length st /\ In c s) \/ pend b d c
    end.

  Inductive Covered (st : list (list N)) (marks : list N) : nat -> N -> Prop :=
  | cov_mark d c : In c marks -> Covered st marks d c
  | cov_pend d c : pend st d c -> Covered st marks d c
  | cov_succ d c : N.of_nat d < minD -> (forall s, In s (sl c) -> Covered st marks (S d) s) ->
      Covered st marks d c.

  Lemma Covered_mono st marks st' marks' :
    (forall y, In y marks -> In y marks') ->
    (forall d c, pend st d c -> Covered st' marks' d c) ->
    forall d c, Covered st marks d c -> Covered st' marks' d c.
  Proof.
    intros H1 H2 d c H. induction H as [d c H|d c H|d c H Hs IH].
    - apply cov_mark; auto.
    - auto.
    - apply cov_succ; auto.
  Qed.

  Definition invA st marks := forall m s, In m marks -> In s (sl m) ->
    In s marks \/ exists d, minD <= N.of_nat d /\ pend st d s.
  Definition invB st marks := forall s, In s (sl root) -> Covered st marks 1 s.
  Definition invD (st : list (list N)) (marks : list N) :=
    N.of_nat (length st) <= minD + N.of_nat (length marks).
  Definition invV st marks := NoDup marks /\ incl marks V /\ forall d c, pend st d c -> In c V.

  Hypothesis max_big : minD + N.of_nat (length V) <= maxD + 1.


  Lemma dfs_complete : forall fuel st marks res, invA st marks -> invB st marks -> invD st marks ->
    invV st marks -> dfs fuel succ minD maxD st marks = Some res ->
    invA [] res /\ invB [] res.
  Proof using sl_spec E_V max_big. clear min_pos.
    induction fuel as [|fuel IH]; intros st marks res HA HB HD HV; cbn [dfs]; [discriminate|].
    destruct st as [|[|c rest] below].
    - intros H. injection H as <-. auto.
    - assert (Hp : forall d c, pend ([] :: below) d c -> pend below d c).
      { intros d c. cbn [pend]. intros [[_ []]|H]; auto. }
      apply IH.
      + intros m s H1 H2. destruct (HA m s H1 H2) as [H|(d & H3 & H4)]; auto. right. exists d. auto.
      + intros s Hs. eapply Covered_mono; [| |apply HB, Hs]; auto.
        intros d c H. apply cov_pend. auto.
      + unfold invD in *. cbn [length] in HD. lia.
      + destruct HV as (H1 & H2 & H3). split; [auto|split; [auto|]]. intros d c H.
        apply (H3 d). cbn [pend]. auto.
    - set (dn := length ((c :: rest) :: below)). set (d := N.of_nat dn).
      assert (Hc : pend ((c :: rest) :: below) dn c) by (cbn [pend]; left; split; [reflexivity|left; reflexivity]).
      assert (Hp : forall k y, pend ((c :: rest) :: below) k y ->
                pend (rest :: below) k y \/ (k = dn /\ y = c)).
      { intros k y. cbn [pend]. intros [[H1 [H2|H2]]|H]; auto. }
      assert (Hp' : forall k y, pend (rest :: below) k y -> pend ((c :: rest) :: below) k y).
      { intros k y. cbn [pend length]. intros [[H1 H2]|H]; auto. left. split; [auto|right; auto]. }
      destruct (existsb (N.eqb c) marks) eqn:Em; fold (mem c marks) in Em.
      + (* skipped *)
        rewrite andb_false_r. apply mem_spec in Em. apply IH.
        * intros m s H1 H2. destruct (HA m s H1 H2) as [H|(k & H3 & H4)]; auto.
          destruct (Hp _ _ H4) as [H5|[H5 H6]]; [right; exists k; auto|subst; auto].
        * intros s Hs. eapply Covered_mono; [| |apply HB, Hs]; auto.
          intros k y H. destruct (Hp _ _ H) as [H5|[H5 H6]]; [apply cov_pend; auto|].
          apply cov_mark. now subst.
        * exact HD.
        * destruct HV as (H1 & H2 & H3). split; [auto|split; [auto|]]. intros k y H. eauto.
      + apply mem_false in Em. pose proof (nodup_room marks V c (proj1 HV) (proj1 (proj2 HV)) (proj2 (proj2 HV) _ _ Hc) Em) as Hroom.
        assert (Hd : (d <=? maxD) = true).
        { apply N.leb_le. unfold invD in HD. fold dn in HD. fold d in HD. lia. }
        rewrite Hd. cbn [andb negb].
        set (marks' := if minD <=? d then marks ++ [c] else marks).
        set (st' := match succ c with Some s => s :: rest :: below | None => rest :: below end).
        assert (Hs : forall y, In y (sl c) -> pend st' (S dn) y).
        { intros y. unfold sl, st'. destruct (succ c); [|intros []]. intros H. cbn [pend]. left. auto. }
        assert (Hq : forall k y, pend (rest :: below) k y -> pend st' k y).
        { intros k y H. unfold st'. destruct (succ c); auto. cbn [pend] in *. auto. }
        assert (Hlen : (length st' <= S dn)%nat).
        { unfold st'. destruct (succ c); cbn [length]; unfold dn; cbn [length]; lia. }
        assert (Hinc : forall y, In y marks -> In y marks').
        { intros y Hy. unfold marks'. destruct (minD <=? d); auto. apply in_app_iff. auto. }
        assert (Hcov : forall k y, pend ((c :: rest) :: below) k y -> Covered st' marks' k y).
        { intros k y H. destruct (Hp _ _ H) as [H1|[H1 H2]]; [apply cov_pend; auto|]. subst k y.
          unfold marks'. destruct (minD <=? d) eqn:E3.
          - apply cov_mark, in_app_iff. simpl. auto.
          - apply cov_succ; [fold d; lia|]. intros s H1. apply cov_pend. auto. }
        assert (HA' : invA st' marks').
        { intros m s H1 H2. unfold marks' in *. destruct (minD <=? d) eqn:E3.
          - apply in_app_iff in H1. destruct H1 as [H1|[<-|[]]].
            + destruct (HA m s H1 H2) as [H|(k & H3 & H4)]; [left; apply in_app_iff; auto|].
              destruct (Hp _ _ H4) as [H5|[H5 H6]]; [right; exists k; auto|].
              left. apply in_app_iff. simpl. auto.
            + right. exists (S dn). split; [unfold d in E3; lia|auto].
          - destruct (HA m s H1 H2) as [H|(k & H3 & H4)]; auto.
            destruct (Hp _ _ H4) as [H5|[H5 H6]]; [right; exists k; auto|].
            subst k. unfold d in E3. lia. }
        assert (HB' : invB st' marks').
        { intros s H. eapply Covered_mono; [exact Hinc|exact Hcov|]. apply HB, H. }
        assert (HD' : invD st' marks').
        { unfold invD, marks' in *. fold dn in HD. destruct (minD <=? d) eqn:E3.
          - rewrite app_length. cbn [length]. lia.
          - unfold d in E3. lia. }
        assert (HV' : invV st' marks').
        { destruct HV as (H1 & H2 & H3). split; [|split].
          - unfold marks'. destruct (minD <=? d); auto. apply NoDup_app_intro; auto.
            repeat constructor; auto. intros z Hz [<-|[]]. auto.
          - unfold marks'. destruct (minD <=? d); auto. apply incl_app; auto.
            intros y [<-|[]]. eauto.
          - intros k y. unfold st'. destruct (succ c) as [s|] eqn:Es; [|eauto].
            cbn [pend]. intros [[_ H]|H]; [|eapply H3, Hp', H].
            apply (E_V c), sl_spec. unfold sl. now rewrite Es. }
        intros H. apply (IH st' marks' res); auto. unfold st'. destruct (succ c); exact H.
  Qed.

  Lemma closed_walk marks k x y : invA [] marks -> In x marks -> walk E k x y -> In y marks.
  Proof using sl_spec.
    intros HA Hx Hw. induction Hw as [x|k x y z Hxy Hw IH]; auto. apply IH.
    apply sl_spec in Hxy. destruct (HA x y Hx Hxy) as [H|(d & _ & [])]; auto.
  Qed.

  Lemma covered_walk marks : invA [] marks -> forall d c, Covered [] marks d c ->
    forall k y, walk E k c y -> minD <= N.of_nat d + N.of_nat k -> In y marks.
  Proof using sl_spec. clear E_V min_pos max_big V.
    intros HA d c Hc. induction Hc as [d c H|d c []|d c Hd Hs IH]; intros k y Hw Hk.
    - eapply closed_walk; eauto.
    - inversion Hw as [|k' x' s z Hcs Hw']; subst; [lia|].
      apply sl_spec in Hcs. apply (IH s Hcs k' y Hw'). lia.
  Qed.

  Lemma complete_end marks k y : invA [] marks -> invB [] marks -> walk E k root y ->
    minD <= N.of_nat k -> In y marks.
  Proof using sl_spec min_pos. clear E_V max_big.
    intros HA HB Hw Hk. inversion Hw as [|k' x' s z Hcs Hw']; subst; [lia|].
    apply sl_spec in Hcs. apply (covered_walk marks HA 1%nat s (HB s Hcs) k' y Hw'). lia.
  Qed.
End Search.

(* ---- termination ---- *)

Lemma dfs_fuel_mono succ lo hi : forall f f' st marks res, (f <= f')%nat ->
  dfs f succ lo hi st marks = Some res -> dfs f' succ lo hi st marks = Some res.
Proof.
  induction f as [|f IH]; intros f' st marks res Hf; [discriminate|].
  destruct f' as [|f']; [lia|]. cbn [dfs].
  assert (Hle : (f <= f')%nat) by lia.
  destruct st as [|[|c rest] below]; auto.
  destruct (_ && _); auto. destruct (succ c); auto.
Qed.

Section Terminate.
  Variable succ : N -> option (list N).
  Variable V : list N.
  Variable D : nat.
  Variable minD maxD : N.
  Hypothesis s_len : forall x s, succ x = Some s -> (length s <= D)%nat.
  Hypothesis s_V : forall x s y, succ x = Some s -> In y s -> In y V.

  Fixpoint Wn (n : nat) : nat := match n with O => 1 | S n' => 2 + D * Wn n' end.
  Definition W (d : nat) : nat := Wn (N.to_nat minD - d).
  Fixpoint weight (st : list (list N)) : nat :=
    match st with [] => 0 | s :: b => 1 + length s * W (length st) + weight b end.

  Lemma Wn_pos n : (1 <= Wn n)%nat.
  Proof. destruct n; simpl; lia. Qed.
  Lemma W_step d : (d < N.to_nat minD)%nat -> W d = (2 + D * W (S d))%nat.
  Proof.
    intros H. unfold W. replace (N.to_nat minD - d)%nat with (S (N.to_nat minD - S d)) by lia. reflexivity.
  Qed.

  Lemma dfs_terminates : forall u w st marks, NoDup marks -> incl marks V ->
    (forall s c, In s st -> In c s -> In c V) ->
    (length V - length marks <= u)%nat -> (weight st <= w)%nat ->
    exists fuel res, dfs fuel succ minD maxD st marks = Some res.
  Proof.
    induction u as [u IHu] using lt_wf_ind. induction w as [w IHw] using lt_wf_ind.
    intros st marks Hnd Hincl HV Hu Hw. destruct st as [|[|c rest] below].
    - exists 1%nat, marks. reflexivity.
    - destruct (IHw (w - 1)%nat) with (st := below) (marks := marks) as (f & res & E); auto;
        try (cbn [weight length] in Hw; lia).
      + intros s c Hs. apply HV. right. auto.
      + exists (S f), res. exact E.
    - assert (HV' : forall s y, In s (rest :: below) -> In y s -> In y V).
      { intros s y [<-|Hs] Hy; [apply (HV (c :: rest)); [left; auto|right; auto]|].
        apply (HV s); auto. right. auto. }
      pose proof (Wn_pos (N.to_nat minD - S (length below))) as Hpos.
      assert (Hskip : forall m, m = marks -> exists f res, dfs f succ minD maxD (rest :: below) m = Some res).
      { intros m ->. apply (IHw (w - 1)%nat); auto; cbn [weight length] in *; unfold W in *; lia. }
      destruct ((N.of_nat (length ((c :: rest) :: below)) <=? maxD) && negb (existsb (N.eqb c) marks)) eqn:Ec.
      + apply andb_true_iff in Ec. destruct Ec as [E1 E2]. apply negb_true_iff in E2.
        fold (mem c marks) in E2. pose proof E2 as Em. apply mem_false in Em.
        assert (Hc : In c V) by (apply (HV (c :: rest)); [left|left]; reflexivity).
        assert (Hroom : (length (c :: marks) <= length V)%nat).
        { apply NoDup_incl_length; [constructor; auto|]. intros y [<-|Hy]; auto. }
        cbn [length] in Hroom.
        set (st' := match succ c with Some s => s :: rest :: below | None => rest :: below end).
        assert (HVst : forall s y, In s st' -> In y s -> In y V).
        { intros s y. unfold st'. destruct (succ c) as [s'|] eqn:Es; [|apply HV'].
          intros [<-|Hs] Hy; [eapply s_V; eauto|eauto]. }
        destruct (minD <=? N.of_nat (length ((c :: rest) :: below))) eqn:E3.
        * destruct (IHu (length V - length (marks ++ [c]))%nat) with (st := st') (marks := marks ++ [c])
            (w := weight st') as (f & res & E); auto.
          { rewrite app_length. cbn [length]. lia. }
          { apply NoDup_app_intro; auto. repeat constructor; auto. intros z Hz [<-|[]]. auto. }
          { apply incl_app; auto. intros y [<-|[]]. auto. }
          exists (S f), res. cbn [dfs]. rewrite E1. fold (mem c marks). rewrite E2, E3. cbn [andb negb].
          unfold st' in E. destruct (succ c); exact E.
        * assert (Hwt : (weight st' < w)%nat).
          { apply N.leb_gt in E3. cbn [length] in E3.
            assert (Hst : W (S (length below)) = (2 + D * W (S (S (length below))))%nat) by (apply W_step; lia).
            unfold st'. destruct (succ c) as [s|] eqn:Es.
            - apply s_len in Es. cbn [weight length] in Hw |- *.
              assert (length s * W (S (S (length below))) <= D * W (S (S (length below))))%nat
                by (apply Nat.mul_le_mono_r; auto). lia.
            - cbn [weight length] in Hw |- *. lia. }
          destruct (IHw (weight st') Hwt st' marks) as (f & res & E); auto.
          exists (S f), res. cbn [dfs]. rewrite E1. fold (mem c marks). rewrite E2, E3. cbn [andb negb].
          unfold st' in E. destruct (succ c); exact E.
      + destruct (Hskip marks eq_refl) as (f & res & E). exists (S f), res. cbn [dfs].
        cbn [length] in Ec |- *. rewrite Ec. exact E.
  Qed.
End Terminate.

(* ---- the search from one node ---- *)

Section One.
  Variable order : iteration_order.
  Hypothesis Hord : order_ok order.
  Variable sub : table.
  Variable fc tc : nat.
  Let edges := build_edges sub fc tc.
  Let E := edge sub fc tc.
  Let succ x := option_map order (find_edges edges x).
  Let V := map (col tc) sub.

  Lemma succ_spec x y : In y (sl succ x) <-> E x y.
  Proof.
    unfold sl, succ. pose proof (build_edges_ok sub fc tc x) as H. fold edges in H.
    destruct (find_edges edges x) as [s|]; simpl.
    - destruct H as (_ & _ & H). split; intros Hy.
      + apply H. eapply Permutation_in; [apply Hord|exact Hy].
      + apply H in Hy. eapply Permutation_in; [symmetry; apply Hord|exact Hy].
    - split; [tauto|]. apply H.
  Qed.
  Lemma E_in_V x y : E x y -> In y V.
  Proof. intros (r & H1 & _ & <-). apply in_map. auto. Qed.
  Lemma succ_len x s : succ x = Some s -> (length s <= length V)%nat.
  Proof.
    unfold succ. pose proof (build_edges_ok sub fc tc x) as H. fold edges in H.
    destruct (find_edges edges x) as [s'|]; simpl; [|discriminate]. intros Es. injection Es as <-.
    destruct H as (H1 & _ & H). rewrite (Permutation_length (Hord s')).
    apply NoDup_incl_length; auto. intros y Hy. apply H in Hy. apply E_in_V in Hy. auto.
  Qed.

  Lemma search_eq fuel lo hi x : search fuel order edges lo hi x =
    dfs fuel succ lo hi (match succ x with Some s => [s] | None => [] end) [].
  Proof. reflexivity. Qed.

  Lemma search_total lo hi x : exists fuel res, search fuel order edges lo hi x = Some res.
  Proof.
    destruct (dfs_terminates succ V (length V) lo hi) with (u := (length V - 0)%nat)
      (w := weight (length V) lo (match succ x with Some s => [s] | None => [] end))
      (st := match succ x with Some s => [s] | None => [] end) (marks := @nil N)
      as (fuel & res & H); [| | | | | | |exists fuel, res; now rewrite search_eq].
    - apply succ_len.
    - intros z s y Hs Hy. apply (E_in_V z), succ_spec. unfold sl. now rewrite Hs.
    - constructor.
    - intros y [].
    - intros s c Hs Hc. destruct (succ x) as [s'|] eqn:Es; [|destruct Hs].
      destruct Hs as [<-|[]]. apply (E_in_V x), succ_spec. unfold sl. now rewrite Es.
    - reflexivity.
    - reflexivity.
  Qed.

  Lemma search_sound fuel lo hi x res : search fuel order edges lo hi x = Some res ->
    NoDup res /\ forall y, In y res -> path_between E lo hi x y.
  Proof.
    rewrite search_eq. intros H.
    eapply (dfs_sound succ E lo hi x) in H.
    - exact H.
    - apply succ_spec.
    - destruct (succ x) as [s|] eqn:Es; cbn [levels_ok]; auto. split; auto.
      intros c Hc. econstructor; [|constructor]. apply succ_spec. unfold sl. now rewrite Es.
    - split; [constructor|intros y []].
  Qed.

  Lemma search_complete fuel lo hi x res : 1 <= lo ->
    lo + N.of_nat (length sub) <= hi + 1 ->
    search fuel order edges lo hi x = Some res ->
    forall y, path_between E lo hi x y -> In y res.
  Proof.
    intros Hlo Hhi H y (k & Hk & Hw). rewrite search_eq in H.
    assert (HV : length V = length sub) by apply map_length.
    eapply (dfs_complete succ E V lo hi x succ_spec) in H; auto.
    - destruct H as [HA HB]. apply (complete_end succ E lo x succ_spec Hlo res k y HA HB Hw). lia.
    - intros a b. apply E_in_V.
    - rewrite HV. exact Hhi.
    - intros m s [].
    - intros s Hs. apply cov_pend. unfold sl in Hs. destruct (succ x); [|destruct Hs].
      cbn [pend length]. auto.
    - unfold invD. destruct (succ x); cbn [length]; lia.
    - split; [constructor|split; [intros z []|]]. intros d c Hp. destruct (succ x) as [s|] eqn:Es.
      + cbn [pend] in Hp. destruct Hp as [[_ Hp]|[]]. apply (E_in_V x), succ_spec. unfold sl. now rewrite Es.
      + destruct Hp.
  Qed.

  Lemma search_mono lo hi x f f' res : (f <= f')%nat -> search f order edges lo hi x = Some res ->
    search f' order edges lo hi x = Some res.
  Proof. apply dfs_fuel_mono. Qed.
End One.
