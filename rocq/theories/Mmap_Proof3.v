(* Histories of operations. *)
From Coq Require Import List NArith Arith Bool Lia ZifyN ZifyNat ZifyBool.
From Verif Require Import ListAux Bytes Mmap_Model Mmap_Spec Mmap_Proof Mmap_Proof2.
Import ListNotations.
Open Scope N_scope.

Section Vector.
  Variables (s page m : N).
  Hypothesis SP : 0 < s.
  Hypothesis PS : 2 * s <= page.
  Hypothesis HB : 2 * (m + 100) * s + page < 2 ^ 64.
  Let sn := N.to_nat s.
  Notation rep := (rep s).
  Notation others w w' f := (forall g, g <> f -> file w' g = file w g).

  Lemma rep_elements w v l : rep w v l -> elements s w v l.
  Proof. intros R. split; [apply R|]. intros i. now apply (at_ok s page m SP PS HB). Qed.

  Lemma history ops : forall w v l, rep w v l -> allowed s m (N.of_nat (length l)) ops ->
    exists w' v' l', run_ops s page w v ops = Done (w', v') /\ rep w' v' l' /\ steps s l ops l' /\ filename v' = filename v /\ others w w' (filename v).
  Proof.
    induction ops as [|o ops IH]; intros w v l R A; cbn [run_ops].
    { exists w, v, l. split; [reflexivity|]. split; [exact R|]. split; [constructor|auto]. }
    assert (STEP : exists w1 v1 l1, run_op s page w v o = Done (w1, v1) /\ rep w1 v1 l1 /\ step s l o l1 /\
      filename v1 = filename v /\ others w w1 (filename v) /\ allowed s m (N.of_nat (length l1)) ops).
    { destruct o as [e|i e|n| |n| ]; cbn [allowed run_op] in *.
      - destruct A as (A1 & A2 & A3). pose proof (r_size _ _ _ _ R) as SZ.
        destruct (push_ok s page m SP PS HB w v l e R) as (w' & v' & E & R' & F & O); [lia|exact A1|].
        exists w', v', (l ++ [e]). split; [exact E|]. split; [exact R'|]. split; [now constructor|]. split; [exact F|]. split; [exact O|].
        rewrite app_length. cbn [length]. replace (N.of_nat (length l + 1)) with (N.of_nat (length l) + 1) by lia. exact A3.
      - destruct A as (A1 & A2 & A3).
        destruct (put_ok s page m SP PS HB w v l i e R A2 A1) as (w' & E & R' & O). rewrite E. cbn [andThen].
        exists w', v, (replaced (N.to_nat i) e l). split; [reflexivity|]. split; [exact R'|]. split; [now constructor|]. split; [reflexivity|]. split; [exact O|].
        rewrite (replaced_length s page m SP PS HB) by lia. exact A3.
      - destruct A as (A1 & A2).
        destruct (resize_ok s page m SP PS HB w v l n R A1) as (w' & v' & l' & E & R' & ST & LL & F & O).
        exists w', v', l'. rewrite LL, N2Nat.id. auto 10.
      - destruct (shrink_ok s page m SP PS HB w v l 0 R) as (w' & v' & E & R' & F & O); [lia|lia|].
        exists w', v', []. split; [exact E|]. split; [exact R'|]. split; [constructor|]. auto.
      - destruct A as (A1 & A2).
        destruct (reserve_ok s page m SP PS HB w v l n R A1) as (w' & v' & E & R' & F & _ & O).
        exists w', v', l. split; [exact E|]. split; [exact R'|]. split; [constructor|]. auto.
      - destruct (close_ok s page m SP PS HB w v l R) as (w' & E & E2 & R' & O). rewrite E. cbn [andThen fst]. rewrite E2. cbn [andThen].
        exists w', v, l. split; [reflexivity|]. split; [exact R'|]. split; [constructor|]. auto. }
    destruct STEP as (w1 & v1 & l1 & E & R1 & ST & F & O & A1). rewrite E. cbn [andThen fst snd].
    destruct (IH w1 v1 l1 R1 A1) as (w2 & v2 & l2 & E2 & R2 & ST2 & F2 & O2).
    exists w2, v2, l2. split; [exact E2|]. split; [exact R2|]. split; [now apply steps_more with l1|]. split; [congruence|].
    intros g G. rewrite O2 by congruence. now apply O.
  Qed.

  Lemma range_ok w es f : f <> 0 -> N.of_nat (length es) <= m -> Forall (fun e => length e = sn) es ->
    exists w' v, open_range s page w es f = Done (w', v) /\ rep w' v es /\ filename v = f /\ others w w' f.
  Proof.
    intros F M E. unfold open_range. destruct (open_ok s page m SP PS HB w (N.of_nat (length es)) f F M) as (w1 & v & l & -> & R & L & FN & O).
    cbn [andThen fst snd]. rewrite Nat2N.id in L. destruct (fill_ok s page m SP PS HB es w1 v [] l R L E) as (w2 & E2 & R2 & O2).
    change (N.of_nat (length [])) with 0 in E2. rewrite E2. cbn [andThen]. exists w2, v. split; [reflexivity|]. split; [exact R2|]. split; [exact FN|].
    intros g G. rewrite O2 by congruence. now apply O.
  Qed.
  Lemma default_range w n e f : open_default s page w n e f = open_range s page w (repeat e (N.to_nat n)) f.
  Proof. unfold open_default, open_range. rewrite repeat_length, N2Nat.id. reflexivity. Qed.

  (* BufferedVector *)
  Definition brep (w : world) (b : buffered) (l : list elem) : Prop :=
    exists l0, rep w (ext b) l0 /\ Forall (fun e => length e = sn) l /\ if is_internal b then inner b = l else l0 = l.
  Lemma brep_elements w b l : brep w b l -> belements s w b l.
  Proof.
    intros (l0 & R & F & I). unfold belements, b_size, b_at, b_get. destruct (is_internal b); subst.
    - split; [reflexivity|]. split; [reflexivity|]. intros i e ->. reflexivity.
    - split; [apply R|]. split; [intros i; now apply (at_ok s page m SP PS HB)|]. intros i e E.
      rewrite (get_ok s page m SP PS HB w (ext b) l i R) by (assert (N.to_nat i < length l)%nat by (apply nth_error_Some; congruence); lia).
      f_equal. now apply nth_error_nth.
  Qed.
  Lemma set_nth_replaced e l : forall i, (i < length l)%nat -> set_nth i e l = replaced i e l.
  Proof.
    induction l as [|x l IH]; intros [|i] H; cbn [length] in H; try lia; [reflexivity|].
    cbn [set_nth]. rewrite IH by lia. reflexivity.
  Qed.
  Lemma replaced_forall i e l : length e = sn -> Forall (fun e => length e = sn) l -> Forall (fun e => length e = sn) (replaced i e l).
  Proof.
    intros E F. rewrite <- (firstn_skipn i l) in F. apply Forall_app in F as [F1 F2]. unfold replaced. apply Forall_app. split; [exact F1|]. constructor; [exact E|].
    rewrite <- (firstn_skipn (i + 1) l) in F1. rewrite <- (firstn_skipn 1 (skipn i l)) in F2. apply Forall_app in F2 as [_ F2].
    rewrite <- skipn_add in F2. exact F2.
  Qed.
  Lemma fill_last es : forall w v i e, andThen (fill s w v i es) (fun w' => write_at s w' v (i + N.of_nat (length es)) e) = fill s w v i (es ++ [e]).
  Proof.
    induction es as [|x es IH]; intros w v i e; cbn [fill app length].
    - cbn [andThen N.of_nat]. rewrite N.add_0_r. now destruct (write_at s w v i e).
    - destruct (write_at s w v i x) as [w'| | |]; cbn [andThen]; auto. rewrite <- IH. destruct (fill s w' v (i + 1) es); cbn [andThen]; auto. f_equal. lia.
  Qed.
  Lemma bpush_ok w b l e : brep w b l -> N.of_nat (length l) + 1 <= m -> length e = sn ->
    exists w' b', b_push_back s page w b e = Done (w', b') /\ brep w' b' (l ++ [e]) /\ filename (ext b') = filename (ext b) /\ threshold b' = threshold b /\
      others w w' (filename (ext b)).
  Proof.
    intros (l0 & R & F & I) M E. unfold b_push_back, b_size.
    assert (F' : Forall (fun e => length e = sn) (l ++ [e])) by (apply Forall_app; split; auto).
    destruct (is_internal b) eqn:II; cbn [negb].
    - destruct (N.of_nat (length (inner b)) <? threshold b).
      + exists w, (Buffered (threshold b) true (inner b ++ [e]) (ext b)). split; [reflexivity|]. split; [|auto].
        exists l0. split; [exact R|]. split; [exact F'|]. cbn [is_internal inner]. congruence.
      + subst l. set (n := N.of_nat (length (inner b)) + 1) in *.
        destruct (resize_ok s page m SP PS HB w (ext b) l0 n R M) as (w1 & v1 & l1 & -> & R1 & _ & L1 & F1 & O1). cbn [andThen fst snd].
        assert (P : ptr v1 <> None) by (rewrite (r_ptr _ _ _ _ R1); discriminate).
        rewrite put_all_fill by exact P.
        destruct (fill_ok s page m SP PS HB (inner b ++ [e]) w1 v1 [] l1 R1) as (w2 & E2 & R2 & O2); [rewrite app_length; cbn [length]; lia | exact F'|].
        change (N.of_nat (length [])) with 0 in E2. rewrite <- fill_last in E2. rewrite N.add_0_l in E2.
        destruct (fill s w1 v1 0 (inner b)) as [w3| | |]; cbn [andThen] in E2 |- *; try discriminate.
        unfold put, throwIfUninitialized. rewrite (r_ptr _ _ _ _ R1). rewrite E2. cbn [andThen].
        do 2 eexists. split; [reflexivity|]. cbn [ext threshold]. split; [|split; [exact F1|split; [reflexivity|]]].
        * exists (inner b ++ [e]). cbn [ext is_internal]. auto.
        * intros g G. rewrite O2 by congruence. now apply O1.
    - subst l0. destruct (push_ok s page m SP PS HB w (ext b) l e R) as (w' & v' & -> & R' & FN & O); [rewrite (r_size _ _ _ _ R); exact M|exact E|].
      cbn [andThen fst snd]. do 2 eexists. split; [reflexivity|]. cbn [ext threshold]. split; [|auto]. exists (l ++ [e]). cbn [ext is_internal]. auto.
  Qed.
  Lemma bhistory ops : forall w b l, brep w b l -> ballowed s m (N.of_nat (length l)) ops ->
    exists w' b', run_bops s page w b ops = Done (w', b') /\ brep w' b' (bsteps l ops) /\ filename (ext b') = filename (ext b) /\ others w w' (filename (ext b)).
  Proof.
    induction ops as [|o ops IH]; intros w b l R A; cbn [run_bops].
    { exists w, b. auto. }
    assert (STEP : exists w1 b1, run_bop s page w b o = Done (w1, b1) /\ brep w1 b1 (bsteps l [o]) /\
      filename (ext b1) = filename (ext b) /\ others w w1 (filename (ext b)) /\ ballowed s m (N.of_nat (length (bsteps l [o]))) ops).
    { destruct o as [e|i e|]; cbn [ballowed run_bop bsteps] in *.
      - destruct A as (A1 & A2 & A3). destruct (bpush_ok w b l e R A2 A1) as (w' & b' & E & R' & FN & _ & O).
        exists w', b'. split; [exact E|]. split; [exact R'|]. split; [exact FN|]. split; [exact O|].
        rewrite app_length. cbn [length]. replace (N.of_nat (length l + 1)) with (N.of_nat (length l) + 1) by lia. exact A3.
      - destruct A as (A1 & A2 & A3). destruct R as (l0 & R & F & I). unfold b_put. destruct (is_internal b) eqn:II.
        + subst l. pose proof A2 as A2'. apply N.ltb_lt in A2'. rewrite A2'. do 2 eexists. split; [reflexivity|]. cbn [ext]. split; [|split; [reflexivity|split; [reflexivity|]]].
          * exists l0. cbn [ext is_internal inner]. split; [exact R|]. split; [now apply replaced_forall|]. apply set_nth_replaced. lia.
          * rewrite (replaced_length s page m SP PS HB) by lia. exact A3.
        + subst l0. destruct (put_ok s page m SP PS HB w (ext b) l i e R A2 A1) as (w' & -> & R' & O). cbn [andThen].
          do 2 eexists. split; [reflexivity|]. split; [|split; [reflexivity|split; [exact O|]]].
          * exists (replaced (N.to_nat i) e l). rewrite II. split; [exact R'|]. split; [now apply replaced_forall|reflexivity].
          * rewrite (replaced_length s page m SP PS HB) by lia. exact A3.
      - do 2 eexists. split; [reflexivity|]. unfold b_clear. cbn [ext length N.of_nat]. split; [|auto]. destruct R as (l0 & R & _). exists l0. cbn [ext is_internal inner]. auto. }
    destruct STEP as (w1 & b1 & E & R1 & F & O & A1). rewrite E. cbn [andThen fst snd].
    destruct (IH w1 b1 _ R1 A1) as (w2 & b2 & E2 & R2 & F2 & O2).
    exists w2, b2. split; [exact E2|]. split; [|split; [congruence|]].
    - destruct o; exact R2.
    - intros g G. rewrite O2 by congruence. now apply O.
  Qed.
End Vector.
