(* The pipeline is a sequential one, whatever the schedule. *)
From Coq Require Import List Arith Bool Lia.
From Verif Require Import ListAux Pipe_Model Pipe_Spec.
Import ListNotations.

Lemma set_nth_length {A} i (x : A) l : length (set_nth i x l) = length l.
Proof. revert i. induction l as [|y l IH]; intros [|i]; cbn; auto. Qed.
Lemma set_nth_same {A} i (x : A) l : i < length l -> nth_error (set_nth i x l) i = Some x.
Proof. revert i. induction l as [|y l IH]; intros [|i] H; cbn in *; try lia; auto. apply IH. lia. Qed.
Lemma set_nth_other {A} i j (x : A) l : i <> j -> nth_error (set_nth i x l) j = nth_error l j.
Proof. revert i j. induction l as [|y l IH]; intros [|i] [|j] H; cbn in *; try lia; auto. Qed.

Section Pipe.
  Context {V C S : Type}.
  Variable next : C -> made V C.
  Notation transformer := (S -> V -> option (V * S)).
  Variable bs : nat.

  (* ---- the sequential pipeline ---- *)
  Inductive seqpipe := SB (c : C) | SS (q : seqpipe) (n : nat) (fs : list transformer) (ss : list S).
  Fixpoint gather (i : nat) (acc : list V) (c : C) : option (batch V * C) :=
    match i with
    | O => Some (Batch true acc, c)
    | Datatypes.S i' =>
        match next c with
        | Value v c' => gather i' (acc ++ [v]) c'
        | End c' => Some (Batch false acc, c')
        | Raise => None
        end
    end.
  Fixpoint produce (q : seqpipe) : option (batch V * seqpipe) :=
    match q with
    | SB c => option_map (fun p => (fst p, SB (snd p))) (gather bs [] c)
    | SS q0 n fs ss =>
        match produce q0 with
        | Some (b, q') =>
            option_map (fun p => (Batch (isPipelineGood b) (fst p), SS q' n fs (snd p))) (transformed (responsible bs n fs) fs ss 0 (content b))
        | None => None
        end
    end.

  (* one transformer on a part of a batch *)
  Fixpoint run (f : transformer) (s : S) (l : list V) : option (list V * S) :=
    match l with
    | [] => Some ([], s)
    | v :: l' =>
        match f s v with
        | Some (v', s') => match run f s' l' with Some (r, s2) => Some (v' :: r, s2) | None => None end
        | None => None
        end
    end.
  Lemma run_app f l1 : forall s l2, run f s (l1 ++ l2) = match run f s l1 with
    | Some (r1, s1) => match run f s1 l2 with Some (r2, s2) => Some (r1 ++ r2, s2) | None => None end | None => None end.
  Proof.
    induction l1 as [|v l1 IH]; intros s l2; cbn [app run].
    - destruct (run f s l2) as [[r s2]|]; reflexivity.
    - destruct (f s v) as [[v' s']|]; [|reflexivity]. rewrite IH. destruct (run f s' l1) as [[r1 s1]|]; [|reflexivity].
      destruct (run f s1 l2) as [[r2 s2]|]; reflexivity.
  Qed.
  Lemma run_stateless f l : stateless f -> forall s s', option_map fst (run f s l) = option_map fst (run f s' l).
  Proof.
    intros H. induction l as [|v l IH]; intros s s'; cbn [run]; [reflexivity|]. specialize (H s s' v).
    destruct (f s v) as [[a s1]|], (f s' v) as [[b s2]|]; cbn in H; try discriminate; [|reflexivity]. injection H as ->.
    specialize (IH s1 s2). destruct (run f s1 l) as [[r1 t1]|], (run f s2 l) as [[r2 t2]|]; cbn in *; try discriminate; [|reflexivity]. congruence.
  Qed.
  Lemma run_length f l : forall s r s', run f s l = Some (r, s') -> length r = length l.
  Proof.
    induction l as [|v l IH]; intros s r s' H; cbn [run] in H.
    - injection H as <- <-. reflexivity.
    - destruct (f s v) as [[v' s1]|]; [|discriminate]. destruct (run f s1 l) as [[r1 s2]|] eqn:E; [|discriminate]. injection H as <- <-. cbn. f_equal. eauto.
  Qed.

  (* ---- transformed ---- *)
  Lemma transformed_app who (fs : list transformer) (l1 : list V) : forall ss k l2, transformed who fs ss k (l1 ++ l2) = match transformed who fs ss k l1 with
    | Some (r1, s1) => match transformed who fs s1 (k + length l1) l2 with Some (r2, s2) => Some (r1 ++ r2, s2) | None => None end | None => None end.
  Proof.
    induction l1 as [|v l1 IH]; intros ss k l2; cbn [app transformed length].
    - rewrite Nat.add_0_r. destruct (transformed who fs ss k l2) as [[r s2]|]; reflexivity.
    - destruct (nth_error fs (who k)) as [f|]; [|reflexivity]. destruct (nth_error ss (who k)) as [s|]; [|reflexivity].
      destruct (f s v) as [[v' s']|]; [|reflexivity]. rewrite IH.
      destruct (transformed who fs _ _ l1) as [[r1 s1]|]; [|reflexivity]. replace (Datatypes.S k + length l1) with (k + Datatypes.S (length l1)) by lia.
      destruct (transformed who fs s1 _ l2) as [[r2 s2]|]; reflexivity.
  Qed.
  Lemma transformed_length who (fs : list transformer) (l : list V) : forall ss k r ss', transformed who fs ss k l = Some (r, ss') -> length r = length l /\ length ss' = length ss.
  Proof.
    induction l as [|v l IH]; intros ss k r ss' H; cbn [transformed] in H.
    - injection H as <- <-. auto.
    - destruct (nth_error fs (who k)) as [f|]; [|discriminate]. destruct (nth_error ss (who k)) as [s|]; [|discriminate]. destruct (f s v) as [[v' s']|]; [|discriminate].
      destruct (transformed who fs _ _ l) as [[r1 s1]|] eqn:E; [|discriminate]. injection H as <- <-. apply IH in E as [E1 E2]. rewrite set_nth_length in E2. cbn. auto.
  Qed.
  Lemma transformed_shift who who' (fs : list transformer) (l : list V) : forall ss k k', (forall i, i < length l -> who (k + i) = who' (k' + i)) ->
    transformed who fs ss k l = transformed who' fs ss k' l.
  Proof.
    induction l as [|v l IH]; intros ss k k' H; cbn [transformed]; [reflexivity|]. cbn [length] in H.
    pose proof (H 0 ltac:(lia)) as H0. rewrite !Nat.add_0_r in H0. rewrite H0.
    destruct (nth_error fs (who' k')) as [f|]; [|reflexivity]. destruct (nth_error ss (who' k')) as [s|]; [|reflexivity]. destruct (f s v) as [[v' s']|]; [|reflexivity].
    rewrite (IH _ (Datatypes.S k) (Datatypes.S k')); [reflexivity|]. intros i I. specialize (H (Datatypes.S i) ltac:(lia)).
    replace (Datatypes.S k + i) with (k + Datatypes.S i) by lia. rewrite H. f_equal. lia.
  Qed.
  Lemma set_nth_id {A} (l : list A) : forall i x, nth_error l i = Some x -> set_nth i x l = l.
  Proof. induction l as [|y l IH]; intros [|i] x H; cbn in *; try discriminate; [congruence|]. f_equal. auto. Qed.
  Lemma set_nth_twice {A} (l : list A) : forall i x y, set_nth i x (set_nth i y l) = set_nth i x l.
  Proof. induction l as [|z l IH]; intros [|i] x y; cbn; auto. f_equal. auto. Qed.
  (* one transformer for a whole range *)
  Lemma transformed_one who j (fs : list transformer) f (l : list V) : nth_error fs j = Some f -> forall ss k s, nth_error ss j = Some s ->
    (forall i, i < length l -> who (k + i) = j) ->
    transformed who fs ss k l = option_map (fun p => (fst p, set_nth j (snd p) ss)) (run f s l).
  Proof.
    intros F. induction l as [|v l IH]; intros ss k s E H; cbn [transformed run].
    - cbn. now rewrite set_nth_id.
    - cbn [length] in H. pose proof (H 0 ltac:(lia)) as H0. rewrite Nat.add_0_r in H0. rewrite H0, F, E.
      destruct (f s v) as [[v' s']|]; [|reflexivity].
      rewrite (IH (set_nth j s' ss) (Datatypes.S k) s').
      + destruct (run f s' l) as [[r s2]|]; cbn; [|reflexivity]. now rewrite set_nth_twice.
      + apply set_nth_same. apply nth_error_Some. congruence.
      + intros i I. replace (Datatypes.S k + i) with (k + Datatypes.S i) by lia. apply H. lia.
  Qed.

  (* ---- the parts of a batch ---- *)
  Lemma range_firstn (l : list V) n q m : m <= n - 1 ->
    concat (map (getBatchRange V l n q) (seq 0 m)) = firstn (Nat.min (m * q) (length l)) l.
  Proof.
    induction m as [|m IH]; intros M; [reflexivity|]. rewrite seq_S, map_app, concat_app, IH by lia. cbn [map concat Nat.add]. rewrite app_nil_r.
    unfold getBatchRange. replace (m <? n - 1) with true by (symmetry; apply Nat.ltb_lt; lia).
    set (a := Nat.min (m * q) (length l)). replace (m + 1) with (Datatypes.S m) by lia. set (b := Nat.min (Datatypes.S m * q) (length l)).
    assert (a <= b) by (unfold a, b; cbn [Nat.mul]; lia). replace b with (a + (b - a)) at 2 by lia. symmetry. apply firstn_add.
  Qed.
  Lemma range_concat (l : list V) n q : 0 < n -> concat (map (getBatchRange V l n q) (seq 0 n)) = l.
  Proof.
    intros N. replace n with (Datatypes.S (n - 1)) at 2 by lia. rewrite seq_S, map_app, concat_app, range_firstn by lia. cbn [map concat Nat.add]. rewrite app_nil_r.
    unfold getBatchRange. replace (n - 1 <? n - 1) with false by (symmetry; apply Nat.ltb_ge; lia).
    set (a := Nat.min ((n - 1) * q) (length l)). rewrite firstn_all2 with (l := skipn a l) by (rewrite skipn_length; lia). apply firstn_skipn.
  Qed.
  Lemma range_part (l : list V) n j i : 0 < n -> j < n -> length l <= bs ->
    i < length (getBatchRange V l n (bs / n) j) -> part bs n (Nat.min (j * (bs / n)) (length l) + i) = j.
  Proof.
    intros N J L I. unfold getBatchRange in I. rewrite firstn_length, skipn_length in I. unfold part. set (q := bs / n) in *.
    set (a := Nat.min (j * q) (length l)) in *.
    assert (LI : a + i < length l) by (destruct (j <? n - 1); lia).
    rewrite Nat.mod_small by lia. destruct (Nat.ltb_spec j (n - 1)) as [H|H].
    - assert (A : a = j * q) by lia. assert (j * q + i < (j + 1) * q) by lia.
      destruct (Nat.eqb_spec q 0) as [Q|Q]; [nia|]. rewrite A.
      replace ((j * q + i) / q) with j; [lia|]. apply (Nat.div_unique (j * q + i) q j i); nia.
    - assert (j = n - 1) by lia. destruct (Nat.eqb_spec q 0) as [Q|Q]; [lia|].
      assert (A : a = j * q) by lia. assert (j <= (a + i) / q); [|lia]. apply Nat.div_le_lower_bound; nia.
  Qed.

  (* the threads one after another, each with a transformer of its own *)
  Fixpoint outs (fs : list transformer) (j : nat) (ss : list S) (ps : list (list V)) : option (list V * list S) :=
    match ps with
    | [] => Some ([], ss)
    | p :: ps' =>
        match nth_error fs j, nth_error ss j with
        | Some f, Some s =>
            match run f s p with
            | Some (d, s') => match outs fs (Datatypes.S j) (set_nth j s' ss) ps' with Some (r, ss') => Some (d ++ r, ss') | None => None end
            | None => None
            end
        | _, _ => None
        end
    end.
  Lemma transformed_outs who (fs : list transformer) ps : forall j k ss, j + length ps <= length fs -> length ss = length fs ->
    (forall i p x, nth_error ps i = Some p -> x < length p -> who (k + length (concat (firstn i ps)) + x) = j + i) ->
    transformed who fs ss k (concat ps) = outs fs j ss ps.
  Proof.
    induction ps as [|p ps IH]; intros j k ss L1 L2 H; cbn [concat outs]; [reflexivity|]. cbn [length] in L1.
    destruct (nth_error fs j) as [f|] eqn:F; [|apply nth_error_None in F; lia].
    destruct (nth_error ss j) as [s|] eqn:E; [|apply nth_error_None in E; lia].
    rewrite transformed_app, (transformed_one who j fs f p F ss k s E).
    - destruct (run f s p) as [[d s']|]; cbn [option_map fst snd]; [|reflexivity].
      rewrite (IH (Datatypes.S j) (k + length p) (set_nth j s' ss)).
      + reflexivity.
      + lia.
      + now rewrite set_nth_length.
      + intros i p' x P X. specialize (H (Datatypes.S i) p' x P X). cbn [firstn concat] in H. rewrite app_length in H.
        replace (k + length p + length (concat (firstn i ps)) + x) with (k + (length p + length (concat (firstn i ps))) + x) by lia. rewrite H. lia.
    - intros i I. specialize (H 0 p i eq_refl I). cbn in H. rewrite Nat.add_0_r in H. rewrite H. lia.
  Qed.
  Lemma outs_workers (fs : list transformer) (ss : list S) ws : forall j ps ssa, length ws = length ps -> j + length ws <= length fs -> length ssa = length fs ->
    (forall i w p, nth_error ws i = Some w -> nth_error ps i = Some p -> exists f s, nth_error fs (j + i) = Some f /\ nth_error ssa (j + i) = Some s /\
      match done V w with Some d => exists s', run f s p = Some (d, s') /\ nth_error ss (j + i) = Some s' | None => run f s p = None end) ->
    match merged V ws with
    | Some r => exists ss2, outs fs j ssa ps = Some (r, ss2) /\ length ss2 = length ssa /\ (forall i, i < j -> nth_error ss2 i = nth_error ssa i) /\
        (forall i, j <= i < j + length ws -> nth_error ss2 i = nth_error ss i)
    | None => outs fs j ssa ps = None
    end.
  Proof.
    induction ws as [|w ws IH]; intros j ps ssa L1 L2 L3 H; destruct ps as [|p ps]; try discriminate; cbn [merged outs].
    - exists ssa. split; [reflexivity|]. split; [reflexivity|]. split; [reflexivity|]. cbn [length]. intros i I. lia.
    - cbn [length] in *. destruct (H 0 w p eq_refl eq_refl) as (f & s & F & E & D). rewrite Nat.add_0_r in F, E, D. rewrite F, E.
      destruct (done V w) as [d|]; [|rewrite D; reflexivity]. destruct D as (s' & D1 & D2). rewrite D1.
      specialize (IH (Datatypes.S j) ps (set_nth j s' ssa) ltac:(lia) ltac:(lia)). rewrite set_nth_length in IH. specialize (IH L3).
      assert (HH : forall i w p, nth_error ws i = Some w -> nth_error ps i = Some p -> exists f s, nth_error fs (Datatypes.S j + i) = Some f /\ nth_error (set_nth j s' ssa) (Datatypes.S j + i) = Some s /\
        match done V w with Some d => exists s', run f s p = Some (d, s') /\ nth_error ss (Datatypes.S j + i) = Some s' | None => run f s p = None end).
      { intros i w' p' W P. specialize (H (Datatypes.S i) w' p' W P). replace (Datatypes.S j + i) with (j + Datatypes.S i) by lia. rewrite set_nth_other by lia. exact H. }
      specialize (IH HH). destruct (merged V ws) as [r|].
      + destruct IH as (ss2 & I1 & I2 & I3 & I4). rewrite I1. exists ss2. split; [reflexivity|]. split; [exact I2|]. split.
        * intros i I. rewrite I3 by lia. apply set_nth_other. lia.
        * intros i I. destruct (Nat.eq_dec i j) as [->|N]; [|apply I4; lia]. rewrite I3 by lia. rewrite set_nth_same by lia. congruence.
      + now rewrite IH.
  Qed.
  (* the same with a shared transformer *)
  Lemma shared_workers (f : transformer) : stateless f -> forall ws ps s, Forall2 (fun w p => exists s1, match done V w with Some d => exists s', run f s1 p = Some (d, s') | None => run f s1 p = None end) ws ps ->
    match merged V ws with
    | Some r => exists s', run f s (concat ps) = Some (r, s')
    | None => run f s (concat ps) = None
    end.
  Proof.
    intros ST ws ps s H. revert s. induction H as [|w p ws ps (s1 & W) H IH]; intros s; cbn [merged concat]; [exists s; reflexivity|].
    rewrite run_app. pose proof (run_stateless f p ST s s1) as R. destruct (done V w) as [d|].
    - destruct W as (s' & W). rewrite W in R. destruct (run f s p) as [[d' s2]|]; [|discriminate]. cbn in R. injection R as ->.
      specialize (IH s2). destruct (merged V ws) as [r|]; [destruct IH as (s3 & IH); rewrite IH; eauto | now rewrite IH].
    - rewrite W in R. destruct (run f s p) as [[d' s2]|]; [discriminate|]. reflexivity.
  Qed.
End Pipe.
