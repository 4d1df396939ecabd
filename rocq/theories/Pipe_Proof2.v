(* Simulation of the concurrent pipeline by the sequential one. *)
From Coq Require Import List Arith Bool Lia.
From Verif Require Import ListAux Pipe_Model Pipe_Spec Pipe_Proof.
Import ListNotations.

Section Pipe.
  Context {V C S : Type}.
  Variable next : C -> made V C.
  Notation transformer := (S -> V -> option (V * S)).
  Variable bs : nat.
  Notation pipe := (pipe V C S).
  Notation step := (step V C S next bs).
  Notation pickupBatch := (pickupBatch V C S bs).
  Notation produce := (@produce V C S next bs).
  Notation gather := (@gather V C next).
  Notation start := (start V bs).
  Notation range l n j := (getBatchRange V l n (bs / n) j).
  Notation tof := (transformer_of V S).

  Definition winv (n : nat) (fs : list transformer) (ss0 ss : list S) (l : list V) (ws : list (worker V)) : Prop :=
    length ws = n /\
    forall j w, nth_error ws j = Some w -> exists f s0, nth_error fs (tof n fs j) = Some f /\ nth_error ss0 (tof n fs j) = Some s0 /\
      match done V w with
      | Some d => exists pr s', range l n j = pr ++ todo V w /\ run f s0 pr = Some (d, s') /\ (length fs = n -> nth_error ss j = Some s')
      | None => todo V w = [] /\ run f s0 (range l n j) = None
      end.

  Lemma tof_own n (fs : list transformer) j : length fs = n -> tof n fs j = j.
  Proof. intros H. unfold transformer_of. rewrite H, Nat.eqb_refl. reflexivity. Qed.
  Lemma tof_shared n (fs : list transformer) j : length fs <> n -> tof n fs j = 0.
  Proof. intros H. unfold transformer_of. destruct (Nat.eqb_spec n (length fs)); [lia|reflexivity]. Qed.
  Lemma tof_lt n (fs : list transformer) ss j : stage_ok (n, fs, ss) -> j < n -> tof n fs j < length fs.
  Proof.
    intros (N & L & H) J. destruct (Nat.eq_dec (length fs) n) as [E|E]; [rewrite tof_own by exact E; lia|].
    rewrite tof_shared by exact E. destruct H as [H|[H _]]; lia.
  Qed.

  Lemma nth_start n l j w : nth_error (start n l) j = Some w -> j < n /\ w = Worker V (range l n j) (Some []).
  Proof.
    unfold Pipe_Model.start. rewrite nth_error_map. destruct (nth_error (seq 0 n) j) as [i|] eqn:E; cbn; [|discriminate].
    intros H. injection H as <-. assert (J : j < n) by (rewrite <- (seq_length n 0); apply nth_error_Some; congruence).
    split; [exact J|]. apply nth_error_nth with (d := 0) in E. rewrite seq_nth in E by exact J. cbn in E. now subst.
  Qed.
  Lemma winv_start n fs ss0 ss l : stage_ok (n, fs, ss0) -> (length fs = n -> ss = ss0) -> winv n fs ss0 ss l (start n l).
  Proof.
    intros OK E. split; [unfold Pipe_Model.start; now rewrite map_length, seq_length|]. intros j w W. apply nth_start in W as [J ->].
    pose proof (tof_lt n fs ss0 j OK J) as T. destruct (nth_error fs (tof n fs j)) as [f|] eqn:F; [|apply nth_error_None in F; lia].
    destruct OK as (N & L & _).
    destruct (nth_error ss0 (tof n fs j)) as [s|] eqn:G; [|apply nth_error_None in G; lia].
    exists f, s. split; [reflexivity|]. split; [reflexivity|]. cbn [done todo]. exists [], s. split; [reflexivity|]. split; [reflexivity|].
    intros H. rewrite E by exact H. rewrite tof_own in G by exact H. exact G.
  Qed.
  Lemma forall2_nth {A B} (R : A -> B -> Prop) l1 : forall l2, length l1 = length l2 ->
    (forall i a b, nth_error l1 i = Some a -> nth_error l2 i = Some b -> R a b) -> Forall2 R l1 l2.
  Proof.
    induction l1 as [|a l1 IH]; intros [|b l2] L H; try discriminate; constructor.
    - now apply (H 0).
    - apply IH; [cbn in L; lia|]. intros i x y X Y. now apply (H (Datatypes.S i)).
  Qed.
  Lemma nth_ext_error {A} (l1 : list A) : forall l2, length l1 = length l2 -> (forall i, i < length l1 -> nth_error l1 i = nth_error l2 i) -> l1 = l2.
  Proof.
    induction l1 as [|a l1 IH]; intros [|b l2] L H; try discriminate; [reflexivity|]. cbn in L.
    pose proof (H 0 ltac:(cbn; lia)) as H0. injection H0 as ->. f_equal. apply IH; [lia|]. intros i I. apply (H (Datatypes.S i)). cbn. lia.
  Qed.
  Lemma range_offset (l : list V) n j : j < n -> length (concat (firstn j (map (fun i => range l n i) (seq 0 n)))) = Nat.min (j * (bs / n)) (length l).
  Proof.
    intros J. assert (E : seq 0 n = seq 0 j ++ seq j (n - j)) by (change j with (0 + j) at 2; rewrite <- seq_app; f_equal; lia). rewrite E, map_app, firstn_app, map_length, seq_length, Nat.sub_diag.
    cbn [firstn]. rewrite app_nil_r, firstn_all2 by (rewrite map_length, seq_length; lia). rewrite range_firstn by lia. rewrite firstn_length. lia.
  Qed.

  Lemma winv_finish n fs ss0 ss l ws : stage_ok (n, fs, ss0) -> length ss = length ss0 -> length l <= bs -> winv n fs ss0 ss l ws -> Forall (fun w => todo V w = []) ws ->
    match merged V ws with
    | Some r => exists ss', transformed (responsible bs n fs) fs ss0 0 l = Some (r, ss') /\ (length fs = n -> ss = ss')
    | None => transformed (responsible bs n fs) fs ss0 0 l = None
    end.
  Proof.
    intros OK LS LB [LW W] D. pose proof OK as (N & L & OW). set (ps := map (fun i => range l n i) (seq 0 n)).
    assert (LP : length ps = n) by (unfold ps; now rewrite map_length, seq_length).
    assert (CP : concat ps = l) by (apply range_concat; exact N).
    assert (NP : forall i p, nth_error ps i = Some p -> i < n /\ p = range l n i).
    { intros i p P. unfold ps in P. rewrite nth_error_map in P. destruct (nth_error (seq 0 n) i) as [x|] eqn:E; cbn in P; [|discriminate]. injection P as <-.
      assert (J : i < n) by (rewrite <- (seq_length n 0); apply nth_error_Some; congruence).
      split; [exact J|]. apply nth_error_nth with (d := 0) in E. rewrite seq_nth in E by exact J. cbn in E. now rewrite E. }
    assert (OFF : forall i, i < n -> length (concat (firstn i ps)) = Nat.min (i * (bs / n)) (length l)) by (intros i I; apply range_offset; exact I).
    clearbody ps.
    assert (DN : forall i w, nth_error ws i = Some w -> todo V w = []) by (intros i w X; apply nth_error_In in X; rewrite Forall_forall in D; auto).
    destruct (Nat.eq_dec (length fs) n) as [E|E].
    - assert (TR : transformed (responsible bs n fs) fs ss0 0 l = outs fs 0 ss0 ps).
      { rewrite <- CP at 1. apply transformed_outs; [lia|exact L|]. intros i p x P X. destruct (NP i p P) as [I ->]. rewrite OFF by exact I.
        unfold responsible. rewrite E, Nat.eqb_refl. cbn [Nat.add]. now apply range_part. }
      rewrite TR. pose proof (outs_workers fs ss ws 0 ps ss0) as O. rewrite LW, LP in O. specialize (O eq_refl ltac:(lia) L).
      assert (H : forall i w p, nth_error ws i = Some w -> nth_error ps i = Some p -> exists f s, nth_error fs (0 + i) = Some f /\ nth_error ss0 (0 + i) = Some s /\
        match done V w with Some d => exists s', run f s p = Some (d, s') /\ nth_error ss (0 + i) = Some s' | None => run f s p = None end).
      { intros i w p X P. destruct (NP i p P) as [I ->]. destruct (W i w X) as (f & s & F & G & H). rewrite tof_own in F, G by exact E. exists f, s. split; [exact F|]. split; [exact G|].
        rewrite (DN i w X) in H. destruct (done V w) as [d|].
        - destruct H as (pr & s' & H1 & H2 & H3). rewrite app_nil_r in H1. rewrite H1. eauto.
        - apply H. }
      specialize (O H). destruct (merged V ws) as [r|]; [|exact O]. destruct O as (ss2 & O1 & O2 & _ & O3). exists ss2. split; [exact O1|]. intros _.
      apply nth_ext_error; [lia|]. intros i I. symmetry. apply O3. lia.
    - destruct OW as [OW|[OW ST]]; [lia|].
      destruct fs as [|f [|f2 fs]]; cbn in OW; try discriminate. assert (STF : stateless f) by now inversion ST.
      destruct ss0 as [|s [|s2 ss0]]; cbn in L; try discriminate.
      assert (TR : transformed (responsible bs n [f]) [f] [s] 0 l = option_map (fun p => (fst p, set_nth 0 (snd p) [s])) (run f s l)).
      { apply transformed_one with (j := 0); [reflexivity|reflexivity|]. intros i I. unfold responsible. cbn [length] in *. destruct (Nat.eqb_spec n 1); [lia|reflexivity]. }
      rewrite TR. pose proof (shared_workers f STF ws ps s) as O. rewrite CP in O.
      assert (H : Forall2 (fun w p => exists s1, match done V w with Some d => exists s', run f s1 p = Some (d, s') | None => run f s1 p = None end) ws ps).
      { apply forall2_nth; [lia|]. intros i w p X P. destruct (NP i p P) as [I ->]. destruct (W i w X) as (f' & s' & F & G & H). rewrite tof_shared in F, G by exact E.
        injection F as <-. injection G as <-. exists s. rewrite (DN i w X) in H. destruct (done V w) as [d|].
        - destruct H as (pr & s' & H1 & H2 & H3). rewrite app_nil_r in H1. rewrite H1. eauto.
        - apply H. }
      specialize (O H). destruct (merged V ws) as [r|].
      + destruct O as (s' & O). rewrite O. cbn. exists [s']. split; [reflexivity|]. intros X. cbn in E. contradiction.
      + rewrite O. reflexivity.
  Qed.

  (* a call of a transformer *)
  Lemma nth_set {A} i j (x : A) l y : nth_error (set_nth i x l) j = Some y -> (j = i /\ y = x) \/ (j <> i /\ nth_error l j = Some y).
  Proof.
    intros H. destruct (Nat.eq_dec j i) as [->|N].
    - left. split; [reflexivity|]. rewrite set_nth_same in H; [congruence|]. rewrite <- (set_nth_length i x l). apply nth_error_Some. congruence.
    - right. split; [exact N|]. rewrite set_nth_other in H by lia. exact H.
  Qed.
  Lemma winv_call n fs ss0 ss l ws j v t d f s v' s' : stage_ok (n, fs, ss0) -> length ss = length ss0 -> winv n fs ss0 ss l ws ->
    nth_error ws j = Some (Worker V (v :: t) (Some d)) -> nth_error fs (tof n fs j) = Some f -> nth_error ss (tof n fs j) = Some s -> f s v = Some (v', s') ->
    winv n fs ss0 (set_nth (tof n fs j) s' ss) l (set_nth j (Worker V t (Some (d ++ [v']))) ws).
  Proof.
    intros OK LS [LW W] X F G E. split; [now rewrite set_nth_length|]. intros k w K. apply nth_set in K as [[-> ->]|[KJ K]].
    - destruct (W j _ X) as (f1 & s0 & F1 & G1 & pr & s1 & P1 & P2 & P3). rewrite F in F1. injection F1 as <-. exists f, s0. split; [exact F|]. split; [exact G1|].
      cbn [done todo] in *. assert (FV : exists s2, f s1 v = Some (v', s2) /\ (length fs = n -> s2 = s')).
      { destruct (Nat.eq_dec (length fs) n) as [H|H].
        - rewrite tof_own in G by exact H. specialize (P3 H). rewrite G in P3. injection P3 as <-. exists s'. auto.
        - destruct OK as (_ & _ & [H1|[H1 ST]]); [lia|]. rewrite Forall_forall in ST. specialize (ST f (nth_error_In _ _ F) s1 s v). rewrite E in ST. cbn in ST.
          destruct (f s1 v) as [[a s2]|]; [|discriminate]. cbn in ST. injection ST as ->. exists s2. split; [reflexivity|]. intros; lia. }
      destruct FV as (s2 & FV & S2). exists (pr ++ [v]), s2. split; [rewrite P1, <- app_assoc; reflexivity|]. split.
      + rewrite run_app, P2. cbn [run]. rewrite FV. reflexivity.
      + intros H. rewrite (S2 H). rewrite tof_own by exact H. apply set_nth_same. rewrite tof_own in G by exact H. apply nth_error_Some. congruence.
    - destruct (W k w K) as (f1 & s0 & F1 & G1 & H). exists f1, s0. split; [exact F1|]. split; [exact G1|]. destruct (done V w) as [d1|]; [|exact H].
      destruct H as (pr & s1 & P1 & P2 & P3). exists pr, s1. split; [exact P1|]. split; [exact P2|]. intros H. rewrite tof_own by exact H. rewrite set_nth_other by lia. auto.
  Qed.
  Lemma winv_raise n fs ss0 ss l ws j v t d f s : stage_ok (n, fs, ss0) -> length ss = length ss0 -> winv n fs ss0 ss l ws ->
    nth_error ws j = Some (Worker V (v :: t) (Some d)) -> nth_error fs (tof n fs j) = Some f -> nth_error ss (tof n fs j) = Some s -> f s v = None ->
    winv n fs ss0 ss l (set_nth j (Worker V [] None) ws).
  Proof.
    intros OK LS [LW W] X F G E. split; [now rewrite set_nth_length|]. intros k w K. apply nth_set in K as [[-> ->]|[KJ K]].
    - destruct (W j _ X) as (f1 & s0 & F1 & G1 & pr & s1 & P1 & P2 & P3). rewrite F in F1. injection F1 as <-. exists f, s0. split; [exact F|]. split; [exact G1|].
      cbn [done todo] in *. split; [reflexivity|]. rewrite P1, run_app, P2. cbn [run].
      assert (FV : f s1 v = None); [|now rewrite FV].
      destruct (Nat.eq_dec (length fs) n) as [H|H].
      + rewrite tof_own in G by exact H. specialize (P3 H). rewrite G in P3. injection P3 as <-. exact E.
      + destruct OK as (_ & _ & [H1|[H1 ST]]); [lia|]. rewrite Forall_forall in ST. specialize (ST f (nth_error_In _ _ F) s1 s v). rewrite E in ST. cbn in ST.
        destruct (f s1 v); [discriminate|reflexivity].
    - exact (W k w K).
  Qed.

  (* ---- the simulation ---- *)
  (* the states of the creator *)
  Inductive calls : C -> C -> Prop :=
  | k_none c : calls c c
  | k_value c v c1 c2 : calls c c1 -> next c1 = Value v c2 -> calls c c2
  | k_end c c1 c2 : calls c c1 -> next c1 = End c2 -> calls c c2.
  Lemma calls_trans a b c : calls a b -> calls b c -> calls a c.
  Proof. intros H. induction 1; eauto using calls. Qed.
  Fixpoint creator (p : pipe) : C := match p with Batcher _ _ _ c _ => c | Stage _ _ _ p0 _ _ _ _ => creator p0 end.
  Fixpoint screator (q : @seqpipe V C S) : C := match q with SB c => c | SS q0 _ _ _ => screator q0 end.
  Fixpoint sim (p : pipe) (q : seqpipe) : Prop :=
    match p, q with
    | Batcher _ _ _ c f, SB c0 =>
        calls c0 c /\
        match f with
        | BRunning _ i acc => length acc + i = bs /\ gather bs [] c0 = gather i acc c
        | BReady _ None => gather bs [] c0 = None
        | BReady _ (Some b) => gather bs [] c0 = Some (b, c)
        | BInvalid _ => False
        end
    | Stage _ _ _ p0 n fs ss f, SS q0 n' fs' ss0 =>
        n' = n /\ fs' = fs /\ stage_ok (n, fs, ss0) /\ length ss = length ss0 /\
        match f with
        | SWaiting _ => sim p0 q0 /\ (length fs = n -> ss = ss0)
        | SWorking _ g ws => exists b q', produce q0 = Some (b, q') /\ g = isPipelineGood b /\ sim p0 q' /\ winv n fs ss0 ss (content b) ws
        | SReady _ None => produce (SS q0 n fs ss0) = None /\ calls (screator q0) (creator p0)
        | SReady _ (Some b) => exists q' ss', produce (SS q0 n fs ss0) = Some (b, SS q' n fs ss') /\ sim p0 q' /\ (length fs = n -> ss = ss')
        | SInvalid _ => False
        end
    | _, _ => False
    end.

  Lemma gather_length i : forall acc c b c', gather i acc c = Some (b, c') -> length (content b) <= length acc + i.
  Proof.
    induction i as [|i IH]; intros acc c b c' H; cbn [Pipe_Proof.gather] in H.
    - injection H as <- <-. cbn. lia.
    - destruct (next c) as [v c1|c1|]; [|injection H as <- <-; cbn; lia | discriminate]. apply IH in H. rewrite app_length in H. cbn in H. lia.
  Qed.
  Lemma produce_length q : forall b q', produce q = Some (b, q') -> length (content b) <= bs.
  Proof.
    induction q as [c|q IH n fs ss]; intros b q' H; cbn [Pipe_Proof.produce] in H.
    - destruct (gather bs [] c) as [[b0 c0]|] eqn:E; cbn in H; [|discriminate]. injection H as <- <-. apply gather_length in E. exact E.
    - destruct (produce q) as [[b0 q0]|]; [|discriminate]. specialize (IH b0 q0 eq_refl).
      destruct (transformed _ fs ss 0 (content b0)) as [[r ss']|] eqn:T; cbn in H; [|discriminate]. injection H as <- <-. cbn. apply transformed_length in T as [T _]. lia.
  Qed.

  Lemma gather_calls i : forall acc c b c', gather i acc c = Some (b, c') -> calls c c'.
  Proof.
    induction i as [|i IH]; intros acc c b c' H; cbn [Pipe_Proof.gather] in H.
    - injection H as <- <-. constructor.
    - destruct (next c) as [v c1|c1|] eqn:E; [|injection H as <- <-|discriminate].
      + apply IH in H. eapply calls_trans; [|exact H]. eapply k_value; [constructor|exact E].
      + eapply k_end; [constructor|exact E].
  Qed.
  Lemma produce_calls q : forall b q', produce q = Some (b, q') -> calls (screator q) (screator q').
  Proof.
    induction q as [c|q IH n fs ss]; intros b q' H; cbn [Pipe_Proof.produce] in H.
    - destruct (gather bs [] c) as [[b0 c0]|] eqn:E; cbn in H; [|discriminate]. injection H as <- <-. now apply gather_calls in E.
    - destruct (produce q) as [[b0 q0]|]; [|discriminate]. specialize (IH b0 q0 eq_refl).
      destruct (transformed _ fs ss 0 (content b0)) as [[r ss']|] eqn:T; cbn in H; [|discriminate]. injection H as <- <-. exact IH.
  Qed.
  Lemma sim_calls p : forall q, sim p q -> calls (screator q) (creator p).
  Proof.
    induction p as [c f|p IH n fs ss f]; intros [c0|q n' fs' ss0] SM; try contradiction; cbn [sim screator creator] in *.
    - apply SM.
    - destruct SM as (-> & -> & OK & L & SM). destruct f as [|g ws|[b|]|].
      + apply IH, SM.
      + destruct SM as (b & q' & P & _ & SM & _). apply produce_calls in P. eapply calls_trans; [exact P|auto].
      + destruct SM as (q' & ss' & P & SM & _). apply produce_calls in P. cbn [screator] in P. eapply calls_trans; [exact P|auto].
      + apply SM.
      + contradiction.
  Qed.
  Lemma step_calls p p' : step p p' -> calls (creator p) (creator p').
  Proof. induction 1; cbn [creator]; eauto using calls; match goal with H : Pipe_Model.pickupBatch _ _ _ _ ?p = Some (_, ?p') |- _ => assert (E : creator p = creator p') by
    (destruct p as [c f|p0 n0 fs0 ss0 f]; [destruct f as [i acc|[x|]|] | destruct f as [|g ws|[x|]|]]; cbn in H; try discriminate; injection H; intros; subst; reflexivity); rewrite E; constructor end. Qed.
  Lemma pickup_creator p r p' : pickupBatch p = Some (r, p') -> creator p' = creator p.
  Proof.
    intros H. destruct p as [c f|p0 n0 fs0 ss0 f]; [destruct f as [i acc|[x|]|] | destruct f as [|g ws|[x|]|]]; cbn in H; try discriminate; injection H; intros; subst; reflexivity.
  Qed.

  Lemma pickup_sim p : forall q r p', sim p q -> pickupBatch p = Some (r, p') ->
    match r with Some b => exists q', produce q = Some (b, q') /\ sim p' q' | None => produce q = None end.
  Proof.
    intros q r p' SM H. destruct p as [c f|p n fs ss f], q as [c0|q n' fs' ss0]; try contradiction; cbn [sim Pipe_Model.pickupBatch] in *.
    - destruct SM as [K SM]. destruct f as [i acc|[b|]|]; try discriminate; injection H as <- <-; cbn [Pipe_Proof.produce]; rewrite SM; cbn.
      + exists (SB c). split; [reflexivity|]. cbn [sim]. split; [constructor|]. split; reflexivity.
      + reflexivity.
    - destruct SM as (-> & -> & OK & L & SM). destruct f as [|g ws|[b|]|]; try discriminate; injection H as <- <-.
      + destruct SM as (q' & ss' & P & SM & E). exists (SS q' n fs ss'). split; [exact P|]. cbn [sim].
        assert (LS : length ss' = length ss0).
        { cbn [Pipe_Proof.produce] in P. destruct (produce q) as [[b0 q0]|]; [|discriminate]. destruct (transformed _ fs ss0 0 (content b0)) as [[r s2]|] eqn:T; cbn in P; [|discriminate].
          injection P as <- <- <-. now apply transformed_length in T as [_ T]. }
        split; [reflexivity|]. split; [reflexivity|]. split; [|split; [lia|auto]]. destruct OK as (A & B & D). split; [exact A|]. split; [lia|exact D].
      + apply SM.
  Qed.

  Lemma step_sim p p' : step p p' -> forall q, sim p q -> sim p' q.
  Proof.
    induction 1 as [c v c' i acc E|c c' i acc E|c i acc E|c acc|p p' n fs ss f H IH|p p' n fs ss b H|p p' n fs ss H
      |p n fs ss good ws j v t d f s v' s' X F G E|p n fs ss good ws j v t d f s X F G E|p n fs ss good ws D];
      intros q SM; destruct q as [c0|q n' fs' ss0]; try contradiction; cbn [sim] in *.
    - destruct SM as [K [L SM]]. split; [eauto using calls|]. rewrite app_length. cbn [length]. split; [lia|]. rewrite SM. cbn [Pipe_Proof.gather]. now rewrite E.
    - destruct SM as [K [L SM]]. split; [eauto using calls|]. rewrite SM. cbn [Pipe_Proof.gather]. now rewrite E.
    - destruct SM as [K [L SM]]. split; [exact K|]. rewrite SM. cbn [Pipe_Proof.gather]. now rewrite E.
    - destruct SM as [K [L SM]]. split; [exact K|]. rewrite SM. reflexivity.
    - destruct SM as (-> & -> & OK & L & SM). split; [reflexivity|]. split; [reflexivity|]. split; [exact OK|]. split; [exact L|]. destruct f as [|g ws|[b|]|]; auto.
      + destruct SM as [SM E]. auto.
      + destruct SM as (b & q' & P & G & SM & W). exists b, q'. auto.
      + destruct SM as (q' & ss' & P & SM & E). exists q', ss'. auto.
      + destruct SM as [SM E]. split; [exact SM|]. eapply calls_trans; [exact E|]. now apply step_calls.
    - destruct SM as (-> & -> & OK & L & SM & E). split; [reflexivity|]. split; [reflexivity|]. split; [exact OK|]. split; [exact L|].
      destruct (pickup_sim p q (Some b) p' SM H) as (q' & P & SM'). exists b, q'. split; [exact P|]. split; [reflexivity|]. split; [exact SM'|]. now apply winv_start.
    - destruct SM as (-> & -> & OK & L & SM & E). split; [reflexivity|]. split; [reflexivity|]. split; [exact OK|]. split; [exact L|].
      pose proof (pickup_sim p q None p' SM H) as P. cbn in P. cbn [Pipe_Proof.produce]. rewrite P. split; [reflexivity|]. rewrite (pickup_creator _ _ _ H). now apply sim_calls.
    - destruct SM as (-> & -> & OK & L & b & q' & P & GD & SM & W). split; [reflexivity|]. split; [reflexivity|]. split; [exact OK|]. split; [now rewrite set_nth_length|].
      exists b, q'. split; [exact P|]. split; [exact GD|]. split; [exact SM|]. now apply winv_call with (v := v) (f := f) (s := s).
    - destruct SM as (-> & -> & OK & L & b & q' & P & GD & SM & W). split; [reflexivity|]. split; [reflexivity|]. split; [exact OK|]. split; [exact L|].
      exists b, q'. split; [exact P|]. split; [exact GD|]. split; [exact SM|]. now apply winv_raise with (v := v) (t := t) (d := d) (f := f) (s := s).
    - destruct SM as (-> & -> & OK & L & b & q' & P & GD & SM & W). split; [reflexivity|]. split; [reflexivity|]. split; [exact OK|]. split; [exact L|].
      pose proof (winv_finish n fs ss0 ss (content b) ws OK L (produce_length q b q' P) W D) as FI.
      cbn [Pipe_Proof.produce]. rewrite P. destruct (merged V ws) as [r|]; cbn [option_map].
      + destruct FI as (ss' & T & E). exists q', ss'. rewrite T. cbn [option_map fst snd]. rewrite GD. auto.
      + rewrite FI. split; [reflexivity|]. eapply calls_trans; [apply (produce_calls _ _ _ P)|]. now apply sim_calls.
  Qed.

  (* ---- iterating the sequential pipeline ---- *)
  Inductive produces : seqpipe -> list (batch V) -> seqpipe -> Prop :=
  | p_none q : produces q [] q
  | p_more q b q1 l q2 : produce q = Some (b, q1) -> produces q1 l q2 -> produces q (b :: l) q2.
  Lemma produces_snoc q l q1 : produces q l q1 -> forall b q2, produce q1 = Some (b, q2) -> produces q (l ++ [b]) q2.
  Proof. induction 1 as [q|q b q1 l q2 P H IH]; intros b' q3 E; cbn [app]; econstructor; eauto; constructor. Qed.
  Definition contents (l : list (batch V)) : list V := concat (map content l).
  Definition allgood (l : list (batch V)) : Prop := Forall (fun b => isPipelineGood b = true) l.

  (* ---- the consumer ---- *)
  Notation extractor := (extractor V C S).
  Notation pos x := (bufferPosition V C S x).
  Notation buf x := (buffer V C S x).
  Inductive seen (q0 : seqpipe) : extractor -> list (event V) -> Prop :=
  | seen_valid x taken q vs : isPipelineValid V C S x = true -> produces q0 taken q -> allgood taken ->
      contents taken = vs ++ skipn (pos x) (buf x) -> pos x <= length (buf x) ->
      match fut V C S x with
      | EWaiting _ => sim (pipeline V C S x) q
      | EReady _ (Some b) => exists q', produce q = Some (b, q') /\ sim (pipeline V C S x) q'
      | EReady _ None => produce q = None
      | EInvalid _ => False
      end -> seen q0 x (map (Got V) vs)
  | seen_thrown x taken q j : isPipelineValid V C S x = true -> produces q0 taken q -> allgood taken -> pos x = length (buf x) ->
      fut V C S x = EInvalid V -> produce q = None -> seen q0 x (map (Got V) (contents taken) ++ Thrown V :: repeat (Undefined V) j)
  | seen_last x taken b q q' vs j : isPipelineValid V C S x = false -> produces q0 taken q -> allgood taken -> produce q = Some (b, q') -> isPipelineGood b = false ->
      contents (taken ++ [b]) = vs ++ skipn (pos x) (buf x) -> pos x <= length (buf x) -> fut V C S x = EInvalid V ->
      (j > 0 -> pos x = length (buf x)) -> calls (screator q') (creator (pipeline V C S x)) -> seen q0 x (map (Got V) vs ++ repeat (Nothing V) j).

  Hypothesis BS : 0 < bs.
  Lemma gather_good i : forall acc c b c', gather i acc c = Some (b, c') -> isPipelineGood b = true -> length (content b) = length acc + i.
  Proof.
    induction i as [|i IH]; intros acc c b c' H G; cbn [Pipe_Proof.gather] in H.
    - injection H as <- <-. cbn. lia.
    - destruct (next c) as [v c1|c1|]; [|injection H as <- <-; discriminate | discriminate]. apply IH in H; [|exact G]. rewrite app_length in H. cbn in H. lia.
  Qed.
  Lemma produce_good q : forall b q', produce q = Some (b, q') -> isPipelineGood b = true -> length (content b) = bs.
  Proof.
    induction q as [c|q IH n fs ss]; intros b q' H G; cbn [Pipe_Proof.produce] in H.
    - destruct (gather bs [] c) as [[b0 c0]|] eqn:E; cbn in H; [|discriminate]. injection H as <- <-. now apply gather_good in E.
    - destruct (produce q) as [[b0 q0]|]; [|discriminate]. 
      destruct (transformed _ fs ss 0 (content b0)) as [[r ss']|] eqn:T; cbn in H; [|discriminate]. injection H as <- <-. cbn in *. apply transformed_length in T as [T _].
      rewrite T. now apply (IH b0 q0).
  Qed.
  Lemma contents_snoc l b : contents (l ++ [b]) = contents l ++ content b.
  Proof. unfold contents. rewrite map_app, concat_app. cbn. now rewrite app_nil_r. Qed.
  Lemma repeat_snoc {A} (x : A) j : repeat x j ++ [x] = repeat x (j + 1).
  Proof. rewrite repeat_app. reflexivity. Qed.

  Lemma internal_seen q0 x tr y : seen q0 x tr -> internal V C S next bs x y -> seen q0 y tr.
  Proof.
    intros H I. inversion I as [p p' f b n g ST E1 E2|p p' r b n g PK E1 E2]; subst; clear I; inversion H; subst; clear H; cbn [fut pipeline buffer bufferPosition isPipelineValid] in *.
    - apply seen_valid with taken q; auto. cbn [fut pipeline]. destruct f as [|[b'|]|]; auto.
      + eapply step_sim; eauto.
      + destruct H5 as (q' & P & SM). exists q'. split; [exact P|]. eapply step_sim; eauto.
    - apply seen_thrown with q; auto.
    - apply seen_last with taken b0 q q'; auto. cbn [pipeline]. eapply calls_trans; [eassumption|]. now apply step_calls.
    - apply seen_valid with taken q; auto. cbn [fut pipeline]. pose proof (pickup_sim p q r p' H5 PK) as P. destruct r as [b'|]; exact P.
    - discriminate.
    - discriminate.
  Qed.
  Lemma skipn_step {A} (l : list A) n v : nth_error l n = Some v -> skipn n l = v :: skipn (n + 1) l.
  Proof. revert n. induction l as [|x l IH]; intros [|n] H; cbn in *; try discriminate; [congruence|]. now apply IH. Qed.
  Lemma call_seen q0 x tr e y : seen q0 x tr -> getNextValue V C S x = Some (e, y) -> seen q0 y (tr ++ [e]).
  Proof.
    intros H G. destruct x as [p f b n g]. unfold getNextValue in G. inversion H; subst; clear H; cbn [fut pipeline buffer bufferPosition isPipelineValid] in *.
    - subst g. rewrite Bool.andb_true_r in G. destruct (Nat.eqb_spec (length b) n) as [E|E].
      + assert (V0 : contents taken = vs) by (rewrite H3, skipn_all2 by lia; apply app_nil_r). destruct f as [|[b'|]|]; try discriminate; try contradiction.
        * destruct H5 as (q' & P & SM). pose proof (produces_snoc _ _ _ H1 _ _ P) as PS. destruct (isPipelineGood b') eqn:GD.
          -- pose proof (produce_good _ _ _ P GD) as L. unfold deliver in G. cbn [buffer bufferPosition pipeline fut isPipelineValid] in G.
             destruct (nth_error (content b') 0) as [v|] eqn:N0; [|apply nth_error_None in N0; lia]. injection G as <- <-.
             change [Got V v] with (map (Got V) [v]). rewrite <- map_app. apply seen_valid with (taken ++ [b']) q'; cbn [fut pipeline buffer bufferPosition isPipelineValid]; auto.
             ++ apply Forall_app. split; auto.
             ++ rewrite contents_snoc, V0, <- app_assoc. f_equal. apply skipn_step in N0. cbn [skipn] in N0. exact N0.
             ++ lia.
          -- unfold deliver in G. cbn [buffer bufferPosition pipeline fut isPipelineValid] in G. destruct (nth_error (content b') 0) as [v|] eqn:N0; injection G as <- <-.
             ++ replace (map (Got V) vs ++ [Got V v]) with (map (Got V) (vs ++ [v]) ++ repeat (Nothing V) 0) by (rewrite map_app; apply app_nil_r).
                apply seen_last with taken b' q q'; cbn [fut pipeline buffer bufferPosition isPipelineValid]; auto.
                ** rewrite contents_snoc, V0, <- app_assoc. f_equal. apply skipn_step in N0. cbn [skipn] in N0. exact N0.
                ** assert (0 < length (content b')) by (apply nth_error_Some; congruence). lia.
                ** lia.
                ** now apply sim_calls.
             ++ change [Nothing V] with (repeat (Nothing V) 1). destruct (content b') eqn:CB; [|discriminate].
                apply seen_last with taken b' q q'; cbn [fut pipeline buffer bufferPosition isPipelineValid]; auto.
                ** rewrite contents_snoc, V0, CB. reflexivity.
                ** now apply sim_calls.
        * injection G as <- <-. subst vs. change [Thrown V] with (Thrown V :: repeat (Undefined V) 0). apply seen_thrown with q; auto.
      + injection G as G. unfold deliver in G. cbn [buffer bufferPosition pipeline fut isPipelineValid] in G.
        destruct (nth_error b n) as [v|] eqn:N0; [|apply nth_error_None in N0; lia]. injection G as <- <-.
        change [Got V v] with (map (Got V) [v]). rewrite <- map_app. apply seen_valid with taken q; cbn [fut pipeline buffer bufferPosition isPipelineValid]; auto.
        * rewrite H3, (skipn_step _ _ _ N0), <- app_assoc. reflexivity.
        * assert (n < length b) by (apply nth_error_Some; congruence). lia.
    - subst g f. rewrite H3, Nat.eqb_refl in G. cbn [andb] in G. injection G as <- <-.
      rewrite <- app_assoc. cbn [app]. rewrite repeat_snoc. apply seen_thrown with q; auto.
    - subst g f. rewrite Bool.andb_false_r in G. injection G as G. unfold deliver in G. cbn [buffer bufferPosition pipeline fut isPipelineValid] in G.
      destruct (nth_error b n) as [v|] eqn:N0; injection G as <- <-.
      + assert (n < length b) by (apply nth_error_Some; congruence). destruct j as [|j]; [|specialize (H8 ltac:(lia)); lia]. cbn [repeat]. rewrite app_nil_r.
        replace (map (Got V) vs ++ [Got V v]) with (map (Got V) (vs ++ [v]) ++ repeat (Nothing V) 0) by (rewrite map_app; apply app_nil_r).
        apply seen_last with taken b0 q q'; cbn [fut pipeline buffer bufferPosition isPipelineValid]; auto; try lia.
        rewrite H5, (skipn_step _ _ _ N0), <- app_assoc. reflexivity.
      + apply nth_error_None in N0. rewrite <- app_assoc, repeat_snoc. apply seen_last with taken b0 q q'; cbn [fut pipeline buffer bufferPosition isPipelineValid]; auto. lia.
  Qed.

  (* ---- the start ---- *)
  Fixpoint seqsetup (q : @seqpipe V C S) (ts : stages V S) : @seqpipe V C S :=
    match ts with [] => q | (n, fs, ss) :: ts' => seqsetup (SS q n fs ss) ts' end.
  Lemma setup_sim ts : Forall stage_ok ts -> forall p q, sim p q -> sim (setupParallelPipelineRecursive V C S p ts) (seqsetup q ts).
  Proof.
    induction 1 as [|[[n fs] ss] ts OK H IH]; intros p q SM; cbn [setupParallelPipelineRecursive seqsetup]; [exact SM|].
    apply IH. cbn [sim]. auto 10.
  Qed.
  Lemma start_seen c ts : Forall stage_ok ts -> seen (seqsetup (SB c) ts) (setupParallelPipeline V C S bs c ts) [].
  Proof.
    intros H. change (@nil (event V)) with (map (Got V) []). apply seen_valid with [] (seqsetup (SB c) ts); cbn [fut pipeline buffer bufferPosition isPipelineValid setupParallelPipeline]; auto.
    - constructor.
    - constructor.
    - apply setup_sim; [exact H|]. cbn [sim]. split; [constructor|]. split; reflexivity.
  Qed.
  Lemma execution_seen c ts tr y : Forall stage_ok ts -> execution V C S next bs (setupParallelPipeline V C S bs c ts) tr y -> seen (seqsetup (SB c) ts) y tr.
  Proof.
    intros OK E. remember (setupParallelPipeline V C S bs c ts) as x eqn:X. induction E as [x|x tr y z E IH I|x tr y e z E IH G]; subst.
    - now apply start_seen.
    - eapply internal_seen; eauto.
    - eapply call_seen; eauto.
  Qed.
End Pipe.
