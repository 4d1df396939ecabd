(* Auxiliary facts on one relation of a permutation: its layout in the file and reading it. *)
From Coq Require Import List NArith Arith Bool Lia ZifyN ZifyNat ZifyBool Sorted.
From Verif Require Import Bytes Std_Model Std_Proof ListAux Base Meta_Model Meta_Proof Meta_Thm Perm_Model.
Import ListNotations.
Open Scope N_scope.

(* ---------- sorted pairs ---------- *)
Definition plt (a b : pair_t) : Prop := fst a < fst b \/ (fst a = fst b /\ snd a < snd b).
Definition psorted (l : list pair_t) : Prop := StronglySorted plt l.

Definition lt_x (x : N) (l : list pair_t) := filter (fun p => fst p <? x) l.
Definition eq_x (x : N) (l : list pair_t) := filter (fun p => fst p =? x) l.
Definition gt_x (x : N) (l : list pair_t) := filter (fun p => x <? fst p) l.

Lemma psorted_le l : psorted l -> StronglySorted (fun a b => fst a <= fst b) l.
Proof.
  induction 1 as [|a l Hs IH Ha]; constructor; auto. eapply Forall_impl; [|exact Ha]. intros b [H|[H _]]; cbn in *; lia.
Qed.
Lemma filter_nil {A} (p : A -> bool) l : (forall a, In a l -> p a = false) -> filter p l = [].
Proof. induction l as [|a l IH]; intros H; auto. cbn [filter]. rewrite (H a (or_introl eq_refl)). apply IH. intros; apply H; now right. Qed.
Lemma filter_all {A} (p : A -> bool) l : (forall a, In a l -> p a = true) -> filter p l = l.
Proof. induction l as [|a l IH]; intros H; auto. cbn [filter]. rewrite (H a (or_introl eq_refl)). f_equal. apply IH. intros; apply H; now right. Qed.

Lemma split3 x l : psorted l -> l = lt_x x l ++ eq_x x l ++ gt_x x l.
Proof.
  intros H. apply psorted_le in H. induction H as [|a l Hs IH Ha]; auto. rewrite Forall_forall in Ha.
  unfold lt_x, eq_x, gt_x in *. cbn [filter].
  destruct (N.ltb_spec (fst a) x).
  - replace (fst a =? x) with false by lia. replace (x <? fst a) with false by lia. cbn [app]. now f_equal.
  - assert (L : filter (fun p : pair_t => fst p <? x) l = []).
    { apply filter_nil. intros b Hb. specialize (Ha b Hb). lia. }
    rewrite L in IH. rewrite L. cbn [app] in *. destruct (N.eqb_spec (fst a) x).
    + replace (x <? fst a) with false by lia. cbn [app]. now f_equal.
    + replace (x <? fst a) with true by lia.
      assert (E : filter (fun p : pair_t => fst p =? x) l = []).
      { apply filter_nil. intros b Hb. specialize (Ha b Hb). lia. }
      rewrite E in IH. rewrite E. cbn [app] in *. now f_equal.
Qed.

(* ---------- the list of left hand sides ---------- *)
Definition cnt (x : N) (l : list pair_t) : N := N.of_nat (length (lt_x x l)).
Lemma lhs_loop_spec whole : psorted whole -> forall data pre last,
  whole = pre ++ data -> (forall p, In p pre -> fst p <= last) \/ pre = [] ->
  (forall p, In p data -> fst p < MAX64) ->
  (pre = [] /\ last = MAX64 \/ exists p, In p pre /\ fst p = last) ->
  let E := lhs_loop last (N.of_nat (length pre)) data in
  map snd E = map (fun x => cnt x whole * 8) (map fst E) /\ StronglySorted N.lt (map fst E) /\
  (forall x, In x (map fst E) <-> In x (map fst data) /\ x <> last).
Proof.
  intros Hs. induction data as [|[x z] data IH]; intros pre last Hw Hle Hmax Hlast E.
  - cbn. repeat split; try constructor; cbn; intuition.
  - assert (Hx : x < MAX64) by (apply (Hmax (x, z)); now left).
    assert (Hpre : forall p, In p pre -> plt p (x, z)).
    { intros p Hp. clear -Hs Hw Hp. subst whole. unfold psorted in Hs. induction pre as [|a pre IH]; [destruct Hp|].
      cbn [app] in Hs. inversion Hs as [|? ? Hs' Ha]; subst. destruct Hp as [->|Hp]; auto. rewrite Forall_forall in Ha.
      apply Ha, in_app_iff. right. now left. }
    assert (Hpost : forall p, In p data -> plt (x, z) p).
    { intros p Hp. clear -Hs Hw Hp. subst whole. unfold psorted in Hs. induction pre as [|a pre IH].
      - inversion Hs as [|? ? Hs' Ha]; subst. rewrite Forall_forall in Ha. now apply Ha.
      - cbn [app] in Hs. inversion Hs; subst. auto. }
    assert (Hw' : whole = (pre ++ [(x, z)]) ++ data) by (now rewrite <- app_assoc).
    assert (Hl' : N.of_nat (length (pre ++ [(x, z)])) = N.of_nat (length pre) + 1) by (rewrite app_length; cbn [length]; lia).
    specialize (IH (pre ++ [(x, z)]) x Hw').
    assert (P1 : (forall p, In p (pre ++ [(x, z)]) -> fst p <= x) \/ pre ++ [(x, z)] = []).
    { left. intros p Hp. apply in_app_iff in Hp. destruct Hp as [Hp|[<-|[]]]; [|cbn; lia].
      specialize (Hpre p Hp). unfold plt in Hpre. cbn in Hpre. lia. }
    assert (P2 : forall p, In p data -> fst p < MAX64) by (intros; apply Hmax; now right).
    assert (P3 : pre ++ [(x, z)] = [] /\ x = MAX64 \/ exists p, In p (pre ++ [(x, z)]) /\ fst p = x).
    { right. exists (x, z). split; auto. apply in_app_iff. right. now left. }
    specialize (IH P1 P2 P3). rewrite Hl' in IH. cbn zeta in IH. destruct IH as (I1 & I2 & I3).
    unfold E. cbn [lhs_loop]. destruct (N.eqb_spec x last) as [<-|Hne]; cbn [negb].
    + split; auto. split; auto. intros y. rewrite I3. cbn [map fst In]. split; [tauto|]. intros [[<-|Hy] Hn]; [congruence|auto].
    + assert (Hnot : forall p, In p pre -> fst p < x).
      { intros p Hp. destruct Hlast as [[-> _]|(q & Hq & Eq)]; [destruct Hp|].
        destruct Hle as [Hle| ->]; [|destruct Hp]. specialize (Hle p Hp). specialize (Hpre q Hq). unfold plt in Hpre. cbn in Hpre. lia. }
      assert (Cx : cnt x whole = N.of_nat (length pre)).
      { unfold cnt, lt_x. rewrite Hw, filter_app. cbn [filter fst]. rewrite N.ltb_irrefl.
        rewrite filter_all by (intros p Hp; specialize (Hnot p Hp); lia).
        rewrite filter_nil, app_nil_r; auto. intros p Hp. specialize (Hpost p Hp). unfold plt in Hpost. cbn in Hpost. lia. }
      cbn [map fst snd]. rewrite Cx. split; [now f_equal|]. split.
      * constructor; auto. apply Forall_forall. intros y Hy. apply I3 in Hy. destruct Hy as [Hy Hyx].
        apply in_map_iff in Hy. destruct Hy as (p & <- & Hp). specialize (Hpost p Hp). unfold plt in Hpost. cbn in Hpost. lia.
      * intros y. cbn [In]. rewrite I3. split.
        -- intros [<-|[Hy Hyx]]; split; auto. intros ->.
           destruct Hlast as [[-> ->]|(q & Hq & Eq)].
           ++ apply in_map_iff in Hy. destruct Hy as (p & Q & Hp). specialize (P2 p Hp). lia.
           ++ apply in_map_iff in Hy. destruct Hy as (p & Q & Hp). specialize (Hnot q Hq). specialize (Hpost p Hp).
              unfold plt in Hpost. cbn in Hpost. lia.
        -- intros [[<-|Hy] Hyl]; auto. destruct (N.eq_dec x y) as [->|]; auto.
Qed.

(* the distinct left hand sides *)
Definition lhss (data : list pair_t) : list N := map fst (lhs_loop MAX64 0 data).
Lemma lhss_spec data : psorted data -> (forall p, In p data -> fst p < MAX64) ->
  lhs_loop MAX64 0 data = map (fun x => (x, cnt x data * 8)) (lhss data) /\
  StronglySorted N.lt (lhss data) /\ (forall x, In x (lhss data) <-> In x (map fst data)).
Proof.
  intros Hs Hm. destruct (lhs_loop_spec data Hs data [] MAX64) as (A & B & C); auto.
  change (N.of_nat (length (@nil pair_t))) with 0 in *. unfold lhss. split.
  - revert A. generalize (lhs_loop MAX64 0 data) as E. clear. intros E.
    induction E as [|[x o] E IH]; intros A; auto. cbn [map fst snd] in *. injection A as A1 A2. rewrite <- IH by exact A2. now f_equal; f_equal.
  - split; auto. intros x. rewrite C. split; [tauto|]. intros H. split; auto. intros ->. apply in_map_iff in H.
    destruct H as (p & Q & Hp). specialize (Hm p Hp). lia.
Qed.

Lemma cnt_next x x' data : (forall p, In p data -> fst p < x' <-> fst p <= x) ->
  length (lt_x x' data) = (length (lt_x x data) + length (eq_x x data))%nat.
Proof.
  unfold lt_x, eq_x. induction data as [|a data IH]; intros H; auto. cbn [filter].
  specialize (IH (fun p Hp => H p (or_intror Hp))). pose proof (H a (or_introl eq_refl)).
  destruct (N.ltb_spec (fst a) x'), (N.ltb_spec (fst a) x), (N.eqb_spec (fst a) x); cbn [length]; lia.
Qed.
Lemma cnt_last x data : (forall p, In p data -> fst p <= x) ->
  length data = (length (lt_x x data) + length (eq_x x data))%nat.
Proof.
  unfold lt_x, eq_x. induction data as [|a data IH]; intros H; auto. cbn [filter].
  specialize (IH (fun p Hp => H p (or_intror Hp))). pose proof (H a (or_introl eq_refl)).
  destruct (N.ltb_spec (fst a) x), (N.eqb_spec (fst a) x); cbn [length]; lia.
Qed.

(* ---------- reading pairs and words ---------- *)
Lemma W64_pow : 256 ^ N.of_nat 8 = W64. Proof. reflexivity. Qed.
Definition flat (ps : list pair_t) : list N := flat_map (fun p => [fst p; snd p]) ps.
Lemma flat_bytes ps : flat_map pair_bytes ps = words 8 (flat ps).
Proof.
  induction ps as [|[a b] ps IH]; auto. cbn [flat_map flat fst snd]. unfold pair_bytes at 1. cbn [fst snd].
  rewrite IH. unfold words at 2. cbn [app flat_map]. rewrite <- app_assoc. reflexivity.
Qed.
Lemma flat_length ps : length (flat ps) = (2 * length ps)%nat.
Proof. induction ps as [|p ps IH]; auto. cbn [flat flat_map app length] in *. unfold flat in IH. rewrite IH. lia. Qed.
Lemma pairs_length ps : length (flat_map pair_bytes ps) = (16 * length ps)%nat.
Proof. rewrite flat_bytes, words_length, flat_length. lia. Qed.
Lemma pair_up_flat ps : pair_up (flat ps) = ps.
Proof. induction ps as [|[a b] ps IH]; auto. cbn [flat flat_map app pair_up fst snd]. f_equal. exact IH. Qed.
Definition small (p : pair_t) : Prop := fst p < W64 /\ snd p < W64.
Lemma read_pairs_at file off pre ps post : file = pre ++ flat_map pair_bytes ps ++ post ->
  off = N.of_nat (length pre) -> Forall small ps -> read_pairs file off (length ps) = Ok ps.
Proof.
  intros Hf Ho Hp. unfold read_pairs. rewrite flat_bytes in Hf. rewrite <- (flat_length ps).
  rewrite (load_words_at 8 (flat ps) file (N.to_nat off) pre post); auto.
  - cbn [of_option bind]. now rewrite pair_up_flat.
  - lia.
  - rewrite W64_pow. clear -Hp. induction Hp as [|[a b] ps [H1 H2] Hp IH]; [constructor|]. cbn [flat flat_map app fst snd] in *.
    repeat constructor; auto.
Qed.
(* a part of a list of pairs *)
Lemma read_pairs_part file off pre ps post i n : file = pre ++ flat_map pair_bytes ps ++ post ->
  off = N.of_nat (length pre) + 16 * N.of_nat i -> (i + n <= length ps)%nat -> Forall small ps ->
  read_pairs file off n = Ok (firstn n (skipn i ps)).
Proof.
  intros Hf Ho Hn Hp.
  assert (E : ps = firstn i ps ++ firstn n (skipn i ps) ++ skipn n (skipn i ps)) by (now rewrite firstn_skipn, firstn_skipn).
  assert (L : length (firstn n (skipn i ps)) = n) by (rewrite firstn_length, skipn_length; lia).
  rewrite <- L at 1. apply read_pairs_at with (pre ++ flat_map pair_bytes (firstn i ps)) (flat_map pair_bytes (skipn n (skipn i ps)) ++ post).
  - rewrite Hf. rewrite E at 1. rewrite !flat_map_app, <- !app_assoc. reflexivity.
  - rewrite app_length, pairs_length, firstn_length. lia.
  - apply Forall_forall. intros p Hi. rewrite Forall_forall in Hp. apply Hp. rewrite E. apply in_app_iff. right. apply in_app_iff. now left.
Qed.

(* ---------- blocks ---------- *)
Lemma block_loop_nth per s : (0 < per)%nat -> forall es q m k, (m < per)%nat ->
  nth_error (block_loop per s (q * per + m) es) k =
  option_map (fun e => (fst e, s + N.of_nat (q * per + m + ((if Nat.eqb m 0 then 0 else per - m) + k * per)) * 16))
             (nth_error es ((if Nat.eqb m 0 then 0 else per - m) + k * per)).
Proof.
  intros Hper. induction es as [|e es IH]; intros q m k Hm.
  - cbn [block_loop]. rewrite !(proj2 (nth_error_None _ _)) by (cbn; lia). reflexivity.
  - cbn [block_loop].
    assert (Em : ((q * per + m) mod per = m)%nat).
    { rewrite Nat.add_comm, Nat.mod_add by lia. now apply Nat.mod_small. }
    rewrite Em.
    (* the rest of the list *)
    assert (R : forall k, nth_error (block_loop per s (S (q * per + m)) es) k =
      option_map (fun e => (fst e, s + N.of_nat (S (q * per + m) + ((per - S m) + k * per)) * 16)) (nth_error es ((per - S m) + k * per))).
    { intros k'. destruct (Nat.eq_dec (S m) per) as [Q|Q].
      - replace (S (q * per + m)) with (S q * per + 0)%nat by lia. rewrite IH by lia. cbn [Nat.eqb].
        replace (per - S m)%nat with 0%nat by lia. reflexivity.
      - replace (S (q * per + m)) with (q * per + S m)%nat by lia. rewrite IH by lia. reflexivity. }
    destruct (Nat.eqb_spec m 0) as [->|Hm0].
    + destruct k as [|k].
      * cbn [nth_error]. replace (0 + 0 * per)%nat with 0%nat by lia. cbn [nth_error option_map].
        rewrite !Nat.add_0_r. reflexivity.
      * cbn [nth_error]. rewrite R. replace (0 + S k * per)%nat with (S (per - 1 + k * per)) by lia. cbn [nth_error].
        destruct (nth_error es (per - 1 + k * per)); cbn [option_map]; auto.
        do 3 f_equal. lia.
    + rewrite R. replace (per - m + k * per)%nat with (S (per - S m + k * per)) by lia. cbn [nth_error].
      destruct (nth_error es (per - S m + k * per)); cbn [option_map]; auto. do 3 f_equal. lia.
Qed.
Lemma block_nth per s es k : (0 < per)%nat -> nth_error (block_loop per s 0 es) k =
  option_map (fun e => (fst e, s + N.of_nat (k * per) * 16)) (nth_error es (k * per)).
Proof. intros H. apply (block_loop_nth per s H es 0 0 k H). Qed.

Lemma sorted_nth (X : list N) : StronglySorted N.lt X -> forall i j x y, nth_error X i = Some x -> nth_error X j = Some y ->
  (i < j)%nat -> x < y.
Proof.
  induction 1 as [|a X Hs IH Ha]; intros [|i] [|j] x y Hi Hj L; try (cbn in Hi, Hj; discriminate); try lia; cbn [nth_error] in *.
  - injection Hi as <-. rewrite Forall_forall in Ha. apply Ha. now apply nth_error_In in Hj.
  - eapply IH; eauto. lia.
Qed.
(* the number of smaller elements *)
Definition smaller (y : N) (X : list N) : nat := length (filter (fun x => x <? y) X).
Lemma smaller_nth X y : StronglySorted N.lt X ->
  (smaller y X <= length X)%nat /\
  (forall i x, nth_error X i = Some x -> (i < smaller y X)%nat <-> x < y).
Proof.
  intros H. unfold smaller. induction H as [|a X Hs IH Ha]; cbn [filter length].
  - split; auto. intros [|i] x Hi; discriminate.
  - destruct IH as [IL IH]. rewrite Forall_forall in Ha. destruct (N.ltb_spec a y) as [L|L]; cbn [length].
    + split; [lia|]. intros [|i] x Hi; cbn [nth_error] in Hi; [injection Hi as <-; lia|].
      rewrite <- (IH i x Hi). lia.
    + rewrite filter_nil by (intros b Hb; specialize (Ha b Hb); lia). cbn [length]. split; [lia|].
      intros [|i] x Hi; cbn [nth_error] in Hi; [injection Hi as <-; lia|].
      apply nth_error_In in Hi. specialize (Ha x Hi). lia.
Qed.
Lemma smaller_in X y : StronglySorted N.lt X -> (In y X <-> nth_error X (smaller y X) = Some y).
Proof.
  intros H. split; [|apply nth_error_In]. intros Hi. apply In_nth_error in Hi. destruct Hi as [i Hi].
  destruct (smaller_nth X y H) as [_ S]. pose proof (S i y Hi) as Q.
  destruct (Nat.eq_dec i (smaller y X)) as [<-|Hne]; auto.
  destruct (nth_error X (smaller y X)) as [x|] eqn:Ex.
  - pose proof (S _ _ Ex). assert (i < smaller y X \/ smaller y X < i)%nat by lia. destruct H1; [lia|].
    pose proof (sorted_nth X H _ _ _ _ Ex Hi H1). lia.
  - apply nth_error_None in Ex. assert (nth_error X i <> None) by congruence. apply nth_error_Some in H0. lia.
Qed.
(* binary search for a left hand side *)
Lemma search_pairs (ps : list pair_t) y : StronglySorted N.lt (map fst ps) ->
  lower_bound (fun i => fst (nth i ps (0, 0)) <? y) 0 (length ps) = Some (smaller y (map fst ps)).
Proof.
  intros H. destruct (smaller_nth _ y H) as [SL S]. rewrite map_length in SL.
  assert (B : forall k, (k < length ps)%nat -> (fst (nth k ps (0, 0)) <? y) = Nat.ltb k (smaller y (map fst ps))).
  { intros k Hk. assert (E : nth_error (map fst ps) k = Some (fst (nth k ps (0, 0)))).
    { rewrite nth_error_map, (nth_error_nth' ps (0, 0) Hk). reflexivity. }
    pose proof (S k _ E). destruct (Nat.ltb_spec k (smaller y (map fst ps))); lia. }
  destruct (lower_bound_spec (fun i => fst (nth i ps (0, 0)) <? y) 0 (length ps)) as (r & E & Hr & H1 & H2); [lia| |].
  - intros k k' _ Hk Hk' Hb. rewrite B in * by lia. apply Nat.ltb_lt in Hb. apply Nat.ltb_lt. lia.
  - rewrite E. f_equal. destruct (Nat.lt_trichotomy r (smaller y (map fst ps))) as [L|[L|L]]; auto; exfalso.
    + specialize (H2 r). cbv beta in H2. rewrite B in H2 by lia. assert (Nat.ltb r (smaller y (map fst ps)) = false) by (apply H2; lia). lia.
    + specialize (H1 (smaller y (map fst ps))). cbv beta in H1. rewrite B in H1 by lia.
      assert (Nat.ltb (smaller y (map fst ps)) (smaller y (map fst ps)) = true) by (apply H1; lia). lia.
Qed.

(* ---------- finding blocks ---------- *)
Lemma find_block_spec b y : StronglySorted N.lt (map fst (b_blocks b)) -> b_blocks b <> [] ->
  (find_block b y = Ok None /\ forall k e, nth_error (b_blocks b) k = Some e -> y < fst e) \/
  exists k e, find_block b y = Ok (Some k) /\ nth_error (b_blocks b) k = Some e /\ fst e <= y /\
    forall k' e', nth_error (b_blocks b) k' = Some e' -> (k < k')%nat -> y < fst e'.
Proof.
  intros Hs Hne. unfold find_block, block_lower_bound. rewrite search_pairs by exact Hs.
  set (it := smaller y (map fst (b_blocks b))).
  destruct (smaller_nth _ y Hs) as [SL S]. fold it in SL, S. rewrite map_length in SL.
  assert (S' : forall k e, nth_error (b_blocks b) k = Some e -> (k < it)%nat <-> fst e < y).
  { intros k e He. apply S. rewrite nth_error_map, He. reflexivity. }
  assert (Prev : it <> 0%nat -> exists e, nth_error (b_blocks b) (it - 1) = Some e /\ fst e < y).
  { intros H0. destruct (nth_error (b_blocks b) (it - 1)) as [e|] eqn:E.
    - exists e. split; auto. apply (S' _ _ E). lia.
    - apply nth_error_None in E. lia. }
  destruct (nth_error (b_blocks b) it) as [e|] eqn:He.
  - pose proof (S' _ _ He) as He'. destruct (N.ltb_spec y (fst e)).
    + assert (Later : forall k' e', nth_error (b_blocks b) k' = Some e' -> (it <= k')%nat -> y < fst e').
      { intros k' e' Hk' L. destruct (Nat.eq_dec it k') as [<-|]; [congruence|].
        assert (A : nth_error (map fst (b_blocks b)) it = Some (fst e)) by (now rewrite nth_error_map, He).
        assert (B : nth_error (map fst (b_blocks b)) k' = Some (fst e')) by (now rewrite nth_error_map, Hk').
        pose proof (sorted_nth _ Hs _ _ _ _ A B). lia. }
      destruct (Nat.eqb_spec it 0) as [E|E].
      * left. split; auto. intros k e' Hk. apply (Later k e' Hk). lia.
      * right. destruct (Prev E) as (e0 & H0 & L0). exists (it - 1)%nat, e0. repeat split; auto; [lia|].
        intros k' e' Hk' L. apply (Later k' e' Hk'). lia.
    + right. exists it, e. repeat split; auto. intros k' e' Hk' L.
      assert (A : nth_error (map fst (b_blocks b)) it = Some (fst e)) by (now rewrite nth_error_map, He).
      assert (B : nth_error (map fst (b_blocks b)) k' = Some (fst e')) by (now rewrite nth_error_map, Hk').
      pose proof (sorted_nth _ Hs _ _ _ _ A B L). lia.
  - apply nth_error_None in He. assert (it <> 0%nat). { assert (length (b_blocks b) <> 0%nat) by (rewrite length_zero_iff_nil; exact Hne). lia. }
    replace (Nat.eqb it 0) with false by lia. right. destruct (Prev H) as (e0 & H0 & L0).
    exists (it - 1)%nat, e0. repeat split; auto; [lia|]. intros k' e' Hk' L.
    assert (nth_error (b_blocks b) k' <> None) by congruence. apply nth_error_Some in H1. lia.
Qed.

Lemma smaller_slice X y i0 n : StronglySorted N.lt X -> (i0 <= smaller y X)%nat -> (smaller y X <= i0 + n)%nat ->
  (i0 + n <= length X)%nat -> smaller y (firstn n (skipn i0 X)) = (smaller y X - i0)%nat.
Proof.
  intros Hs H1 H2 H3. destruct (smaller_nth X y Hs) as [SL S].
  assert (E : X = firstn i0 X ++ firstn n (skipn i0 X) ++ skipn n (skipn i0 X)) by (now rewrite firstn_skipn, firstn_skipn).
  assert (Q : smaller y X = (smaller y (firstn i0 X) + (smaller y (firstn n (skipn i0 X)) + smaller y (skipn n (skipn i0 X))))%nat).
  { rewrite E at 1. unfold smaller. rewrite !filter_app, !app_length. reflexivity. }
  assert (A : smaller y (firstn i0 X) = i0).
  { unfold smaller. rewrite filter_all; [rewrite firstn_length; lia|]. intros x Hx. apply In_nth_error in Hx. destruct Hx as [i Hi].
    assert (L : (i < i0)%nat). { assert (L : nth_error (firstn i0 X) i <> None) by congruence. apply nth_error_Some in L. rewrite firstn_length in L. lia. }
    assert (Hi' : nth_error X i = Some x). { rewrite <- (firstn_skipn i0 X), nth_error_app1; auto. rewrite firstn_length. lia. }
    pose proof (S i x Hi'). lia. }
  assert (C : smaller y (skipn n (skipn i0 X)) = 0%nat).
  { unfold smaller. rewrite filter_nil; auto. intros x Hx. apply In_nth_error in Hx. destruct Hx as [i Hi].
    rewrite <- skipn_add in Hi.
    assert (Hi' : nth_error X (i0 + n + i) = Some x).
    { rewrite <- (firstn_skipn (i0 + n) X), nth_error_app2; rewrite firstn_length; [|lia].
      replace (i0 + n + i - Nat.min (i0 + n) (length X))%nat with i by lia. exact Hi. }
    pose proof (S _ x Hi'). lia. }
  lia.
Qed.
Lemma firstn_skipn_nth {A} n i (l : list A) j : (j < n)%nat -> nth_error (firstn n (skipn i l)) j = nth_error l (i + j).
Proof.
  intros H. revert n i j H. assert (F : forall n j (m : list A), (j < n)%nat -> nth_error (firstn n m) j = nth_error m j).
  { induction n as [|n IH]; intros [|j] [|x m] L; try lia; cbn [firstn nth_error]; auto. apply IH. lia. }
  assert (K : forall i j (m : list A), nth_error (skipn i m) j = nth_error m (i + j)).
  { induction i as [|i IH]; intros j [|x m]; cbn [skipn nth_error Nat.add]; auto. destruct j; auto. }
  intros. rewrite F by auto. apply K.
Qed.

(* ---------- scanning a relation with blocks ---------- *)
(* the key lies behind all entries of the block it would be in *)
Definition unsafe (per : nat) (X : list N) (y : N) : bool :=
  let p := smaller y X in
  negb (existsb (N.eqb y) X) && Nat.ltb 0 p && (Nat.eqb p (length X) || Nat.eqb (Nat.modulo p per) 0).

Lemma in_existsb y X : existsb (N.eqb y) X = true <-> In y X.
Proof. rewrite existsb_exists. split; [intros (x & H & E); apply N.eqb_eq in E; now subst|]. intros H. exists y. split; auto. apply N.eqb_refl. Qed.
Lemma eq_x_nil y data : ~ In y (map fst data) -> eq_x y data = [].
Proof. intros H. apply filter_nil. intros p Hp. destruct (N.eqb_spec (fst p) y); auto. exfalso. apply H. subst. now apply in_map. Qed.

Lemma nth_split_next (X : list N) : StronglySorted N.lt X -> forall p y x', nth_error X p = Some y -> nth_error X (S p) = Some x' ->
  forall x, In x X -> x < x' <-> x <= y.
Proof.
  intros Hs p y x' Hp Hp' x Hx. apply In_nth_error in Hx. destruct Hx as [i Hi]. split; intros L.
  - destruct (Nat.lt_trichotomy i p) as [H|[H|H]].
    + pose proof (sorted_nth X Hs _ _ _ _ Hi Hp H). lia.
    + subst. assert (x = y) by congruence. lia.
    + destruct (Nat.eq_dec i (S p)) as [->|]; [assert (x = x') by congruence; lia|].
      assert (S p < i)%nat by lia. pose proof (sorted_nth X Hs _ _ _ _ Hp' Hi H0). lia.
  - assert (p < S p)%nat by lia. pose proof (sorted_nth X Hs _ _ _ _ Hp Hp' H). lia.
Qed.

Section Rel.
  Variable per : nat.
  Hypothesis Hper : (0 < per)%nat.

  Lemma scan_blocks f data b bytes file pre post y :
    psorted data -> data <> [] -> (forall p, In p data -> fst p < MAX64 /\ snd p < MAX64) ->
    nof_elements (f_word f) = N.of_nat (length data) -> f_start f = N.of_nat (length pre) ->
    N.of_nat (length pre + 40 * length data) < W64 ->
    write_nonfunctional per f data = (b, bytes) -> file = pre ++ flat_map pair_bytes data ++ bytes ++ post ->
    bind (block_for b y) (fun bo => bind (follow_block_for b y) (fun fb => scan_nonfunctional file bo fb y (b_after b))) =
    if unsafe per (lhss data) y then UB else Ok (map snd (eq_x y data)).
  Proof.
    intros Hs Hne Hmax Hnof Hstart Hsz Hw Hfile.
    destruct (lhss_spec data Hs) as (HE & HX & HXin); [intros p Hp; apply (Hmax p Hp)|].
    set (X := lhss data) in *. set (n := length data) in *.
    unfold write_nonfunctional in Hw. rewrite HE, map_length, map_map in Hw. cbn [fst snd] in Hw.
    set (s := start_of_lhs f) in *. set (rhs := s + N.of_nat (length X) * 16) in *.
    set (E := map (fun x => (x, cnt x data * 8 + rhs)) X) in *.
    injection Hw as Hb Hbytes.
    assert (Hsv : s = N.of_nat (length pre + 16 * n)) by (unfold s, start_of_lhs; rewrite Hnof, Hstart; lia).
    assert (HlX : (length X <= n)%nat).
    { unfold X, lhss, n. rewrite map_length. generalize MAX64 as l. generalize 0 as i. clear. induction data as [|[x z] d IH]; intros i l; auto.
      cbn [lhs_loop length]. destruct (negb (x =? l)); cbn [length]; specialize (IH (i + 1)); [specialize (IH x)|specialize (IH l)]; lia. }
    assert (HlE : length E = length X) by apply map_length.
    assert (HfE : map fst E = X). { unfold E. rewrite map_map. cbn [fst]. apply map_id. }
    assert (HEn : forall i x, nth_error X i = Some x -> nth_error E i = Some (x, cnt x data * 8 + rhs)).
    { intros i x Hi. unfold E. rewrite nth_error_map, Hi. reflexivity. }
    assert (Hcnt : forall x, cnt x data <= N.of_nat n).
    { intros x. unfold cnt, lt_x, n. clear. induction data as [|a d IH]; cbn [filter length]; [lia|]. destruct (fst a <? x); cbn [length]; lia. }
    assert (HEs : Forall small E).
    { apply Forall_forall. intros p Hp. unfold E in Hp. apply in_map_iff in Hp. destruct Hp as (x & <- & Hx). unfold small. cbn [fst snd].
      apply HXin in Hx. apply in_map_iff in Hx. destruct Hx as (q & <- & Hq). destruct (Hmax q Hq) as [Hq1 _].
      specialize (Hcnt (fst q)). split; [unfold W64, MAX64 in *; lia|unfold rhs; lia]. }
    assert (HX0 : exists x0, nth_error X 0 = Some x0).
    { destruct X as [|x0 X'] eqn:EX; [|exists x0; reflexivity]. destruct data as [|q d]; [congruence|].
      assert (In (fst q) []) by (apply HXin; now left). destruct H. }
    (* blocks *)
    assert (Hbn : forall k, nth_error (b_blocks b) k = option_map (fun x => (x, s + N.of_nat (k * per) * 16)) (nth_error X (k * per))).
    { intros k. rewrite <- Hb. cbn [b_blocks]. rewrite block_nth by exact Hper.
      unfold E. rewrite nth_error_map. destruct (nth_error X (k * per)); reflexivity. }
    assert (Hbs : StronglySorted N.lt (map fst (b_blocks b))).
    { assert (G : forall l : list N, (forall i j a c, nth_error l i = Some a -> nth_error l j = Some c -> (i < j)%nat -> a < c) -> StronglySorted N.lt l).
      { clear. induction l as [|a l IH]; intros H; constructor.
        - apply IH. intros i j x c Hi Hj L. apply (H (S i) (S j)); auto. lia.
        - apply Forall_forall. intros c Hc. apply In_nth_error in Hc. destruct Hc as [j Hj]. apply (H 0%nat (S j)); auto. lia. }
      apply G. intros i j a c Hi Hj L. rewrite nth_error_map, Hbn in Hi, Hj.
      destruct (nth_error X (i * per)) eqn:Ei; [|discriminate]. destruct (nth_error X (j * per)) eqn:Ej; [|discriminate].
      cbn in Hi, Hj. injection Hi as <-. injection Hj as <-. eapply sorted_nth; eauto. nia. }
    assert (Hbne : b_blocks b <> []).
    { intros Q. pose proof (Hbn 0%nat) as H. rewrite Q in H. destruct HX0 as [x0 Hx0]. cbn [Nat.mul] in H. rewrite Hx0 in H. discriminate. }
    (* the file *)
    assert (HfileE : file = (pre ++ flat_map pair_bytes data) ++ flat_map pair_bytes E ++ (flat_map (fun p => word (snd p)) data ++ post)).
    { rewrite Hfile, <- Hbytes, <- !app_assoc. reflexivity. }
    assert (Hlp : N.of_nat (length (pre ++ flat_map pair_bytes data)) = s).
    { rewrite app_length, pairs_length, Hsv. unfold n. lia. }
    destruct (smaller_nth X y HX) as [SL SM]. set (p := smaller y X) in *.
    unfold block_for, follow_block_for.
    destruct (find_block_spec b y Hbs Hbne) as [[Hf Hall]|(k & e & Hf & He & Hle & Hlater)].
    - (* before all entries *)
      rewrite Hf. cbn [bind]. unfold first_block_empty. destruct (b_blocks b) as [|e0 bl] eqn:Eb; [congruence|]. cbn [bind].
      unfold scan_nonfunctional. cbn [snd]. rewrite N.eqb_refl.
      destruct HX0 as [x0 Hx0]. pose proof (Hbn 0%nat) as H0. cbn [Nat.mul] in H0. rewrite Hx0 in H0. cbn in H0. injection H0 as H0.
      assert (y < x0). { specialize (Hall 0%nat e0 eq_refl). rewrite H0 in Hall. exact Hall. }
      assert (p = 0%nat). { destruct (Nat.eq_dec p 0); auto. pose proof (SM 0%nat x0 Hx0). lia. }
      unfold unsafe. fold p. rewrite H1. cbn [Nat.ltb Nat.leb]. rewrite andb_false_r. cbn [andb].
      rewrite eq_x_nil; auto. rewrite <- HXin. intros Hy. apply smaller_in in Hy; auto. fold p in Hy. rewrite H1, Hx0 in Hy.
      injection Hy as ->. lia.
    - rewrite Hf. cbn [bind]. unfold block_extent at 1. rewrite He. cbn [bind].
      rewrite Hbn in He. destruct (nth_error X (k * per)) as [xk|] eqn:Exk; [|discriminate]. cbn in He. injection He as <-.
      cbn [fst snd] in *. set (i0 := (k * per)%nat) in *.
      assert (Li0 : (i0 < length X)%nat) by (apply nth_error_Some; congruence).
      set (nk := Nat.min per (length X - i0)).
      assert (Hi1 : (S k * per = i0 + per)%nat) by (unfold i0; lia).
      assert (Hnext : nth_error (b_blocks b) (S k) = match nth_error X (i0 + per) with Some x' => Some (x', s + N.of_nat (i0 + per) * 16) | None => None end).
      { rewrite Hbn, Hi1. destruct (nth_error X (i0 + per)); reflexivity. }
      assert (Hlen : (match nth_error (b_blocks b) (S k) with Some e' => snd e' | None => b_start_rhs b end)
                     - (s + N.of_nat i0 * 16) = N.of_nat nk * 16).
      { rewrite Hnext. destruct (nth_error X (i0 + per)) as [x'|] eqn:Ex'.
        - assert (i0 + per < length X)%nat by (apply nth_error_Some; congruence). cbn [snd]. unfold nk. lia.
        - apply nth_error_None in Ex'. rewrite <- Hb. cbn [b_start_rhs]. unfold rhs, nk. lia. }
      rewrite Hlen. unfold scan_nonfunctional. cbn [fst snd].
      replace (N.of_nat nk * 16 =? 0) with false by (unfold nk; lia).
      rewrite N.div_mul by lia. rewrite Nat2N.id.
      rewrite (read_pairs_part file _ _ E _ i0 nk HfileE) by (auto; rewrite ?Hlp, ?HlE; unfold nk; lia).
      cbn [bind]. set (block := firstn nk (skipn i0 E)).
      assert (Hbl : length block = nk) by (unfold block; rewrite firstn_length, skipn_length, HlE; unfold nk; lia).
      assert (Hbf : map fst block = firstn nk (skipn i0 X)).
      { unfold block. rewrite <- HfE. clear. rewrite <- firstn_map, <- skipn_map. reflexivity. }
      assert (Hp0 : (i0 <= p)%nat).
      { destruct i0 as [|i] eqn:Ei; [lia|]. destruct (nth_error X i) as [xi|] eqn:Exi.
        - assert (xi < xk) by (apply (sorted_nth X HX i (S i) xi xk); auto). pose proof (SM i xi Exi). lia.
        - apply nth_error_None in Exi. lia. }
      assert (Hp1 : (p <= i0 + nk)%nat).
      { unfold nk. destruct (Nat.le_gt_cases per (length X - i0)) as [L|L]; [|lia].
        destruct (nth_error X (i0 + per)) as [x'|] eqn:Ex'.
        - pose proof (Hlater (S k) _ Hnext). cbn [fst] in H. pose proof (SM _ _ Ex'). lia.
        - apply nth_error_None in Ex'. lia. }
      assert (Hbsort : StronglySorted N.lt (map fst block)).
      { rewrite Hbf. assert (G : forall l : list N, StronglySorted N.lt l -> forall m q, StronglySorted N.lt (firstn m (skipn q l))).
        { clear. intros l Hl m q. assert (K : StronglySorted N.lt (skipn q l)).
          { revert q. induction Hl as [|a l Hl IH Ha]; intros [|q]; cbn [skipn]; auto; constructor; auto. }
          revert m. induction K as [|a l' Hl' IH Ha]; intros [|m]; cbn [firstn]; constructor; auto.
          rewrite Forall_forall in *. intros x Hx. apply Ha. rewrite <- (firstn_skipn m l'). apply in_app_iff. now left. }
        now apply G. }
      rewrite search_pairs by exact Hbsort. rewrite Hbf, smaller_slice by (auto; unfold nk; lia). fold p.
      destruct (Nat.eq_dec p (i0 + nk)) as [Q|Q].
      + (* behind the block *)
        replace (nth_error block (p - i0)) with (@None pair_t) by (symmetry; apply nth_error_None; lia).
        assert (Hny : ~ In y X).
        { intros Hy. apply smaller_in in Hy; auto. fold p in Hy. unfold nk in Q.
          destruct (Nat.le_gt_cases per (length X - i0)) as [L|L].
          - replace p with (i0 + per)%nat in Hy by lia. rewrite Hy in Hnext. pose proof (Hlater (S k) _ Hnext). cbn in H. lia.
          - assert (p < length X)%nat by (apply nth_error_Some; congruence). lia. }
        assert (U : unsafe per X y = true).
        { unfold unsafe. fold p. rewrite !andb_true_iff, orb_true_iff. repeat split.
          - destruct (existsb (N.eqb y) X) eqn:Ey; auto. apply in_existsb in Ey. contradiction.
          - apply Nat.ltb_lt. unfold nk in Q. lia.
          - unfold nk in Q. destruct (Nat.le_gt_cases per (length X - i0)) as [L|L].
            + right. apply Nat.eqb_eq. replace p with (0 + S k * per)%nat by lia. rewrite Nat.mod_add by lia. apply Nat.mod_small. lia.
            + left. apply Nat.eqb_eq. lia. }
        rewrite U.
        destruct (nth_error (b_blocks b) (S k)) as [e'|] eqn:Ek; unfold block_extent; rewrite ?Ek; cbn [bind]; auto.
        rewrite Hbn. fold i0. rewrite Exk. cbn [option_map bind]. reflexivity.
      + assert (Lp : (p < length X)%nat) by (unfold nk in *; lia).
        destruct (nth_error X p) as [xp|] eqn:Exp; [|apply nth_error_None in Exp; lia].
        assert (Hblock : nth_error block (p - i0) = Some (xp, cnt xp data * 8 + rhs)).
        { unfold block. rewrite firstn_skipn_nth by lia. replace (i0 + (p - i0))%nat with p by lia. now apply HEn. }
        rewrite Hblock. cbn [fst snd].
        assert (Hext : exists fb, (bind (block_extent b match nth_error (b_blocks b) (S k) with Some _ => S k | None => k end)
                                     (fun fb => Ok fb)) = Ok fb /\ fst fb = match nth_error X (i0 + per) with Some _ => s + N.of_nat (i0 + per) * 16 | None => s + N.of_nat i0 * 16 end).
        { unfold block_extent. rewrite Hnext. destruct (nth_error X (i0 + per)) as [x'|] eqn:Ex'.
          - rewrite Hnext. cbn [bind]. eexists. split; [reflexivity|]. reflexivity.
          - rewrite Hbn. fold i0. rewrite Exk. cbn [option_map bind]. eexists. split; [reflexivity|]. reflexivity. }
        destruct Hext as (fb & Hfb & Hfb1).
        destruct (block_extent b match nth_error (b_blocks b) (S k) with Some _ => S k | None => k end) as [fb'| |] eqn:Efb; try discriminate.
        cbn [bind] in Hfb. injection Hfb as ->. cbn [bind].
        destruct (N.eqb_spec xp y) as [->|Hxy].
        * (* found *)
          assert (Hy : In y X) by (eapply nth_error_In; eauto).
          assert (U : unsafe per X y = false). { unfold unsafe. rewrite (proj2 (in_existsb y X) Hy). reflexivity. }
          rewrite U.
          assert (Hlast : (S p = length X)%nat -> N.of_nat n * 8 - cnt y data * 8 = N.of_nat (length (eq_x y data)) * 8).
          { intros Hl. pose proof (cnt_last y data) as C. unfold cnt. fold n in C. rewrite C; [lia|].
            intros q Hq. assert (Hq' : In (fst q) X) by (apply HXin; now apply in_map).
            apply In_nth_error in Hq'. destruct Hq' as [i Hi]. assert (i < length X)%nat by (apply nth_error_Some; congruence).
            destruct (Nat.eq_dec i p) as [->|]; [rewrite Exp in Hi; injection Hi as <-; lia|].
            assert (i < p)%nat by lia. pose proof (sorted_nth X HX _ _ _ _ Hi Exp H0). lia. }
          assert (Hnxt : forall x', nth_error X (S p) = Some x' -> cnt x' data = cnt y data + N.of_nat (length (eq_x y data))).
          { intros x' Hx'. unfold cnt. rewrite (cnt_next y x'); [lia|].
            intros q Hq. apply (nth_split_next X HX p y x'); auto. apply HXin. now apply in_map. }
          assert (Hnb : bind (match nth_error block (S (p - i0)) with
                        | Some e' => Ok (snd e' - (cnt y data * 8 + rhs))
                        | None => if fst fb =? s + N.of_nat i0 * 16 then Ok (b_after b - (cnt y data * 8 + rhs))
                                  else bind (read_pairs file (fst fb) 1) (fun fl => match fl with [e'] => Ok (snd e' - (cnt y data * 8 + rhs)) | _ => UB end)
                        end) (fun nofBytes => of_option (load_words file (N.to_nat (cnt y data * 8 + rhs)) 8 (N.to_nat (nofBytes / 8)))) =
                  of_option (load_words file (N.to_nat (cnt y data * 8 + rhs)) 8 (length (eq_x y data)))).
          { assert (Fin : forall v, v = N.of_nat (length (eq_x y data)) * 8 ->
              bind (Ok v) (fun nofBytes => of_option (load_words file (N.to_nat (cnt y data * 8 + rhs)) 8 (N.to_nat (nofBytes / 8)))) =
              of_option (load_words file (N.to_nat (cnt y data * 8 + rhs)) 8 (length (eq_x y data)))).
            { intros v ->. cbn [bind]. rewrite N.div_mul by lia. now rewrite Nat2N.id. }
            destruct (Nat.eq_dec (S p) (i0 + nk)) as [Q'|Q'].
            - replace (nth_error block (S (p - i0))) with (@None pair_t) by (symmetry; apply nth_error_None; lia).
              rewrite Hfb1. destruct (nth_error X (i0 + per)) as [x'|] eqn:Ex'.
              + assert (i0 + per < length X)%nat by (apply nth_error_Some; congruence).
                replace (s + N.of_nat (i0 + per) * 16 =? s + N.of_nat i0 * 16) with false by lia.
                assert (nk = per) by (unfold nk; lia).
                rewrite (read_pairs_part file _ _ E _ (i0 + per) 1 HfileE) by (auto; rewrite ?Hlp, ?HlE; lia).
                assert (F1 : firstn 1 (skipn (i0 + per) E) = [(x', cnt x' data * 8 + rhs)]).
                { rewrite (skipn_nth_cons (i0 + per) E (0, 0)) by lia. cbn [firstn]. f_equal.
                  apply nth_error_nth. now apply HEn. }
                rewrite F1. cbn [bind snd]. apply Fin. rewrite (Hnxt x') by (rewrite <- Ex'; f_equal; lia). lia.
              + rewrite N.eqb_refl. apply nth_error_None in Ex'. rewrite <- Hb. cbn [b_after]. rewrite Hnof. fold n. apply Fin.
                rewrite <- (Hlast ltac:(unfold nk in *; lia)). lia.
            - assert (Lx : (S p < length X)%nat) by (unfold nk in *; lia).
              destruct (nth_error X (S p)) as [x'|] eqn:Ex'; [|apply nth_error_None in Ex'; lia].
              assert (Hb' : nth_error block (S (p - i0)) = Some (x', cnt x' data * 8 + rhs)).
              { unfold block. rewrite firstn_skipn_nth by lia. replace (i0 + S (p - i0))%nat with (S p) by lia. now apply HEn. }
              rewrite Hb'. cbn [snd]. apply Fin. rewrite (Hnxt x' eq_refl). lia. }
          rewrite Hnb.
          rewrite <- (map_length snd (eq_x y data)).
          rewrite (load_words_at 8 (map snd (eq_x y data)) file _
                     ((pre ++ flat_map pair_bytes data) ++ flat_map pair_bytes E ++ words 8 (map snd (lt_x y data)))
                     (words 8 (map snd (gt_x y data)) ++ post)); auto.
          -- rewrite HfileE. rewrite <- !app_assoc. do 3 f_equal.
             assert (Wd : flat_map (fun p0 : pair_t => word (snd p0)) data = words 8 (map snd data)).
             { unfold words. clear. induction data as [|a d IH]; auto. cbn [flat_map map]. rewrite IH. reflexivity. }
             rewrite Wd. rewrite (split3 y data Hs) at 1. rewrite !map_app, !words_app, <- !app_assoc. reflexivity.
          -- rewrite !app_length, !pairs_length, words_length, map_length, HlE. unfold cnt, rhs. rewrite Hsv. unfold n. lia.
          -- rewrite W64_pow. apply Forall_forall. intros v Hv. apply in_map_iff in Hv. destruct Hv as (q & <- & Hq).
             apply filter_In in Hq. destruct Hq as [Hq _]. destruct (Hmax q Hq) as [_ Hq2]. unfold W64, MAX64 in *. lia.
        * assert (Hny : ~ In y X). { intros Hy. apply smaller_in in Hy; auto. fold p in Hy. congruence. }
          assert (U : unsafe per X y = false).
          { unfold unsafe. fold p. destruct (Nat.ltb_spec 0 p); [|now rewrite andb_false_r].
            replace (Nat.eqb p (length X)) with false by lia. cbn [orb].
            destruct (Nat.eqb_spec (p mod per) 0) as [M|M]; [|now rewrite andb_false_r].
            exfalso. apply Nat.mod_divides in M; [|lia]. destruct M as [c M].
            assert (c = k). { unfold i0, nk in *. assert (k * per <= c * per)%nat by lia. assert (c * per < (S k) * per)%nat by lia. nia. }
            assert (p = i0) by (unfold i0; lia).
            assert (xp = xk) by congruence. subst xp. pose proof (SM _ _ Exk). apply Hxy. lia. }
          rewrite U, eq_x_nil; auto. now rewrite <- HXin.
  Qed.
End Rel.

Lemma rhs_for_lhs_ok data y : psorted data -> rhs_for_lhs data y = Ok (map snd (eq_x y data)).
Proof.
  intros Hs. unfold rhs_for_lhs.
  assert (B : forall k, (k < length data)%nat -> (fst (nth k data (0, 0)) <? y) = Nat.ltb k (length (lt_x y data))).
  { intros k Hk. rewrite (split3 y data Hs) at 1.
    destruct (Nat.ltb_spec k (length (lt_x y data))) as [L|L].
    - rewrite app_nth1 by exact L. assert (I : In (nth k (lt_x y data) (0, 0)) (lt_x y data)) by (now apply nth_In).
      apply filter_In in I. destruct I as [_ I]. exact I.
    - rewrite app_nth2 by exact L. set (j := (k - length (lt_x y data))%nat).
      assert (I : In (nth j (eq_x y data ++ gt_x y data) (0, 0)) (eq_x y data ++ gt_x y data)).
      { apply nth_In. pose proof (f_equal (@length pair_t) (split3 y data Hs)) as Q. rewrite app_length in Q. unfold j. lia. }
      apply in_app_iff in I. destruct I as [I|I]; apply filter_In in I; destruct I as [_ I]; lia. }
  pose proof (f_equal (@length pair_t) (split3 y data Hs)) as Q. rewrite app_length in Q.
  destruct (lower_bound_spec (fun i => fst (nth i data (0, 0)) <? y) 0 (length data)) as (r & E & Hr & H1 & H2); [lia| |].
  - intros k k' _ Hk Hk' Hb. rewrite B in * by lia. lia.
  - rewrite E. assert (r = length (lt_x y data)).
    { destruct (Nat.lt_trichotomy r (length (lt_x y data))) as [L|[L|L]]; auto; exfalso.
      - specialize (H2 r). cbv beta in H2. rewrite B in H2 by lia. assert (Nat.ltb r (length (lt_x y data)) = false) by (apply H2; lia). lia.
      - specialize (H1 (length (lt_x y data))). cbv beta in H1. rewrite B in H1 by lia.
        assert (Nat.ltb (length (lt_x y data)) (length (lt_x y data)) = true) by (apply H1; lia). lia. }
    subst r. do 2 f_equal. rewrite (split3 y data Hs) at 2. rewrite skipn_app, skipn_all, Nat.sub_diag. cbn [skipn app].
    assert (T : forall l g, (forall p : pair_t, In p l -> fst p = y) -> (forall p, In p g -> y < fst p) -> take_while (fun p => fst p =? y) (l ++ g) = l).
    { induction l as [|a l IH]; intros g Hl Hg.
      - destruct g as [|c g]; auto. cbn [app take_while]. replace (fst c =? y) with false; auto. specialize (Hg c (or_introl eq_refl)). lia.
      - cbn [app take_while]. rewrite (Hl a (or_introl eq_refl)), N.eqb_refl. f_equal. apply IH; auto. intros; apply Hl; now right. }
    apply T; intros p Hp; apply filter_In in Hp; destruct Hp as [_ Hp]; lia.
Qed.
