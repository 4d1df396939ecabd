(* From triples of words to triples of ids. *)
From Coq Require Import List NArith Arith Bool Lia Sorted Permutation ZifyN ZifyNat ZifyBool.
From Verif Require Import ListAux Bytes Table_Spec Lex_Proof Std_Model Ops_Spec Strings_Model Collate_Model Collate_Spec Collate_Proof Collate_Thm
  Prefix_Proof Vocab_Model Vocab_Proof Merge_Model Merge_Spec Merge_Proof Merge_Proof2 Merge_Proof3.
Import ListNotations.
Open Scope N_scope.

Definition triple_rel (R : N -> word -> Prop) (ids : @triple N) (t : @triple word) : Prop :=
  R (fst (fst ids)) (fst (fst t)) /\ R (snd (fst ids)) (snd (fst t)) /\ R (snd ids) (snd t).
Definition item_rel (l : list (word * N)) (id : N) (w : word) : Prop := In (w, id) l.

(* ---- the maps ---- *)
Definition map_ok (m : item_map) : Prop :=
  NoDup (map fst (items m)) /\
  forall k w id, nth_error (items m) k = Some (w, id) -> id = min_id m + N.of_nat k.
(* m' has at most n items more *)
Definition grows (n : nat) (m m' : item_map) (new : list word) : Prop :=
  exists l, items m' = items m ++ l /\ (length l <= n)%nat /\ min_id m' = min_id m /\ incl (map fst l) new.
Lemma grows_trans a b m1 m2 m3 l1 l2 : grows a m1 m2 l1 -> grows b m2 m3 l2 -> grows (a + b) m1 m3 (l1 ++ l2).
Proof.
  intros (x & E1 & L1 & M1 & I1) (y & E2 & L2 & M2 & I2). exists (x ++ y). rewrite E2, E1, app_assoc. split; [reflexivity|].
  split; [rewrite app_length; lia|]. split; [congruence|]. rewrite map_app. apply incl_app; [apply incl_appl | apply incl_appr]; assumption.
Qed.
Lemma grows_in n m m' l x : grows n m m' l -> In x (items m) -> In x (items m').
Proof. intros (y & -> & _) I. apply in_or_app. now left. Qed.
Lemma grows_more n k m m' l : grows n m m' l -> (n <= k)%nat -> grows k m m' l.
Proof. intros (y & A & B & C & D) L. exists y. repeat split; auto. lia. Qed.
Lemma lookup_some {B} (m : list (word * B)) k v : lookup word_eqb m k = Some v -> In (k, v) m.
Proof.
  unfold lookup. destruct (find _ m) as [[k' v']|] eqn:F; [|discriminate]. cbn. intros [= <-]. apply find_some in F as [F E].
  cbn in E. apply word_eqb_eq in E as ->. exact F.
Qed.
Lemma lookup_none {B} (m : list (word * B)) k : lookup word_eqb m k = None -> ~ In k (map fst m).
Proof.
  unfold lookup. destruct (find _ m) as [p|] eqn:F; [discriminate|]. intros _ I. apply in_map_iff in I as (p & <- & I).
  pose proof (find_none _ _ F p I) as E. cbn in E. apply word_eqb_neq in E. now apply E.
Qed.
Lemma assign_ok m key : map_ok m -> min_id m + N.of_nat (length (items m)) < 2 ^ 64 ->
  let r := assignNextId m key in map_ok (snd r) /\ grows 1 m (snd r) [key] /\ In (key, fst r) (items (snd r)).
Proof.
  intros [ND IX] L. cbv zeta. unfold assignNextId. destruct (lookup word_eqb (items m) key) as [id|] eqn:E; cbn [fst snd].
  - split; [split; assumption|]. split; [|now apply lookup_some].
    exists []. rewrite app_nil_r. repeat split; auto. intros x [].
  - apply lookup_none in E. cbn [items min_id].
    split; [split; cbn [items min_id]|].
    + rewrite map_app. apply NoDup_app_intro; auto.
      * constructor; [intros [] | constructor].
      * intros x X [<-|[]]. now apply E.
    + intros k w id N. destruct (Nat.lt_ge_cases k (length (items m))) as [K|K].
      * rewrite nth_error_app1 in N by exact K. now apply (IX k w).
      * rewrite nth_error_app2 in N by exact K. destruct (k - length (items m))%nat as [|j] eqn:J; [|destruct j; discriminate].
        cbn in N. injection N as <- <-. unfold wrap64. rewrite N.mod_small; lia.
    + split; [|apply in_or_app; right; now left]. exists [(key, wrap64 (N.of_nat (length (items m)) + min_id m))].
      split; [reflexivity|]. split; [cbn; lia|]. split; [reflexivity|]. cbn. apply incl_refl.
Qed.
Lemma uri_eq : LANGUAGE_PREDICATE = langtag_predicate. Proof. reflexivity. Qed.
Lemma entity_eq tag : convertLangtagToEntityUri tag = language_entity tag.
Proof. unfold convertLangtagToEntityUri, language_entity, special. reflexivity. Qed.
Lemma tagged_eq p tag : convertToLanguageTaggedPredicate p tag = language_predicate p tag.
Proof. reflexivity. Qed.

Definition expected_words (lt : word * @triple word) : list word := flat_map words_of (with_language lt).
Lemma triple_ids_ok m lt : map_ok m -> min_id m + N.of_nat (length (items m)) + 6 < 2 ^ 64 ->
  let r := triple_ids m lt in map_ok (snd r) /\ grows 6 m (snd r) (expected_words lt) /\
    Forall2 (triple_rel (item_rel (items (snd r)))) (fst r) (with_language lt).
Proof.
  intros M L. destruct lt as [tag [[s p] o]]. cbv zeta. unfold triple_ids, assignTriple.
  destruct (assignNextId m s) as [i m1] eqn:E1. pose proof (assign_ok m s M) as (M1 & G1 & I1); [lia|]. rewrite E1 in *. cbn [fst snd] in *.
  pose proof G1 as (l1 & P1 & L1 & N1 & _).
  destruct (assignNextId m1 p) as [j m2] eqn:E2. pose proof (assign_ok m1 p M1) as (M2 & G2 & I2); [rewrite P1, app_length; lia|]. rewrite E2 in *. cbn [fst snd] in *.
  pose proof G2 as (l2 & P2 & L2 & N2 & _).
  destruct (assignNextId m2 o) as [k m3] eqn:E3. pose proof (assign_ok m2 o M2) as (M3 & G3 & I3); [rewrite P2, P1, !app_length; lia|]. rewrite E3 in *. cbn [fst snd] in *.
  pose proof G3 as (l3 & P3 & L3 & N3 & _).
  pose proof (grows_trans _ _ _ _ _ _ _ (grows_trans _ _ _ _ _ _ _ G1 G2) G3) as G.
  assert (H : In (s, i) (items m3) /\ In (p, j) (items m3) /\ In (o, k) (items m3)).
  { split; [eapply grows_in; [exact G3|eapply grows_in; [exact G2|exact I1]]|]. split; [eapply grows_in; [exact G3|exact I2]|exact I3]. }
  destruct tag as [|c tag].
  - cbn [fst snd]. split; [exact M3|]. split; [eapply grows_more; [exact G | lia]|]. constructor; [exact H | constructor].
  - set (tg := c :: tag) in *.
    destruct (assignNextId m3 (convertLangtagToEntityUri tg)) as [i4 m4] eqn:E4. pose proof (assign_ok m3 (convertLangtagToEntityUri tg) M3) as (M4 & G4 & I4);
      [rewrite P3, P2, P1, !app_length; lia|]. rewrite E4 in *. cbn [fst snd] in *. pose proof G4 as (l4 & P4 & L4 & N4 & _).
    destruct (assignNextId m4 (convertToLanguageTaggedPredicate p tg)) as [i5 m5] eqn:E5. pose proof (assign_ok m4 (convertToLanguageTaggedPredicate p tg) M4) as (M5 & G5 & I5);
      [rewrite P4, P3, P2, P1, !app_length; lia|]. rewrite E5 in *. cbn [fst snd] in *. pose proof G5 as (l5 & P5 & L5 & N5 & _).
    destruct (assignNextId m5 LANGUAGE_PREDICATE) as [i6 m6] eqn:E6. pose proof (assign_ok m5 LANGUAGE_PREDICATE M5) as (M6 & G6 & I6);
      [rewrite P5, P4, P3, P2, P1, !app_length; lia|]. rewrite E6 in *. cbn [fst snd] in *.
    pose proof (grows_trans _ _ _ _ _ _ _ (grows_trans _ _ _ _ _ _ _ G4 G5) G6) as G'.
    assert (H' : forall x, In x (items m3) -> In x (items m6)) by (intros x; apply (grows_in _ _ _ _ _ G')).
    assert (I4' : In (convertLangtagToEntityUri tg, i4) (items m6)) by (eapply grows_in; [exact G6|eapply grows_in; [exact G5|exact I4]]).
    assert (I5' : In (convertToLanguageTaggedPredicate p tg, i5) (items m6)) by (eapply grows_in; [exact G6|exact I5]).
    destruct H as (H1 & H2 & H3). apply H' in H1, H2, H3.
    split; [exact M6|]. split.
    + eapply grows_more with (n := 6%nat); [|lia].
      pose proof (grows_trans _ _ _ _ _ _ _ G G') as (l & A & B & C & D). exists l. repeat split; auto.
      eapply incl_tran; [exact D|]. intros x X. change (expected_words (tg, (s, p, o))) with
        ([s; p; o] ++ [s; language_predicate p tg; o] ++ [o; langtag_predicate; language_entity tg]).
      rewrite <- entity_eq, <- tagged_eq, <- uri_eq. cbn [app In] in *. tauto.
    + change (with_language (tg, (s, p, o))) with [(s, p, o); (s, language_predicate p tg, o); (o, langtag_predicate, language_entity tg)].
      rewrite <- entity_eq, <- tagged_eq, <- uri_eq.
      constructor; [|constructor; [|constructor; [|constructor]]]; unfold triple_rel, item_rel; cbn [fst snd]; tauto.
Qed.

(* ---- all triples of a part ---- *)
Definition maps_ok (L : N) (n : nat) (maps : list item_map) : Prop :=
  forall j m, nth_error maps j = Some m -> map_ok m /\ min_id m = N.of_nat j * 100 * L /\ (length (items m) <= n)%nat.
Lemma forall2_more {A B} (R S : A -> B -> Prop) l m : (forall a b, R a b -> S a b) -> Forall2 R l m -> Forall2 S l m.
Proof. apply forall2_imp. Qed.
Lemma triple_rel_imp (R S : N -> word -> Prop) : (forall i w, R i w -> S i w) -> forall i t, triple_rel R i t -> triple_rel S i t.
Proof. intros H i t (A & B & C). repeat split; auto. Qed.
Lemma part_triples_ok L lts : forall maps n, maps_ok L n maps -> N.of_nat (length maps) * 100 * L <= 2 ^ 64 ->
  N.of_nat (n + 6 * length lts) < 100 * L -> Forall (fun x => (fst x < length maps)%nat) lts ->
  exists ts maps', part_triples maps lts = Ok (ts, maps') /\ length maps' = length maps /\
    maps_ok L (n + 6 * length lts) maps' /\
    Forall2 (triple_rel (item_rel (flat_map items maps'))) ts (flat_map with_language (map snd lts)) /\
    (forall x, In x (flat_map items maps) -> In x (flat_map items maps')) /\
    (forall x, In x (flat_map items maps') -> In x (flat_map items maps) \/ In (fst x) (flat_map expected_words (map snd lts))) /\
    (length (flat_map items maps') <= length (flat_map items maps) + 6 * length lts)%nat.
Proof.
  induction lts as [|[j lt] lts IH]; intros maps n MO L1 L2 F.
  - exists [], maps. cbn. rewrite Nat.add_0_r. repeat split; auto; try lia; apply MO with (1 := H).
  - inversion F as [|? ? Fj F']; subst. cbn [fst] in Fj. cbn [part_triples].
    destruct (nth_error maps j) as [m|] eqn:E; [|apply nth_error_None in E; lia].
    destruct (MO j m E) as (M1 & M2 & M3). cbn [length] in L2.
    assert (JL : (N.of_nat j + 1) * 100 * L <= 2 ^ 64).
    { eapply N.le_trans; [|exact L1]. apply N.mul_le_mono_r. apply N.mul_le_mono_r. lia. }
    pose proof (triple_ids_ok m lt M1) as (T1 & T2 & T3); [rewrite M2; lia|].
    destruct (triple_ids m lt) as [ids m']. cbn [fst snd] in *. destruct T2 as (l & P1 & P2 & P3 & P4).
    apply nth_error_split in E as (a & b & -> & <-). rewrite set_nth_split.
    destruct (IH (a ++ m' :: b) (n + 6)%nat) as (ts & maps' & E1 & E2 & E3 & E4 & E5 & E6 & E7).
    + intros k x K. destruct (Nat.lt_ge_cases k (length a)) as [Ka|Ka].
      * rewrite nth_error_app1 in K by exact Ka. destruct (MO k x) as (A & B & C); [now rewrite nth_error_app1|]. repeat split; auto; try apply A; lia.
      * rewrite nth_error_app2 in K by exact Ka. destruct (k - length a)%nat as [|i] eqn:KI.
        -- cbn in K. injection K as <-. assert (k = length a) by lia. subst k. split; [exact T1|]. split; [congruence|]. rewrite P1, app_length. lia.
        -- cbn in K. destruct (MO k x) as (A & B & C); [rewrite nth_error_app2 by exact Ka; now rewrite KI|]. repeat split; auto; try apply A; lia.
    + rewrite app_length in *. cbn [length] in *. exact L1.
    + lia.
    + rewrite app_length in *. cbn [length] in *. exact F'.
    + exists (ids ++ ts), maps'. rewrite E1. cbn [bind fst snd]. split; [reflexivity|]. rewrite !app_length in *. cbn [length] in *.
      split; [exact E2|]. split; [replace (n + 6 * S (length lts))%nat with (n + 6 + 6 * length lts)%nat by lia; exact E3|].
      assert (IN : forall x, In x (items m') -> In x (flat_map items maps')).
      { intros x X. apply E5. rewrite flat_map_app. cbn [flat_map]. rewrite !in_app_iff. auto. }
      split; [|split; [|split]].
      * cbn [map flat_map]. apply Forall2_app; [|exact E4]. eapply forall2_imp; [|exact T3]. intros i t. apply triple_rel_imp.
        intros i' w. apply IN.
      * intros x X. apply E5. rewrite flat_map_app in *. cbn [flat_map] in *. rewrite !in_app_iff in *. rewrite P1, in_app_iff. tauto.
      * intros x X. apply E6 in X. cbn [map flat_map]. rewrite flat_map_app in *. cbn [flat_map] in *. rewrite !in_app_iff in *. rewrite P1, in_app_iff in X.
        destruct X as [[X|[[X|X]|X]]|X]; auto. right. left. apply P4. now apply in_map.
      * rewrite flat_map_app in *. cbn [flat_map] in *. rewrite !app_length in *. rewrite P1, app_length in E7. lia.
Qed.
Lemma maps_ids L n maps : maps_ok L n maps -> N.of_nat n < 100 * L -> NoDup (map snd (flat_map items maps)).
Proof.
  intros MO LN. 
  assert (G : forall l k, (forall j m, nth_error l j = Some m -> map_ok m /\ min_id m = N.of_nat (k + j) * 100 * L /\ (length (items m) <= n)%nat) ->
    NoDup (map snd (flat_map items l)) /\ forall i, In i (map snd (flat_map items l)) -> N.of_nat k * 100 * L <= i).
  { induction l as [|m l IH]; intros k H; [split; [constructor | intros i []]|].
    destruct (IH (Datatypes.S k)) as [ND LB]. { intros j x J. specialize (H (Datatypes.S j) x J). now rewrite Nat.add_succ_r in H. }
    destruct (H 0%nat m eq_refl) as ([MD MX] & MM & ML). rewrite Nat.add_0_r in MM.
    assert (RG : forall i, In i (map snd (items m)) -> N.of_nat k * 100 * L <= i < N.of_nat (Datatypes.S k) * 100 * L).
    { intros i I. apply in_map_iff in I as ([w i'] & <- & I). apply In_nth_error in I as [q Q]. pose proof (MX q w i' Q) as ->.
      assert (q < length (items m))%nat by (apply nth_error_Some; congruence). cbn [snd]. rewrite MM. lia. }
    cbn [flat_map]. rewrite map_app. split.
    - apply NoDup_app_intro; auto.
      + apply NoDup_nth_error. intros i j I E. rewrite map_length in I. rewrite !nth_error_map in E.
        destruct (nth_error (items m) i) as [[w a]|] eqn:E1; [|apply nth_error_None in E1; lia].
        destruct (nth_error (items m) j) as [[w' b]|] eqn:E2; [|discriminate]. cbn in E. injection E as ->.
        apply MX in E1. apply MX in E2. lia.
      + intros x X Y. apply RG in X. apply LB in Y. lia.
    - intros i I. apply in_app_or in I as [I|I]; [apply RG in I; lia|]. apply LB in I. lia. }
  apply (G maps 0%nat). intros j m J. apply MO. exact J.
Qed.
Lemma init_maps_ok L n : 0 < L -> N.of_nat n * 100 * L <= 2 ^ 64 -> maps_ok L 1 (init_maps n L).
Proof.
  intros LP B j m E. unfold init_maps in E. rewrite nth_error_map in E. destruct (nth_error (seq 0 n) j) as [k|] eqn:K; [|discriminate].
  assert (j < n)%nat by (rewrite <- (seq_length n 0); apply nth_error_Some; congruence).
  rewrite (nth_error_nth' (seq 0 n) 0%nat) in K by (now rewrite seq_length). injection K as <-. rewrite seq_nth in E by assumption.
  cbn [plus option_map] in E. injection E as <-. unfold init_map, assignNextId. cbn [lookup find option_map items min_id snd length app].
  assert (W : wrap64 (N.of_nat j * 100 * L) = N.of_nat j * 100 * L).
  { unfold wrap64. rewrite N.mod_small; [reflexivity|]. eapply N.lt_le_trans; [|exact B]. apply N.mul_lt_mono_pos_r; [exact LP|]. lia. }
  rewrite W. split; [split; cbn [items min_id]|split; [reflexivity | cbn; lia]].
  - constructor; [intros [] | constructor].
  - intros q w id Q. destruct q as [|[|]]; cbn in Q; try discriminate. injection Q as <- <-. unfold wrap64. rewrite N.mod_small; [lia|].
    eapply N.lt_le_trans; [|exact B]. rewrite ?N.add_0_l. apply N.mul_lt_mono_pos_r; [exact LP|]. lia.
Qed.
