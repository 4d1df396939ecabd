(* Auxiliary facts: the loop over the triples, exchanging multiplicities, writing and loading a pair of permutations. *)
From Coq Require Import List NArith Arith Bool Lia ZifyN ZifyNat ZifyBool Sorted Permutation.
From Verif Require Import Bytes Std_Model Std_Proof ListAux Base Ops_Spec Meta_Model Meta_Proof Meta_Thm Perm_Model Perm_Proof Perm_Proof2.
Import ListNotations.
Open Scope N_scope.

(* ---------- similar maps ---------- *)
Definition alike_e (a b : N * full) : Prop := fst a = fst b /\ alike (snd a) (snd b).
Definition alike_v (a b : full) : Prop := alike a b /\ full_eqb a empty_full = full_eqb b empty_full.
Definition rsim (m m' : rmap) : Prop :=
  match m, m' with
  | Hmap l, Hmap l' => Forall2 alike_e l l'
  | Dense s v, Dense s' v' => s = s' /\ Forall2 alike_v v v'
  | _, _ => False
  end.
Definition mkeys (m : rmap) : Prop := match m with Hmap l => NoDup (map fst l) | Dense _ _ => True end.

Lemma Forall2_refl {A} (R : A -> A -> Prop) (H : forall a, R a a) l : Forall2 R l l.
Proof. induction l; constructor; auto. Qed.
Lemma Forall2_trans {A} (R : A -> A -> Prop) (H : forall a b c, R a b -> R b c -> R a c) l1 : forall l2 l3, Forall2 R l1 l2 -> Forall2 R l2 l3 -> Forall2 R l1 l3.
Proof. induction l1; intros l2 l3 H1 H2; inversion H1; subst; inversion H2; subst; constructor; eauto. Qed.
Lemma Forall2_length {A B} (R : A -> B -> Prop) l l' : Forall2 R l l' -> length l = length l'.
Proof. induction 1; cbn [length]; auto. Qed.
Lemma rsim_refl m : rsim m m.
Proof. destruct m; cbn; [|split; auto]; apply Forall2_refl; intros; split; auto using alike_refl. Qed.
Lemma rsim_trans a b c : rsim a b -> rsim b c -> rsim a c.
Proof.
  destruct a, b, c; cbn; try tauto.
  - apply Forall2_trans. intros x y z [A B] [C D]. split; [congruence|]. eapply alike_trans; eauto.
  - intros [-> A] [-> B]. split; auto. revert A B. apply Forall2_trans. intros x y z [A B] [C D]. split; [eapply alike_trans; eauto|congruence].
Qed.
Lemma rsim_entries m m' : rsim m m' -> Forall2 alike_e (rmap_entries m) (rmap_entries m').
Proof.
  destruct m as [l|s v], m' as [l'|s' v']; cbn; try tauto. intros [_ H]. generalize 0 as id. induction H as [|a b v v' [Hab He] H IH]; intros id; [constructor|].
  cbn [dense_entries]. rewrite He. destruct (full_eqb b empty_full); auto. constructor; auto. split; auto.
Qed.
Lemma rsim_keys m m' : rsim m m' -> map fst (rmap_entries m') = map fst (rmap_entries m).
Proof. intros H. apply rsim_entries in H. induction H as [|a b l l' [E _] H IH]; auto. cbn [map]. now rewrite E, IH. Qed.
Lemma rsim_kind m m' : rsim m m' -> kind m' = kind m.
Proof. destruct m as [l|s v], m' as [l'|s' v']; cbn; try tauto. intros [_ H]. now rewrite (Forall2_length _ _ _ H). Qed.
Lemma Forall2_in {A B} (R : A -> B -> Prop) l l' : Forall2 R l l' -> forall b, In b l' -> exists a, In a l /\ R a b.
Proof. induction 1 as [|a b l l' Hab H IH]; intros c; [intros []|]. intros [<-|Hc]; [exists a; split; auto; now left|]. destruct (IH c Hc) as (a' & Ha & Hr). exists a'. split; auto. now right. Qed.
Lemma Forall2_in' {A B} (R : A -> B -> Prop) l l' : Forall2 R l l' -> forall a, In a l -> exists b, In b l' /\ R a b.
Proof. induction 1 as [|a b l l' Hab H IH]; intros c; [intros []|]. intros [<-|Hc]; [exists b; split; auto; now left|]. destruct (IH c Hc) as (a' & Ha & Hr). exists a'. split; auto. now right. Qed.

Lemma wf_sim m d : wf m -> rsim (i_data m) d -> wf (with_data d m).
Proof.
  intros W H. pose proof (rsim_entries _ _ H) as E. constructor; cbn [with_data i_data i_blocks i_after i_name i_elements i_bytes i_nblocks].
  - pose proof (wf_keys m W) as K. pose proof (rsim_keys _ _ H) as Kk. destruct (i_data m) as [l|s v], d as [l'|s' v']; cbn in H; try tauto.
    + cbn [rmap_entries] in Kk. now rewrite Kk.
    + destruct H as [_ H]. now rewrite <- (Forall2_length _ _ _ H).
  - intros k f Hi. destruct (Forall2_in _ _ _ E _ Hi) as ([k' f'] & Hi' & Q & A). cbn [fst snd] in *. subst k'.
    destruct (wf_full m W k f' Hi') as (B1 & (B2a & B2b & B2c) & B3 & B4). destruct A as (A1 & A2 & A3 & A4 & A5 & A6 & A7).
    split; [congruence|]. split; [|split].
    + unfold full_ok. rewrite A1, A2. auto.
    + rewrite A4. exact B3.
    + rewrite A4, A2. unfold nof_bytes in *. rewrite A3. exact B4.
  - apply (wf_bkeys m W).
  - intros k b Hi. destruct (wf_block m W k b Hi) as (B1 & B2 & f & B3 & B4). split; auto. split; auto.
    destruct (Forall2_in' _ _ _ E _ B3) as ([k' f'] & Hi' & Q & A). cbn [fst snd] in *. subst k'. exists f'. split; auto.
    destruct A as (_ & _ & _ & A4 & _). congruence.
  - rewrite <- (Forall2_length _ _ _ E). pose proof (wf_size m W) as S. rewrite <- S. destruct (i_data m) as [l|s v], d as [l'|s' v']; cbn in H; try tauto.
    + cbn [rmap_size]. now rewrite (Forall2_length _ _ _ H).
    + destruct H as [-> _]. reflexivity.
  - rewrite <- (Forall2_length _ _ _ E). apply (wf_small m W).
  - apply (wf_stat m W).
Qed.

Lemma not_empty f : f_rel f < MAX64 -> full_eqb f empty_full = false.
Proof. intros H. destruct (full_eqb f empty_full) eqn:E; auto. apply full_eqb_eq in E. subst f. unfold empty_full, make_full in H. cbn [f_rel] in H. lia. Qed.

Lemma assign_sim id m f f' : mkeys m -> rmap_get id m = Ok f -> alike f f' -> f_rel f < MAX64 ->
  rsim m (rmap_assign id f' m) /\ rmap_get id (rmap_assign id f' m) = Ok f' /\ mkeys (rmap_assign id f' m) /\
  forall k, k <> id -> rmap_get k (rmap_assign id f' m) = rmap_get k m.
Proof.
  intros K G A L. assert (L' : f_rel f' < MAX64) by (destruct A as (A1 & _); congruence).
  destruct m as [l|s v]; cbn [rmap_assign mkeys rmap_get rsim] in *.
  - destruct (amap_get id l) as [g|] eqn:E; [|discriminate]. injection G as ->. split; [|split; [|split]].
    + clear K L L'. induction l as [|[k g] l IH]; [discriminate|]. cbn [amap_set]. unfold amap_get in E. cbn [find fst] in E.
      destruct (N.eqb_spec k id) as [->|Hn].
      * cbn in E. injection E as ->. constructor; [split; auto|]. apply Forall2_refl. intros a. split; auto using alike_refl.
      * constructor; [split; auto using alike_refl|]. apply IH. exact E.
    + rewrite amap_get_set, N.eqb_refl. reflexivity.
    + now apply amap_set_nodup.
    + intros k Hk. rewrite amap_get_set. replace (id =? k) with false by lia. reflexivity.
  - destruct (nth_error v (N.to_nat id)) as [g|] eqn:E; [|discriminate]. destruct (full_eqb g empty_full) eqn:Ee; [discriminate|]. injection G as ->.
    split; [split; auto|split; [|split]].
    + clear K. revert E. generalize (N.to_nat id) as i. induction v as [|g v IH]; intros [|i] E; try discriminate; cbn [nth_error vec_set] in *.
      * injection E as ->. constructor; [split; auto; now rewrite !not_empty|]. apply Forall2_refl. intros a. split; auto using alike_refl.
      * constructor; [split; auto using alike_refl|]. now apply IH.
    + rewrite vec_set_nth, Nat.eqb_refl, E. cbn [option_map]. now rewrite not_empty.
    + exact I.
    + intros k Hk. rewrite vec_set_nth. replace (Nat.eqb (N.to_nat id) (N.to_nat k)) with false by lia. reflexivity.
Qed.

Lemma exchange_ok es : forall m1 m2, NoDup (map fst es) -> mkeys m1 -> mkeys m2 ->
  (forall id, In id (map fst es) -> exists f1 f2, rmap_get id m1 = Ok f1 /\ rmap_get id m2 = Ok f2 /\ f_rel f1 < MAX64 /\ f_rel f2 < MAX64) ->
  exists m1' m2', exchange es m1 m2 = Ok (m1', m2') /\ rsim m1 m1' /\ rsim m2 m2' /\
    (forall id f1 f2, In id (map fst es) -> rmap_get id m1 = Ok f1 -> rmap_get id m2 = Ok f2 ->
       rmap_get id m1' = Ok (set_full_col2 (col1 (f_word f2)) f1) /\ rmap_get id m2' = Ok (set_full_col2 (col1 (f_word f1)) f2)) /\
    (forall id, ~ In id (map fst es) -> rmap_get id m1' = rmap_get id m1 /\ rmap_get id m2' = rmap_get id m2).
Proof.
  induction es as [|[id g] es IH]; intros m1 m2 Hn K1 K2 Hg.
  - exists m1, m2. cbn. split; auto. split; [apply rsim_refl|]. split; [apply rsim_refl|]. split; [intros ? ? ? []|auto].
  - cbn [map fst] in Hn. inversion Hn as [|? ? Hni Hn']; subst. destruct (Hg id (or_introl eq_refl)) as (f1 & f2 & G1 & G2 & L1 & L2).
    cbn [exchange]. rewrite G1. cbn [bind]. rewrite G2. cbn [bind].
    pose proof (alike_col2 (col1 (f_word f1)) f2 (col1_small _)) as A2.
    destruct (assign_sim id m2 f2 _ K2 G2 A2 L2) as (S2 & G2' & K2' & O2). rewrite G2'. cbn [bind].
    set (f2' := set_full_col2 (col1 (f_word f1)) f2) in *.
    assert (C2 : col1 (f_word f2') = col1 (f_word f2)) by (apply A2). rewrite C2.
    pose proof (alike_col2 (col1 (f_word f2)) f1 (col1_small _)) as A1.
    destruct (assign_sim id m1 f1 _ K1 G1 A1 L1) as (S1 & G1' & K1' & O1).
    destruct (IH _ _ Hn' K1' K2') as (m1' & m2' & He & R1 & R2 & Hin & Hout).
    { intros k Hk. assert (k <> id) by congruence. rewrite O1, O2 by assumption. apply Hg. now right. }
    exists m1', m2'. split; auto. split; [eapply rsim_trans; eauto|]. split; [eapply rsim_trans; eauto|]. split.
    + intros k g1 g2 Hk H1 H2. destruct (N.eq_dec k id) as [->|Hne].
      * destruct (Hout id Hni) as [Q1 Q2]. rewrite Q1, Q2. assert (g1 = f1) by congruence. assert (g2 = f2) by congruence. subst. auto.
      * destruct Hk as [Q|Hk]; [cbn in Q; congruence|]. apply Hin; auto; rewrite ?O1, ?O2; auto.
    + intros k Hk. cbn [map fst In] in Hk. destruct (Hout k) as [Q1 Q2]; [tauto|]. rewrite Q1, Q2, O1, O2; auto.
Qed.

(* ---------- relations of sorted triples ---------- *)
Definition tlt (a b : triple) : Prop :=
  fst (fst a) < fst (fst b) \/ (fst (fst a) = fst (fst b) /\ (snd (fst a) < snd (fst b) \/ (snd (fst a) = snd (fst b) /\ snd a < snd b))).
Definition tsorted (l : list triple) : Prop := StronglySorted tlt l.
Definition first (t : triple) : N := fst (fst t).
Definition rest (t : triple) : pair_t := (snd (fst t), snd t).
Definition rel_of (x : N) (vec : list triple) : list pair_t := map rest (filter (fun t => first t =? x) vec).
Lemma rel_of_in x y z vec : In (y, z) (rel_of x vec) <-> In (x, y, z) vec.
Proof.
  unfold rel_of. rewrite in_map_iff. split.
  - intros ([[a b] c] & Q & Hi). apply filter_In in Hi. destruct Hi as [Hi E]. unfold rest, first in *. cbn in *. injection Q as -> ->. apply N.eqb_eq in E. now subst.
  - intros Hi. exists (x, y, z). split; auto. apply filter_In. split; auto. unfold first. cbn. apply N.eqb_refl.
Qed.
Lemma rel_of_app x a b : rel_of x (a ++ b) = rel_of x a ++ rel_of x b.
Proof. unfold rel_of. now rewrite filter_app, map_app. Qed.
Lemma rel_of_sorted x vec : tsorted vec -> psorted (rel_of x vec).
Proof.
  unfold rel_of, psorted. induction 1 as [|t vec Hs IH Ht]; [constructor|]. cbn [filter]. destruct (N.eqb_spec (first t) x); auto.
  cbn [map]. constructor; auto. apply Forall_forall. intros p Hp. apply in_map_iff in Hp. destruct Hp as (t' & <- & Hi). apply filter_In in Hi.
  destruct Hi as [Hi E]. rewrite Forall_forall in Ht. specialize (Ht t' Hi). apply N.eqb_eq in E. unfold tlt, plt, first, rest in *. cbn. lia.
Qed.
Lemma rel_of_nil x vec : ~ In x (map first vec) -> rel_of x vec = [].
Proof. intros H. unfold rel_of. rewrite filter_nil; auto. intros t Ht. destruct (N.eqb_spec (first t) x); auto. exfalso. apply H. subst. now apply in_map. Qed.
Lemma rel_of_ne x vec : In x (map first vec) -> rel_of x vec <> [].
Proof.
  intros H Q. apply in_map_iff in H. destruct H as ([[a b] c] & E & Hi). unfold first in E. cbn in E. subst a. apply rel_of_in in Hi. rewrite Q in Hi. destruct Hi.
Qed.
Lemma rel_of_total vec xs : NoDup xs -> (list_sum (map (fun x => length (rel_of x vec)) xs) <= length vec)%nat.
Proof.
  intros Hn. induction vec as [|t vec IH].
  - cbn. replace (map _ xs) with (map (fun _ : N => 0%nat) xs) by reflexivity. clear. induction xs; cbn; auto.
  - cbn [length]. transitivity (1 + list_sum (map (fun x => length (rel_of x vec)) xs))%nat; [|lia]. clear IH.
    assert (G : forall ys, NoDup ys -> (list_sum (map (fun x => length (rel_of x (t :: vec))) ys) <=
                 (if existsb (N.eqb (first t)) ys then 1 else 0) + list_sum (map (fun x => length (rel_of x vec)) ys))%nat).
    { induction ys as [|y ys IH]; intros Hy; [cbn; lia|]. inversion Hy as [|? ? Hy1 Hy2]; subst. specialize (IH Hy2).
      cbn [map list_sum fold_right existsb]. unfold list_sum in *.
      assert (L : length (rel_of y (t :: vec)) = ((if N.eqb (first t) y then 1 else 0) + length (rel_of y vec))%nat).
      { unfold rel_of. cbn [filter]. destruct (first t =? y); reflexivity. }
      rewrite L. destruct (N.eqb_spec (first t) y) as [E|E]; cbn [orb].
      - assert (existsb (N.eqb (first t)) ys = false). { destruct (existsb (N.eqb (first t)) ys) eqn:X; auto. apply in_existsb in X. subst. contradiction. }
        rewrite H in IH. lia.
      - lia. }
    specialize (G xs Hn). destruct (existsb (N.eqb (first t)) xs); lia.
Qed.

(* number of distinct left hand sides; functional relations have no two pairs with the same one *)
Definition ndistinct (data : list pair_t) : nat := length (nodup N.eq_dec (map fst data)).
Definition functionalb (data : list pair_t) : bool := Nat.eqb (ndistinct data) (length data).
Lemma nodup_snoc l y : length (nodup N.eq_dec (l ++ [y])) = (length (nodup N.eq_dec l) + if in_dec N.eq_dec y l then 0 else 1)%nat.
Proof.
  induction l as [|a l IH]; [reflexivity|]. cbn [app nodup].
  destruct (in_dec N.eq_dec a (l ++ [y])) as [I|I], (in_dec N.eq_dec a l) as [J|J]; cbn [length]; rewrite ?IH;
    destruct (in_dec N.eq_dec y l) as [U|U], (in_dec N.eq_dec y (a :: l)) as [V|V]; cbn [In] in *; try rewrite in_app_iff in I; cbn [In] in I;
    try lia; exfalso; try (apply I; tauto); try (apply V; tauto); try (destruct V; [subst; tauto|contradiction]); try (destruct I as [I|[I|[]]]; [contradiction|subst; tauto]).
Qed.
Lemma nodup_le l : (length (nodup N.eq_dec l) <= length l)%nat.
Proof. induction l as [|a l IH]; auto. cbn [nodup]. destruct (in_dec N.eq_dec a l); cbn [length]; lia. Qed.
Lemma ndistinct_snoc data y z : ndistinct (data ++ [(y, z)]) = (ndistinct data + if in_dec N.eq_dec y (map fst data) then 0 else 1)%nat.
Proof. unfold ndistinct. rewrite map_app. apply nodup_snoc. Qed.
Lemma functional_snoc data y z : functionalb (data ++ [(y, z)]) = if in_dec N.eq_dec y (map fst data) then false else functionalb data.
Proof.
  unfold functionalb. rewrite ndistinct_snoc, app_length. cbn [length]. pose proof (nodup_le (map fst data)) as L. rewrite map_length in L. fold (ndistinct data) in L.
  destruct (in_dec N.eq_dec y (map fst data)); [apply Nat.eqb_neq; lia|]. destruct (Nat.eqb_spec (ndistinct data) (length data)); [apply Nat.eqb_eq; lia|apply Nat.eqb_neq; lia].
Qed.
(* the last left hand side *)
Lemma last_lhs data y z last : psorted (data ++ [(y, z)]) -> y < MAX64 ->
  (data = [] /\ last = MAX64 \/ exists p d, data = d ++ [p] /\ fst p = last) ->
  (y =? last) = (if in_dec N.eq_dec y (map fst data) then true else false).
Proof.
  intros Hs Hy [[-> ->]|(p & d & -> & <-)].
  - cbn. lia.
  - apply psorted_le in Hs.
    assert (G : forall l (q : pair_t), StronglySorted (fun a b : pair_t => fst a <= fst b) (l ++ [q]) -> forall a, In a l -> fst a <= fst q).
    { clear. induction l as [|b l IH]; intros q H a Ha; [destruct Ha|]. cbn [app] in H. inversion H as [|? ? H1 H2]; subst. destruct Ha as [->|Ha]; auto.
      rewrite Forall_forall in H2. apply H2, in_app_iff. right. now left. }
    assert (G2 : StronglySorted (fun a b : pair_t => fst a <= fst b) (d ++ [p])).
    { clear -Hs. induction (d ++ [p]) as [|a l IH]; [constructor|]. cbn [app] in Hs. inversion Hs as [|? ? H1 H2]; subst. constructor; auto.
      rewrite Forall_forall in *. intros b Hb. apply H2, in_app_iff. now left. }
    assert (Hp : fst p <= y). { apply (G _ (y, z) Hs p). apply in_app_iff. right. now left. }
    destruct (in_dec N.eq_dec y (map fst (d ++ [p]))) as [I|I].
    + apply in_map_iff in I. destruct I as (q & Q & Hq). apply in_app_iff in Hq. destruct Hq as [Hq|[<-|[]]]; [|lia].
      pose proof (G _ _ G2 q Hq). lia.
    + apply N.eqb_neq. intros ->. apply I. rewrite map_app. apply in_app_iff. right. now left.
Qed.

Lemma psorted_prefix a b : psorted (a ++ b) -> psorted a.
Proof.
  unfold psorted. induction a as [|x a IH]; intros H; [constructor|]. cbn [app] in H. inversion H as [|? ? H1 H2]; subst. constructor; auto.
  rewrite Forall_forall in *. intros y Hy. apply H2, in_app_iff. now left.
Qed.
Lemma switched_stats_ok : forall data pre last fn dist, psorted (pre ++ data) -> (forall p, In p data -> fst p < MAX64) ->
  (pre = [] /\ last = MAX64 \/ exists p d, pre = d ++ [p] /\ fst p = last) ->
  fn = functionalb pre -> dist = N.of_nat (ndistinct pre) ->
  switched_stats last fn dist data = (functionalb (pre ++ data), N.of_nat (ndistinct (pre ++ data))).
Proof.
  induction data as [|[y z] data IH]; intros pre last fn dist Hs Hm Hl -> ->.
  - now rewrite app_nil_r.
  - cbn [switched_stats]. replace (pre ++ (y, z) :: data) with ((pre ++ [(y, z)]) ++ data) in * by (now rewrite <- app_assoc).
    rewrite (last_lhs pre y z last); auto; [|now apply psorted_prefix in Hs|apply (Hm (y, z)); now left].
    pose proof (functional_snoc pre y z) as F. pose proof (ndistinct_snoc pre y z) as D.
    destruct (in_dec N.eq_dec y (map fst pre)); (apply IH; [exact Hs|intros; apply Hm; now right|right; exists (y, z), pre; auto|auto|lia]).
Qed.
