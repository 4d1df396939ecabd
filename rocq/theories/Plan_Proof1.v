(* Algebra of bags of mappings. *)
From Coq Require Import String List NArith Arith Bool Lia Permutation.
From Verif Require Import Plan_Spec ListAux.
Import ListNotations.
Local Open Scope nat_scope.

(* ---------- lists ---------- *)
Lemma flat_map_nil {A B} (l : list A) : flat_map (fun _ => @nil B) l = [].
Proof. induction l; auto. Qed.
Lemma flat_map_flat_map {A B C} (f : B -> list C) (g : A -> list B) l :
  flat_map f (flat_map g l) = flat_map (fun x => flat_map f (g x)) l.
Proof. induction l as [|a l IH]; cbn [flat_map]; auto. now rewrite flat_map_app, IH. Qed.
Lemma flat_map_ext_in {A B} (f g : A -> list B) l : (forall x, In x l -> f x = g x) -> flat_map f l = flat_map g l.
Proof.
  induction l as [|a l IH]; intros H; cbn [flat_map]; auto. rewrite (H a) by now left. f_equal. apply IH.
  intros x Hx. apply H. now right.
Qed.
Lemma flat_map_perm {A B} (f : A -> list B) l l' : Permutation l l' -> Permutation (flat_map f l) (flat_map f l').
Proof.
  induction 1; cbn [flat_map]; auto.
  - now apply Permutation_app_head.
  - rewrite !app_assoc. apply Permutation_app_tail, Permutation_app_comm.
  - now transitivity (flat_map f l').
Qed.
Lemma flat_map_perm_in {A B} (f g : A -> list B) l :
  (forall x, In x l -> Permutation (f x) (g x)) -> Permutation (flat_map f l) (flat_map g l).
Proof.
  induction l as [|a l IH]; intros H; cbn [flat_map]; auto. apply Permutation_app; [apply H; now left|].
  apply IH. intros x Hx. apply H. now right.
Qed.
Lemma flat_map_app_fun {A B} (f g : A -> list B) l :
  Permutation (flat_map (fun x => f x ++ g x) l) (flat_map f l ++ flat_map g l).
Proof.
  induction l as [|a l IH]; cbn [flat_map]; auto.
  rewrite <- !app_assoc. apply Permutation_app_head. rewrite IH.
  rewrite !app_assoc. apply Permutation_app_tail, Permutation_app_comm.
Qed.
Lemma flat_map_swap {A B C} (h : A -> B -> list C) (la : list A) (lb : list B) :
  Permutation (flat_map (fun a => flat_map (h a) lb) la) (flat_map (fun b => flat_map (fun a => h a b) la) lb).
Proof.
  induction la as [|a la IH]; cbn [flat_map].
  - now rewrite flat_map_nil.
  - rewrite IH. symmetry. apply flat_map_app_fun.
Qed.
Lemma perm_filter {A} (f : A -> bool) l l' : Permutation l l' -> Permutation (filter f l) (filter f l').
Proof.
  induction 1; cbn [filter]; auto.
  - destruct (f x); auto.
  - destruct (f x), (f y); auto using perm_swap.
  - now transitivity (filter f l').
Qed.
Lemma filter_flat_map {A B} (p : B -> bool) (f : A -> list B) l :
  filter p (flat_map f l) = flat_map (fun x => filter p (f x)) l.
Proof. induction l as [|a l IH]; cbn [flat_map]; auto. now rewrite filter_app, IH. Qed.
Lemma flat_map_filter {A B} (p : A -> bool) (f : A -> list B) l :
  flat_map f (filter p l) = flat_map (fun x => if p x then f x else []) l.
Proof. induction l as [|a l IH]; cbn [flat_map filter]; auto. destruct (p a); cbn [flat_map]; now rewrite IH. Qed.
Lemma map_flat_map {A B C} (g : B -> C) (f : A -> list B) l : map g (flat_map f l) = flat_map (fun x => map g (f x)) l.
Proof. induction l as [|a l IH]; cbn [flat_map]; auto. now rewrite map_app, IH. Qed.
Lemma filter_filter {A} (p q : A -> bool) l : filter p (filter q l) = filter (fun x => q x && p x) l.
Proof. induction l as [|a l IH]; cbn [filter]; auto. destruct (q a); cbn [filter andb]; [destruct (p a)|]; now rewrite IH. Qed.

(* ---------- single mappings ---------- *)
Lemma compat1_sym x y : compat1 x y = compat1 y x.
Proof. destruct x, y; cbn; auto. apply N.eqb_sym. Qed.
Lemma compat_sym a : forall b, compat a b = compat b a.
Proof.
  induction a as [|x a IH]; intros [|y b]; cbn; auto. unfold compat in *. cbn. now rewrite compat1_sym, IH.
Qed.
Lemma merge_comm a : forall b, compat a b = true -> merge_map a b = merge_map b a.
Proof.
  induction a as [|x a IH]; intros [|y b]; unfold compat, merge_map in *; cbn; auto.
  rewrite andb_true_iff. intros [H1 H2]. f_equal; [|now apply IH].
  destruct x, y; cbn in *; auto. apply N.eqb_eq in H1. now subst.
Qed.
Lemma merge_length k a b : length a = k -> length b = k -> length (merge_map a b) = k.
Proof. intros. unfold merge_map. rewrite map_length, combine_length. lia. Qed.
Lemma merge_assoc a : forall b c, merge_map (merge_map a b) c = merge_map a (merge_map b c).
Proof.
  unfold merge_map. induction a as [|x a IH]; intros [|y b] [|z c]; cbn; auto. f_equal; [|apply IH].
  destruct x, y; reflexivity.
Qed.
Lemma compat_merge_l k a : forall b c, length a = k -> length b = k -> length c = k -> compat a b = true ->
  compat (merge_map a b) c = compat a c && compat b c.
Proof.
  unfold merge_map, compat. revert k. induction a as [|x a IH]; intros k [|y b] [|z c] Ha Hb Hc; cbn in *; try lia; auto.
  rewrite andb_true_iff. intros [H1 H2]. destruct k; [lia|]. rewrite (IH k b c) by (auto; lia).
  destruct x as [x|], y as [y|], z as [z|]; cbn in *; auto; try (apply N.eqb_eq in H1; subst y);
    try destruct (N.eqb x z); try destruct (N.eqb y z); cbn [andb]; auto; now rewrite ?andb_false_r.
Qed.
Lemma compat_merge_r k a b c : length a = k -> length b = k -> length c = k -> compat b c = true ->
  compat a (merge_map b c) = compat a b && compat a c.
Proof.
  intros Ha Hb Hc H. rewrite compat_sym, (compat_merge_l k) by auto. now rewrite (compat_sym b), (compat_sym c).
Qed.

(* ---------- bags ---------- *)
Definition lens (k : nat) (A : list mapping) : Prop := Forall (fun m => length m = k) A.
Lemma lens_in k A m : lens k A -> In m A -> length m = k.
Proof. unfold lens. rewrite Forall_forall. auto. Qed.
Lemma bjoin_in A B m : In m (bjoin A B) <-> exists a b, In a A /\ In b B /\ compat a b = true /\ m = merge_map a b.
Proof.
  unfold bjoin. rewrite in_flat_map. split.
  - intros (a & Ha & H). apply in_flat_map in H. destruct H as (b & Hb & H). exists a, b.
    destruct (compat a b) eqn:E; [|destruct H]. destruct H as [<-|[]]. auto.
  - intros (a & b & Ha & Hb & E & ->). exists a. split; auto. apply in_flat_map. exists b. split; auto. rewrite E. now left.
Qed.
Lemma bjoin_lens k A B : lens k A -> lens k B -> lens k (bjoin A B).
Proof.
  intros Ha Hb. apply Forall_forall. intros m Hm. apply bjoin_in in Hm. destruct Hm as (a & b & H1 & H2 & _ & ->).
  apply merge_length; [apply (lens_in k A)|apply (lens_in k B)]; auto.
Qed.
Lemma bjoin_comm A B : Permutation (bjoin A B) (bjoin B A).
Proof.
  unfold bjoin. rewrite flat_map_swap. apply flat_map_perm_in. intros b _. apply flat_map_perm_in. intros a _.
  rewrite (compat_sym a b). destruct (compat b a) eqn:E; auto. rewrite (merge_comm b a E). auto.
Qed.
Lemma bjoin_perm A A' B B' : Permutation A A' -> Permutation B B' -> Permutation (bjoin A B) (bjoin A' B').
Proof.
  intros H1 H2. unfold bjoin. rewrite (flat_map_perm _ _ _ H1). apply flat_map_perm_in. intros a _.
  now apply flat_map_perm.
Qed.
Lemma bjoin_assoc k A B C : lens k A -> lens k B -> lens k C -> bjoin (bjoin A B) C = bjoin A (bjoin B C).
Proof.
  intros HA HB HC. unfold bjoin. rewrite flat_map_flat_map. apply flat_map_ext_in. intros a Ha.
  rewrite !flat_map_flat_map. apply flat_map_ext_in. intros b Hb.
  assert (La : length a = k) by (apply (lens_in k A); auto). assert (Lb : length b = k) by (apply (lens_in k B); auto).
  destruct (compat a b) eqn:E.
  - cbn [flat_map]. rewrite app_nil_r, flat_map_flat_map. apply flat_map_ext_in. intros c Hc.
    assert (Lc : length c = k) by (apply (lens_in k C); auto). rewrite (compat_merge_l k) by auto.
    destruct (compat b c) eqn:E2; [|now rewrite andb_false_r]. cbn [flat_map]. rewrite app_nil_r, (compat_merge_r k) by auto.
    rewrite E, andb_true_r. cbn [andb]. destruct (compat a c); auto. now rewrite merge_assoc.
  - cbn [flat_map]. symmetry. rewrite flat_map_flat_map. transitivity (flat_map (fun _ => @nil mapping) C); [|apply flat_map_nil].
    apply flat_map_ext_in.
    intros c Hc. assert (Lc : length c = k) by (apply (lens_in k C); auto).
    destruct (compat b c) eqn:E2; auto. cbn [flat_map]. rewrite (compat_merge_r k) by auto. now rewrite E.
Qed.
Definition unit_map (k : nat) : mapping := repeat None k.
Lemma compat_unit k : forall a, compat (unit_map k) a = true.
Proof. unfold compat, unit_map. induction k; intros [|x a]; cbn; auto. Qed.
Lemma merge_unit k : forall a, length a = k -> merge_map (unit_map k) a = a.
Proof. unfold merge_map, unit_map. induction k; intros [|x a] H; cbn in *; try lia; auto. f_equal. apply IHk. lia. Qed.
Lemma bjoin_unit_l k A : lens k A -> bjoin [unit_map k] A = A.
Proof.
  intros H. unfold bjoin. cbn [flat_map]. rewrite app_nil_r. induction A as [|a A IH]; cbn [flat_map]; auto.
  inversion H; subst. rewrite compat_unit, merge_unit by auto. cbn. now rewrite IH.
Qed.
Lemma bjoin_unit_r k A : lens k A -> Permutation (bjoin A [unit_map k]) A.
Proof. intros H. rewrite bjoin_comm. now rewrite bjoin_unit_l. Qed.

(* ---------- the join of the bags of a set of nodes ---------- *)
Section Bag.
Variable k : nat.
Variable nbag : nat -> list mapping.
Hypothesis nlens : forall i, lens k (nbag i).
Fixpoint bag (M : N) (n : nat) : list mapping :=
  match n with
  | 0 => [unit_map k]
  | S n' => if N.testbit M (N.of_nat n') then bjoin (nbag n') (bag M n') else bag M n'
  end.
Lemma bag_lens M n : lens k (bag M n).
Proof.
  induction n; cbn [bag].
  - constructor; [apply repeat_length|constructor].
  - destruct (N.testbit M (N.of_nat n)); auto. now apply bjoin_lens.
Qed.
Lemma bag_disjoint A B n : (forall i, N.testbit A i = true -> N.testbit B i = true -> False) ->
  Permutation (bjoin (bag A n) (bag B n)) (bag (N.lor A B) n).
Proof.
  intros H. induction n; cbn [bag].
  - rewrite bjoin_unit_l; auto. constructor; [apply repeat_length|constructor].
  - rewrite N.lor_spec. destruct (N.testbit A (N.of_nat n)) eqn:EA, (N.testbit B (N.of_nat n)) eqn:EB; cbn [orb]; auto.
    + destruct (H _ EA EB).
    + rewrite (bjoin_assoc k) by (auto using bag_lens). apply bjoin_perm; auto.
    + rewrite (bjoin_perm _ _ _ _ (Permutation_refl _) (bjoin_comm (nbag n) (bag B n))).
      rewrite <- (bjoin_assoc k) by (auto using bag_lens). rewrite bjoin_comm. now apply bjoin_perm.
Qed.
Lemma bag_ext A B n : (forall i, i < n -> N.testbit A (N.of_nat i) = N.testbit B (N.of_nat i)) -> bag A n = bag B n.
Proof.
  induction n; intros H; cbn [bag]; auto. rewrite H by lia. rewrite IHn; auto.
Qed.
Lemma bag_zero A n : (forall i, i < n -> N.testbit A (N.of_nat i) = false) -> bag A n = [unit_map k].
Proof. induction n; intros H; cbn [bag]; auto. rewrite H by lia. auto. Qed.
Lemma bag_single i n A : i < n -> (forall j, N.testbit A (N.of_nat j) = Nat.eqb i j) -> Permutation (bag A n) (nbag i).
Proof.
  intros Hi H. induction n; [lia|]. cbn [bag]. rewrite H. destruct (Nat.eqb_spec i n) as [->|Hn].
  - rewrite bag_zero; [now apply bjoin_unit_r|]. intros j Hj. rewrite H. apply Nat.eqb_neq. lia.
  - apply IHn. lia.
Qed.
End Bag.

(* ---------- values of variables ---------- *)
Section Get.
Variable U : list string.
Hypothesis HU : NoDup U.
Let k := length U.
Lemma get_merge_gen V a : forall b v, length a = length V -> length b = length V ->
  get V (merge_map a b) v = merge1 (get V a v) (get V b v).
Proof.
  revert a. induction V as [|u V IH]; intros [|x a] [|y b] v Ha Hb; cbn in *; try lia; auto.
  destruct (String.eqb u v); auto. unfold merge_map in IH. apply IH; lia.
Qed.
Lemma get_merge a b v : length a = k -> length b = k -> get U (merge_map a b) v = merge1 (get U a v) (get U b v).
Proof. apply get_merge_gen. Qed.
Lemma get_notin V a v : ~ In v V -> get V a v = None.
Proof.
  revert a. induction V as [|u V IH]; intros [|x a] H; cbn; auto. destruct (String.eqb_spec u v) as [->|].
  - elim H. now left.
  - apply IH. intros Hi. apply H. now right.
Qed.
Lemma get_ext_gen V a : forall b, NoDup V -> length a = length V -> length b = length V ->
  (forall v, In v V -> get V a v = get V b v) -> a = b.
Proof.
  revert a. induction V as [|u V IH]; intros [|x a] [|y b] Hn Ha Hb H; cbn in *; try lia; auto.
  inversion Hn; subst. f_equal.
  - specialize (H u (or_introl eq_refl)). now rewrite String.eqb_refl in H.
  - apply IH; auto. intros v Hv. specialize (H v (or_intror Hv)). destruct (String.eqb_spec u v); [subst; contradiction|auto].
Qed.
Lemma get_ext a b : length a = k -> length b = k -> (forall v, In v U -> get U a v = get U b v) -> a = b.
Proof. intros. eapply get_ext_gen; eauto. Qed.
Lemma compat_get_gen V a : forall b, NoDup V -> length a = length V -> length b = length V ->
  (compat a b = true <-> forall v, In v V -> compat1 (get V a v) (get V b v) = true).
Proof.
  unfold compat. revert a. induction V as [|u V IH]; intros [|x a] [|y b] Hn Ha Hb; cbn [combine forallb fst snd length get In] in *; try discriminate.
  - split; [intros _ v []|auto].
  - inversion Hn; subst. rewrite andb_true_iff, (IH a b) by (auto; lia). split.
    + intros [H3 H4] v [->|Hv]; [now rewrite String.eqb_refl|]. destruct (String.eqb_spec u v); subst; auto.
    + intros H. split.
      * specialize (H u (or_introl eq_refl)). now rewrite String.eqb_refl in H.
      * intros v Hv. specialize (H v (or_intror Hv)). destruct (String.eqb_spec u v); subst; [contradiction|auto].
Qed.
Lemma compat_get a b : length a = k -> length b = k ->
  (compat a b = true <-> forall v, In v U -> compat1 (get U a v) (get U b v) = true).
Proof. apply compat_get_gen; auto. Qed.
Lemma get_map V (f : string -> option N) v : In v V -> get V (map f V) v = f v.
Proof.
  induction V as [|u V IH]; intros H; [destruct H|]. destruct H; cbn.
  - subst. now rewrite String.eqb_refl.
  - destruct (String.eqb_spec u v); subst; auto.
Qed.
Lemma get_length V a v : get V a v <> None -> In v V.
Proof. intros H. destruct (in_dec string_dec v V); auto. elim H. now apply get_notin. Qed.

(* mappings with a fixed set of variables *)
Definition dom_is (vs : string -> Prop) (m : mapping) : Prop := forall v, In v U -> (get U m v <> None <-> vs v).
Lemma dom_merge VA VB a b : length a = k -> length b = k -> dom_is VA a -> dom_is VB b ->
  dom_is (fun v => VA v \/ VB v) (merge_map a b).
Proof.
  intros La Lb Ha Hb v Hv. rewrite get_merge by auto. specialize (Ha v Hv). specialize (Hb v Hv).
  destruct (get U a v), (get U b v); cbn in *; intuition congruence.
Qed.
Lemma merge_inj_r VA VB a b b' : length a = k -> length b = k -> length b' = k -> dom_is VA a -> dom_is VB b ->
  dom_is VB b' -> compat a b = true -> compat a b' = true -> merge_map a b = merge_map a b' -> b = b'.
Proof.
  intros La Lb Lb' Da Db Db' C C' E. apply get_ext; auto. intros v Hv.
  apply (f_equal (fun m => get U m v)) in E. rewrite !get_merge in E by auto.
  rewrite compat_get in C, C' by auto. specialize (C v Hv). specialize (C' v Hv). specialize (Db v Hv). specialize (Db' v Hv).
  destruct (get U a v), (get U b v), (get U b' v); cbn in *; auto; try congruence.
  - apply N.eqb_eq in C, C'. congruence.
  - exfalso. assert (X : VB v) by (apply Db; congruence). apply Db' in X. congruence.
  - exfalso. assert (X : VB v) by (apply Db'; congruence). apply Db in X. congruence.
Qed.
Lemma merge_inj_l VA a b a' b' : length a = k -> length b = k -> length a' = k -> length b' = k ->
  dom_is VA a -> dom_is VA a' -> merge_map a b = merge_map a' b' -> a = a'.
Proof.
  intros La Lb La' Lb' Da Da' E. apply get_ext; auto. intros v Hv.
  apply (f_equal (fun m => get U m v)) in E. rewrite !get_merge in E by auto.
  specialize (Da v Hv). specialize (Da' v Hv).
  destruct (get U a v), (get U a' v); cbn in *; auto.
  - exfalso. assert (X : VA v) by (apply Da; congruence). apply Da' in X. congruence.
  - exfalso. assert (X : VA v) by (apply Da'; congruence). apply Da in X. congruence.
Qed.
Lemma bjoin_nodup VA VB A B : lens k A -> lens k B -> (forall a, In a A -> dom_is VA a) ->
  (forall b, In b B -> dom_is VB b) -> NoDup A -> NoDup B -> NoDup (bjoin A B).
Proof.
  intros LA LB DA DB NA NB. unfold bjoin. induction A as [|a A IH]; cbn [flat_map]; [constructor|].
  inversion NA as [|? ? Na NA']; subst. inversion LA as [|? ? La LA']; subst.
  assert (Da : dom_is VA a) by (apply DA; now left).
  assert (DA' : forall a, In a A -> dom_is VA a) by (intros x Hx; apply DA; now right).
  specialize (IH LA' DA' NA'). apply NoDup_app_intro; auto.
  - clear IH. induction B as [|b B IHB]; cbn [flat_map]; [constructor|].
    inversion NB as [|? ? Nb NB']; subst. inversion LB as [|? ? Lb LB']; subst.
    assert (Db : dom_is VB b) by (apply DB; now left).
    assert (DB' : forall b, In b B -> dom_is VB b) by (intros x Hx; apply DB; now right).
    specialize (IHB LB' DB' NB'). destruct (compat a b) eqn:C; [|exact IHB]. cbn. constructor; auto.
    intros Hi. apply in_flat_map in Hi. destruct Hi as (b' & Hb' & Hi). destruct (compat a b') eqn:C'; [|destruct Hi].
    destruct Hi as [E|[]]. apply Nb.
    assert (b = b') by (apply (merge_inj_r VA VB a b b'); auto; apply (lens_in k B); auto). now subst.
  - intros m H1 H2. apply in_flat_map in H1. destruct H1 as (b & Hb & H1).
    destruct (compat a b) eqn:C; [|destruct H1]. destruct H1 as [<-|[]].
    apply (bjoin_in A B) in H2. destruct H2 as (a' & b' & Ha' & Hb' & C' & E). apply Na.
    assert (a = a') by (apply (merge_inj_l VA a b a' b'); auto; [apply (lens_in k B)|apply (lens_in k A)|apply (lens_in k B)]; auto). now subst.
Qed.
End Get.
