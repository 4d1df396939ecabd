(* Proofs about Fts_Model: aggregation per entity. *)
From Coq Require Import List NArith Arith Bool Lia ZifyBool ZifyN ZifyNat Sorted Permutation.
From Verif Require Import Std_Model Std_Proof Base ListAux Lex_Proof Fts_Model Fts_Spec Fts_Proof.
Import ListNotations.
Open Scope N_scope.

Definition pair_lt (a b : N * N) : Prop := pair_ltb a b = true.
Definition sset (s : list (N * N)) : Prop := StronglySorted pair_lt s.

Lemma pair_lt_trans a b c : pair_lt a b -> pair_lt b c -> pair_lt a c.
Proof. unfold pair_lt, pair_ltb. lia. Qed.
Lemma pair_lt_irrefl a : ~ pair_lt a a.
Proof. unfold pair_lt, pair_ltb. lia. Qed.
Lemma pair_lt_fst a b : pair_lt a b -> fst a <= fst b.
Proof. unfold pair_lt, pair_ltb. lia. Qed.
Lemma pair_tri a b : pair_ltb a b = false -> pair_ltb b a = false -> a = b.
Proof. destruct a, b. unfold pair_ltb. cbn [fst snd]. intros. f_equal; lia. Qed.

Lemma set_insert_in p s q : In q (set_insert p s) <-> q = p \/ In q s.
Proof.
  induction s as [|x s IH]; simpl; [intuition|].
  destruct (pair_ltb p x) eqn:E1; [simpl; intuition|].
  destruct (pair_ltb x p) eqn:E2; simpl.
  - rewrite IH. intuition.
  - rewrite (pair_tri _ _ E1 E2). intuition.
Qed.
Lemma set_insert_sset p s : sset s -> sset (set_insert p s).
Proof.
  induction 1 as [|x s Hs IH Hx]; simpl; [repeat constructor|].
  destruct (pair_ltb p x) eqn:E1.
  - constructor; [constructor; auto|]. constructor; auto.
    eapply Forall_impl; [|exact Hx]. intros y. apply pair_lt_trans. exact E1.
  - destruct (pair_ltb x p) eqn:E2; [|constructor; auto]. constructor; auto.
    rewrite Forall_forall in *. intros y Hy. apply set_insert_in in Hy. destruct Hy as [->|Hy]; auto.
Qed.
Lemma set_insert_length p s : ~ In p s -> length (set_insert p s) = S (length s).
Proof.
  induction s as [|x s IH]; simpl; intros H; auto.
  destruct (pair_ltb p x) eqn:E1; auto. destruct (pair_ltb x p) eqn:E2; simpl; [rewrite IH; auto|].
  exfalso. apply H. left. symmetry. now apply pair_tri.
Qed.
Lemma sset_nodup s : sset s -> NoDup s.
Proof.
  induction 1 as [|x s Hs IH Hx]; constructor; auto. rewrite Forall_forall in Hx. intros C.
  apply (pair_lt_irrefl x). auto.
Qed.

(* the state of one key after its occurrences `all` *)
Definition best_ok (k : nat) (all : list (N * N)) (v : N * list (N * N)) : Prop :=
  fst v = N.of_nat (length all) mod 2 ^ 16 /\ sset (snd v) /\ top_k k all (snd v).

Lemma count_step (all : list (N * N)) p : add16 (N.of_nat (length all) mod 2 ^ 16) 1 = N.of_nat (length (all ++ [p])) mod 2 ^ 16.
Proof.
  unfold add16. rewrite N.add_mod_idemp_l by discriminate. rewrite app_length. simpl length. f_equal. lia.
Qed.

Lemma update_best_ok k all v s c : (0 < k)%nat -> NoDup (all ++ [(s, c)]) -> all <> [] ->
  best_ok k all v -> best_ok k (all ++ [(s, c)]) (update_best k s c v).
Proof.
  intros Hk Hnd Hne [Hc [Hs [T1 [T2 [T3 T4]]]]]. destruct v as [cnt stc]. cbn [fst snd] in *.
  assert (Hnew : ~ In (s, c) all).
  { apply NoDup_remove_2 in Hnd. now rewrite app_nil_r in Hnd. }
  assert (Hnew' : ~ In (s, c) stc) by (intros C; apply Hnew; auto).
  assert (Hla : (0 < length all)%nat) by (destruct all; [easy|simpl; lia]).
  destruct stc as [|[low lc] stc'] eqn:E.
  { simpl in T3. lia. }
  unfold update_best. rewrite <- E in *.
  assert (Hlow : forall q, In q stc -> low <= fst q).
  { rewrite E. intros q [<-|Hq]; [simpl; lia|]. rewrite E in Hs. inversion Hs as [|? ? H1 H2]; subst.
    rewrite Forall_forall in H2. apply (pair_lt_fst (low, lc)). auto. }
  split; [cbn [fst]; rewrite Hc; apply count_step|]. cbn [snd]. rewrite E. rewrite <- E.
  destruct (Nat.ltb_spec (length stc) k) as [Hlt|Hge].
  - cbn [orb]. destruct (Nat.eqb_spec (length stc) k); [lia|].
    assert (Hall : incl all stc).
    { apply NoDup_length_incl; [exact T1|lia|exact T2]. }
    split; [now apply set_insert_sset|]. split; [|split; [|split]].
    + apply sset_nodup. now apply set_insert_sset.
    + intros q Hq. apply set_insert_in in Hq. rewrite in_app_iff. destruct Hq as [->|Hq]; simpl; auto.
    + rewrite set_insert_length by auto. rewrite app_length. simpl. lia.
    + intros q q' _ Hq' Hn. exfalso. apply Hn. apply set_insert_in. apply in_app_or in Hq'.
      destruct Hq' as [Hq'|[<-|[]]]; auto.
  - cbn [orb]. destruct (N.ltb_spec low s) as [Hls|Hls].
    + destruct (Nat.eqb_spec (length stc) k) as [El|]; [|lia].
      assert (Hs' : sset stc').
      { rewrite E in Hs. inversion Hs; auto. }
      assert (Hsub : forall q, In q stc' -> In q stc) by (rewrite E; simpl; auto).
      split; [now apply set_insert_sset|]. split; [|split; [|split]].
      * apply sset_nodup. now apply set_insert_sset.
      * intros q Hq. apply set_insert_in in Hq. rewrite in_app_iff. destruct Hq as [->|Hq]; simpl; auto.
      * rewrite set_insert_length by auto. rewrite app_length. rewrite E in El, T3. simpl in *. lia.
      * intros q q' Hq Hq' Hn. apply set_insert_in in Hq. rewrite set_insert_in in Hn.
        apply in_app_or in Hq'. destruct Hq' as [Hq'|[<-|[]]]; [|exfalso; apply Hn; auto].
        assert (Q : fst q' <= low).
        { destruct (in_dec (fun a b : N * N => ltac:(decide equality; apply N.eq_dec)) q' stc) as [Hin|Hin].
          - rewrite E in Hin. destruct Hin as [<-|Hin]; [simpl; lia|]. exfalso. auto.
          - apply (T4 (low, lc) q'); auto. rewrite E. simpl. auto. }
        destruct Hq as [->|Hq]; [simpl; lia|]. specialize (Hlow q (Hsub q Hq)). lia.
    + split; [exact Hs|]. split; [exact T1|]. split; [|split].
      * intros q Hq. apply in_or_app. auto.
      * rewrite app_length. simpl. lia.
      * intros q q' Hq Hq' Hn. apply in_app_or in Hq'. destruct Hq' as [Hq'|[<-|[]]]; [now apply T4|].
        specialize (Hlow q Hq). simpl. lia.
Qed.

Definition top_ok (all : list (N * N)) (v : N * (N * N)) : Prop :=
  fst v = N.of_nat (length all) mod 2 ^ 16 /\ top_k 1 all [(snd (snd v), fst (snd v))].

Lemma update_top_ok all v s c : NoDup (all ++ [(s, c)]) -> all <> [] ->
  top_ok all v -> top_ok (all ++ [(s, c)]) (update_top s c v).
Proof.
  intros Hnd Hne [Hc [T1 [T2 [T3 T4]]]]. destruct v as [cnt [c0 s0]]. cbn [fst snd] in *.
  unfold update_top. split; [cbn [fst]; rewrite Hc; apply count_step|]. cbn [snd].
  assert (Hnew : ~ In (s, c) all).
  { apply NoDup_remove_2 in Hnd. now rewrite app_nil_r in Hnd. }
  destruct (N.ltb_spec s0 s) as [Hl|Hl]; cbn [fst snd].
  - split; [repeat constructor; simpl; tauto|]. split; [|split].
    + intros q [<-|[]]. apply in_or_app. simpl. auto.
    + rewrite app_length. cbn [length]. lia.
    + intros q q' [<-|[]] Hq' Hn. apply in_app_or in Hq'. destruct Hq' as [Hq'|[<-|[]]]; [|exfalso; apply Hn; simpl; auto].
      cbn [fst]. destruct (in_dec (fun a b : N * N => ltac:(decide equality; apply N.eq_dec)) q' [(s0, c0)]) as [[<-|[]]|Hin];
        [simpl; lia|]. specialize (T4 (s0, c0) q' (or_introl eq_refl) Hq' Hin). cbn [fst] in T4. lia.
  - split; [repeat constructor; simpl; tauto|]. split; [|split].
    + intros q [<-|[]]. apply in_or_app. left. apply T2. simpl. auto.
    + rewrite app_length. cbn [length]. lia.
    + intros q q' [<-|[]] Hq' Hn. apply in_app_or in Hq'. destruct Hq' as [Hq'|[<-|[]]]; [|simpl; lia].
      apply (T4 (s0, c0) q'); simpl; auto.
Qed.

Lemma NoDup_app_parts {A} (a b : list A) : NoDup (a ++ b) -> NoDup a /\ NoDup b.
Proof.
  induction a as [|x a IH]; simpl; intros H; [split; [constructor|auto]|].
  inversion H as [|? ? H1 H2]; subst. destruct (IH H2). split; auto. constructor; auto.
  intros C. apply H1. apply in_or_app. auto.
Qed.

Section Map.
  Context {K : Type} (keqb : K -> K -> bool).
  Hypothesis Hkeq : forall a b, keqb a b = true <-> a = b.

  Definition occ_of (key : K) (occ : list (K * N * N)) : list (N * N) :=
    map (fun o => (snd (fst o), snd o)) (filter (fun o => keqb (fst (fst o)) key) occ).
  Definition fits {V} (P : list (N * N) -> V -> Prop) (occ : list (K * N * N)) (m : list (K * V)) : Prop :=
    NoDup (map fst m) /\
    (forall key v, In (key, v) m -> occ_of key occ <> [] /\ P (occ_of key occ) v) /\
    (forall key, occ_of key occ <> [] -> exists v, In (key, v) m).

  Lemma occ_of_app key occ o : occ_of key (occ ++ [o]) =
    occ_of key occ ++ if keqb (fst (fst o)) key then [(snd (fst o), snd o)] else [].
  Proof.
    unfold occ_of. rewrite filter_app, map_app. cbn [filter]. destruct (keqb (fst (fst o)) key); auto.
  Qed.
  Lemma keqb_refl a : keqb a a = true.
  Proof. now apply Hkeq. Qed.
  Lemma keqb_neq a b : a <> b -> keqb a b = false.
  Proof. destruct (keqb a b) eqn:E; auto. apply Hkeq in E. congruence. Qed.

  (* one more occurrence, for an update of an existing entry and a new entry *)
  Variables (V : Type) (P : list (N * N) -> V -> Prop) (upd : N -> N -> V -> V) (new : N -> N -> V).
  Fixpoint add_gen (key : K) (s c : N) (m : list (K * V)) : list (K * V) :=
    match m with
    | [] => [(key, new s c)]
    | (key', v) :: m' => if keqb key' key then (key', upd s c v) :: m' else (key', v) :: add_gen key s c m'
    end.
  Hypothesis Hupd : forall all v s c, NoDup (all ++ [(s, c)]) -> all <> [] -> P all v -> P (all ++ [(s, c)]) (upd s c v).
  Hypothesis Hnew : forall s c, P [(s, c)] (new s c).

  Lemma add_gen_keys key s c m : map fst (add_gen key s c m) =
    map fst m ++ (if existsb (fun e => keqb (fst e) key) m then [] else [key]).
  Proof.
    induction m as [|[key' v] m IH]; cbn [add_gen map existsb fst]; auto.
    destruct (keqb key' key) eqn:E; cbn [map fst orb].
    - now rewrite app_nil_r.
    - rewrite IH. reflexivity.
  Qed.
  Lemma add_gen_in key s c m : NoDup (map fst m) -> forall key' v',
    In (key', v') (add_gen key s c m) <->
    (key' <> key /\ In (key', v') m) \/
    (key' = key /\ ((exists v, In (key, v) m /\ v' = upd s c v) \/
                    (~ In key (map fst m) /\ v' = new s c))).
  Proof.
    induction m as [|[k0 v0] m IH]; intros Hnd key' v'; cbn [add_gen].
    - simpl. split.
      + intros [E|[]]. injection E as <- <-. right. split; auto.
      + intros [[_ []]|[-> [[v [[] _]]|[_ ->]]]]. auto.
    - inversion Hnd as [|? ? H1 H2]; subst. destruct (keqb k0 key) eqn:E.
      + apply Hkeq in E. subst k0. simpl. split.
        * intros [E|Hin].
          -- injection E as <- <-. right. split; auto. left. exists v0. auto.
          -- left. split; auto. intros ->. apply H1. now apply (in_map fst) in Hin.
        * intros [[Hne [E|Hin]]|[-> [[v [[E|Hin] ->]]|[Hn _]]]]; auto.
          -- injection E as -> ->. congruence.
          -- injection E as ->. auto.
          -- exfalso. apply H1. now apply (in_map fst) in Hin.
          -- exfalso. apply Hn. auto.
      + assert (Hne : k0 <> key) by (intros ->; rewrite keqb_refl in E; discriminate E).
        simpl. rewrite (IH H2). split.
        * intros [Q|[[Hk Hin]|[-> [[v [Hin ->]]|[Hn ->]]]]]; auto.
          -- injection Q as <- <-. left. auto.
          -- right. split; auto. left. exists v. auto.
          -- right. split; auto. right. split; auto. intros [Q|Q]; auto.
        * intros [[Hk [Q|Hin]]|[-> [[v [[Q|Hin] ->]]|[Hn ->]]]]; auto.
          -- injection Q as -> _. congruence.
          -- right. right. split; auto. left. exists v. auto.
          -- right. right. split; auto. right. split; auto.
  Qed.

  Lemma existsb_key key (m : list (K * V)) : existsb (fun e => keqb (fst e) key) m = true <-> In key (map fst m).
  Proof.
    rewrite existsb_exists, in_map_iff. split; intros [e [H1 H2]]; exists e; split; auto.
    - now apply Hkeq.
    - now apply Hkeq.
  Qed.

  Lemma add_gen_fits occ m key s c : fits P occ m -> NoDup (occ_of key (occ ++ [(key, s, c)])) ->
    fits P (occ ++ [(key, s, c)]) (add_gen key s c m).
  Proof.
    intros [F1 [F2 F3]] Hnd. rewrite occ_of_app in Hnd. cbn [fst snd] in Hnd. rewrite keqb_refl in Hnd.
    split; [|split].
    - rewrite add_gen_keys. destruct (existsb _ m) eqn:E; [now rewrite app_nil_r|].
      apply NoDup_app_intro; auto; [repeat constructor; simpl; tauto|].
      intros x Hx [<-|[]]. apply existsb_key in Hx. congruence.
    - intros key' v' Hin. apply (add_gen_in _ _ _ _ F1) in Hin. rewrite occ_of_app. cbn [fst snd].
      destruct Hin as [[Hne Hin]|[-> [[v [Hin ->]]|[Hn ->]]]].
      + rewrite keqb_neq by auto. rewrite app_nil_r. auto.
      + rewrite keqb_refl. destruct (F2 _ _ Hin) as [G1 G2]. split; [destruct (occ_of key occ); discriminate|].
        now apply Hupd.
      + rewrite keqb_refl. assert (E : occ_of key occ = []).
        { destruct (occ_of key occ) eqn:Eo; auto. exfalso. destruct (F3 key) as [v Hv]; [congruence|].
          apply Hn. now apply (in_map fst) in Hv. }
        rewrite E. split; [discriminate|]. apply Hnew.
    - intros key' Ho. rewrite occ_of_app in Ho. cbn [fst snd] in Ho.
      destruct (keqb key key') eqn:E.
      + apply Hkeq in E. subst key'. destruct (existsb (fun e => keqb (fst e) key) m) eqn:Q.
        * apply existsb_key in Q. apply in_map_iff in Q. destruct Q as [[k0 v0] [Q1 Q2]]. cbn [fst] in Q1. subst k0.
          exists (upd s c v0). apply (add_gen_in _ _ _ _ F1). right. split; auto. left. exists v0. auto.
        * exists (new s c). apply (add_gen_in _ _ _ _ F1). right. split; auto. right. split; auto.
          intros C. apply existsb_key in C. congruence.
      + rewrite app_nil_r in Ho. destruct (F3 key' Ho) as [v Hv]. exists v.
        apply (add_gen_in _ _ _ _ F1). left. split; auto. intros ->. rewrite keqb_refl in E. discriminate E.
  Qed.

  Definition all_gen (occ : list (K * N * N)) : list (K * V) :=
    fold_left (fun m o => let '(key, s, c) := o in add_gen key s c m) occ [].
  Lemma all_gen_fits occ : (forall key, NoDup (occ_of key occ)) -> fits P occ (all_gen occ).
  Proof.
    unfold all_gen.
    enough (G : forall o2 o1 m, fits P o1 m -> (forall key, NoDup (occ_of key (o1 ++ o2))) ->
      fits P (o1 ++ o2) (fold_left (fun m o => let '(key, s, c) := o in add_gen key s c m) o2 m)).
    { intros H. apply (G occ [] []); auto. repeat split; simpl; try constructor; try easy. }
    induction o2 as [|[[key s] c] o2 IH]; intros o1 m Hf Hnd; cbn [fold_left].
    - now rewrite app_nil_r.
    - change ((key, s, c) :: o2) with ([(key, s, c)] ++ o2) in *. rewrite app_assoc in *. apply IH; auto.
      apply add_gen_fits; auto. specialize (Hnd key).
      unfold occ_of in *. rewrite filter_app, map_app in Hnd.
      exact (proj1 (NoDup_app_parts _ _ Hnd)).
  Qed.
End Map.
