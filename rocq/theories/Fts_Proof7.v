(* Proofs about Fts_Model: the rows of the aggregation, keys of several variables, contexts. *)
From Coq Require Import List NArith Arith Bool Lia ZifyBool ZifyN ZifyNat Sorted Permutation.
From Verif Require Import Std_Model Std_Proof Base ListAux Lex_Proof Fts_Model Fts_Spec Fts_Proof Fts_Proof6.
Import ListNotations.
Open Scope N_scope.

Lemma filter_twice {A} (p q : A -> bool) l : filter p (filter q l) = filter (fun x => q x && p x) l.
Proof.
  induction l as [|x l IH]; simpl; auto. destruct (q x) eqn:Q; simpl; rewrite ?Q, IH; auto.
Qed.

Section Rows.
  Context {K : Type} (keqb : K -> K -> bool).
  Hypothesis Hkeq : forall a b, keqb a b = true <-> a = b.

  Lemma best_new k s c : (0 < k)%nat -> best_ok k [(s, c)] (1, [(s, c)]).
  Proof.
    intros Hk. split; [reflexivity|]. split; [repeat constructor|]. cbn [snd]. split; [|split; [|split]].
    - repeat constructor. simpl. tauto.
    - auto.
    - cbn [length]. lia.
    - intros q q' _ H1 H2. contradiction.
  Qed.
  Lemma top_new s c : top_ok [(s, c)] (1, (c, s)).
  Proof.
    split; [reflexivity|]. cbn [fst snd]. split; [|split; [|split]].
    - repeat constructor. simpl. tauto.
    - auto.
    - reflexivity.
    - intros q q' _ H1 H2. contradiction.
  Qed.
  Lemma agg_add_gen k key s c m :
    agg_add keqb k key s c m = add_gen keqb _ (update_best k) (fun s c => (1, [(s, c)])) key s c m.
  Proof. induction m as [|[k' v] m IH]; cbn [agg_add add_gen]; auto; now rewrite IH. Qed.
  Lemma top_add_gen key s c m :
    top_add keqb key s c m = add_gen keqb _ update_top (fun s c => (1, (c, s))) key s c m.
  Proof. induction m as [|[k' v] m IH]; cbn [top_add add_gen]; auto; now rewrite IH. Qed.
  Lemma fold_left_ext {A B} (f g : A -> B -> A) l a : (forall a b, f a b = g a b) -> fold_left f l a = fold_left g l a.
  Proof. intros H. revert a. induction l; simpl; auto. intros. rewrite H. auto. Qed.

  Lemma agg_all_fits k occ : (0 < k)%nat -> (forall key, NoDup (occ_of keqb key occ)) ->
    fits keqb (best_ok k) occ (agg_all keqb k occ).
  Proof.
    intros Hk Hnd.
    assert (E : agg_all keqb k occ = all_gen keqb _ (update_best k) (fun s c => (1, [(s, c)])) occ).
    { apply fold_left_ext. intros m [[key s] c]. apply agg_add_gen. }
    rewrite E. apply all_gen_fits; auto.
    - intros. now apply update_best_ok.
    - intros. now apply best_new.
  Qed.
  Lemma top_all_fits occ : (forall key, NoDup (occ_of keqb key occ)) ->
    fits keqb top_ok occ (top_all keqb occ).
  Proof.
    intros Hnd.
    assert (E : top_all keqb occ = all_gen keqb _ update_top (fun s c => (1, (c, s))) occ).
    { apply fold_left_ext. intros m [[key s] c]. apply top_add_gen. }
    rewrite E. apply all_gen_fits; auto.
    - intros. now apply update_top_ok.
    - intros. now apply top_new.
  Qed.
  Lemma fits_perm {V} (P : list (N * N) -> V -> Prop) occ m m' : Permutation m m' -> fits keqb P occ m -> fits keqb P occ m'.
  Proof.
    intros Hp [F1 [F2 F3]]. split; [|split].
    - eapply Permutation_NoDup; [apply Permutation_map; exact Hp|auto].
    - intros key v Hin. apply F2. eapply Permutation_in; [symmetry; exact Hp|auto].
    - intros key Ho. destruct (F3 key Ho) as [v Hv]. exists v. eapply Permutation_in; eauto.
  Qed.

  (* the rows of one key *)
  Lemma rows_of_key {V} (f : K * V -> list (list N)) (sel : list N -> bool) key (it : list (K * V)) :
    NoDup (map fst it) ->
    (forall e r, In e it -> In r (f e) -> sel r = keqb (fst e) key) ->
    filter sel (flat_map f it) =
    match find (fun e => keqb (fst e) key) it with Some e => f e | None => [] end.
  Proof.
    induction it as [|e it IH]; intros Hnd Hsel; cbn [flat_map find]; auto.
    cbn [map] in Hnd. inversion Hnd as [|? ? H1 H2]; subst.
    rewrite filter_app. destruct (keqb (fst e) key) eqn:E.
    - rewrite filter_all_true by (intros r Hr; rewrite (Hsel e r); simpl; auto).
      rewrite filter_all_false; [now rewrite app_nil_r|].
      intros r Hr. apply in_flat_map in Hr. destruct Hr as [e' [He' Hr]].
      rewrite (Hsel e' r) by (simpl; auto). apply keqb_neq; auto. intros C. apply Hkeq in E. apply H1.
      rewrite E, <- C. now apply in_map.
    - rewrite filter_all_false by (intros r Hr; rewrite (Hsel e r); simpl; auto).
      apply IH; auto. intros e' r He' Hr. apply Hsel; simpl; auto.
  Qed.
  Lemma find_entry {V} (it : list (K * V)) key :
    match find (fun e => keqb (fst e) key) it with
    | Some e => In (key, snd e) it /\ e = (key, snd e)
    | None => forall v, ~ In (key, v) it
    end.
  Proof.
    destruct (find _ it) as [[k0 v0]|] eqn:E.
    - apply find_some in E. destruct E as [E1 E2]. cbn [fst] in E2. apply Hkeq in E2. subst. auto.
    - intros v Hv. pose proof (find_none _ _ E _ Hv) as Q. cbn [fst] in Q. rewrite keqb_refl in Q; [discriminate Q|auto].
  Qed.

  Lemma sset_rev_descending s : sset s -> descending (rev s).
  Proof.
    intros H. unfold descending. induction H as [|x s Hs IH Hx]; simpl; [constructor|].
    rewrite Forall_forall in Hx.
    assert (G : forall l, StronglySorted (fun a b : N * N => fst b < fst a \/ (fst b = fst a /\ snd b < snd a)) l ->
      (forall y, In y l -> pair_lt x y) ->
      StronglySorted (fun a b : N * N => fst b < fst a \/ (fst b = fst a /\ snd b < snd a)) (l ++ [x])).
    { clear. induction 1 as [|y l Hl IH Hy]; simpl; intros Hx; [repeat constructor|]. constructor; [now apply IH; auto|].
      rewrite Forall_forall in *. intros z Hz. apply in_app_or in Hz. destruct Hz as [Hz|[<-|[]]]; auto.
      specialize (Hx y (or_introl eq_refl)). unfold pair_lt, pair_ltb in Hx. lia. }
    apply G; auto. intros y Hy. apply in_rev in Hy. auto.
  Qed.
  Lemma top_k_rev k all best : top_k k all best -> top_k k all (rev best).
  Proof.
    intros [T1 [T2 [T3 T4]]]. split; [now apply NoDup_rev|]. split; [|split].
    - intros c Hc. apply T2. now apply in_rev.
    - now rewrite rev_length.
    - intros c c' Hc Hc' Hn. apply T4; auto; [now apply in_rev|]. intros C. apply Hn. now apply in_rev in C.
  Qed.

  Lemma agg_rows_key k occ it cols sel key : (0 < k)%nat ->
    (forall key, NoDup (occ_of keqb key occ)) ->
    Permutation (agg_all keqb k occ) it ->
    (forall key' cid cnt r, occ_of keqb key' occ <> [] -> In r (cols cid cnt key') -> sel r = keqb key' key) ->
    exists best, top_k k (occ_of keqb key occ) best /\ descending best /\
      filter sel (agg_rows cols it) =
      flat_map (fun sc => cols (snd sc) (count16 (occ_of keqb key occ)) key) best.
  Proof.
    intros Hk Hnd Hp Hsel. pose proof (fits_perm _ _ _ _ Hp (agg_all_fits k occ Hk Hnd)) as [F1 [F2 F3]].
    unfold agg_rows. rewrite (rows_of_key _ sel key it F1).
    2:{ intros [key' [cnt stc]] r He Hr. apply in_flat_map in Hr. destruct Hr as [sc [_ Hr]]. cbn [fst].
        apply (Hsel key' (snd sc) cnt); auto. now apply (F2 key' (cnt, stc)). }
    pose proof (find_entry it key) as Q. destruct (find _ it) as [e|].
    - destruct Q as [Q1 ->]. destruct (snd e) as [cnt stc]. destruct (F2 _ _ Q1) as [_ [B1 [B2 B3]]]. cbn [fst snd] in *.
      exists (rev stc). split; [now apply top_k_rev|]. split; [now apply sset_rev_descending|].
      rewrite B1. reflexivity.
    - assert (E : occ_of keqb key occ = []).
      { destruct (occ_of keqb key occ) eqn:Eo; auto. destruct (F3 key) as [v Hv]; [congruence|]. now apply Q in Hv. }
      exists []. rewrite E. split; [|split; [constructor|reflexivity]].
      split; [constructor|]. split; [auto|]. split; [simpl; lia|]. simpl. tauto.
  Qed.
  Lemma top_rows_key occ it cols sel key :
    (forall key, NoDup (occ_of keqb key occ)) ->
    Permutation (top_all keqb occ) it ->
    (forall key' cid cnt r, occ_of keqb key' occ <> [] -> In r (cols cid cnt key') -> sel r = keqb key' key) ->
    exists best, top_k 1 (occ_of keqb key occ) best /\ descending best /\
      filter sel (top_rows cols it) =
      flat_map (fun sc => cols (snd sc) (count16 (occ_of keqb key occ)) key) best.
  Proof.
    intros Hnd Hp Hsel. pose proof (fits_perm _ _ _ _ Hp (top_all_fits occ Hnd)) as [F1 [F2 F3]].
    unfold top_rows. rewrite (rows_of_key _ sel key it F1).
    2:{ intros [key' [cnt [c s]]] r He Hr. cbn [fst].
        apply (Hsel key' c cnt); auto. now apply (F2 key' (cnt, (c, s))). }
    pose proof (find_entry it key) as Q. destruct (find _ it) as [e|].
    - destruct Q as [Q1 ->]. destruct (snd e) as [cnt [c s]]. destruct (F2 _ _ Q1) as [_ [B1 B2]]. cbn [fst snd] in *.
      exists [(s, c)]. split; [auto|]. split; [repeat constructor|].
      rewrite B1. cbn [flat_map snd]. now rewrite app_nil_r.
    - assert (E : occ_of keqb key occ = []).
      { destruct (occ_of keqb key occ) eqn:Eo; auto. destruct (F3 key) as [v Hv]; [congruence|]. now apply Q in Hv. }
      exists []. rewrite E. split; [|split; [constructor|reflexivity]].
      split; [constructor|]. split; [auto|]. split; [simpl; lia|]. simpl. tauto.
  Qed.
  (* every row comes from a key that occurs *)
  Lemma agg_rows_from k occ it cols r : (0 < k)%nat -> (forall key, NoDup (occ_of keqb key occ)) ->
    Permutation (agg_all keqb k occ) it -> In r (agg_rows cols it) ->
    exists key cid cnt, occ_of keqb key occ <> [] /\ In r (cols cid cnt key).
  Proof.
    intros Hk Hnd Hp Hr. pose proof (fits_perm _ _ _ _ Hp (agg_all_fits k occ Hk Hnd)) as [F1 [F2 F3]].
    apply in_flat_map in Hr. destruct Hr as [[key [cnt stc]] [He Hr]]. apply in_flat_map in Hr.
    destruct Hr as [sc [_ Hr]]. exists key, (snd sc), cnt. split; auto. now apply (F2 key (cnt, stc)).
  Qed.
  Lemma top_rows_from occ it cols r : (forall key, NoDup (occ_of keqb key occ)) ->
    Permutation (top_all keqb occ) it -> In r (top_rows cols it) ->
    exists key cid cnt, occ_of keqb key occ <> [] /\ In r (cols cid cnt key).
  Proof.
    intros Hnd Hp Hr. pose proof (fits_perm _ _ _ _ Hp (top_all_fits occ Hnd)) as [F1 [F2 F3]].
    apply in_flat_map in Hr. destruct Hr as [[key [cnt [c s]]] [He Hr]].
    exists key, c, cnt. split; auto. now apply (F2 key (cnt, (c, s))).
  Qed.
End Rows.

(* one variable: the occurrences of an entity *)
Lemma occ_of_occurrences e ps : occ_of N.eqb e (occurrences ps) =
  map (fun p => (p_score p, p_cid p)) (filter (fun p => p_eid p =? e) ps).
Proof.
  unfold occ_of, occurrences. induction ps as [|p ps IH]; cbn [map filter fst snd]; auto.
  destruct (p_eid p =? e); cbn [map fst snd]; now rewrite IH.
Qed.
Lemma occurrences_nodup ps e : NoDup (map (fun p => (p_cid p, p_eid p)) ps) -> NoDup (occ_of N.eqb e (occurrences ps)).
Proof.
  rewrite occ_of_occurrences. induction ps as [|p ps IH]; cbn [map filter]; intros H; [constructor|].
  inversion H as [|? ? H1 H2]; subst. destruct (N.eqb_spec (p_eid p) e) as [E|E]; auto.
  cbn [map]. constructor; auto. intros C. apply H1. apply in_map_iff in C. destruct C as [q [C1 C2]].
  apply filter_In in C2. destruct C2 as [C2 C3]. apply in_map_iff. exists q. split; auto.
  injection C1 as _ C1. f_equal; auto. lia.
Qed.

(* keys of several variables *)
Lemma nth_key_length ents vars : forall j, length (nth_key ents vars j) = vars.
Proof. induction vars; simpl; auto. Qed.

Lemma nth_key_sound ents vars : forall j, (0 < length ents)%nat -> forall e, In e (nth_key ents vars j) -> In e ents.
Proof.
  induction vars; simpl; intros j Hm e; [tauto|]. intros [<-|H]; [|eapply IHvars; eauto].
  apply nth_In. apply Nat.mod_upper_bound. lia.
Qed.
Lemma nth_key_complete ents key : (forall e, In e key -> In e ents) ->
  exists j, (j < length ents ^ length key)%nat /\ nth_key ents (length key) j = key.
Proof.
  induction key as [|e key IH]; intros H.
  - exists 0%nat. simpl. split; auto.
  - destruct IH as [j [Hj Ej]]; [intros; apply H; simpl; auto|].
    destruct (In_nth ents e 0) as [i [Hi Ei]]; [apply H; simpl; auto|].
    exists (i + length ents * j)%nat. cbn [length nth_key Nat.pow]. split; [nia|].
    rewrite (Nat.mul_comm (length ents) j), Nat.mod_add, Nat.mod_small, Ei, Nat.div_add, (Nat.div_small i), Nat.add_0_l, Ej by lia.
    reflexivity.
Qed.
Lemma nth_key_inj ents vars : NoDup ents -> forall j j', (j < length ents ^ vars)%nat -> (j' < length ents ^ vars)%nat ->
  nth_key ents vars j = nth_key ents vars j' -> j = j'.
Proof.
  intros Hnd. induction vars as [|vars IH]; cbn [nth_key Nat.pow]; intros j j' Hj Hj' E; [lia|].
  injection E as E1 E2.
  assert (Hm : (length ents <> 0)%nat) by (intros C; rewrite C in Hj; lia).
  assert (M : (j mod length ents = j' mod length ents)%nat).
  { apply (proj1 (NoDup_nth ents 0) Hnd); auto; now apply Nat.mod_upper_bound. }
  assert (D : (j / length ents = j' / length ents)%nat).
  { apply IH; auto; apply Nat.div_lt_upper_bound; auto. }
  rewrite (Nat.div_mod j (length ents)), (Nat.div_mod j' (length ents)) by auto. congruence.
Qed.
Lemma nodup_map_seq {A} (f : nat -> A) n : (forall i j, (i < n)%nat -> (j < n)%nat -> f i = f j -> i = j) ->
  NoDup (map f (seq 0 n)).
Proof.
  intros H. induction n as [|n IH]; [constructor|]. rewrite seq_S, map_app. simpl. apply NoDup_app_intro.
  - apply IH. intros. apply H; auto; lia.
  - repeat constructor. simpl. tauto.
  - intros x Hx [<-|[]]. apply in_map_iff in Hx. destruct Hx as [i [E Hi]]. apply in_seq in Hi.
    apply H in E; lia.
Qed.
Lemma all_keys_nodup ents vars : NoDup ents -> NoDup (all_keys ents vars).
Proof. intros H. apply nodup_map_seq. intros. now apply (nth_key_inj ents vars). Qed.
Lemma all_keys_in ents vars key : In key (all_keys ents vars) <->
  length key = vars /\ forall e, In e key -> In e ents.
Proof.
  unfold all_keys. rewrite in_map_iff. split.
  - intros [j [<- Hj]]. apply in_seq in Hj. split; [apply nth_key_length|].
    destruct vars; [simpl; tauto|]. apply nth_key_sound.
    destruct (length ents) eqn:E; [|lia]. rewrite Nat.pow_0_l in Hj by lia. lia.
  - intros [<- H]. destruct (nth_key_complete ents key H) as [j [Hj Ej]]. exists j. split; auto.
    apply in_seq. lia.
Qed.

Lemma filtered_keys_nodup fents ents vars : NoDup fents -> NoDup ents -> NoDup (filtered_keys fents ents vars).
Proof.
  intros Hf He. unfold filtered_keys. destruct fents as [|f0 fents'] eqn:E; [constructor|]. rewrite <- E in *.
  assert (Hm : (length fents <> 0)%nat) by (rewrite E; discriminate). clear E f0 fents'.
  apply nodup_map_seq. intros j j' Hj Hj' Q. unfold filtered_key in Q. injection Q as E1 E2.
  assert (M : (j mod length fents = j' mod length fents)%nat).
  { apply (proj1 (NoDup_nth fents 0) Hf); auto; now apply Nat.mod_upper_bound. }
  assert (D : (j / length fents = j' / length fents)%nat).
  { apply (nth_key_inj ents (vars - 1)); auto; apply Nat.div_lt_upper_bound; auto. }
  rewrite (Nat.div_mod j (length fents)), (Nat.div_mod j' (length fents)) by auto. congruence.
Qed.
Lemma filtered_keys_in fents ents vars key : (0 < vars)%nat -> In key (filtered_keys fents ents vars) <->
  length key = vars /\ In (hd 0 key) fents /\ forall e, In e (tl key) -> In e ents.
Proof.
  intros Hv. unfold filtered_keys. destruct fents as [|f0 fents'] eqn:E.
  { simpl. tauto. }
  rewrite <- E in *. assert (Hm : (length fents <> 0)%nat) by (rewrite E; discriminate). clear E f0 fents'.
  rewrite in_map_iff. unfold filtered_key. split.
  - intros [j [<- Hj]]. apply in_seq in Hj. cbn [length hd tl]. rewrite nth_key_length. split; [lia|].
    split; [apply nth_In; now apply Nat.mod_upper_bound|].
    destruct (vars - 1)%nat eqn:E; [simpl; tauto|]. apply nth_key_sound.
    destruct (length ents) eqn:E2; [|lia]. rewrite Nat.pow_0_l in Hj by lia. lia.
  - intros [Hl [Hf He]]. destruct key as [|e key]; [simpl in Hl; lia|]. cbn [hd tl length] in *.
    destruct (nth_key_complete ents key He) as [j [Hj Ej]].
    destruct (In_nth fents e 0 Hf) as [i [Hi Ei]].
    exists (i + j * length fents)%nat. replace (vars - 1)%nat with (length key) by lia.
    rewrite Nat.mod_add, Nat.mod_small, Ei, Nat.div_add, (Nat.div_small i), Nat.add_0_l, Ej by lia. split; auto.
    apply in_seq. nia.
Qed.

(* contexts *)

Lemma distinct_nodup l : NoDup (distinct l).
Proof.
  induction l as [|x l IH]; simpl; constructor; [|now apply NoDup_filter].
  rewrite filter_In. lia.
Qed.
Lemma distinct_in l x : In x (distinct l) <-> In x l.
Proof.
  induction l as [|y l IH]; simpl; [tauto|]. rewrite filter_In, IH.
  destruct (N.eqb_spec x y); simpl; intuition congruence.
Qed.
Lemma flat_map_app_in {A B} (f g : A -> list B) l : (forall x, In x l -> f x = g x) -> flat_map f l = flat_map g l.
Proof. intros H. induction l; simpl; auto. rewrite H, IHl; simpl; auto. intros. apply H; simpl; auto. Qed.

Lemma context_loop_eq keys ps : forall cur cs ents, ascending (map p_cid ps) -> (forall p, In p ps -> cur <= p_cid p) ->
  context_loop keys cur cs ents ps =
  map (fun key => (key, cs, cur)) (keys (ents ++ ctx_entities cur ps)) ++
  flat_map (fun c => map (fun key => (key, ctx_score c ps, c)) (keys (ctx_entities c ps)))
           (filter (fun c => negb (c =? cur)) (contexts ps)).
Proof.
  induction ps as [|p ps IH]; intros cur cs ents Hasc Hge; cbn [context_loop].
  - simpl. rewrite app_nil_r. unfold ctx_entities. simpl. now rewrite !app_nil_r.
  - cbn [map] in Hasc. inversion Hasc as [|? ? A1 A2]; subst. rewrite Forall_forall in A2.
    assert (A3 : forall q, In q ps -> p_cid p <= p_cid q) by (intros; apply A2; now apply in_map).
    assert (Hext : forall c, c <> p_cid p -> ctx_entities c (p :: ps) = ctx_entities c ps /\ ctx_score c (p :: ps) = ctx_score c ps).
    { intros c Hc. unfold ctx_entities, ctx_score. cbn [filter]. destruct (N.eqb_spec (p_cid p) c); [congruence|]. auto. }
    unfold contexts in *. cbn [map distinct filter].
    destruct (N.eqb_spec (p_cid p) cur) as [E|E]; cbn [negb].
    + rewrite IH; auto; [|intros q Hq; specialize (A3 q Hq); lia].
      assert (E2 : ctx_entities cur (p :: ps) = p_eid p :: ctx_entities cur ps).
      { unfold ctx_entities. cbn [filter]. rewrite E, N.eqb_refl. reflexivity. }
      rewrite E2, <- app_assoc. cbn [app]. f_equal. rewrite E.
      rewrite filter_twice.
      rewrite (filter_ext_In (fun c => negb (c =? cur) && negb (c =? cur)) (fun c => negb (c =? cur))
                    (distinct (map p_cid ps))) by (intros; lia).
      apply flat_map_app_in. intros c Hc. apply filter_In in Hc. destruct Hc as [_ Hc].
      destruct (Hext c) as [X1 X2]; [lia|]. now rewrite X1, X2.
    + assert (Hgt : cur < p_cid p) by (specialize (Hge p (or_introl eq_refl)); lia).
      assert (E2 : ctx_entities cur (p :: ps) = []).
      { unfold ctx_entities. rewrite filter_all_false; auto. intros q [<-|Hq]; [|specialize (A3 q Hq)]; lia. }
      rewrite E2, app_nil_r. f_equal. rewrite IH; auto.
      cbn [flat_map]. f_equal.
      * unfold ctx_score, ctx_entities. cbn [filter]. rewrite N.eqb_refl. cbn [map hd app]. reflexivity.
      * rewrite filter_twice.
        rewrite (filter_ext_In (fun c => negb (c =? p_cid p) && negb (c =? cur)) (fun c => negb (c =? p_cid p))).
        -- apply flat_map_app_in. intros c Hc. apply filter_In in Hc. destruct Hc as [_ Hc].
           destruct (Hext c) as [X1 X2]; [lia|]. now rewrite X1, X2.
        -- intros c Hc. apply (proj1 (distinct_in _ _)) in Hc. apply in_map_iff in Hc. destruct Hc as [q [<- Hq]].
           specialize (A3 q Hq). lia.
Qed.

Lemma context_occurrences_eq keys ps : ascending (map p_cid ps) ->
  context_occurrences keys ps =
  flat_map (fun c => map (fun key => (key, ctx_score c ps, c)) (keys (ctx_entities c ps))) (contexts ps).
Proof.
  destruct ps as [|p ps]; [reflexivity|]. intros Hasc. unfold context_occurrences.
  rewrite context_loop_eq; auto.
  2:{ cbn [map] in Hasc. inversion Hasc as [|? ? A1 A2]; subst. rewrite Forall_forall in A2.
      intros q [<-|Hq]; [lia|]. apply A2. now apply in_map. }
  unfold contexts. cbn [map distinct flat_map filter]. rewrite N.eqb_refl. cbn [negb app]. f_equal.
  - unfold ctx_score. cbn [filter]. rewrite N.eqb_refl. reflexivity.
  - rewrite filter_twice. f_equal. apply filter_ext. intros. lia.
Qed.
Lemma list_eqb_eq a : forall b, list_eqb a b = true <-> a = b.
Proof.
  induction a as [|x a IH]; intros [|y b]; cbn [list_eqb]; try easy.
  rewrite andb_true_iff, N.eqb_eq, IH. split; [intros [-> ->]; auto|intros Q; injection Q; auto].
Qed.
Lemma occ_of_flat key (f : N -> list (list N * N * N)) l :
  occ_of list_eqb key (flat_map f l) = flat_map (fun c => occ_of list_eqb key (f c)) l.
Proof.
  unfold occ_of. induction l as [|c l IH]; cbn [flat_map]; auto. rewrite filter_app, map_app, IH. reflexivity.
Qed.
Lemma occ_of_keys key s c ks : NoDup ks ->
  occ_of list_eqb key (map (fun key => (key, s, c)) ks) = if existsb (list_eqb key) ks then [(s, c)] else [].
Proof.
  unfold occ_of. induction 1 as [|x ks Hx Hn IH]; cbn [map filter existsb fst]; auto.
  destruct (list_eqb x key) eqn:E.
  - apply list_eqb_eq in E. subst x. rewrite (proj2 (list_eqb_eq key key) eq_refl). cbn [orb map fst snd]. rewrite IH.
    destruct (existsb (list_eqb key) ks) eqn:Q; auto. apply existsb_exists in Q. destruct Q as [y [Q1 Q2]].
    apply list_eqb_eq in Q2. subst. contradiction.
  - destruct (list_eqb key x) eqn:E2; [apply list_eqb_eq in E2; subst x; rewrite (proj2 (list_eqb_eq key key) eq_refl) in E; discriminate E|].
    cbn [orb]. exact IH.
Qed.
Lemma flat_map_if {A B} (f : A -> B) (t : A -> bool) l :
  flat_map (fun c => if t c then [f c] else []) l = map f (filter t l).
Proof. induction l as [|x l IH]; simpl; auto. rewrite IH. destruct (t x); auto. Qed.
Lemma occ_of_contexts keys ps key : ascending (map p_cid ps) ->
  (forall c, NoDup (keys (ctx_entities c ps))) ->
  occ_of list_eqb key (context_occurrences keys ps) =
  map (fun c => (ctx_score c ps, c)) (filter (fun c => existsb (list_eqb key) (keys (ctx_entities c ps))) (contexts ps)).
Proof.
  intros Hasc Hnd. rewrite context_occurrences_eq by auto. rewrite occ_of_flat.
  rewrite <- flat_map_if. apply flat_map_app_in. intros c _. now apply occ_of_keys.
Qed.
Lemma ctx_entities_nodup c ps : NoDup (map (fun p => (p_cid p, p_eid p)) ps) -> NoDup (ctx_entities c ps).
Proof.
  unfold ctx_entities. induction ps as [|p ps IH]; cbn [map filter]; intros H; [constructor|].
  inversion H as [|? ? H1 H2]; subst. destruct (N.eqb_spec (p_cid p) c) as [E|E]; auto.
  cbn [map]. constructor; auto. intros C. apply H1. apply in_map_iff in C. destruct C as [q [C1 C2]].
  apply filter_In in C2. destruct C2 as [C2 C3]. apply in_map_iff. exists q. split; auto.
  f_equal; auto. lia.
Qed.
Lemma scored_contexts_nodup ps t : NoDup (map (fun c => (ctx_score c ps, c)) (filter t (contexts ps))).
Proof.
  apply (NoDup_map_inv snd). rewrite map_map. cbn [snd]. rewrite map_id. apply NoDup_filter. apply distinct_nodup.
Qed.
