(* Proofs about TextOp_Model. *)
From Coq Require Import String List NArith Arith Lia Bool Permutation.
From Verif Require Import Std_Model Base ListAux Table_Spec Ops_Model Vars_Model Vars_Thm Fts_Model Fts_Spec Fts_Proof
  Fts_Proof6 Fts_Proof7 Fts_Thm TextOp_Spec TextOp_Model.
Import ListNotations.
Local Open Scope nat_scope.

(* ---------- the aggregation as a function of the occurrences of a key ---------- *)
Definition state (k : nat) (all : list (N * N)) : N * list (N * N) :=
  match all with
  | [] => (0%N, [])
  | p :: l => fold_left (fun v q => update_best k (fst q) (snd q) v) l (1%N, [p])
  end.
Lemma state_snoc k all p : all <> [] -> state k (all ++ [p]) = update_best k (fst p) (snd p) (state k all).
Proof.
  destruct all as [|q all]; [congruence|]. intros _. cbn [app state]. rewrite fold_left_app. reflexivity.
Qed.

Section Keys.
  Context {K : Type} (keqb : K -> K -> bool).
  Hypothesis Hkeq : forall a b, keqb a b = true <-> a = b.

  Lemma agg_fits k occ : (forall key, NoDup (occ_of keqb key occ)) ->
    fits keqb (fun all v => v = state k all) occ (agg_all keqb k occ).
  Proof.
    intros Hnd.
    assert (E : agg_all keqb k occ = all_gen keqb _ (update_best k) (fun s c => (1%N, [(s, c)])) occ).
    { apply fold_left_ext. intros m [[key s] c]. apply agg_add_gen. }
    rewrite E. apply all_gen_fits; auto.
    intros all v s c _ Ne ->. symmetry. apply (state_snoc k all (s, c)). exact Ne.
  Qed.

  (* the special case of one context per key gives the same entries *)
  Definition as_top (e : K * (N * list (N * N))) : K * (N * (N * N)) :=
    (fst e, (fst (snd e), match snd (snd e) with [] => (0%N, 0%N) | (s, c) :: _ => (c, s) end)).
  Definition single (e : K * (N * list (N * N))) : Prop := exists p, snd (snd e) = [p].
  Lemma update_single s c v : (exists p, snd v = [p]) ->
    (exists p, snd (update_best 1 s c v) = [p]) /\
    (fst (update_best 1 s c v), match snd (update_best 1 s c v) with [] => (0%N, 0%N) | (s, c) :: _ => (c, s) end) =
    update_top s c (fst v, match snd v with [] => (0%N, 0%N) | (s, c) :: _ => (c, s) end).
  Proof.
    destruct v as [cnt stc]. intros [[s0 c0] E]. cbn [snd] in E. subst stc. unfold update_best, update_top.
    cbn [fst snd length Nat.ltb Nat.leb orb Nat.eqb]. destruct (s0 <? s)%N; cbn [set_insert fst snd]; split; eauto.
  Qed.
  Lemma top_add_as key s c m : Forall single m ->
    Forall single (agg_add keqb 1 key s c m) /\
    map as_top (agg_add keqb 1 key s c m) = top_add keqb key s c (map as_top m).
  Proof.
    intros F. induction F as [|[key' v] m H F [IH1 IH2]]; cbn [agg_add map top_add].
    - split; [repeat constructor; eexists; reflexivity|reflexivity].
    - unfold as_top at 2. cbn [fst snd]. destruct (keqb key' key).
      + destruct (update_single s c v H) as [U1 U2]. split.
        * constructor; [exact U1|exact F].
        * cbn [map]. f_equal. unfold as_top. cbn [fst snd]. f_equal. exact U2.
      + split; [constructor; auto|]. cbn [map]. f_equal. exact IH2.
  Qed.
  Lemma top_all_as occ : Forall single (agg_all keqb 1 occ) /\ map as_top (agg_all keqb 1 occ) = top_all keqb occ.
  Proof.
    unfold agg_all, top_all. change (@nil (K * (N * (N * N)))) with (map as_top []).
    assert (F : Forall single []) by constructor. revert F. generalize (@nil (K * (N * list (N * N)))) as m.
    induction occ as [|[[key s] c] occ IH]; intros m F; cbn [fold_left]; [auto|].
    destruct (top_add_as key s c m F) as [T1 T2]. rewrite <- T2. now apply IH.
  Qed.
  Lemma top_rows_as {cols : N -> N -> K -> list (list N)} it : Forall single it ->
    top_rows cols (map as_top it) = agg_rows cols it.
  Proof.
    induction 1 as [|[key [cnt stc]] it [[s c] E] _ IH]; [reflexivity|]. cbn [snd] in E. subst stc.
    unfold top_rows, agg_rows in *. cbn [map flat_map as_top fst snd rev app]. rewrite IH, app_nil_r. reflexivity.
  Qed.

  (* the rows, up to their order *)
  Definition key_rows (cols : N -> N -> K -> list (list N)) (k : nat) (oc : K -> list (N * N)) (key : K) : list (list N) :=
    flat_map (fun sc => cols (snd sc) (fst (state k (oc key))) key) (rev (snd (state k (oc key)))).
  Lemma agg_rows_keys cols k occ it : (forall key, NoDup (occ_of keqb key occ)) -> Permutation (agg_all keqb k occ) it ->
    exists keys, NoDup keys /\ (forall key, In key keys <-> occ_of keqb key occ <> []) /\
      agg_rows cols it = flat_map (key_rows cols k (fun key => occ_of keqb key occ)) keys.
  Proof.
    intros Hnd P. destruct (fits_perm keqb _ _ _ _ P (agg_fits k occ Hnd)) as (F1 & F2 & F3).
    exists (map fst it). split; [exact F1|]. split.
    - intros key. rewrite in_map_iff. split.
      + intros [[key' v] [<- H]]. now apply F2 in H.
      + intros H. destruct (F3 key H) as [v Hv]. exists (key, v). auto.
    - clear F1 F3 P. unfold agg_rows. induction it as [|[key [cnt stc]] it IH]; [reflexivity|]. cbn [flat_map map fst].
      rewrite IH by (intros; apply F2; now right). f_equal.
      destruct (F2 key (cnt, stc) (or_introl eq_refl)) as [_ E]. unfold key_rows. now rewrite <- E.
  Qed.
  Lemma top_rows_keys cols occ it : (forall key, NoDup (occ_of keqb key occ)) -> Permutation (top_all keqb occ) it ->
    exists keys, NoDup keys /\ (forall key, In key keys <-> occ_of keqb key occ <> []) /\
      top_rows cols it = flat_map (key_rows cols 1 (fun key => occ_of keqb key occ)) keys.
  Proof.
    intros Hnd P. destruct (top_all_as occ) as [S1 S2]. rewrite <- S2 in P.
    apply Permutation_sym in P. apply Permutation_map_inv in P. destruct P as (it' & -> & P).
    rewrite top_rows_as; [apply agg_rows_keys; auto|].
    eapply Permutation_Forall; [exact P|exact S1].
  Qed.
End Keys.

(* ---------- the filter column moves to the front ---------- *)
Definition without {A} (i : nat) (l : list A) : list A := firstn i l ++ skipn (S i) l.
Definition to_front (i : nat) (l : list N) : list N := nth i l 0%N :: without i l.
Lemma nth_split {A} (d : A) l i : i < length l -> l = firstn i l ++ nth i l d :: skipn (S i) l.
Proof.
  revert i. induction l as [|x l IH]; intros [|i] H; cbn [length] in H; try lia; [reflexivity|].
  cbn [firstn nth app]. f_equal. change (skipn (S (S i)) (x :: l)) with (skipn (S i) l). apply IH. lia.
Qed.
Lemma to_front_perm i l : i < length l -> Permutation (to_front i l) l.
Proof.
  intros H. rewrite (nth_split 0%N l i H) at 2. unfold to_front, without. apply Permutation_middle.
Qed.
Lemma without_length {A} i (l : list A) : i < length l -> length (without i l) = length l - 1.
Proof. intros H. unfold without. rewrite app_length, firstn_length, skipn_length. lia. Qed.
Lemma app_inj_len {A} (a b c d : list A) : length a = length b -> a ++ c = b ++ d -> a = b /\ c = d.
Proof.
  revert b. induction a as [|x a IH]; intros [|y b] L E; cbn [length app] in *; try discriminate L; auto.
  injection L as L. injection E as -> E. destruct (IH b L E) as [-> ->]. auto.
Qed.
Lemma to_front_inj i l l' : i < length l -> length l = length l' -> to_front i l = to_front i l' -> l = l'.
Proof.
  intros H L E. unfold to_front, without in E. pose proof (f_equal (hd 0%N) E) as E1. pose proof (f_equal (@tl N) E) as E2.
  cbn [hd tl] in E1, E2. apply app_inj_len in E2.
  2:{ rewrite !firstn_length. lia. }
  destruct E2 as [E2 E3]. rewrite (nth_split 0%N l i H), (nth_split 0%N l' i) by lia. now rewrite E1, E2, E3.
Qed.
Lemma to_front_onto i e others : i <= length others ->
  to_front i (firstn i others ++ e :: skipn i others) = e :: others.
Proof.
  intros H. assert (L : length (firstn i others) = i) by (rewrite firstn_length; lia).
  unfold to_front, without. f_equal.
  - rewrite app_nth2 by lia. rewrite L, Nat.sub_diag. reflexivity.
  - rewrite firstn_app, L, Nat.sub_diag. cbn [firstn]. rewrite app_nil_r, firstn_firstn, Nat.min_id.
    rewrite skipn_app, L. rewrite skipn_all2 by lia. replace (S i - i) with 1 by lia. cbn [skipn app]. apply firstn_skipn.
Qed.

Lemma flat_map_map {A B C} (f : B -> list C) (g : A -> B) l : flat_map f (map g l) = flat_map (fun x => f (g x)) l.
Proof. induction l as [|x l IH]; cbn; auto. now rewrite IH. Qed.
Lemma map_flat_map {A B C} (f : B -> C) (g : A -> list B) l : map f (flat_map g l) = flat_map (fun x => map f (g x)) l.
Proof. induction l as [|x l IH]; cbn; auto. now rewrite map_app, IH. Qed.
Lemma flat_map_flat {A B C} (f : B -> list C) (g : A -> list B) l : flat_map f (flat_map g l) = flat_map (fun x => flat_map f (g x)) l.
Proof. induction l as [|x l IH]; cbn; auto. now rewrite flat_map_app, IH. Qed.
Lemma flat_map_filter {A B} (f : A -> list B) (p : A -> bool) l : (forall x, In x l -> p x = false -> f x = []) ->
  flat_map f (filter p l) = flat_map f l.
Proof.
  induction l as [|x l IH]; intros H; cbn [filter flat_map]; auto. destruct (p x) eqn:E; cbn [flat_map].
  - rewrite IH; auto. intros; apply H; simpl; auto.
  - rewrite (H x) by (simpl; auto). apply IH. intros; apply H; simpl; auto.
Qed.

Lemma flat_map_perm_in {A B} (f g : A -> list B) l : (forall x, In x l -> Permutation (f x) (g x)) ->
  Permutation (flat_map f l) (flat_map g l).
Proof.
  induction l as [|x l IH]; intros H; cbn [flat_map]; auto. apply Permutation_app; [apply H; simpl; auto|].
  apply IH. intros; apply H; simpl; auto.
Qed.

Section Join.
  Variables (oc : list N -> list (N * N)) (n i k fcol : nat) (F : table).
  Hypothesis Hi : i < n.
  Hypothesis Hoc : forall a b, Permutation a b -> oc a = oc b.
  Variables (keysT keysR : list (list N)).
  Hypothesis NT : NoDup keysT.
  Hypothesis NR : NoDup keysR.
  Hypothesis InT : forall key, In key keysT <-> length key = n /\ oc key <> [].
  Hypothesis InR : forall key, In key keysR <-> length key = n /\ oc key <> [] /\ in_filter F fcol (hd 0%N key) = true.

  Lemma keysR_perm : Permutation keysR (map (to_front i) (filter (fun key => in_filter F fcol (nth i key 0%N)) keysT)).
  Proof.
    apply NoDup_Permutation; auto.
    - assert (G : forall l, NoDup l -> (forall key, In key l -> length key = n) -> NoDup (map (to_front i) l)).
      { induction 1 as [|x l Hx Hn IH]; intros HL; cbn [map]; constructor.
        - rewrite in_map_iff. intros (y & E & Hy). apply Hx.
          replace x with y; auto. apply (to_front_inj i); auto.
          + rewrite HL by (simpl; auto). exact Hi.
          + rewrite !HL by (simpl; auto). reflexivity.
        - apply IH. intros; apply HL; simpl; auto. }
      apply G; [now apply NoDup_filter|]. intros key H. apply filter_In in H. now apply InT.
    - intros key. rewrite InR, in_map_iff. split.
      + intros (L & O & I). destruct key as [|e others]; [cbn in L; lia|]. cbn [length] in L. cbn [hd] in I.
        exists (firstn i others ++ e :: skipn i others).
        assert (T : to_front i (firstn i others ++ e :: skipn i others) = e :: others) by (apply to_front_onto; lia).
        assert (L2 : length (firstn i others ++ e :: skipn i others) = n).
        { rewrite app_length. cbn [length]. rewrite firstn_length, skipn_length. lia. }
        split; [exact T|]. apply filter_In. split.
        * apply InT. split; [exact L2|]. rewrite <- (Hoc (to_front i (firstn i others ++ e :: skipn i others))).
          -- now rewrite T.
          -- apply to_front_perm. lia.
        * pose proof (f_equal (hd 0%N) T) as T'. cbn [hd to_front] in T'. unfold to_front in T'. cbn [hd] in T'. now rewrite T'.
      + intros (key' & <- & H). apply filter_In in H. destruct H as [H1 H2]. apply InT in H1. destruct H1 as [L O].
        split; [|split; [|exact H2]].
        * rewrite <- L. apply Permutation_length. apply to_front_perm. lia.
        * rewrite (Hoc (to_front i key') key'); auto. apply to_front_perm. lia.
  Qed.

  Definition rowsT : table := flat_map (key_rows mult_var_cols k oc) keysT.
  Definition rowsR : table :=
    flat_map (key_rows (fun cid cnt key => map (fun r => cid :: cnt :: tl key ++ r) (filter_rows F fcol (hd 0%N key))) k oc) keysR.

  Lemma join_rows {X} (gR : row -> X) (gJ : row -> row -> X) :
    (forall c cnt key f, length key = n -> In f F -> nth fcol f 0%N = nth i key 0%N ->
       gR (c :: cnt :: without i key ++ f) = gJ (c :: cnt :: key) f) ->
    Permutation (map gR rowsR)
      (flat_map (fun t => map (gJ t) (filter (fun f => (nth fcol f 0 =? nth (2 + i) t 0)%N) F)) rowsT).
  Proof.
    intros HG. unfold rowsR, rowsT.
    etransitivity; [apply Permutation_map; apply Permutation_flat_map; exact keysR_perm|].
    rewrite flat_map_map, map_flat_map, flat_map_flat.
    rewrite flat_map_filter.
    2:{ intros key Hk E. unfold key_rows. cbn [hd to_front]. unfold to_front at 3. cbn [hd].
        assert (EF : filter_rows F fcol (nth i key 0%N) = []).
        { unfold filter_rows. apply filter_all_false. intros f Hf. unfold in_filter in E.
          destruct (nth fcol f 0 =? nth i key 0)%N eqn:Q; auto. exfalso.
          assert (X0 : existsb (fun r => (nth fcol r 0 =? nth i key 0)%N) F = true) by (apply existsb_exists; eauto).
          congruence. }
        rewrite EF. cbn [map]. induction (rev _) as [|sc l IH]; auto. }
    apply flat_map_perm_in. intros key Hk. apply InT in Hk. destruct Hk as [L O].
    unfold key_rows. rewrite (Hoc (to_front i key) key) by (apply to_front_perm; lia).
    rewrite map_flat_map, flat_map_flat. apply flat_map_perm_in. intros sc _.
    cbn [flat_map mult_var_cols]. unfold to_front. cbn [hd tl]. rewrite app_nil_r, map_map.
    change (nth (2 + i) (snd sc :: fst (state k (oc key)) :: key) 0%N) with (nth i key 0%N).
    unfold filter_rows. match goal with |- Permutation ?a ?b => assert (EQ : a = b); [|rewrite EQ; reflexivity] end. apply map_ext_in. intros f Hf. apply filter_In in Hf.
    destruct Hf as [H1 H2]. apply HG; auto. now apply N.eqb_eq.
  Qed.
End Join.

(* ---------- the two cases ---------- *)
Lemma forallb_perm {A} (p : A -> bool) a b : Permutation a b -> forallb p a = forallb p b.
Proof.
  induction 1 as [|x a b _ IH|x y a|a b c _ IH1 _ IH2]; cbn [forallb]; auto.
  - now rewrite IH.
  - now rewrite !andb_assoc, (andb_comm (p y)).
  - congruence.
Qed.

Section Postings.
  Variables (ps : list posting) (k n : nat).
  Hypothesis Hasc : ascending (map p_cid ps).
  Hypothesis Hone : one_per_context ps.

  (* the occurrences of a tuple *)
  Definition oc_one (key : list N) : list (N * N) :=
    match key with [e] => occ_of N.eqb e (occurrences ps) | _ => [] end.
  Definition oc_many (key : list N) : list (N * N) := if Nat.eqb (length key) n then tuple_contexts key ps else [].
  Lemma oc_one_perm a b : Permutation a b -> oc_one a = oc_one b.
  Proof.
    intros P. pose proof (Permutation_length P) as L. destruct a as [|x [|y a]], b as [|x' [|y' b]]; try discriminate L; auto.
    apply Permutation_length_1 in P. now subst.
  Qed.
  Lemma oc_many_perm a b : Permutation a b -> oc_many a = oc_many b.
  Proof.
    intros P. unfold oc_many. rewrite (Permutation_length P). destruct (Nat.eqb _ n); auto.
    unfold tuple_contexts. f_equal. apply filter_ext. intros c. now apply forallb_perm.
  Qed.

  Lemma nodup_wrap (l : list N) : NoDup l -> NoDup (map (fun e => [e]) l).
  Proof. intros H. apply FinFun.Injective_map_NoDup; auto. intros a b E. now injection E. Qed.

  Lemma one_rows res : aggScoresAndTakeTopKContexts ps k res ->
    exists keys, NoDup keys /\ (forall key, In key keys <-> length key = 1 /\ oc_one key <> []) /\
      res = flat_map (key_rows mult_var_cols k oc_one) keys.
  Proof.
    intros H.
    assert (Hnd : forall e, NoDup (occ_of N.eqb e (occurrences ps))) by (intros; now apply occurrences_nodup).
    assert (G : exists keys, NoDup keys /\ (forall key, In key keys <-> occ_of N.eqb key (occurrences ps) <> []) /\
      res = flat_map (key_rows one_var_cols k (fun key => occ_of N.eqb key (occurrences ps))) keys).
    { unfold aggScoresAndTakeTopKContexts in H. destruct (Nat.eqb_spec k 1) as [->|_]; destruct H as (it & P & ->).
      - apply (top_rows_keys N.eqb N.eqb_eq); auto.
      - apply (agg_rows_keys N.eqb N.eqb_eq); auto. }
    destruct G as (keys & G1 & G2 & ->). exists (map (fun e => [e]) keys). split; [now apply nodup_wrap|]. split.
    - intros key. rewrite in_map_iff. split.
      + intros (e & <- & He). split; auto. now apply G2.
      + intros [L O]. destruct key as [|e [|? ?]]; try discriminate L. exists e. split; auto. now apply G2.
    - rewrite flat_map_map. reflexivity.
  Qed.
  Lemma many_rows res : multVarsAggScoresAndTakeTopKContexts ps n k res ->
    exists keys, NoDup keys /\ (forall key, In key keys <-> length key = n /\ oc_many key <> []) /\
      res = flat_map (key_rows mult_var_cols k oc_many) keys.
  Proof.
    intros H. unfold multVarsAggScoresAndTakeTopKContexts in H. cbv zeta in H.
    set (occ := context_occurrences (fun ents => all_keys ents n) ps) in *.
    assert (Ho : forall key, occ_of list_eqb key occ = oc_many key) by (intros; now apply tuple_occ).
    assert (Hnd : forall key, NoDup (occ_of list_eqb key occ)).
    { intros key. rewrite Ho. unfold oc_many. destruct (Nat.eqb _ n); [|constructor]. apply scored_contexts_nodup. }
    assert (G : exists keys, NoDup keys /\ (forall key, In key keys <-> occ_of list_eqb key occ <> []) /\
      res = flat_map (key_rows mult_var_cols k (fun key => occ_of list_eqb key occ)) keys).
    { destruct (Nat.eqb_spec k 1) as [->|_]; destruct H as (it & P & ->).
      - apply (top_rows_keys list_eqb list_eqb_eq); auto.
      - apply (agg_rows_keys list_eqb list_eqb_eq); auto. }
    destruct G as (keys & G1 & G2 & ->). exists keys. split; [exact G1|]. split.
    - intros key. rewrite G2, Ho. split; [|tauto]. intros O. split; auto. unfold oc_many in O.
      destruct (Nat.eqb_spec (length key) n); auto. congruence.
    - apply flat_map_ext. intros key. unfold key_rows. now rewrite Ho.
  Qed.

  Variables (F : table) (fcol : nat).
  Notation filter_cols := (fun cid cnt key => map (fun r => cid :: cnt :: tl key ++ r) (filter_rows F fcol (hd 0%N key))).
  Lemma occ_filtered (p : N -> bool) e : occ_of N.eqb e (occurrences (filter (fun q => p (p_eid q)) ps)) =
    if p e then occ_of N.eqb e (occurrences ps) else [].
  Proof.
    rewrite !occ_of_occurrences. rewrite filter_twice. destruct (p e) eqn:E.
    - f_equal. apply filter_ext. intros q. destruct (N.eqb_spec (p_eid q) e) as [->|]; rewrite ?E, ?andb_false_r; auto.
    - rewrite filter_all_false; auto. intros q _. destruct (N.eqb_spec (p_eid q) e) as [->|]; rewrite ?E, ?andb_false_r; auto.
  Qed.
  Lemma filtered_rows (p : N -> bool) (cols : N -> N -> N -> list (list N)) res it :
    Permutation (agg_all N.eqb k (occurrences (filter (fun q => p (p_eid q)) ps))) it -> res = agg_rows cols it ->
    exists keys, NoDup keys /\ (forall key, In key keys <-> length key = 1 /\ oc_one key <> [] /\ p (hd 0%N key) = true) /\
      res = flat_map (key_rows (fun cid cnt key => cols cid cnt (hd 0%N key)) k oc_one) keys.
  Proof.
    intros P ->.
    assert (Hnd : forall e, NoDup (occ_of N.eqb e (occurrences (filter (fun q => p (p_eid q)) ps)))).
    { intros e. rewrite occ_filtered. destruct (p e); [|constructor]. now apply occurrences_nodup. }
    destruct (agg_rows_keys N.eqb N.eqb_eq cols k _ it Hnd P) as (keys & G1 & G2 & ->).
    assert (G3 : forall e, In e keys -> occ_of N.eqb e (occurrences (filter (fun q => p (p_eid q)) ps)) = oc_one [e] /\ p e = true).
    { intros e He. apply G2 in He. rewrite occ_filtered in *. destruct (p e); [auto|congruence]. }
    exists (map (fun e => [e]) keys). split; [now apply nodup_wrap|]. split.
    - intros key. rewrite in_map_iff. split.
      + intros (e & <- & He). destruct (G3 e He) as [E1 E2]. split; auto. split; auto.
        rewrite <- E1. now apply G2.
      + intros (L & O & I). destruct key as [|e [|? ?]]; try discriminate L. exists e. split; auto. apply G2.
        rewrite occ_filtered. cbn [hd] in I. rewrite I. exact O.
    - rewrite flat_map_map. apply flat_map_app_in. intros e He. destruct (G3 e He) as [E1 _]. unfold key_rows.
      cbn [hd]. now rewrite E1.
  Qed.

  Lemma one_filter_rows res : oneVarFilterMap ps F fcol k res ->
    exists keys, NoDup keys /\ (forall key, In key keys <-> length key = 1 /\ oc_one key <> [] /\ in_filter F fcol (hd 0%N key) = true) /\
      res = flat_map (key_rows filter_cols k oc_one) keys.
  Proof.
    intros (it & P & E). destruct (filtered_rows _ _ _ _ P E) as (keys & G1 & G2 & ->).
    exists keys. split; auto. split; auto. apply flat_map_app_in. intros key Hkey. apply G2 in Hkey. destruct Hkey as [L _].
    destruct key as [|e [|? ?]]; try discriminate L. reflexivity.
  Qed.

  (* a filter of one column without duplicates *)
  Lemma one_set_rows res : NoDup F -> Forall (fun f => length f = 1) F -> fcol = 0 ->
    oneVarFilterSet ps (map (fun f => nth 0 f 0%N) F) k res ->
    exists keys, NoDup keys /\ (forall key, In key keys <-> length key = 1 /\ oc_one key <> [] /\ in_filter F fcol (hd 0%N key) = true) /\
      res = flat_map (key_rows filter_cols k oc_one) keys.
  Proof.
    intros HN HW -> (it & P & E).
    destruct (filtered_rows (fun e => existsb (N.eqb e) (map (fun f => nth 0 f 0%N) F)) _ _ _ P E) as (keys & G1 & G2 & ->).
    assert (Q : forall e, existsb (N.eqb e) (map (fun f => nth 0 f 0%N) F) = in_filter F 0 e).
    { intros e. unfold in_filter. generalize F. intros F'. induction F' as [|f F' IH]; cbn [map existsb]; auto.
      rewrite IH. f_equal. apply N.eqb_sym. }
    exists keys. split; auto. split.
    - intros key. rewrite G2, Q. reflexivity.
    - apply flat_map_app_in. intros key Hkey. apply G2 in Hkey. destruct Hkey as (L & _ & I). rewrite Q in I.
      destruct key as [|e [|? ?]]; try discriminate L. cbn [hd] in I.
      assert (EF : filter_rows F 0 e = [[e]]).
      { clear - HN HW I. revert HN HW I. unfold filter_rows, in_filter. generalize F. intros F0 HN HW I. induction F0 as [|f F' IH]; cbn [existsb filter] in *; [discriminate I|].
        inversion HN as [|? ? N1 N2]; inversion HW as [|? ? W1 W2]; subst. destruct f as [|x [|? ?]]; try discriminate W1.
        cbn [nth] in *. destruct (N.eqb_spec x e) as [->|Hne].
        - f_equal. apply filter_all_false. intros f Hf. rewrite Forall_forall in W2. specialize (W2 f Hf).
          destruct f as [|y [|? ?]]; try discriminate W2. cbn [nth]. apply N.eqb_neq. intros ->. contradiction.
        - apply IH; auto. }
      unfold key_rows. apply flat_map_ext. intros sc. cbn [hd tl]. rewrite EF. reflexivity.
  Qed.

  Lemma many_filter_rows res : 0 < n -> multVarsFilterMap ps F fcol n k res ->
    exists keys, NoDup keys /\ (forall key, In key keys <-> length key = n /\ oc_many key <> [] /\ in_filter F fcol (hd 0%N key) = true) /\
      res = flat_map (key_rows filter_cols k oc_many) keys.
  Proof.
    intros Hn (it & P & ->). cbv zeta in P.
    set (fkeys := fun ents => filtered_keys (filter (in_filter F fcol) ents) ents n) in *.
    assert (Hocc : forall key, occ_of list_eqb key (context_occurrences fkeys ps) =
      if in_filter F fcol (hd 0%N key) then oc_many key else []).
    { intros key. rewrite occ_of_contexts; auto.
      2:{ intros c. apply filtered_keys_nodup; [apply NoDup_filter|]; now apply ctx_entities_nodup. }
      assert (E : forall c, existsb (list_eqb key) (fkeys (ctx_entities c ps)) =
         (Nat.eqb (length key) n && in_filter F fcol (hd 0%N key)) &&
         forallb (fun e => member e (ctx_entities c ps)) key).
      { intros c. apply eq_true_iff_eq.
        rewrite existsb_exists, !andb_true_iff, forallb_forall, Nat.eqb_eq. split.
        - intros [key' [H1 H2]]. apply list_eqb_eq in H2. subst key'. apply filtered_keys_in in H1; auto.
          destruct H1 as [H1 [H2 H3]]. apply filter_In in H2. destruct H2 as [H2 H4]. split; auto.
          intros x Hx. apply member_in. destruct key as [|y key]; [easy|]. destruct Hx as [<-|Hx]; auto.
        - intros [[H1 H2] H3]. exists key. split; [|now apply list_eqb_eq]. apply filtered_keys_in; auto.
          destruct key as [|y key]; [simpl in H1; lia|]. cbn [hd tl] in *. split; auto. split.
          + apply filter_In. split; auto. apply member_in. apply H3. simpl. auto.
          + intros x Hx. apply member_in. apply H3. simpl. auto. }
      unfold oc_many, tuple_contexts. destruct (Nat.eqb (length key) n), (in_filter F fcol (hd 0%N key)); cbn [andb] in E.
      - f_equal. apply filter_ext. intros c. now rewrite E.
      - now rewrite filter_all_false by auto.
      - now rewrite filter_all_false by auto.
      - now rewrite filter_all_false by auto. }
    assert (Hnd : forall key, NoDup (occ_of list_eqb key (context_occurrences fkeys ps))).
    { intros key. rewrite Hocc. unfold oc_many. destruct (in_filter F fcol (hd 0%N key)), (Nat.eqb (length key) n); try constructor. apply scored_contexts_nodup. }
    destruct (agg_rows_keys list_eqb list_eqb_eq filter_cols k _ it Hnd P) as (keys & G1 & G2 & ->).
    exists keys. split; auto. split.
    - intros key. rewrite G2, Hocc. unfold oc_many. destruct (in_filter F fcol (hd 0%N key)); [|intuition congruence].
      destruct (Nat.eqb_spec (length key) n); intuition.
    - apply flat_map_app_in. intros key Hkey. apply G2 in Hkey. rewrite Hocc in Hkey. unfold key_rows. rewrite Hocc.
      destruct (in_filter F fcol (hd 0%N key)); [reflexivity|congruence].
  Qed.
End Postings.
