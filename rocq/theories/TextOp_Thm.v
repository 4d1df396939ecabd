(* Property C76: text operations. *)
From Coq Require Import String List NArith Arith Lia Bool Permutation.
From Verif Require Import Std_Model Base ListAux Table_Spec Ops_Model Vars_Model Vars_Thm Fts_Model Fts_Spec Fts_Proof
  Fts_Proof6 Fts_Proof7 Fts_Thm TextOp_Spec TextOp_Model TextOp_Proof TextOp_Proof2.
Import ListNotations.
Local Open Scope nat_scope.

(* the tuples of entities of a text operation *)
Lemma text_rows o cs ps T : ascending (map p_cid ps) -> one_per_context ps ->
  0 < nof_vars o -> text_result o cs ps T ->
  exists oc keys, (oc = oc_one ps /\ nof_vars o = 1 \/ oc = oc_many ps (nof_vars o) /\ nof_vars o <> 1) /\ NoDup keys /\
    (forall key, In key keys <-> length key = nof_vars o /\ oc key <> []) /\
    T = flat_map (key_rows mult_var_cols (t_limit o) oc) keys.
Proof.
  intros Ha Ho Hn H. unfold text_result in H. destruct (nof_vars o) as [|[|n]] eqn:E; [lia| |].
  - destruct (one_rows ps (t_limit o) Ho T H) as (keys & K). exists (oc_one ps), keys. split; [left; auto|exact K].
  - destruct (many_rows ps (t_limit o) (S (S n)) Ha Ho T H) as (keys & K). exists (oc_many ps (S (S n))), keys.
    split; [right; auto|exact K].
Qed.
Lemma key_row_shape k oc keys n r : (forall key : list N, In key keys -> length key = n) ->
  In r (flat_map (key_rows mult_var_cols k oc) keys) ->
  exists key sc, In key keys /\ In sc (snd (state k (oc key))) /\ r = snd sc :: fst (state k (oc key)) :: key.
Proof.
  intros L H. apply in_flat_map in H. destruct H as (key & H1 & H2). unfold key_rows in H2. apply in_flat_map in H2.
  destruct H2 as (sc & H2 & [<-|[]]). apply in_rev in H2. exists key, sc. auto.
Qed.

(* A text operation whose other operand becomes its filter has the solutions of the join of the two, as a bag,
   if the filter has several columns, or if it has one column without duplicates and there is one entity
   variable. They share one variable and it is not the variable for the text record. Not covered: a filter of one
   column with duplicates or with several entity variables, and the variable of the text record; they are wrong,
   see below. *)
Theorem C76_text_filter_partial junk o cs ps fw fm F i fcol T res :
  text_ok o -> ascending (map p_cid ps) -> one_per_context ps ->
  describes fm fw -> Forall (fun f => length f = fw) F -> join_columns (text_columns o) fm = [(2 + i, fcol)] ->
  fw <> 1 \/ (nof_vars o = 1 /\ NoDup F) ->
  text_result o cs ps T -> text_filter_result junk o ps fw F fcol res ->
  exists R, res = Some R /\
    (forall r, In r R -> length r = text_filter_width o fw) /\
    forall vs, Permutation (solutions (text_filter_columns o fm) R vs) (joined (text_columns o) fm T F vs).
Proof.
  intros OK Ha Ho FM WF J Hw HT HR.
  pose proof (shared_index o OK fm i fcol J) as Hi.
  destruct (text_rows o cs ps T Ha Ho) as (oc & keysT & Hoc & NT & InT & ET); auto; [lia|].
  assert (Hp : forall a b, Permutation a b -> oc a = oc b).
  { destruct Hoc as [[-> _]|[-> _]]; [apply oc_one_perm|apply oc_many_perm]. }
  assert (Hf : fcol < fw).
  { destruct (shared_var o OK fm i fcol J) as (v & _ & V). eapply desc_lt; [exact FM|exact V]. }
  assert (G : exists R, res = Some R /\ (F = [] /\ R = [] \/ exists keysR, NoDup keysR /\
    (forall key, In key keysR <-> length key = nof_vars o /\ oc key <> [] /\ in_filter F fcol (hd 0%N key) = true) /\
    R = rowsR oc (t_limit o) fcol F keysR)).
  { unfold text_filter_result in HR. destruct (nof_vars o) as [|n] eqn:En; [lia|].
    destruct HR as (R & -> & HR). exists R. split; auto.
    destruct (Nat.eqb_spec fw 1) as [->|Hne].
    - destruct Hw as [Hw|[Hn HN]]; [congruence|]. assert (n = 0) by lia. subst n. cbv zeta in HR.
      assert (fcol = 0) by lia. destruct Hoc as [[-> _]|[_ Q]]; [|lia]. right.
      exact (one_set_rows ps (t_limit o) Ho F fcol R HN WF H HR).
    - destruct F as [|f0 F0] eqn:EF; [left; auto|]. rewrite <- EF in *. right. destruct n as [|n].
      + destruct Hoc as [[-> _]|[_ Q]]; [|lia]. exact (one_filter_rows ps (t_limit o) Ho F fcol R HR).
      + destruct Hoc as [[_ Q]|[-> _]]; [lia|]. exact (many_filter_rows ps (t_limit o) (S (S n)) Ha Ho F fcol R ltac:(lia) HR). }
  destruct G as (R & -> & G). exists R. split; [reflexivity|]. destruct G as [[-> ->]|(keysR & NR & InR & ->)].
  { split; [intros r []|]. intros vs. unfold joined. cbn [filter map]. generalize T. intros T'. induction T' as [|t T' IH]; cbn [flat_map app]; auto. }
  split.
  - intros r Hr. unfold rowsR in Hr. apply in_flat_map in Hr. destruct Hr as (key & H1 & H2). apply InR in H1. destruct H1 as (L & _).
    unfold key_rows in H2. apply in_flat_map in H2. destruct H2 as (sc & _ & H2). apply in_map_iff in H2. destruct H2 as (f & <- & H2).
    unfold filter_rows in H2. apply filter_In in H2. destruct H2 as [H2 _]. rewrite Forall_forall in WF. cbn [length].
    rewrite app_length, (WF f H2). destruct key as [|e key]; cbn [length tl] in *; [lia|]. unfold text_filter_width. lia.
  - intros vs. unfold solutions.
    etransitivity; [apply (join_rows oc (nof_vars o) i (t_limit o) fcol F Hi Hp keysT keysR NT NR InT InR
      (fun r => map (value_in (text_filter_columns o fm) r) vs)
      (fun t f => map (either (text_columns o) fm t f) vs))|].
    + intros c cnt key f L Hf' E. apply map_ext. intros x. apply (filter_value o OK fm fw i fcol FM J); auto.
      rewrite Forall_forall in WF. auto.
    + unfold joined, rowsT. rewrite <- ET. apply flat_map_perm_in. intros t Ht. rewrite ET in Ht.
      apply key_row_shape with (n := nof_vars o) in Ht; [|intros; now apply InT].
      destruct Ht as (key & sc & Hkey & _ & Et). apply InT in Hkey. destruct Hkey as [L _].
      match goal with |- Permutation ?a ?b => assert (EQ : a = b); [|rewrite EQ; reflexivity] end. f_equal.
      apply filter_ext_in. intros f Hf'. symmetry. apply (agree_column o OK fm fw i fcol FM J).
      * subst t. cbn [length]. lia.
      * rewrite Forall_forall in WF. auto.
Qed.
Print Assumptions C76_text_filter_partial.

(* Both operations have a result. *)
Theorem C76_some_result junk o cs ps fw F fcol : 0 < nof_vars o ->
  (exists T, text_result o cs ps T) /\ exists R, text_filter_result junk o ps fw F fcol (Some R).
Proof.
  intros Hn. unfold text_result, text_filter_result. destruct (nof_vars o) as [|[|n]]; [lia| |]; split.
  - unfold aggScoresAndTakeTopKContexts. destruct (Nat.eqb (t_limit o) 1); do 2 eexists; split; try apply Permutation_refl; reflexivity.
  - destruct (Nat.eqb fw 1); [|destruct F as [|f F]]; do 2 eexists; (split; [reflexivity|]); try reflexivity;
      eexists; (split; [apply Permutation_refl|reflexivity]).
  - unfold multVarsAggScoresAndTakeTopKContexts. destruct (Nat.eqb (t_limit o) 1); do 2 eexists; split; try apply Permutation_refl; reflexivity.
  - destruct (Nat.eqb fw 1); [|destruct F as [|f F]]; do 2 eexists; (split; [reflexivity|]); try reflexivity;
      eexists; (split; [apply Permutation_refl|reflexivity]).
Qed.
Print Assumptions C76_some_result.

(* The rows of a text operation bind the context variable to a context and the entity variables to entities
   of this context. *)
Lemma state_in k all sc : In sc (snd (state k all)) -> In sc all.
Proof.
  destruct all as [|p l]; [intros []|]. cbn [state]. change (p :: l) with ([p] ++ l).
  assert (G : forall l (v : N * list (N * N)) done, (forall x, In x (snd v) -> In x done) ->
    forall x, In x (snd (fold_left (fun v q => update_best k (fst q) (snd q) v) l v)) -> In x (done ++ l)).
  { clear. induction l as [|q l IH]; intros v done H x Hx; cbn [fold_left] in Hx; [rewrite app_nil_r; auto|].
    replace (done ++ q :: l) with ((done ++ [q]) ++ l) by (rewrite <- app_assoc; reflexivity).
    revert Hx. apply IH. intros y Hy. apply in_or_app. destruct v as [cnt stc]. cbn [snd] in H. unfold update_best in Hy. cbn [snd] in Hy.
    assert (Q : forall s, In y (set_insert (fst q, snd q) s) -> (forall z, In z s -> In z stc) -> In y done \/ In y [q]).
    { intros s Hs Hz. apply set_insert_in in Hs. destruct Hs as [->|Hs]; [right; left; now destruct q|left; auto]. }
    destruct stc as [|[low c0] stc'].
    - destruct (Nat.ltb 0 k); [|left; auto]. now apply (Q []).
    - destruct (_ || _); [|left; auto]. destruct (Nat.eqb _ k); apply Q in Hy; auto. intros z Hz. now right. }
  apply G. cbn [snd]. auto.
Qed.
Theorem C76_text_sound o cs ps T : text_ok o -> ascending (map p_cid ps) -> one_per_context ps -> 0 < nof_vars o ->
  text_result o cs ps T -> forall r, In r T ->
  exists c cnt key, r = c :: cnt :: key /\
    value_in (text_columns o) r (t_cvar o) = Some c /\
    value_in (text_columns o) r (score_name (t_cvar o)) = Some cnt /\
    map (value_in (text_columns o) r) (entity_vars o) = map Some key /\
    In c (map p_cid ps) /\ forall e, In e key -> In (c, e) (map (fun p => (p_cid p, p_eid p)) ps).
Proof.
  intros OK Ha Ho Hn H r Hr. destruct (text_rows o cs ps T Ha Ho Hn H) as (oc & keys & Hoc & _ & InT & ->).
  apply key_row_shape with (n := nof_vars o) in Hr; [|intros; now apply InT].
  destruct Hr as (key & sc & Hkey & Hsc & ->). apply InT in Hkey. destruct Hkey as [L _].
  apply state_in in Hsc. exists (snd sc), (fst (state (t_limit o) (oc key))), key. split; auto.
  rewrite !value_in_value, !text_value by auto. rewrite !String.eqb_refl. split; auto. split.
  { destruct (String.eqb_spec (t_cvar o) (score_name (t_cvar o))) as [E|]; auto. symmetry in E.
    now apply (score_other o OK) in E. }
  split.
  { rewrite (map_ext_in _ (fun v => zlook v (entity_vars o) key)).
    - pose proof (entity_nodup o OK) as ND. pose proof (entity_length o OK) as EL. rewrite <- L in EL. clear - ND EL.
      revert key EL. induction ND as [|v vs Hv ND IH]; intros [|e key] EL; try discriminate EL; [reflexivity|].
      cbn [map zlook]. rewrite String.eqb_refl. f_equal. rewrite <- IH by (cbn in EL; congruence). apply map_ext_in.
      intros x Hx. destruct (String.eqb_spec v x) as [->|]; [contradiction|reflexivity].
    - intros v Hv. rewrite value_in_value, text_value by auto. apply entity_in in Hv. destruct Hv as [Hv Hne].
      destruct (String.eqb_spec (t_cvar o) v); [congruence|].
      destruct (String.eqb_spec (score_name (t_cvar o)) v) as [E|]; auto. destruct OK as (_ & _ & C). elim C. now rewrite E. }
  destruct Hoc as [[-> E1]|[-> E1]].
  - rewrite E1 in L. destruct key as [|e [|? ?]]; try discriminate L. cbn [oc_one] in Hsc. rewrite occ_of_occurrences in Hsc.
    apply in_map_iff in Hsc. destruct Hsc as (p & <- & Hp). apply filter_In in Hp. destruct Hp as [Hp Ep]. apply N.eqb_eq in Ep.
    cbn [snd]. split; [now apply in_map|]. intros x [<-|[]]. apply in_map_iff. exists p. rewrite Ep. auto.
  - unfold oc_many in Hsc. rewrite L, Nat.eqb_refl in Hsc. unfold tuple_contexts in Hsc. apply in_map_iff in Hsc.
    destruct Hsc as (c & <- & Hc). apply filter_In in Hc. destruct Hc as [Hc Hall]. cbn [snd]. split.
    + unfold contexts in Hc. apply -> distinct_in in Hc. exact Hc.
    + rewrite forallb_forall in Hall. intros e He. apply Hall in He. apply member_in in He. unfold ctx_entities in He.
      apply in_map_iff in He. destruct He as (p & <- & Hp). apply filter_In in Hp. destruct Hp as [Hp Ep]. apply N.eqb_eq in Ep.
      apply in_map_iff. exists p. rewrite Ep. auto.
Qed.
Print Assumptions C76_text_sound.

(* Every context is found with all its tuples of entities unless it is cut off by the limit. *)
Lemma state_all k all : length all <= k -> forall sc, In sc all -> In sc (snd (state k all)).
Proof.
  destruct all as [|p l]; [intros _ sc []|]. cbn [state]. intros L.
  assert (G : forall l (v : N * list (N * N)), snd v <> [] -> length (snd v) + length l <= k ->
    forall x, In x (snd v) \/ In x l -> In x (snd (fold_left (fun v q => update_best k (fst q) (snd q) v) l v))).
  { clear. induction l as [|q l IH]; intros v Hne L x Hx; cbn [fold_left]; [now destruct Hx|].
    destruct v as [cnt stc]. cbn [snd] in *. destruct stc as [|[low c0] stc']; [congruence|].
    cbn [length] in L.
    assert (E : snd (update_best k (fst q) (snd q) (cnt, (low, c0) :: stc')) = set_insert (fst q, snd q) ((low, c0) :: stc')).
    { unfold update_best. cbn [snd length]. destruct (Nat.ltb_spec (S (length stc')) k); [|lia]. cbn [orb].
      destruct (Nat.eqb_spec (S (length stc')) k); [lia|reflexivity]. }
    assert (LE : forall pq s, length (set_insert pq s) <= S (length s)).
    { intros pq s. induction s as [|y s IHs]; cbn [set_insert length]; [lia|]. destruct (pair_ltb pq y); [cbn; lia|].
      destruct (pair_ltb y pq); cbn [length]; lia. }
    specialize (LE (fst q, snd q) ((low, c0) :: stc')).
    apply IH.
    - rewrite E. intros C. assert (I : In (fst q, snd q) []) by (rewrite <- C; apply set_insert_in; now left). destruct I.
    - rewrite E. cbn [length] in *. lia.
    - rewrite E. destruct Hx as [Hx|[<-|Hx]]; [left; apply set_insert_in; now right|left; apply set_insert_in; left; now destruct q|now right]. }
  intros sc H. apply G; cbn [snd length] in *; [discriminate|lia|]. destruct H as [<-|H]; [left; now left|now right].
Qed.
Lemma entity_few ps e : one_per_context ps -> length (occ_of N.eqb e (occurrences ps)) <= length (tuple_contexts [e] ps).
Proof.
  intros Ho. rewrite occ_of_occurrences. rewrite <- (map_length snd), <- (map_length snd (tuple_contexts [e] ps)).
  apply NoDup_incl_length.
  - rewrite map_map. cbn [snd]. unfold one_per_context in Ho. revert Ho. induction ps as [|p ps IH]; cbn [map filter]; intros H; [constructor|].
    inversion H as [|? ? H1 H2]; subst. destruct (N.eqb_spec (p_eid p) e) as [E|]; auto. cbn [map]. constructor; auto.
    rewrite in_map_iff. intros (q & Q1 & Q2). apply H1. apply filter_In in Q2. destruct Q2 as [Q2 Q3]. apply N.eqb_eq in Q3.
    apply in_map_iff. exists q. split; auto. congruence.
  - intros c Hc. rewrite map_map in Hc. apply in_map_iff in Hc. destruct Hc as (p & <- & Hp). apply filter_In in Hp. destruct Hp as [Hp E].
    apply N.eqb_eq in E. cbn [snd]. unfold tuple_contexts. rewrite map_map. cbn [snd]. rewrite map_id. apply filter_In. split.
    + unfold contexts. apply distinct_in. now apply in_map.
    + cbn [forallb]. rewrite andb_true_r. apply member_in. unfold ctx_entities. apply in_map_iff. exists p. split; auto.
      apply filter_In. split; auto. apply N.eqb_refl.
Qed.
Theorem C76_text_complete o cs ps T : ascending (map p_cid ps) -> one_per_context ps -> 0 < nof_vars o ->
  text_result o cs ps T -> forall c key, length key = nof_vars o ->
  (forall e, In e key -> In (c, e) (map (fun p => (p_cid p, p_eid p)) ps)) ->
  length (tuple_contexts key ps) <= t_limit o -> exists cnt, In (c :: cnt :: key) T.
Proof.
  intros Ha Ho Hn H c key L Hc Lim. destruct (text_rows o cs ps T Ha Ho Hn H) as (oc & keys & Hoc & _ & InT & ->).
  assert (G : exists s, In (s, c) (oc key) /\ length (oc key) <= t_limit o).
  { destruct Hoc as [[-> E1]|[-> E1]].
    - rewrite E1 in L. destruct key as [|e [|? ?]]; try discriminate L. cbn [oc_one].
      pose proof (entity_few ps e Ho). rewrite occ_of_occurrences in *.
      specialize (Hc e (or_introl eq_refl)). apply in_map_iff in Hc. destruct Hc as (p & E & Hp).
      exists (p_score p). split; [|lia]. apply in_map_iff. exists p. injection E as E2 E3. split; [now rewrite E2|].
      apply filter_In. split; auto. now apply N.eqb_eq.
    - unfold oc_many. rewrite L, Nat.eqb_refl. exists (ctx_score c ps). split; [|exact Lim].
      unfold tuple_contexts. apply in_map_iff. exists c. split; auto.
      assert (HE : forall e, In e key -> In e (ctx_entities c ps)).
      { intros e He. apply Hc in He. apply in_map_iff in He. destruct He as (p & E & Hp). injection E as E2 E3.
        unfold ctx_entities. apply in_map_iff. exists p. split; auto. apply filter_In. split; auto. now apply N.eqb_eq. }
      apply filter_In. split.
      + destruct key as [|e key]; [cbn in L; lia|]. specialize (Hc e (or_introl eq_refl)). apply in_map_iff in Hc.
        destruct Hc as (p & E & Hp). injection E as E2 E3. unfold contexts. apply distinct_in. rewrite <- E2. now apply in_map.
      + apply forallb_forall. intros e He. apply member_in. auto. }
  destruct G as (s & Hs & LL). exists (fst (state (t_limit o) (oc key))). apply in_flat_map. exists key. split.
  - apply InT. split; auto. intros E. rewrite E in Hs. destruct Hs.
  - unfold key_rows. apply in_flat_map. exists (s, c). split; [|now left]. apply -> in_rev. now apply state_all.
Qed.
Print Assumptions C76_text_complete.

(* ---------- examples ---------- *)
Definition ex_op : text_op := TextOp ["?t"; "?x"; "?y"]%string "?t" 2.
Definition ex_one : text_op := TextOp ["?t"; "?x"]%string "?t" 2.
Definition ex_ps : list posting := [(1, 5, 2); (1, 6, 2); (2, 6, 7); (3, 5, 4); (3, 6, 4); (4, 5, 9)]%N.
Definition ex_fm : var_map := [("?z", 0); ("?y", 1)]%string.
Definition ex_filter : table := [[100; 6]; [101; 5]; [102; 6]; [103; 9]]%N.
Lemma ex_op_ok : text_ok ex_op.
Proof.
  split; [repeat constructor; cbn; intuition discriminate|]. split; [now left|]. cbn. intuition discriminate.
Qed.
Lemma ex_one_ok : text_ok ex_one.
Proof.
  split; [repeat constructor; cbn; intuition discriminate|]. split; [now left|]. cbn. intuition discriminate.
Qed.
Lemma ex_postings : ascending (map p_cid ex_ps) /\ one_per_context ex_ps.
Proof.
  split.
  - unfold ascending. repeat constructor; discriminate.
  - unfold one_per_context. cbn. repeat constructor; cbn; intuition discriminate.
Qed.
Definition ex_text : table :=
  [[4; 3; 5; 5]; [3; 3; 5; 5]; [3; 2; 6; 5]; [1; 2; 6; 5]; [3; 2; 5; 6]; [1; 2; 5; 6]; [2; 3; 6; 6]; [3; 3; 6; 6]]%N.
Example C76_example : text_result ex_op [] ex_ps ex_text /\
  forall junk R, text_filter_result junk ex_op ex_ps 2 ex_filter 1 (Some R) ->
  Permutation (solutions (text_filter_columns ex_op ex_fm) R ["?t"; "?x"; "?y"; "?z"]%string)
    (map (map Some)
      [[4; 5; 5; 101]; [3; 5; 5; 101]; [3; 6; 5; 101]; [1; 6; 5; 101]; [3; 5; 6; 100]; [3; 5; 6; 102];
       [1; 5; 6; 100]; [1; 5; 6; 102]; [2; 6; 6; 100]; [2; 6; 6; 102]; [3; 6; 6; 100]; [3; 6; 6; 102]])%N.
Proof.
  assert (T : text_result ex_op [] ex_ps ex_text).
  { eexists. split; [apply Permutation_refl|]. vm_compute. reflexivity. }
  split; [exact T|]. intros junk R H. destruct ex_postings as [P1 P2].
  destruct (C76_text_filter_partial junk ex_op [] ex_ps 2 ex_fm ex_filter 1 1 ex_text (Some R)) as (R' & E & _ & S); auto.
  - exact ex_op_ok.
  - split; [|split]; repeat constructor; cbn; intuition discriminate.
  - repeat constructor.
  - injection E as <-. etransitivity; [apply S|]. vm_compute. apply Permutation_refl.
Qed.
(* a filter of one column without duplicates *)
Example C76_one_column : text_result ex_one [] ex_ps [[4; 3; 5]; [3; 3; 5]; [2; 3; 6]; [3; 3; 6]]%N /\
  forall junk R, text_filter_result junk ex_one ex_ps 1 [[7]; [6]]%N 0 (Some R) ->
  Permutation (solutions (text_filter_columns ex_one [("?x"%string, 0)]) R ["?x"; "?t"]%string)
    [[Some 6; Some 2]; [Some 6; Some 3]]%N.
Proof.
  assert (T : text_result ex_one [] ex_ps [[4; 3; 5]; [3; 3; 5]; [2; 3; 6]; [3; 3; 6]]%N).
  { eexists. split; [apply Permutation_refl|]. vm_compute. reflexivity. }
  split; [exact T|]. intros junk R H. destruct ex_postings as [P1 P2].
  destruct (C76_text_filter_partial junk ex_one [] ex_ps 1 [("?x"%string, 0)] [[7]; [6]]%N 0 0
    [[4; 3; 5]; [3; 3; 5]; [2; 3; 6]; [3; 3; 6]]%N (Some R)) as (R' & E & _ & S); [exact ex_one_ok|exact P1|exact P2| | |reflexivity| |exact T|exact H|].
  - split; [|split]; repeat constructor; cbn; tauto.
  - repeat constructor.
  - right. split; [reflexivity|]. constructor; [|constructor; [|constructor]]; cbn; intuition discriminate.
  - injection E as <-. etransitivity; [apply S|]. vm_compute. apply Permutation_refl.
Qed.

(* ---------- what does not hold ---------- *)

(* A filter of one column is made a set, so its duplicates are lost: the solutions of the text operation that
   match a value that occurs twice are returned once. *)
Theorem C76_duplicates_refuted : exists o ps fm F T, text_ok o /\ ascending (map p_cid ps) /\ one_per_context ps /\
  describes fm 1 /\ Forall (fun f => length f = 1) F /\ join_columns (text_columns o) fm = [(2, 0)] /\ nof_vars o = 1 /\
  text_result o [] ps T /\
  forall junk R, text_filter_result junk o ps 1 F 0 (Some R) ->
    ~ Permutation (solutions (text_filter_columns o fm) R ["?x"%string]) (joined (text_columns o) fm T F ["?x"%string]).
Proof.
  exists ex_one, [(1, 5, 2)]%N, [("?x"%string, 0)], [[5]; [5]]%N, [[1; 1; 5]]%N.
  split; [exact ex_one_ok|]. split; [repeat constructor|]. split; [repeat constructor; intros []|].
  split; [split; [|split]; repeat constructor; cbn; tauto|]. split; [repeat constructor|].
  split; [reflexivity|]. split; [reflexivity|].
  split; [eexists; split; [apply Permutation_refl|reflexivity]|].
  intros junk R (r & E & it & P & HR) Q. injection E as ->. apply Permutation_length in Q. revert Q.
  assert (Q : agg_all N.eqb 2 (occurrences (filter (fun p => existsb (N.eqb (p_eid p)) [5; 5]%N) [(1, 5, 2)]%N)) = [(5, (1, [(2, 1)]))]%N)
    by (vm_compute; reflexivity).
  cbn [t_limit ex_one map nth] in P. rewrite Q in P. apply Permutation_length_1_inv in P. subst it. subst r. vm_compute. discriminate.
Qed.

(* A filter of one column and several entity variables: one variable is read from a column that was never
   written, so different solutions get the same value for it, whatever the memory contained. *)
Theorem C76_one_column_refuted : exists o ps fm F T, text_ok o /\ ascending (map p_cid ps) /\ one_per_context ps /\
  describes fm 1 /\ Forall (fun f => length f = 1) F /\ NoDup F /\ join_columns (text_columns o) fm = [(2, 0)] /\ nof_vars o = 2 /\
  text_result o [] ps T /\
  forall junk R, text_filter_result junk o ps 1 F 0 (Some R) ->
    ~ Permutation (solutions (text_filter_columns o fm) R ["?y"%string]) (joined (text_columns o) fm T F ["?y"%string]).
Proof.
  exists ex_op, [(1, 5, 2); (1, 6, 2)]%N, [("?x"%string, 0)], [[5]]%N, [[1; 1; 5; 5]; [1; 1; 6; 5]; [1; 1; 5; 6]; [1; 1; 6; 6]]%N.
  split; [exact ex_op_ok|]. split; [repeat constructor; discriminate|].
  split; [unfold one_per_context; cbn; repeat constructor; cbn; intuition discriminate|].
  split; [split; [|split]; repeat constructor; cbn; tauto|]. split; [repeat constructor|]. split; [repeat constructor; tauto|].
  split; [reflexivity|]. split; [reflexivity|].
  split; [eexists; split; [apply Permutation_refl|reflexivity]|].
  intros junk R (r & E & it & P & HR) Q. injection E as ->. cbv zeta in P.
  cbn [t_limit ex_op map nth] in P.
  assert (A : forall e, In e it -> exists key cnt stc, e = (key, (cnt, stc)) /\ length key = 2).
  { intros e He. apply Permutation_sym in P. eapply Permutation_in in He; [|exact P]. vm_compute in He.
    destruct He as [<-|[<-|[]]]; do 3 eexists; split; reflexivity. }
  assert (V : forall row, In row (solutions (text_filter_columns ex_op [("?x"%string, 0)]) r ["?y"%string]) -> row = [Some junk]).
  { intros row Hrow. unfold solutions in Hrow. apply in_map_iff in Hrow. destruct Hrow as (rr & <- & Hr). subst r.
    unfold agg_rows in Hr. apply in_flat_map in Hr. destruct Hr as (e & He & Hr). destruct (A e He) as (key & cnt & stc & -> & L).
    apply in_flat_map in Hr. destruct Hr as (sc & _ & Hr). destruct key as [|a [|b [|? ?]]]; try discriminate L.
    destruct Hr as [<-|[]]. reflexivity. }
  assert (J : joined (text_columns ex_op) [("?x"%string, 0)] [[1; 1; 5; 5]; [1; 1; 6; 5]; [1; 1; 5; 6]; [1; 1; 6; 6]]%N [[5]]%N ["?y"%string]
    = [[Some 5]; [Some 6]]%N) by (vm_compute; reflexivity).
  rewrite J in Q. apply Permutation_sym in Q.
  assert (V5 := V [Some 5%N] (Permutation_in _ Q (or_introl eq_refl))).
  assert (V6 := V [Some 6%N] (Permutation_in _ Q (or_intror (or_introl eq_refl)))). congruence.
Qed.

(* If the variable of the text record is the shared variable, it is taken for an entity variable. The columns of
   the filter are then one too high: the last one is outside the result. *)
Theorem C76_context_variable_refuted o fm fw z : text_ok o -> describes fm fw -> var_find fm (t_cvar o) <> None ->
  (forall v, In v (entity_vars o) -> var_find fm v = None) -> var_find fm z = Some (fw - 1) ->
  var_find (text_filter_columns o fm) z = Some (text_filter_width o fw).
Proof.
  intros OK FM C Hv Hz. unfold text_filter_columns. rewrite add_columns_eq.
  - assert (E : filter (fun v => negb (String.eqb v (t_cvar o) || known fm v)) (t_vars o) = entity_vars o).
    { unfold entity_vars. apply filter_ext_in. intros v Hin. destruct (String.eqb_spec v (t_cvar o)) as [->|Hne]; [reflexivity|].
      unfold known. rewrite Hv; [reflexivity|]. now apply entity_in. }
    rewrite E, (entity_length o OK). cbn beta iota zeta.
    match goal with |- var_find (fold_left _ fm ?m) z = _ =>
      change (var_find (add_vars (fun c => Some (2 + nof_vars o + c)) m fm) z = Some (text_filter_width o fw)) end.
    rewrite find_add by apply FM. rewrite Hz. f_equal. unfold text_filter_width.
    assert (fw - 1 < fw) by (eapply desc_lt; [exact FM|exact Hz]). lia.
  - apply OK.
  - intros v Hin Ho. apply orb_false_iff in Ho. destruct Ho as [Ho _]. apply fresh_vars; auto. now apply String.eqb_neq.
Qed.
Example C76_context_variable_example : let fm := [("?t", 0); ("?z", 1)]%string in
  text_ok ex_one /\ describes fm 2 /\ var_find fm (t_cvar ex_one) <> None /\
  (forall v, In v (entity_vars ex_one) -> var_find fm v = None) /\ var_find fm "?z" = Some 1 /\
  join_columns (text_columns ex_one) fm = [(0, 0)].
Proof.
  split; [exact ex_one_ok|]. split; [split; [|split]; repeat constructor; cbn; intuition discriminate|].
  split; [discriminate|]. split; [|split; reflexivity]. intros v [<-|[]]. reflexivity.
Qed.

(* Words without entity variables cannot be joined through the variable of the text record: the operation
   with a filter throws. *)
Theorem C76_no_entities_refuted junk o ps fw F fcol res : nof_vars o = 0 ->
  text_filter_result junk o ps fw F fcol res -> res = None.
Proof. intros E H. unfold text_filter_result in H. now rewrite E in H. Qed.

Print Assumptions C76_duplicates_refuted.
Print Assumptions C76_one_column_refuted.
Print Assumptions C76_context_variable_refuted.
Print Assumptions C76_no_entities_refuted.
