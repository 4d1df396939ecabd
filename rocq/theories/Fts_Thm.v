(* Properties C04, C05 and C06: text search. *)
From Coq Require Import List NArith Arith Bool Lia ZifyBool ZifyN ZifyNat Sorted Permutation.
From Verif Require Import Std_Model Std_Proof Base ListAux Lex_Proof Fts_Model Fts_Spec Fts_Proof Fts_Proof2
  Fts_Proof3 Fts_Proof4 Fts_Proof5 Fts_Proof6 Fts_Proof7.
Import ListNotations.
Open Scope N_scope.

(* ---- C05: filtering by a range of words ---- *)

Theorem C05_filter_by_range first last block :
  filterByRange first last block =
  map (fun p => (p_cid p, p_score p))
      (filter (fun p => (first <=? p_eid p) && (p_eid p <=? last)) block).
Proof. unfold filterByRange. now rewrite filter_range_loop_eq. Qed.

Example filter_by_range_example :
  filterByRange 3 5 [(0, 3, 10); (0, 6, 11); (2, 5, 12); (4, 2, 13); (4, 4, 14)] =
  [(0, 10); (2, 12); (4, 14)].
Proof. reflexivity. Qed.

(* ---- C04: contexts with all words ---- *)

(* One context list and a block of entity postings: the postings of the matching contexts. *)
Theorem C04_intersect m e : ascending m -> ascending (map p_cid e) ->
  intersect [] m e = Ok (filter (fun p => member (p_cid p) m) e).
Proof.
  intros Hm He.
  destruct m as [|x m']; [simpl; rewrite filter_all_false; auto|].
  destruct e as [|p e']; [reflexivity|].
  apply intersect_eq; auto; try discriminate. clear Hm.
  remember (p :: e') as e. clear Heqe p e'. induction e as [|p e IH]; [constructor|].
  cbn [map] in He. inversion He as [|? ? H1 H2]; subst. constructor; [now apply IH|].
  rewrite Forall_forall in *. intros q Hq. apply H2. now apply in_map.
Qed.

Example intersect_example :
  intersect [] [1; 4; 4; 7] [(0, 3, 1); (1, 5, 2); (1, 6, 3); (4, 2, 9); (8, 1, 1)] =
  Ok [(1, 5, 2); (1, 6, 3); (4, 2, 9)].
Proof. reflexivity. Qed.

(* The result vectors of intersect are not cleared when nothing can match. *)
Theorem C04_intersect_keeps_old_refuted : exists old m e,
  ascending m /\ ascending (map p_cid e) /\
  intersect old m e <> Ok (filter (fun p => member (p_cid p) m) e).
Proof.
  exists [(1, 2, 3)], [], [(1, 5, 2)]. repeat split; try (repeat constructor). vm_compute. discriminate.
Qed.

(* Two context lists. In the i-th posting of context x the i-th scores of x are added. *)
Theorem C04_two_lists c1 s1 c2 s2 : ascending c1 -> ascending c2 ->
  length s1 = length c1 -> length s2 = length c2 ->
  exists out, intersectTwoPostingLists [] c1 s1 c2 s2 = Ok out /\ ascending (map fst out) /\
    forall x, map snd (filter (fun p => fst p =? x) out) =
              zip_add (scores_of x c1 s1) (scores_of x c2 s2).
Proof.
  intros A1 A2 H1 H2.
  assert (N1 : forall x, scores_of x [] s1 = []) by reflexivity.
  assert (N2 : forall x, scores_of x [] s2 = []) by reflexivity.
  destruct c1 as [|x1 c1'] eqn:E1.
  { exists []. split; [reflexivity|]. split; [constructor|]. intros x. reflexivity. }
  destruct c2 as [|x2 c2'] eqn:E2.
  { exists []. split; [reflexivity|]. split; [constructor|]. intros x. rewrite (N2 x).
    destruct (scores_of x (x1 :: c1') s1); reflexivity. }
  rewrite <- E1, <- E2 in *.
  destruct (two_loop_eq s1 s2 (length c1 + length c2) c1 c2 0 0 [] A1 A2) as [d [Hd [T1 [T2 T3]]]];
    [simpl; congruence|simpl; congruence|lia|].
  exists d. split; [|split; auto; exact T1].
  unfold intersectTwoPostingLists. rewrite E1, E2. rewrite <- E1, <- E2. exact Hd.
Qed.

(* With one posting per context the result is the common contexts with the sums of scores. *)
Theorem C04_two_lists_distinct c1 s1 c2 s2 : strictly_ascending c1 -> strictly_ascending c2 ->
  length s1 = length c1 -> length s2 = length c2 ->
  exists out, intersectTwoPostingLists [] c1 s1 c2 s2 = Ok out /\ strictly_ascending (map fst out) /\
    (forall x, In x (map fst out) <-> In x c1 /\ In x c2) /\
    (forall x s, In (x, s) out -> s = score_sum [first_score x (c1, s1); first_score x (c2, s2)]).
Proof.
  intros A1 A2 H1 H2.
  destruct (C04_two_lists c1 s1 c2 s2) as [out [E [Ha Hs]]]; auto using strictly_asc.
  exists out. split; auto.
  assert (One : forall c s x, strictly_ascending c -> length s = length c ->
    (In x c -> scores_of x c s = [first_score x (c, s)]) /\ (~ In x c -> scores_of x c s = [])).
  { intros c s x Hc Hl. unfold first_score, scores_of. cbn [fst snd]. revert s Hl.
    induction Hc as [|y c Hc IH Hy]; intros [|s0 s] Hl; try discriminate Hl; [simpl; tauto|].
    cbn [combine filter fst]. injection Hl as Hl. destruct (IH s Hl) as [I1 I2]. rewrite Forall_forall in Hy.
    destruct (N.eqb_spec y x) as [->|Hne].
    - split; [intros _|simpl; tauto]. cbn [map snd hd]. f_equal. apply I2. intros C. specialize (Hy x C). lia.
    - split; intros Hx; [apply I1|apply I2]; simpl in Hx; intuition congruence. }
  assert (Len : forall x, map snd (filter (fun p => fst p =? x) out) =
     if in_dec N.eq_dec x c1 then if in_dec N.eq_dec x c2
       then [score_sum [first_score x (c1, s1); first_score x (c2, s2)]] else [] else []).
  { intros x. rewrite Hs. destruct (One c1 s1 x A1 H1) as [P1 P2]. destruct (One c2 s2 x A2 H2) as [P3 P4].
    destruct (in_dec N.eq_dec x c1) as [I|I]; [rewrite (P1 I)|now rewrite (P2 I)].
    destruct (in_dec N.eq_dec x c2) as [J|J]; [now rewrite (P3 J)|now rewrite (P4 J)]. }
  clear Hs One. split; [|split].
  - assert (Hle : forall x, le (length (filter (fun p => fst p =? x) out)) 1).
    { intros x. rewrite <- (map_length snd), Len.
      destruct (in_dec N.eq_dec x c1); [destruct (in_dec N.eq_dec x c2)|]; simpl; lia. }
    clear Len E. induction out as [|[x s] out IH]; cbn [map]; [constructor|]. cbn [map] in Ha.
    inversion Ha as [|? ? G1 G2]; subst. constructor.
    + apply IH; auto. intros y. specialize (Hle y). cbn [filter] in Hle.
      destruct (fst (x, s) =? y); cbn [length] in Hle; lia.
    + rewrite Forall_forall in *. intros y Hy. pose proof (G2 y Hy) as G. cbn [fst] in *.
      destruct (N.eq_dec x y) as [->|]; [|lia]. exfalso. specialize (Hle y). cbn [filter fst] in Hle.
      rewrite N.eqb_refl in Hle. cbn [length] in Hle.
      apply in_map_iff in Hy. destruct Hy as [[y' s'] [Q1 Q2]]. cbn [fst] in Q1. subst y'.
      assert (Q : In (y, s') (filter (fun p => fst p =? y) out)) by (apply filter_In; split; auto; apply N.eqb_refl).
      destruct (filter (fun p => fst p =? y) out); [easy|simpl in Hle; lia].
  - intros x. specialize (Len x). split.
    + intros Hx. apply in_map_iff in Hx. destruct Hx as [[x' s] [Q1 Q2]]. cbn [fst] in Q1. subst x'.
      assert (Q : In s (map snd (filter (fun p => fst p =? x) out))).
      { apply in_map_iff. exists (x, s). split; auto. apply filter_In. split; auto. apply N.eqb_refl. }
      rewrite Len in Q. destruct (in_dec N.eq_dec x c1); [|easy]. destruct (in_dec N.eq_dec x c2); [auto|easy].
    + intros [I J]. destruct (in_dec N.eq_dec x c1); [|easy]. destruct (in_dec N.eq_dec x c2); [|easy].
      destruct (filter (fun p => fst p =? x) out) as [|p f] eqn:Q; [discriminate Len|].
      assert (Q' : In p (filter (fun p => fst p =? x) out)) by (rewrite Q; simpl; auto).
      apply filter_In in Q'. destruct Q' as [Q1 Q2]. apply N.eqb_eq in Q2. subst x. now apply in_map.
  - intros x s Hx. specialize (Len x).
    assert (Q : In s (map snd (filter (fun p => fst p =? x) out))).
    { apply in_map_iff. exists (x, s). split; auto. apply filter_In. split; auto. apply N.eqb_refl. }
    rewrite Len in Q. destruct (in_dec N.eq_dec x c1); [|easy]. destruct (in_dec N.eq_dec x c2); [|easy].
    destruct Q as [Q|[]]; auto.
Qed.

Example two_lists_example :
  intersectTwoPostingLists [] [1; 2; 5; 9] [3; 1; 65535; 2] [0; 2; 5; 7] [4; 6; 2; 8] =
  Ok [(2, 7); (5, 1)].
Proof. reflexivity. Qed.

(* The search for contexts with two words passes the scores of the second word for both lists:
   the scores of the first word are lost, and a longer first list is read past the end. *)
Theorem C04_two_words_scores_refuted : exists c1 s1 c2 s2 out out',
  strictly_ascending c1 /\ strictly_ascending c2 /\ length s1 = length c1 /\ length s2 = length c2 /\
  context_list_two_words c1 s1 c2 s2 = Ok out /\
  intersectTwoPostingLists [] c1 s1 c2 s2 = Ok out' /\ out = [(1, 2); (2, 2)] /\ out' = [(1, 6); (2, 8)].
Proof.
  exists [1; 2], [5; 7], [1; 2], [1; 1]. eexists. eexists.
  repeat (split; [repeat constructor; lia|]). repeat (split; [reflexivity|]). reflexivity.
Qed.
Theorem C04_two_words_overrun_refuted : exists c1 s1 c2 s2,
  strictly_ascending c1 /\ strictly_ascending c2 /\ length s1 = length c1 /\ length s2 = length c2 /\
  context_list_two_words c1 s1 c2 s2 = Oob.
Proof.
  exists [1; 2; 3], [5; 7; 9], [3], [4]. repeat (split; [repeat constructor; lia|]). reflexivity.
Qed.
(* the contexts it reports, when it stays within the vectors, are right *)
Theorem C04_two_words_partial c1 s1 c2 s2 : strictly_ascending c1 -> strictly_ascending c2 ->
  length s1 = length c1 -> length s2 = length c2 -> length c1 = length c2 ->
  exists out, context_list_two_words c1 s1 c2 s2 = Ok out /\ strictly_ascending (map fst out) /\
    forall x, In x (map fst out) <-> In x c1 /\ In x c2.
Proof.
  intros A1 A2 H1 H2 H3. destruct (C04_two_lists_distinct c1 s2 c2 s2) as [out [E [Ha [Hi _]]]]; auto; [congruence|].
  exists out. auto.
Qed.

(* ---- k lists ---- *)

Lemma map_nth_seq {A B} (f : A -> B) d l : map (fun i => f (nth i l d)) (seq 0 (length l)) = map f l.
Proof.
  induction l as [|x l IH]; [reflexivity|]. cbn [length seq map nth]. f_equal.
  rewrite <- seq_shift, map_map. exact IH.
Qed.
Lemma combine_firsts x cids : forall scores, length scores = length cids ->
  map (fun i => first_score x (nth i cids [], nth i scores [])) (seq 0 (length cids)) =
  map (first_score x) (combine cids scores).
Proof.
  intros scores H.
  replace (length cids) with (length (combine cids scores)) by (rewrite combine_length; lia).
  rewrite <- (map_nth_seq (first_score x) ([], []) (combine cids scores)).
  apply map_ext_in. intros i _. now rewrite combine_nth by auto.
Qed.
Lemma base_sum_all cids scores x : length scores = length cids ->
  base_sum cids scores (length cids) x = fold_right N.add 0 (map (first_score x) (combine cids scores)).
Proof. intros H. unfold base_sum. now rewrite combine_firsts. Qed.
Lemma base_sum_others others last scores slast x : length scores = length others ->
  base_sum (others ++ [last]) (scores ++ [slast]) (length others) x =
  fold_right N.add 0 (map (first_score x) (combine others scores)).
Proof.
  intros H. unfold base_sum. rewrite <- combine_firsts by auto. f_equal. apply map_ext_in. intros i Hi.
  apply in_seq in Hi. rewrite !app_nth1 by lia. reflexivity.
Qed.

(* Without entities: exactly the contexts of all lists, once each, with the sum of the scores
   of the first posting of the context in each list. *)
Theorem C04_kway_words cids scores :
  (2 <= length cids)%nat -> Forall ascending cids -> length scores = length cids ->
  (forall i, (i < length cids)%nat -> length (nth i scores []) = length (nth i cids [])) ->
  exists out, intersectKWay [] cids scores None = Ok out /\
    strictly_ascending (map p_cid out) /\
    (forall x, In x (map p_cid out) <-> forall l, In l cids -> In x l) /\
    (forall p, In p out -> p_score p = score_sum (map (first_score (p_cid p)) (combine cids scores))).
Proof.
  intros Hk Hasc Hs Hl. rewrite Forall_forall in Hasc.
  assert (Hasc' : forall i, (i < length cids)%nat -> ascending (nth i cids [])) by (intros; apply Hasc; now apply nth_In).
  destruct (existsb (fun l => match l with [] => true | _ => false end) cids) eqn:Ee.
  - exists []. split.
    + unfold intersectKWay. destruct (length cids) as [|k1] eqn:Ek; [lia|].
      unfold get, bind. destruct (nth_error cids k1) as [last|] eqn:E; [|apply nth_error_None in E; lia].
      rewrite Ee. destruct last; reflexivity.
    + split; [constructor|]. split; [|easy]. intros x. split; [easy|]. intros H. exfalso.
      apply existsb_exists in Ee. destruct Ee as [l [E1 E2]]. destruct l; [|discriminate]. apply (H [] E1).
  - rewrite (kway_words [] cids scores Hk Hasc' Hs Hl).
    2:{ intros l Hin ->. pose proof (proj1 (existsb_false_iff _ _) Ee [] Hin) as Q. discriminate Q. }
    eexists. split; [reflexivity|]. rewrite map_map. unfold p_cid at 1 2. cbn [fst]. rewrite map_id.
    assert (Hlast : ascending (nth (length cids - 1) cids [])) by (apply Hasc'; lia).
    split; [|split].
    + apply strictly_filter. now apply nodup_ascending.
    + intros x. rewrite filter_In, nodup_In, commonb_iff. unfold common. split.
      * intros [_ H] l Hin. destruct (In_nth _ _ [] Hin) as [i [Hi <-]]. auto.
      * intros H. split; [apply H; apply nth_In; lia|]. intros i Hi. apply H. now apply nth_In.
    + intros p Hp. apply in_map_iff in Hp. destruct Hp as [x [<- Hx]]. unfold p_score, p_cid. cbn [fst snd].
      unfold score_sum. now rewrite base_sum_all.
Qed.

Example kway_words_example :
  intersectKWay [] [[1; 3; 3; 7; 9]; [0; 3; 7; 8; 9]; [3; 5; 9; 9]]
    [[1; 2; 3; 4; 5]; [10; 20; 30; 40; 50]; [100; 200; 300; 400]] None =
  Ok [(3, 0, 122); (9, 0, 355)].
Proof. reflexivity. Qed.

(* With entities: exactly the postings of the last list in common contexts, with the scores of
   the other lists added. *)
Theorem C04_kway_entities others last scores slast es :
  others <> [] -> Forall ascending others -> ascending last ->
  length scores = length others ->
  (forall i, (i < length others)%nat -> length (nth i scores []) = length (nth i others [])) ->
  length slast = length last -> length es = length last ->
  intersectKWay [] (others ++ [last]) (scores ++ [slast]) (Some es) =
  Ok (map (fun p => (p_cid p, p_eid p,
                     score_sum (map (first_score (p_cid p)) (combine others scores) ++ [p_score p])))
        (filter (fun p => forallb (fun l => member (p_cid p) l) others)
           (combine (combine last es) slast))).
Proof.
  intros Hne Hasc Hlast Hs Hl Hsl He. rewrite Forall_forall in Hasc.
  assert (Hlen : length (others ++ [last]) = S (length others)) by (rewrite app_length; simpl; lia).
  assert (Hlen1 : (length (others ++ [last]) - 1 = length others)%nat) by lia.
  assert (Hnl : nth (length others) (others ++ [last]) [] = last).
  { rewrite app_nth2 by lia. rewrite Nat.sub_diag. reflexivity. }
  assert (Hns : nth (length others) (scores ++ [slast]) [] = slast).
  { rewrite app_nth2 by lia. rewrite Hs, Nat.sub_diag. reflexivity. }
  destruct last as [|x rest] eqn:El.
  { unfold intersectKWay. rewrite Hlen. unfold get. rewrite nth_error_app2 by lia. rewrite Nat.sub_diag. reflexivity. }
  rewrite <- El in *.
  rewrite (kway_entities [] (others ++ [last]) (scores ++ [slast]) es x rest).
  - rewrite Hlen1, Hnl, Hns. f_equal.
    assert (F : filter (fun p => commonb (others ++ [last]) (p_cid p)) (combine (combine last es) slast) =
                filter (fun p => forallb (fun l => member (p_cid p) l) others) (combine (combine last es) slast)).
    { apply filter_ext_in. intros p Hp. unfold commonb. rewrite forallb_app. cbn [forallb].
      assert (Q : member (p_cid p) last = true).
      { apply member_in. destruct p as [[c e] s]. apply in_combine_l in Hp. apply in_combine_l in Hp. exact Hp. }
      rewrite Q. cbn [andb]. apply andb_true_r. }
    rewrite F. apply map_ext. intros p. unfold entity_emit. rewrite Hlen1, base_sum_others by auto.
    unfold score_sum. do 2 f_equal. rewrite fold_right_app. cbn [fold_right].
    assert (G : forall l a, fold_right N.add a l = fold_right N.add 0 l + a).
    { clear. induction l as [|y l IH]; intros a; cbn [fold_right]; [lia|]. rewrite IH. lia. }
    rewrite (G _ (p_score p + 0)). lia.
  - rewrite Hlen. destruct others; [easy|]. simpl. lia.
  - intros i Hi. destruct (Nat.ltb_spec i (length others)) as [H|H].
    + rewrite app_nth1 by auto. apply Hasc. now apply nth_In.
    + replace i with (length others) by lia. rewrite Hnl. auto.
  - rewrite !app_length, Hs. reflexivity.
  - intros i Hi. destruct (Nat.ltb_spec i (length others)) as [H|H].
    + rewrite !app_nth1 by lia. auto.
    + replace i with (length others) by lia. rewrite Hnl, Hns. auto.
  - rewrite Hlen1, Hnl. auto.
  - rewrite Hlen1, Hnl. exact El.
Qed.

Example kway_entities_example :
  intersectKWay [] [[1; 3; 7; 9]; [0; 3; 7; 8; 9]; [3; 3; 5; 9; 9; 9]]
    [[1; 2; 3; 4]; [10; 20; 30; 40; 50]; [1; 2; 3; 4; 5; 6]] (Some [11; 12; 13; 14; 15; 16]) =
  Ok [(3, 11, 23); (3, 12, 24); (9, 14, 58); (9, 15, 59); (9, 16, 60)].
Proof. reflexivity. Qed.

(* With one list only every second context is reported. *)
Theorem C04_kway_one_list_refuted : exists l s out,
  ascending l /\ length s = length l /\ intersectKWay [] [l] [s] None = Ok out /\
  exists x, In x l /\ ~ In x (map p_cid out).
Proof.
  exists [1; 2; 3], [1; 1; 1]. eexists. split; [repeat constructor; lia|]. split; [reflexivity|].
  split; [vm_compute; reflexivity|]. exists 2. simpl. split; [auto|]. intuition discriminate.
Qed.

(* ---- C06: aggregation per entity ---- *)

(* One variable: for every entity e the rows of e are the k best contexts (all contexts if there
   are fewer), best first, each with the number of contexts of e. *)
Theorem C06_one_variable ps k res : (0 < k)%nat -> one_per_context ps ->
  aggScoresAndTakeTopKContexts ps k res ->
  (forall r, In r res -> length r = 3%nat) /\
  forall e, exists best, top_k k (entity_contexts e ps) best /\ descending best /\
    filter (fun r => nth 2 r 0 =? e) res =
    map (fun sc => [snd sc; count16 (entity_contexts e ps); e]) best.
Proof.
  intros Hk Hone Hres. unfold one_per_context in Hone.
  assert (Hnd : forall e, NoDup (occ_of N.eqb e (occurrences ps))) by (intros; now apply occurrences_nodup).
  assert (Hsel : forall e (key' cid cnt : N) r, occ_of N.eqb key' (occurrences ps) <> [] ->
            In r (one_var_cols cid cnt key') -> (nth 2 r 0 =? e) = (key' =? e)).
  { intros e key' cid cnt r _ [<-|[]]. reflexivity. }
  assert (Hflat : forall e cnt best, flat_map (fun sc => one_var_cols (snd sc) cnt e) best =
                            map (fun sc : N * N => [snd sc; cnt; e]) best).
  { intros e cnt best. induction best as [|sc best IH]; cbn [flat_map map]; auto; now rewrite IH. }
  unfold aggScoresAndTakeTopKContexts in Hres. destruct (Nat.eqb_spec k 1) as [->|Hk1];
    destruct Hres as [it [Hp ->]]; (split; [|intros e; unfold entity_contexts; rewrite <- occ_of_occurrences]).
  - intros r Hr. destruct (top_rows_from N.eqb N.eqb_eq _ _ _ _ Hnd Hp Hr) as [e [cid [cnt [_ [<-|[]]]]]]. reflexivity.
  - destruct (top_rows_key N.eqb N.eqb_eq _ it one_var_cols (fun r => nth 2 r 0 =? e) e Hnd Hp) as [best [B1 [B2 B3]]].
    + intros. now apply Hsel with cid cnt.
    + exists best. rewrite <- Hflat. auto.
  - intros r Hr. destruct (agg_rows_from N.eqb N.eqb_eq k _ _ _ _ Hk Hnd Hp Hr) as [e [cid [cnt [_ [<-|[]]]]]]. reflexivity.
  - destruct (agg_rows_key N.eqb N.eqb_eq k _ it one_var_cols (fun r => nth 2 r 0 =? e) e Hk Hnd Hp) as [best [B1 [B2 B3]]].
    + intros. now apply Hsel with cid cnt.
    + exists best. rewrite <- Hflat. auto.
Qed.

Example one_variable_example :
  one_per_context [(1, 5, 2); (1, 6, 9); (2, 5, 7); (3, 5, 4); (3, 6, 9); (4, 7, 1)] /\
  aggScoresAndTakeTopKContexts [(1, 5, 2); (1, 6, 9); (2, 5, 7); (3, 5, 4); (3, 6, 9); (4, 7, 1)] 2
    [[4; 1; 7]; [2; 3; 5]; [3; 3; 5]; [3; 2; 6]; [1; 2; 6]].
Proof.
  split; [repeat constructor; simpl; intuition discriminate|].
  exists [(7, (1, [(1, 4)])); (5, (3, [(4, 3); (7, 2)])); (6, (2, [(9, 1); (9, 3)]))].
  split; [|reflexivity].
  apply (perm_trans (l' := [(5, (3, [(4, 3); (7, 2)])); (7, (1, [(1, 4)])); (6, (2, [(9, 1); (9, 3)]))]));
    [apply perm_skip|]; apply perm_swap.
Qed.

(* With a filter: the same for the entities of the filter column, joined with the filter. *)
Theorem C06_one_variable_filter ps table col k res : (0 < k)%nat -> one_per_context ps ->
  oneVarFilterMap ps table col k res ->
  forall e, exists best, top_k k (if in_filter table col e then entity_contexts e ps else []) best /\
    descending best /\
    filter (fun r => nth (2 + col) r 0 =? e) res =
    flat_map (fun sc => map (fun r => snd sc :: count16 (entity_contexts e ps) :: r)
                            (filter (fun r => nth col r 0 =? e) table)) best.
Proof.
  intros Hk Hone [it [Hp ->]] e.
  set (ps' := filter (fun p => in_filter table col (p_eid p)) ps) in *.
  assert (Hone' : one_per_context ps').
  { unfold one_per_context, ps'. clear -Hone. unfold one_per_context in Hone.
    induction ps as [|p ps IH]; cbn [filter map]; [constructor|]. cbn [map] in Hone.
    inversion Hone as [|? ? H1 H2]; subst. destruct (in_filter table col (p_eid p)); auto.
    cbn [map]. constructor; auto. intros C. apply H1. apply in_map_iff in C. destruct C as [q [C1 C2]].
    apply filter_In in C2. apply in_map_iff. exists q. tauto. }
  assert (Hnd : forall e, NoDup (occ_of N.eqb e (occurrences ps'))) by (intros; now apply occurrences_nodup).
  destruct (agg_rows_key N.eqb N.eqb_eq k _ it
    (fun cid cnt e => map (fun r => cid :: cnt :: r) (filter_rows table col e))
    (fun r => nth (2 + col) r 0 =? e) e Hk Hnd Hp) as [best [B1 [B2 B3]]].
  { intros key' cid cnt r _ Hr. apply in_map_iff in Hr. destruct Hr as [r' [<- Hr]].
    unfold filter_rows in Hr. apply filter_In in Hr. destruct Hr as [_ Hr]. apply N.eqb_eq in Hr.
    cbn [Nat.add nth]. now rewrite Hr. }
  rewrite occ_of_occurrences in B1, B3.
  assert (F : filter (fun p => p_eid p =? e) ps' =
              if in_filter table col e then filter (fun p => p_eid p =? e) ps else []).
  { unfold ps'. rewrite filter_twice. destruct (in_filter table col e) eqn:E.
    - apply filter_ext. intros p. destruct (N.eqb_spec (p_eid p) e) as [->|]; [now rewrite E|apply andb_false_r].
    - apply filter_all_false. intros p _. destruct (N.eqb_spec (p_eid p) e) as [->|]; [now rewrite E|apply andb_false_r]. }
  rewrite F in B1, B3. exists best.
  destruct (in_filter table col e) eqn:E; [auto|].
  assert (Eb : best = []).
  { destruct B1 as [_ [T2 _]]. destruct best as [|c best]; auto. destruct (T2 c (or_introl eq_refl)). }
  rewrite Eb in *. auto.
Qed.

Example one_variable_filter_example :
  oneVarFilterMap [(1, 5, 2); (2, 5, 7); (3, 6, 4)] [[5; 100]; [7; 101]; [5; 102]] 0 2
    [[2; 2; 5; 100]; [2; 2; 5; 102]; [1; 2; 5; 100]; [1; 2; 5; 102]].
Proof. eexists. split; [apply Permutation_refl|]. reflexivity. Qed.

Theorem C06_one_variable_set ps fset k res : (0 < k)%nat -> one_per_context ps ->
  oneVarFilterSet ps fset k res ->
  forall e, exists best, top_k k (if member e fset then entity_contexts e ps else []) best /\
    descending best /\
    filter (fun r => nth 2 r 0 =? e) res =
    map (fun sc => [snd sc; count16 (entity_contexts e ps); e]) best.
Proof.
  intros Hk Hone [it [Hp ->]] e.
  set (ps' := filter (fun p => existsb (N.eqb (p_eid p)) fset) ps) in *.
  assert (Hone' : one_per_context ps').
  { unfold one_per_context, ps'. clear -Hone. unfold one_per_context in Hone.
    induction ps as [|p ps IH]; cbn [filter map]; [constructor|]. cbn [map] in Hone.
    inversion Hone as [|? ? H1 H2]; subst. destruct (existsb (N.eqb (p_eid p)) fset); auto.
    cbn [map]. constructor; auto. intros C. apply H1. apply in_map_iff in C. destruct C as [q [C1 C2]].
    apply filter_In in C2. apply in_map_iff. exists q. tauto. }
  assert (Hnd : forall e, NoDup (occ_of N.eqb e (occurrences ps'))) by (intros; now apply occurrences_nodup).
  destruct (agg_rows_key N.eqb N.eqb_eq k _ it one_var_cols
    (fun r => nth 2 r 0 =? e) e Hk Hnd Hp) as [best [B1 [B2 B3]]].
  { intros key' cid cnt r _ [<-|[]]. reflexivity. }
  rewrite occ_of_occurrences in B1, B3.
  assert (F : filter (fun p => p_eid p =? e) ps' =
              if member e fset then filter (fun p => p_eid p =? e) ps else []).
  { unfold ps'. rewrite filter_twice. unfold member. destruct (existsb (N.eqb e) fset) eqn:E.
    - apply filter_ext. intros p. destruct (N.eqb_spec (p_eid p) e) as [->|]; [now rewrite E|apply andb_false_r].
    - apply filter_all_false. intros p _. destruct (N.eqb_spec (p_eid p) e) as [->|]; [now rewrite E|apply andb_false_r]. }
  rewrite F in B1, B3. exists best.
  assert (Hflat : forall cnt best, flat_map (fun sc => one_var_cols (snd sc) cnt e) best =
                            map (fun sc : N * N => [snd sc; cnt; e]) best).
  { intros cnt b. induction b as [|sc b IH]; cbn [flat_map map]; auto; now rewrite IH. }
  rewrite Hflat in B3.
  destruct (member e fset) eqn:E; [auto|].
  assert (Eb : best = []).
  { destruct B1 as [_ [T2 _]]. destruct best as [|c best]; auto. destruct (T2 c (or_introl eq_refl)). }
  rewrite Eb in *. auto.
Qed.

Example one_variable_set_example :
  oneVarFilterSet [(1, 5, 2); (2, 5, 7); (3, 6, 4)] [5; 7] 2 [[2; 2; 5]; [1; 2; 5]].
Proof. eexists. split; [apply Permutation_refl|]. reflexivity. Qed.

(* Several variables: the rows of a tuple of entities are the k best contexts that contain all
   of them, best first, each with the number of such contexts. *)
Lemma tuple_occ vars ps key : ascending (map p_cid ps) -> one_per_context ps ->
  occ_of list_eqb key (context_occurrences (fun ents => all_keys ents vars) ps) =
  if Nat.eqb (length key) vars then tuple_contexts key ps else [].
Proof.
  intros Hasc Hone. rewrite occ_of_contexts; auto.
  2:{ intros c. apply all_keys_nodup. now apply ctx_entities_nodup. }
  assert (E : forall c, existsb (list_eqb key) (all_keys (ctx_entities c ps) vars) =
     Nat.eqb (length key) vars && forallb (fun e => member e (ctx_entities c ps)) key).
  { intros c. apply eq_true_iff_eq. rewrite existsb_exists, andb_true_iff, forallb_forall, Nat.eqb_eq. split.
    - intros [key' [H1 H2]]. apply list_eqb_eq in H2. subst key'. apply all_keys_in in H1. destruct H1 as [H1 H2].
      split; auto. intros e He. apply member_in. auto.
    - intros [H1 H2]. exists key. split; [|now apply list_eqb_eq]. apply all_keys_in. split; auto.
      intros e He. apply member_in. auto. }
  unfold tuple_contexts. destruct (Nat.eqb (length key) vars).
  - f_equal. apply filter_ext. intros c. now rewrite E.
  - rewrite filter_all_false; auto. intros c _. now rewrite E.
Qed.

Theorem C06_several_variables ps vars k res : (0 < k)%nat -> ascending (map p_cid ps) ->
  one_per_context ps -> multVarsAggScoresAndTakeTopKContexts ps vars k res ->
  (forall r, In r res -> length r = (2 + vars)%nat) /\
  forall key, length key = vars -> exists best, top_k k (tuple_contexts key ps) best /\
    descending best /\
    filter (fun r => list_eqb (skipn 2 r) key) res =
    map (fun sc => snd sc :: count16 (tuple_contexts key ps) :: key) best.
Proof.
  intros Hk Hasc Hone Hres. unfold multVarsAggScoresAndTakeTopKContexts in Hres. cbv zeta in Hres.
  set (occ := context_occurrences (fun ents => all_keys ents vars) ps) in *.
  assert (Hnd : forall key, NoDup (occ_of list_eqb key occ)).
  { intros key. unfold occ. rewrite tuple_occ by auto. destruct (Nat.eqb (length key) vars); [|constructor].
    apply scored_contexts_nodup. }
  assert (Hlen : forall key, occ_of list_eqb key occ <> [] -> length key = vars).
  { intros key Ho. unfold occ in Ho. rewrite tuple_occ in Ho by auto.
    destruct (Nat.eqb_spec (length key) vars); auto. contradiction. }
  assert (Hflat : forall key cnt best, flat_map (fun sc => mult_var_cols (snd sc) cnt key) best =
                            map (fun sc : N * N => snd sc :: cnt :: key) best).
  { intros key cnt best. induction best as [|sc best IH]; cbn [flat_map map]; auto; now rewrite IH. }
  assert (Hocc : forall key, length key = vars -> occ_of list_eqb key occ = tuple_contexts key ps).
  { intros key Hl. unfold occ. rewrite tuple_occ by auto. rewrite Hl, Nat.eqb_refl. reflexivity. }
  destruct (Nat.eqb_spec k 1) as [->|Hk1]; destruct Hres as [it [Hp ->]]; split.
  - intros r Hr. destruct (top_rows_from list_eqb list_eqb_eq _ _ _ _ Hnd Hp Hr) as [key [cid [cnt [Ho [<-|[]]]]]].
    simpl. now rewrite Hlen.
  - intros key Hl. destruct (top_rows_key list_eqb list_eqb_eq _ it mult_var_cols
      (fun r => list_eqb (skipn 2 r) key) key Hnd Hp) as [best [B1 [B2 B3]]].
    + intros key' cid cnt r _ [<-|[]]. reflexivity.
    + exists best. rewrite <- Hflat, <- Hocc by auto. auto.
  - intros r Hr. destruct (agg_rows_from list_eqb list_eqb_eq k _ _ _ _ Hk Hnd Hp Hr) as [key [cid [cnt [Ho [<-|[]]]]]].
    simpl. now rewrite Hlen.
  - intros key Hl. destruct (agg_rows_key list_eqb list_eqb_eq k _ it mult_var_cols
      (fun r => list_eqb (skipn 2 r) key) key Hk Hnd Hp) as [best [B1 [B2 B3]]].
    + intros key' cid cnt r _ [<-|[]]. reflexivity.
    + exists best. rewrite <- Hflat, <- Hocc by auto. auto.
Qed.

Example several_variables_example :
  multVarsAggScoresAndTakeTopKContexts [(1, 5, 2); (1, 6, 9); (2, 6, 7)] 2 3
    [[1; 1; 5; 5]; [1; 1; 6; 5]; [1; 1; 5; 6]; [2; 2; 6; 6]; [1; 2; 6; 6]].
Proof. eexists. split; [apply Permutation_refl|]. reflexivity. Qed.

(* Several variables with a filter on the first: the rows of a tuple joined with the filter. *)
Theorem C06_several_variables_filter ps table col vars k res : (0 < k)%nat -> (0 < vars)%nat ->
  ascending (map p_cid ps) -> one_per_context ps -> multVarsFilterMap ps table col vars k res ->
  forall e others, S (length others) = vars ->
  exists best, top_k k (if in_filter table col e then tuple_contexts (e :: others) ps else []) best /\
    descending best /\
    filter (fun r => list_eqb (firstn (vars - 1) (skipn 2 r)) others &&
                     (nth (vars - 1 + col) (skipn 2 r) 0 =? e)) res =
    flat_map (fun sc => map (fun r => snd sc :: count16 (tuple_contexts (e :: others) ps) :: others ++ r)
                            (filter (fun r => nth col r 0 =? e) table)) best.
Proof.
  intros Hk Hv Hasc Hone [it [Hp ->]] e others Hl. cbv zeta in Hp.
  set (keys := fun ents => filtered_keys (filter (in_filter table col) ents) ents vars) in *.
  assert (Hocc : forall key, occ_of list_eqb key (context_occurrences keys ps) =
    if Nat.eqb (length key) vars && in_filter table col (hd 0 key) then tuple_contexts key ps else []).
  { intros key. rewrite occ_of_contexts; auto.
    2:{ intros c. apply filtered_keys_nodup; [apply NoDup_filter|]; now apply ctx_entities_nodup. }
    assert (E : forall c, existsb (list_eqb key) (keys (ctx_entities c ps)) =
       (Nat.eqb (length key) vars && in_filter table col (hd 0 key)) &&
       forallb (fun e => member e (ctx_entities c ps)) key).
    { intros c. apply eq_true_iff_eq.
      rewrite existsb_exists, !andb_true_iff, forallb_forall, Nat.eqb_eq. split.
      - intros [key' [H1 H2]]. apply list_eqb_eq in H2. subst key'. apply filtered_keys_in in H1; auto.
        destruct H1 as [H1 [H2 H3]]. apply filter_In in H2. destruct H2 as [H2 H4]. split; auto.
        intros x Hx. apply member_in. destruct key as [|y key]; [easy|]. destruct Hx as [<-|Hx]; auto.
      - intros [[H1 H2] H3]. exists key. split; [|now apply list_eqb_eq]. apply filtered_keys_in; auto.
        destruct key as [|y key]; [simpl in H1; lia|]. cbn [hd tl] in *. split; auto. split.
        + apply filter_In. split; auto. apply member_in. apply H3. simpl. auto.
        + intros x Hx. apply member_in. apply H3. simpl. auto. }
    unfold tuple_contexts. destruct (Nat.eqb (length key) vars && in_filter table col (hd 0 key)).
    - f_equal. apply filter_ext. intros c. now rewrite E.
    - rewrite filter_all_false; auto. intros c _. now rewrite E. }
  assert (Hnd : forall key, NoDup (occ_of list_eqb key (context_occurrences keys ps))).
  { intros key. rewrite Hocc. destruct (_ && _); [|constructor]. apply scored_contexts_nodup. }
  destruct (agg_rows_key list_eqb list_eqb_eq k _ it
    (fun cid cnt key => map (fun r => cid :: cnt :: tl key ++ r) (filter_rows table col (hd 0 key)))
    (fun r => list_eqb (firstn (vars - 1) (skipn 2 r)) others && (nth (vars - 1 + col) (skipn 2 r) 0 =? e))
    (e :: others) Hk Hnd Hp) as [best [B1 [B2 B3]]].
  { intros key' cid cnt r Ho Hr. rewrite Hocc in Ho.
    destruct (Nat.eqb_spec (length key') vars) as [El|]; [|easy]. destruct key' as [|e' others']; [simpl in El; lia|].
    apply in_map_iff in Hr. destruct Hr as [r' [<- Hr]]. cbn [hd tl] in *.
    unfold filter_rows in Hr. apply filter_In in Hr. destruct Hr as [_ Hr]. apply N.eqb_eq in Hr.
    cbn [skipn list_eqb]. cbn [length] in El. replace (vars - 1)%nat with (length others') by lia.
    rewrite firstn_length_app. rewrite app_nth2_plus, Hr. apply andb_comm. }
  exists best. rewrite Hocc in B1, B3. cbn [length hd tl] in B1, B3. rewrite Hl, Nat.eqb_refl in B1, B3.
  cbn [andb] in B1, B3. split; [exact B1|]. split; [exact B2|].
  destruct (in_filter table col e) eqn:E; [exact B3|].
  assert (Eb : best = []).
  { destruct B1 as [_ [T2 _]]. destruct best as [|c best]; auto. destruct (T2 c (or_introl eq_refl)). }
  rewrite Eb in *. exact B3.
Qed.

Example several_variables_filter_example :
  multVarsFilterMap [(1, 5, 2); (1, 6, 9); (2, 6, 7)] [[100; 5]; [101; 5]] 1 2 3
    [[1; 1; 5; 100; 5]; [1; 1; 5; 101; 5]; [1; 1; 6; 100; 5]; [1; 1; 6; 101; 5]].
Proof. eexists. split; [apply Permutation_refl|]. reflexivity. Qed.

(* ---- what does not hold ---- *)

(* k = 0 still returns contexts. *)
Theorem C06_zero_contexts_refuted : exists ps res, one_per_context ps /\
  aggScoresAndTakeTopKContexts ps 0 res /\ res <> [].
Proof.
  exists [(1, 5, 2)], [[1; 1; 5]]. split; [repeat constructor; simpl; tauto|].
  split; [|discriminate]. eexists. split; [apply Permutation_refl|]. reflexivity.
Qed.

(* The number of contexts is kept in 16 bits: an entity in 2^16 contexts is reported with 0. *)
Lemma count_wraps ps k res e : (0 < k)%nat -> one_per_context ps ->
  aggScoresAndTakeTopKContexts ps k res -> N.of_nat (length (entity_contexts e ps)) = 2 ^ 16 ->
  exists c, In [c; 0; e] res.
Proof.
  intros Hk Hone Hres Hl. destruct (C06_one_variable ps k res Hk Hone Hres) as [_ H].
  destruct (H e) as [best [[_ [_ [B _]]] [_ F]]]. unfold count16 in F. rewrite Hl in F.
  change (2 ^ 16 mod 2 ^ 16) with 0 in F.
  destruct best as [|sc best]; [simpl in B; lia|]. exists (snd sc).
  assert (Q : In [snd sc; 0; e] (filter (fun r => nth 2 r 0 =? e) res)) by (rewrite F; simpl; auto).
  now apply filter_In in Q.
Qed.
Theorem C06_count_wraps_refuted : exists ps e, one_per_context ps /\
  N.of_nat (length (entity_contexts e ps)) = 2 ^ 16 /\
  forall k res, (0 < k)%nat -> aggScoresAndTakeTopKContexts ps k res -> exists c, In [c; 0; e] res.
Proof.
  assert (E : N.of_nat (2 ^ 16) = 2 ^ 16) by (rewrite Nat2N.inj_pow; reflexivity).
  revert E. generalize (2 ^ 16)%nat. intros n E.
  exists (map (fun i => (N.of_nat i, 7, 1)) (seq 0 n)), 7.
  assert (H1 : one_per_context (map (fun i => (N.of_nat i, 7, 1)) (seq 0 n))).
  { unfold one_per_context. rewrite map_map. apply nodup_map_seq. unfold p_cid, p_eid. cbn [fst snd].
    intros i j _ _ Q. injection Q. lia. }
  assert (H2 : N.of_nat (length (entity_contexts 7 (map (fun i => (N.of_nat i, 7, 1)) (seq 0 n)))) = 2 ^ 16).
  { unfold entity_contexts. rewrite filter_all_true.
    + now rewrite map_length, map_length, seq_length.
    + intros p Hp. apply in_map_iff in Hp. destruct Hp as [i [<- _]]. reflexivity. }
  split; [exact H1|]. split; [exact H2|]. intros k res Hk Hres. exact (count_wraps _ k res 7 Hk H1 Hres H2).
Qed.

(* The variant for several variables with a filter of one column leaves a column of the row
   unwritten and puts an entity behind its place (FTSAlgorithms.cpp:1310). *)
Theorem C06_filter_set_row_refuted : exists width cid cnt key,
  length key = 3%nat /\ width = (2 + length key)%nat /\
  forall junk, set_row junk width cid cnt key <> Some (cid :: cnt :: tl key ++ [hd 0 key]).
Proof.
  exists 5%nat, 1, 9, [5; 6; 7]. split; [reflexivity|]. split; [reflexivity|]. intros junk H. vm_compute in H.
  discriminate H.
Qed.

Print Assumptions C05_filter_by_range.
Print Assumptions C04_intersect.
Print Assumptions C04_two_lists.
Print Assumptions C04_two_lists_distinct.
Print Assumptions C04_two_words_partial.
Print Assumptions C04_kway_words.
Print Assumptions C04_kway_entities.
Print Assumptions C06_one_variable.
Print Assumptions C06_one_variable_filter.
Print Assumptions C06_one_variable_set.
Print Assumptions C06_several_variables.
Print Assumptions C06_several_variables_filter.
Print Assumptions C06_count_wraps_refuted.
Print Assumptions C06_filter_set_row_refuted.

Print Assumptions C04_intersect_keeps_old_refuted.
Print Assumptions C04_two_words_scores_refuted.
Print Assumptions C04_two_words_overrun_refuted.
Print Assumptions C04_kway_one_list_refuted.
Print Assumptions C06_zero_contexts_refuted.
