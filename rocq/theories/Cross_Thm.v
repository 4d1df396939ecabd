(* Property C87: the rows for a text record are the cross product of its postings with the matching rows of the sub results. *)
From Coq Require Import List NArith Arith Bool Lia.
From Verif Require Import Cross_Spec Cross_Model Cross_Proof.
Import ListNotations.

(* For the postings of a text record, all combinations of a posting with one matching row of each sub result are appended,
   as long as there are fewer than 2^64 choices of matching rows. *)
Theorem C87_cross_product_partial cids eids scores from toExclusive maps res :
  from <= toExclusive -> toExclusive <= length cids -> toExclusive <= length eids -> toExclusive <= length scores ->
  let ps := postings cids eids scores from (toExclusive - from) in
  (number_of_choices ps maps < two64)%N ->
  appendCrossProduct cids eids scores from toExclusive maps res = Some (res ++ product ps maps).
Proof.
  intros H0 H1 H2 H3 ps B. unfold appendCrossProduct.
  assert (E : collect maps eids (toExclusive - from) from [] (map (fun _ => []) maps) = Some (map (matching ps) maps)).
  { rewrite (collect_ok maps eids _ from [] (fun _ => [])) by lia. f_equal. apply map_ext. intros m. unfold matching, entities, ps. now rewrite postings_entities by lia. }
  rewrite E. apply append_rows_ok; try lia. unfold nofResultRows. rewrite rows_small; [rewrite N.mul_1_l; apply Nat2N.id| |reflexivity].
  rewrite N.mul_1_l, total_spec. exact B.
Qed.
Lemma choices_in {A} (ls : list (list A)) : forall c, In c (choices ls) <-> Forall2 (fun a l => In a l) c ls.
Proof.
  induction ls as [|l r IH]; intros c; cbn [choices].
  - split; [intros [<-|[]]; constructor|]. intros F. inversion F. now left.
  - rewrite in_flat_map. split.
    + intros (c' & H & I). apply in_map_iff in I as (a & <- & Ha). constructor; auto. now apply IH.
    + intros F. inversion F as [|a l' c' r' Ha F']; subst. exists c'. split; [now apply IH|]. apply in_map_iff. exists a. auto.
Qed.
Lemma firsts_in es : forall seen e, In e (firsts seen es) <-> In e es /\ ~ In e seen.
Proof.
  induction es as [|x es IH]; intros seen e; cbn [firsts]; [cbn; tauto|]. destruct (in_dec N.eq_dec x seen) as [I|I].
  - rewrite IH. cbn. split; [tauto|]. intros [[<-|H] N]; tauto.
  - cbn [In]. rewrite IH. cbn [In]. destruct (N.eq_dec x e) as [<-|D]; tauto.
Qed.
(* A row is in the cross product if and only if it starts with a posting and goes on with one row of each sub result, each
   for some entity of the record. *)
Theorem C87_rows ps maps r : In r (product ps maps) <->
  exists p c, In p ps /\ r = head_of p ++ concat c /\
    Forall2 (fun a (m : N -> option (list (list N))) => exists q rows, In q ps /\ m (entity q) = Some rows /\ In a rows) c maps.
Proof.
  unfold product. rewrite in_flat_map. 
  assert (M : forall m a, In a (matching ps m) <-> exists q rows, In q ps /\ m (entity q) = Some rows /\ In a rows).
  { intros m a. unfold matching, entities. rewrite in_flat_map. split.
    - intros (e & He & Ha). apply firsts_in in He as [He _]. apply in_map_iff in He as (q & <- & Hq). unfold rows_of in Ha. destruct (m (entity q)) as [l|] eqn:E; [|destruct Ha]. exists q, l. auto.
    - intros (q & l & Hq & E & Ha). exists (entity q). split; [apply firsts_in; split; [now apply in_map|tauto]|]. unfold rows_of. now rewrite E. }
  assert (F : forall c, Forall2 (fun a l => In a l) c (map (matching ps) maps) <->
    Forall2 (fun a (m : N -> option (list (list N))) => exists q rows, In q ps /\ m (entity q) = Some rows /\ In a rows) c maps).
  { clear - M. induction maps as [|m ms IH]; intros c; cbn [map]; split; intros H; inversion H; subst; constructor; try (now apply M); now apply IH. }
  split.
  - intros (p & Hp & I). apply in_map_iff in I as (c & <- & Hc). exists p, c. repeat split; auto. now apply F, choices_in.
  - intros (p & c & Hp & -> & H). exists p. split; auto. apply in_map_iff. exists c. split; auto. now apply choices_in, F.
Qed.
(* Each posting gets exactly as many rows as there are choices. *)
Theorem C87_count ps maps : N.of_nat (length (product ps maps)) = (N.of_nat (length ps) * number_of_choices ps maps)%N.
Proof.
  unfold product. rewrite <- total_spec. set (ls := map (matching ps) maps).
  assert (C : length (choices ls) = total ls) by (rewrite <- (map_length (@concat N)), <- digits_choices, map_length; apply seq_length).
  clearbody ls. induction ps as [|p l IH]; [reflexivity|]. cbn [flat_map]. rewrite app_length, map_length, C, Nat2N.inj_add, IH. cbn [length]. lia.
Qed.
(* With two sets of entities, every posting is combined with every pair of entities of the record that are in the sets. *)
Theorem C87_two_sets cids eids scores from toExclusive (s1 s2 : N -> bool) res :
  from <= toExclusive -> toExclusive <= length cids -> toExclusive <= length eids -> toExclusive <= length scores ->
  let ps := postings cids eids scores from (toExclusive - from) in
  exists rows, appendCrossProductTwo cids eids scores from toExclusive s1 s2 res = Some (res ++ rows) /\
    rows = flat_map (fun p => flat_map (fun a => map (fun b => head_of p ++ [a; b]) (filter s2 (entities ps))) (filter s1 (entities ps))) ps /\
    forall r, In r rows <-> exists p q q', In p ps /\ In q ps /\ In q' ps /\ s1 (entity q) = true /\ s2 (entity q') = true /\ r = head_of p ++ [entity q; entity q'].
Proof.
  intros H0 H1 H2 H3 ps. eexists. split; [|split; [reflexivity|]].
  - unfold appendCrossProductTwo. rewrite collect_two_ok by lia. cbn [app]. rewrite append_two_ok by lia. unfold entities, ps. now rewrite postings_entities by lia.
  - assert (E : forall e, In e (entities ps) <-> exists q, In q ps /\ entity q = e).
    { intros e. unfold entities. rewrite firsts_in, in_map_iff. split; [intros [(q & <- & Hq) _]; eauto|]. intros (q & Hq & <-). split; [eauto|intros []]. }
    intros r. rewrite in_flat_map. split.
    + intros (p & Hp & I). apply in_flat_map in I as (a & Ha & I). apply in_map_iff in I as (b & <- & Hb).
      apply filter_In in Ha as [Ha A], Hb as [Hb B]. apply E in Ha as (q & Hq & <-), Hb as (q' & Hq' & <-). exists p, q, q'. auto 10.
    + intros (p & q & q' & Hp & Hq & Hq' & A & B & ->). exists p. split; auto. apply in_flat_map. exists (entity q). split; [apply filter_In; split; auto; apply E; eauto|].
      apply in_map_iff. exists (entity q'). split; auto. apply filter_In; split; auto; apply E; eauto.
Qed.

Lemma many n : n <> 0%N -> exists big : list (list N), In [7%N] big /\ N.of_nat (length big) = n.
Proof.
  intros H. exists (repeat [7%N] (N.to_nat n)). split; [|rewrite repeat_length; apply N2Nat.id].
  destruct (N.to_nat n) eqn:Z; [lia|now left].
Qed.
Lemma wraps big : In [7%N] big -> N.of_nat (length big) = 65536%N ->
  In [5; 1; 2; 7; 7; 7; 7]%N (product (postings [2%N] [5%N] [1%N] 0 1) (repeat (fun _ => Some big) 4)) /\
  appendCrossProduct [2%N] [5%N] [1%N] 0 1 (repeat (fun _ => Some big) 4) [] = Some [].
Proof.
  intros IB LB. split.
  - apply C87_rows. exists (5, 1, 2)%N, [[7]; [7]; [7]; [7]]%N. split; [now left|]. split; [reflexivity|].
    assert (Q : exists (q : posting) rows, In q (postings [2%N] [5%N] [1%N] 0 1) /\ Some big = Some rows /\ In [7%N] rows).
    { exists (5, 1, 2)%N, big. split; [now left|]. split; [reflexivity|exact IB]. }
    cbn [repeat]. repeat constructor; exact Q.
  - unfold appendCrossProduct. cbn [Nat.sub repeat map collect nth_error existsb push_matches combine fst snd app append_rows].
    assert (Z : nofResultRows [big; big; big; big] = 0%N) by (unfold nofResultRows; cbn [fold_left]; rewrite LB; reflexivity).
    rewrite Z. reflexivity.
Qed.
(* Four sub results with 65536 rows for an entity have 2^64 combinations, and this number wraps to 0: no row is appended. *)
Theorem C87_wraps_refuted : exists cids eids scores from toExclusive maps r,
  from <= toExclusive /\ toExclusive <= length cids /\ toExclusive <= length eids /\ toExclusive <= length scores /\
  In r (product (postings cids eids scores from (toExclusive - from)) maps) /\
  appendCrossProduct cids eids scores from toExclusive maps [] = Some [].
Proof.
  destruct (many 65536) as (big & IB & LB); [discriminate|]. destruct (wraps big IB LB) as [W1 W2].
  exists [2%N], [5%N], [1%N], 0, 1, (repeat (fun _ => Some big) 4), [5; 1; 2; 7; 7; 7; 7]%N.
  split; [repeat constructor|]. do 3 (split; [repeat constructor|]). split; [exact W1|exact W2].
Qed.
(* a record with three postings for two entities, a sub result with two rows for the first and one with a row for each *)
Example C87_example : let m1 := fun e => if (e =? 5)%N then Some [[10; 11]; [12; 13]]%N else None in
  let m2 := fun e => if (e =? 5)%N then Some [[20%N]] else if (e =? 6)%N then Some [[21%N]] else None in
  let ps := postings [1; 2; 2; 2]%N [9; 5; 6; 5]%N [1; 1; 3; 1]%N 1 (4 - 1) in
  ps = [(5, 1, 2); (6, 3, 2); (5, 1, 2)]%N /\ (number_of_choices ps [m1; m2] = 4)%N /\
  appendCrossProduct [1; 2; 2; 2]%N [9; 5; 6; 5]%N [1; 1; 3; 1]%N 1 4 [m1; m2] [] =
    Some [[5; 1; 2; 10; 11; 20]; [5; 1; 2; 12; 13; 20]; [5; 1; 2; 10; 11; 21]; [5; 1; 2; 12; 13; 21];
          [6; 3; 2; 10; 11; 20]; [6; 3; 2; 12; 13; 20]; [6; 3; 2; 10; 11; 21]; [6; 3; 2; 12; 13; 21];
          [5; 1; 2; 10; 11; 20]; [5; 1; 2; 12; 13; 20]; [5; 1; 2; 10; 11; 21]; [5; 1; 2; 12; 13; 21]]%N /\
  appendCrossProductTwo [1; 2; 2; 2]%N [9; 5; 6; 5]%N [1; 1; 3; 1]%N 1 4 (N.eqb 5) (fun _ => true) [] =
    Some [[5; 1; 2; 5; 5]; [5; 1; 2; 5; 6]; [6; 3; 2; 5; 5]; [6; 3; 2; 5; 6]; [5; 1; 2; 5; 5]; [5; 1; 2; 5; 6]]%N.
Proof. vm_compute. repeat split. Qed.
Print Assumptions C87_cross_product_partial.
Print Assumptions C87_rows.
Print Assumptions C87_count.
Print Assumptions C87_two_sets.
Print Assumptions C87_wraps_refuted.
