(* Proofs about Postings_Model. *)
From Coq Require Import List NArith Arith Bool Lia ZifyBool ZifyN ZifyNat Sorted Permutation.
From Verif Require Import Bytes Simple8b_Model Simple8b_Thm Ops_Spec Ops_Proof Base ListAux Fts_Model
  Fts_Spec Postings_Model.
Import ListNotations.
Open Scope N_scope.

Lemma more_frequent_swo : strict_weak_order more_frequent.
Proof. unfold more_frequent. split; intros; lia. Qed.

Lemma codebook_exists l : exists cb, codebook l cb.
Proof.
  eexists. unfold codebook. eexists. eexists. split; [apply Permutation_refl|].
  split; [apply sort_by_result; apply more_frequent_swo|reflexivity].
Qed.
Lemma codebook_nodup l cb : codebook l cb -> NoDup cb /\ (forall x, In x cb <-> In x l).
Proof.
  intros [vec [sorted [H1 [[H2 _] ->]]]].
  assert (P : Permutation (nodup N.eq_dec l) (map fst sorted)).
  { rewrite <- (map_id (nodup N.eq_dec l)).
    rewrite <- (Permutation_map fst H2), <- (Permutation_map fst H1), map_map. reflexivity. }
  split.
  - eapply Permutation_NoDup; [exact P|apply NoDup_nodup].
  - intros x. rewrite <- (nodup_In N.eq_dec l). split; apply Permutation_in; [symmetry|]; exact P.
Qed.
Lemma codebook_length l cb : codebook l cb -> (length cb <= length l)%nat.
Proof.
  intros H. apply codebook_nodup in H. destruct H as [H1 H2]. apply NoDup_incl_length; auto.
  intros x Hx. now apply H2.
Qed.
Lemma codebook_nonempty l cb : codebook l cb -> l <> [] -> cb <> [].
Proof.
  intros H Hne. apply codebook_nodup in H. destruct H as [_ H]. destruct l as [|x l]; [easy|].
  intros ->. apply (proj2 (H x)). simpl. auto.
Qed.

Lemma code_of_fold m x : forall acc, ~ In x (map fst m) ->
  fold_left (fun acc (e : N * N) => if fst e =? x then snd e else acc) m acc = acc.
Proof.
  induction m as [|e m IH]; intros acc Hn; simpl; auto. destruct (N.eqb_spec (fst e) x) as [E|E].
  - exfalso. apply Hn. simpl. auto.
  - apply IH. intros C. apply Hn. simpl. auto.
Qed.
Lemma code_of_nth ty cb : NoDup cb -> forall i x, nth_error cb i = Some x ->
  code_of (code_map ty cb) x = N.of_nat i mod ty.
Proof.
  unfold code_of, code_map. intros Hnd.
  enough (G : forall cb n acc i x, NoDup cb -> nth_error cb i = Some x ->
    fold_left (fun acc (e : N * N) => if fst e =? x then snd e else acc)
      (combine cb (map (fun j => N.of_nat j mod ty) (seq n (length cb)))) acc = N.of_nat (n + i) mod ty).
  { intros i x E. apply (G cb 0%nat 0 i x Hnd E). }
  clear. induction cb as [|y cb IH]; intros n acc i x Hnd E; [destruct i; discriminate E|].
  inversion Hnd as [|? ? H1 H2]; subst. cbn [length seq map combine fold_left fst snd].
  destruct i as [|i]; cbn [nth_error] in E.
  - injection E as ->. rewrite N.eqb_refl. rewrite code_of_fold.
    + do 2 f_equal. lia.
    + intros C. apply H1. apply in_map_iff in C. destruct C as [[a b] [Q1 Q2]]. cbn [fst] in Q1. subst a.
      apply in_combine_l in Q2. exact Q2.
  - rewrite (IH (S n) _ i x H2 E). do 2 f_equal. lia.
Qed.
Lemma nodup_bounded (l : list N) (m : N) : NoDup l -> Forall (fun x => x < m) l -> N.of_nat (length l) <= m.
Proof.
  intros Hnd Hb. rewrite Forall_forall in Hb.
  assert (G : (length l <= length (map N.of_nat (seq 0 (N.to_nat m))))%nat).
  { apply NoDup_incl_length; auto. intros x Hx. specialize (Hb x Hx). apply in_map_iff. exists (N.to_nat x).
    split; [lia|]. apply in_seq. lia. }
  rewrite map_length, seq_length in G. lia.
Qed.

Lemma lookup_all_codes ty l cb : codebook l cb -> N.of_nat (length cb) <= ty -> forall l', incl l' l ->
  lookup_all cb (map (code_of (code_map ty cb)) l') = Done l' /\
  Forall (fun c => c < N.of_nat (length cb)) (map (code_of (code_map ty cb)) l').
Proof.
  intros H Ht. apply codebook_nodup in H. destruct H as [Hnd Hin].
  induction l' as [|x l' IH]; intros Hl; [split; [reflexivity|constructor]|].
  destruct IH as [I1 I2]; [intros y Hy; apply Hl; simpl; auto|].
  assert (Hx : In x cb) by (apply Hin, Hl; simpl; auto).
  apply In_nth_error in Hx. destruct Hx as [i Ei].
  assert (Hi : (i < length cb)%nat) by (apply nth_error_Some; congruence).
  cbn [map lookup_all]. rewrite (code_of_nth ty cb Hnd i x Ei).
  rewrite N.mod_small by lia. rewrite Nat2N.id, Ei, I1. split; auto. constructor; auto. lia.
Qed.

Lemma gaps_sums : forall cids last, ascending (last :: cids) -> Forall (fun c => c < 2 ^ 64) (last :: cids) ->
  prefix_sums last (gaps last cids) = cids.
Proof.
  induction cids as [|c cids IH]; intros last Ha Hb; [reflexivity|].
  cbn [gaps prefix_sums]. inversion Ha as [|? ? A1 A2]; subst. inversion Hb as [|? ? B1 B2]; subst.
  inversion A2 as [|? ? A3 A4]; subst. inversion B2 as [|? ? B3 B4]; subst.
  assert (E : add64 last (sub64 c last) = c).
  { unfold add64, sub64. replace (c + 2 ^ 64 - last) with ((c - last) + 1 * 2 ^ 64) by lia.
    rewrite N.mod_add by discriminate. rewrite (N.mod_small (c - last)) by lia. rewrite N.mod_small by lia. lia. }
  rewrite E. f_equal. apply IH; auto.
Qed.
Lemma gap_list_sums cids : ascending cids -> Forall (fun c => c < 2 ^ 64) cids ->
  prefix_sums 0 (gap_list cids) = cids.
Proof.
  destruct cids as [|c cids]; intros Ha Hb; [reflexivity|]. cbn [gap_list prefix_sums].
  assert (E : add64 0 c = c).
  { unfold add64. inversion Hb; subst. rewrite N.add_0_l. now apply N.mod_small. }
  rewrite E. f_equal. now apply gaps_sums.
Qed.
Lemma gaps_bound m : m <= 2 ^ 64 -> forall cids last, ascending (last :: cids) -> Forall (fun c => c < m) (last :: cids) ->
  Forall (fun c => c < m) (gaps last cids).
Proof.
  intros Hm. induction cids as [|c cids IH]; intros last Ha Hb; [constructor|].
  cbn [gaps]. inversion Ha as [|? ? A1 A2]; subst. inversion Hb as [|? ? B1 B2]; subst.
  inversion A2 as [|? ? A3 A4]; subst. inversion B2 as [|? ? B3 B4]; subst.
  constructor; [|now apply IH].
  unfold sub64. replace (c + 2 ^ 64 - last) with ((c - last) + 1 * 2 ^ 64) by lia.
  rewrite N.mod_add by discriminate. rewrite N.mod_small by lia. lia.
Qed.
Lemma gap_list_bound m cids : m <= 2 ^ 64 -> ascending cids -> Forall (fun c => c < m) cids ->
  Forall (fun c => c < m) (gap_list cids).
Proof.
  intros Hm. destruct cids as [|c cids]; intros Ha Hb; [constructor|]. cbn [gap_list].
  constructor; [now inversion Hb|]. now apply gaps_bound.
Qed.
Lemma gaps_length : forall cids last, length (gaps last cids) = length cids.
Proof. induction cids; intros; simpl; auto. Qed.
Lemma gap_list_length cids : length (gap_list cids) = length cids.
Proof. destruct cids; simpl; auto. now rewrite gaps_length. Qed.

(* a list of values written and decoded *)
Lemma write_list_ok l : l <> [] -> Forall (fun x => x < 2 ^ 60) l ->
  exists ws, writeList l = Some (words 8 ws) /\ Forall (fun w => w < 256 ^ N.of_nat 8) ws /\
    (length ws <= length l)%nat /\
    forall ty, Forall (fun x => x < ty) l -> decode_into ws (length l) (length l + 250) ty = Done l.
Proof.
  intros Hne Hb. destruct (C02_simple8b_buffers l Hb) as [ws [buf [E1 [E2 [E3 [E4 E5]]]]]].
  exists ws. unfold writeList. destruct l as [|x l'] eqn:El; [easy|]. rewrite <- El in *. rewrite E1.
  split; [reflexivity|]. split; [exact E2|]. split; [exact E3|]. intros ty Ht.
  destruct (C01_simple8b_roundtrip l Hb) as [ws2 [buf2 [F1 [F2 F3]]]].
  assert (ws2 = ws) by congruence. subst ws2. assert (buf2 = buf) by congruence. subst buf2.
  unfold decode_into. rewrite E4. replace (Nat.leb (length buf) (length l + 250)) with true by (symmetry; apply Nat.leb_le; lia).
  f_equal. rewrite F3. rewrite <- (map_id l) at 2. apply map_ext_in. intros y Hy. rewrite Forall_forall in Ht.
  apply N.mod_small. auto.
Qed.

Lemma div8 n : (8 * n / 8 = n)%nat /\ (8 * n mod 8 = 0)%nat.
Proof. split; [rewrite Nat.mul_comm; now apply Nat.div_mul|rewrite Nat.mul_comm; now apply Nat.mod_mul]. Qed.
Lemma divw w n : (w <> 0 -> w * n / w = n /\ w * n mod w = 0)%nat.
Proof. intros H. split; [rewrite Nat.mul_comm; now apply Nat.div_mul|rewrite Nat.mul_comm; now apply Nat.mod_mul]. Qed.

Lemma read_gap_ok pre ws post cids : 
  Forall (fun w => w < 256 ^ N.of_nat 8) ws ->
  decode_into ws (length cids) (length cids + 250) (2 ^ 64) = Done (gap_list cids) ->
  ascending cids -> Forall (fun c => c < 2 ^ 64) cids ->
  readGapComprList (pre ++ words 8 ws ++ post) (length cids) (length pre) (length (words 8 ws)) = Done cids.
Proof.
  intros Hw Hd Ha Hb. unfold readGapComprList. rewrite words_length.
  destruct (div8 (length ws)) as [D1 D2]. rewrite D1, D2. cbn [Nat.eqb negb].
  rewrite (load_words_at 8 ws _ _ pre post); auto. rewrite Hd. now rewrite gap_list_sums.
Qed.

Lemma read_freq_ok width cb pre ws post l codes : (0 < width)%nat ->
  N.of_nat (width * length cb) < 2 ^ 64 -> Forall (fun v => v < 256 ^ N.of_nat width) cb ->
  Forall (fun w => w < 256 ^ N.of_nat 8) ws -> (length ws <= length l)%nat ->
  decode_into ws (length l) (length l + 250) (2 ^ (8 * N.of_nat width)) = Done codes ->
  lookup_all cb codes = Done l ->
  readFreqComprList width (pre ++ (writeCodebook width cb ++ words 8 ws) ++ post) (length l) (length pre)
    (length (writeCodebook width cb ++ words 8 ws)) = Done l.
Proof.
  intros Hwd Hcb Hcv Hw Hlen Hd Hl. unfold readFreqComprList.
  assert (L1 : length (writeCodebook width cb ++ words 8 ws) = (8 + width * length cb + 8 * length ws)%nat).
  { unfold writeCodebook. rewrite !app_length, le_length, !words_length. lia. }
  rewrite L1. replace (Nat.eqb (8 + width * length cb + 8 * length ws) 0) with false
    by (symmetry; apply Nat.eqb_neq; lia).
  rewrite (load_word_at _ _ 8 (N.of_nat (width * length cb)) pre (words width cb ++ words 8 ws ++ post));
    auto; [|unfold writeCodebook; now rewrite <- !app_assoc].
  rewrite Nat2N.id. destruct (divw width (length cb)) as [D1 D2]; [lia|]. rewrite D1, D2. cbn [Nat.eqb negb].
  rewrite (load_words_at width cb _ _ (pre ++ le 8 (N.of_nat (width * length cb))) (words 8 ws ++ post)); auto.
  2:{ unfold writeCodebook. now rewrite <- !app_assoc. }
  2:{ now rewrite app_length, le_length. }
  replace (Nat.ltb (8 + width * length cb + 8 * length ws) (8 + width * length cb)) with false
    by (symmetry; apply Nat.ltb_ge; lia).
  replace (8 + width * length cb + 8 * length ws - (8 + width * length cb))%nat with (8 * length ws)%nat by lia.
  replace (Nat.ltb (8 * length l) (8 * length ws)) with false by (symmetry; apply Nat.ltb_ge; lia).
  destruct (div8 (length ws)) as [E1 E2]. rewrite E1, E2. cbn [Nat.eqb negb].
  rewrite (load_words_at 8 ws _ _ (pre ++ writeCodebook width cb) post); auto.
  - rewrite Hd. exact Hl.
  - now rewrite <- !app_assoc.
  - unfold writeCodebook. rewrite !app_length, le_length, words_length. lia.
Qed.

(* the postings that can be stored *)
Definition storable (ps : list posting) : Prop :=
  ascending (map p_cid ps) /\ Forall (fun p => p_cid p < 2 ^ 60 /\ p_eid p < 2 ^ 64 /\ p_score p < 2 ^ 16) ps /\
  N.of_nat (length ps) < 2 ^ 60.

Lemma write_read ps skip wcb scb pre post : ps <> [] -> storable ps ->
  codebook (map p_eid ps) wcb -> codebook (map p_score ps) scb ->
  exists bytes m, writePostings (length pre) ps skip wcb scb = Some (bytes, m) /\
    l_count m = length ps /\ l_contexts m = length pre /\ l_end m = length (pre ++ bytes) /\
    hasMultipleWords m = negb skip || Nat.ltb 1 (length wcb) /\
    (l_words m <= l_scores m)%nat /\
    read_contexts (pre ++ bytes ++ post) m = Done (map p_cid ps) /\
    (hasMultipleWords m = true -> read_word_ids (pre ++ bytes ++ post) m = Done (map p_eid ps)) /\
    read_scores (pre ++ bytes ++ post) m = Done (map p_score ps).
Proof.
  intros Hne [Ha [Hb Hl]] Hw Hs. rewrite Forall_forall in Hb.
  assert (Hn : forall (f : posting -> N), map f ps <> []) by (destruct ps; [easy|discriminate]).
  assert (Bc : Forall (fun c => c < 2 ^ 60) (map p_cid ps)).
  { apply Forall_forall. intros x Hx. apply in_map_iff in Hx. destruct Hx as [p [<- Hp]]. now apply Hb. }
  assert (Bw : forall x, In x wcb -> x < 2 ^ 64).
  { intros x Hx. apply (codebook_nodup _ _ Hw) in Hx. apply in_map_iff in Hx. destruct Hx as [p [<- Hp]]. now apply Hb. }
  assert (Bs : forall x, In x scb -> x < 2 ^ 16).
  { intros x Hx. apply (codebook_nodup _ _ Hs) in Hx. apply in_map_iff in Hx. destruct Hx as [p [<- Hp]]. now apply Hb. }
  assert (Lw : N.of_nat (length wcb) < 2 ^ 60).
  { pose proof (codebook_length _ _ Hw) as Q. rewrite map_length in Q. lia. }
  assert (Ls : N.of_nat (length scb) <= 2 ^ 16).
  { apply nodup_bounded; [now apply codebook_nodup in Hs|]. now apply Forall_forall. }
  destruct (lookup_all_codes (2 ^ 64) (map p_eid ps) wcb Hw ltac:(lia) (map p_eid ps) (fun x H => H)) as [Kw1 Kw2].
  destruct (lookup_all_codes (2 ^ 16) (map p_score ps) scb Hs Ls (map p_score ps) (fun x H => H)) as [Ks1 Ks2].
  remember (map (code_of (code_map (2 ^ 64) wcb)) (map p_eid ps)) as wc eqn:Ewc.
  remember (map (code_of (code_map (2 ^ 16) scb)) (map p_score ps)) as sc eqn:Esc.
  assert (W : forall m (l : list N) b, Forall (fun c => c < b) l -> b <= m -> Forall (fun c => c < m) l).
  { intros m l b H1 H2. eapply Forall_impl; [|exact H1]. cbv beta. lia. }
  destruct (write_list_ok (gap_list (map p_cid ps))) as [cw [C1 [C2 [C3 C4]]]].
  { intros C. apply (f_equal (@length N)) in C. rewrite gap_list_length, map_length in C. destruct ps; [easy|discriminate C]. }
  { apply gap_list_bound; auto. discriminate. }
  destruct (write_list_ok wc) as [ww [W1 [W2 [W3 W4]]]].
  { rewrite Ewc. intros C. apply map_eq_nil in C. now apply Hn in C. }
  { eapply W; [exact Kw2|lia]. }
  destruct (write_list_ok sc) as [sw [S1 [S2 [S3 S4]]]].
  { rewrite Esc. intros C. apply map_eq_nil in C. now apply Hn in C. }
  { eapply W; [exact Ks2|]. lia. }
  assert (Lwc : length wc = length ps) by (rewrite Ewc; now rewrite !map_length).
  assert (Lsc : length sc = length ps) by (rewrite Esc; now rewrite !map_length).
  rewrite gap_list_length, map_length in C3, C4.
  set (wpart := if negb skip || Nat.ltb 1 (length wcb) then writeCodebook 8 wcb ++ words 8 ww else []).
  set (spart := writeCodebook 2 scb ++ words 8 sw).
  exists (words 8 cw ++ wpart ++ spart).
  exists (mk_list_meta (length ps) (length pre) (length pre + length (words 8 cw))
           (length pre + length (words 8 cw) + length wpart)
           (length pre + length (words 8 cw) + length wpart + length spart)).
  split.
  { unfold writePostings. destruct ps as [|p ps'] eqn:Eps; [easy|]. rewrite <- Eps in *.
    rewrite <- Ewc, <- Esc, C1, W1, S1. reflexivity. }
  assert (Hm : hasMultipleWords (mk_list_meta (length ps) (length pre) (length pre + length (words 8 cw))
           (length pre + length (words 8 cw) + length wpart)
           (length pre + length (words 8 cw) + length wpart + length spart)) =
           negb skip || Nat.ltb 1 (length wcb)).
  { unfold hasMultipleWords. cbn [l_words l_scores]. unfold wpart.
    destruct (negb skip || Nat.ltb 1 (length wcb)).
    - apply Nat.ltb_lt. unfold writeCodebook. rewrite !app_length, le_length. lia.
    - apply Nat.ltb_ge. simpl. lia. }
  cbn [l_count l_contexts l_end l_words l_scores].
  split; [reflexivity|]. split; [reflexivity|]. split; [rewrite !app_length; lia|]. split; [exact Hm|].
  split; [lia|]. split; [|split].
  - unfold read_contexts. cbn [l_count l_contexts l_end l_words l_scores].
    replace (length pre + length (words 8 cw) - length pre)%nat with (length (words 8 cw)) by lia.
    rewrite <- (map_length p_cid ps). rewrite <- !app_assoc. apply read_gap_ok; auto.
    + rewrite map_length. apply C4. apply (W _ _ (2 ^ 60)); [|discriminate]. apply gap_list_bound; auto. discriminate.
    + apply (W _ _ (2 ^ 60)); auto. discriminate.
  - rewrite Hm. intros Hmw. unfold read_word_ids. cbn [l_count l_contexts l_end l_words l_scores].
    replace (length pre + length (words 8 cw) + length wpart - (length pre + length (words 8 cw)))%nat
      with (length wpart) by lia.
    unfold wpart. rewrite Hmw.
    replace (pre ++ (words 8 cw ++ (writeCodebook 8 wcb ++ words 8 ww) ++ spart) ++ post)
      with ((pre ++ words 8 cw) ++ (writeCodebook 8 wcb ++ words 8 ww) ++ spart ++ post) by (rewrite <- !app_assoc; reflexivity).
    rewrite <- (map_length p_eid ps). rewrite <- app_length.
    apply (read_freq_ok 8 wcb (pre ++ words 8 cw) ww (spart ++ post) (map p_eid ps) wc); auto; try lia.
    + apply Forall_forall. intros x Hx. specialize (Bw x Hx). exact Bw.
    + rewrite map_length. lia.
    + rewrite map_length. rewrite <- Lwc. apply W4. eapply W; [exact Kw2|]. change (8 * N.of_nat 8) with 64. lia.
  - unfold read_scores. cbn [l_count l_contexts l_end l_words l_scores].
    replace (length pre + length (words 8 cw) + length wpart + length spart - (length pre + length (words 8 cw) + length wpart))%nat
      with (length spart) by lia.
    unfold spart.
    replace (pre ++ (words 8 cw ++ wpart ++ writeCodebook 2 scb ++ words 8 sw) ++ post)
      with ((pre ++ words 8 cw ++ wpart) ++ (writeCodebook 2 scb ++ words 8 sw) ++ post) by (rewrite <- !app_assoc; reflexivity).
    rewrite <- (map_length p_score ps).
    replace (length pre + length (words 8 cw) + length wpart)%nat with (length (pre ++ words 8 cw ++ wpart))
      by (rewrite !app_length; lia).
    apply (read_freq_ok 2 scb (pre ++ words 8 cw ++ wpart) sw post (map p_score ps) sc); auto; try lia.
    + apply Forall_forall. intros x Hx. specialize (Bs x Hx). exact Bs.
    + rewrite map_length. lia.
    + rewrite map_length. rewrite <- Lsc. apply S4. eapply W; [exact Ks2|]. change (8 * N.of_nat 2) with 16. lia.
Qed.
