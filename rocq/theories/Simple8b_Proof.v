From Coq Require Import List NArith ZArith Lia Arith ZifyBool ZifyN ZifyNat.
From Verif Require Import Base Simple8b_Model.
Import ListNotations.
Open Scope N_scope.

Lemma land_shiftl_low x y k : x < 2 ^ k -> N.land x (N.shiftl y k) = 0.
Proof.
  intros H. apply N.bits_inj_iff. intros i. rewrite N.land_spec, N.bits_0.
  destruct (N.lt_ge_cases i k) as [Hi|Hi].
  - rewrite N.shiftl_spec_low by exact Hi. apply Bool.andb_false_r.
  - destruct (N.eq_dec x 0) as [->|Hx]; [now rewrite N.bits_0|].
    rewrite N.bits_above_log2; [reflexivity|].
    apply N.lt_le_trans with k; [|exact Hi]. apply N.log2_lt_pow2; lia.
Qed.

Lemma lor_shiftl_add x y k : x < 2 ^ k -> N.lor x (N.shiftl y k) = x + y * 2 ^ k.
Proof.
  intros H. rewrite <- N.shiftl_mul_pow2.
  pose proof (land_shiftl_low x y k H) as E.
  now rewrite N.add_nocarry_lxor, N.lxor_lor.
Qed.

(* packed value of a list of w-bit fields, least significant first *)
Fixpoint fields (w : N) (xs : list N) : N :=
  match xs with [] => 0 | x :: xs' => x + 2 ^ w * fields w xs' end.

Lemma pack_spec limit w m :
  m = N.ones w -> forall l k cw n cw',
  (limit <= length l)%nat ->
  4 + N.of_nat (k + limit) * w <= 64 ->
  cw < 2 ^ (4 + N.of_nat k * w) ->
  pack limit w m l k cw = (n, cw') ->
  (n <= k + limit)%nat /\
  (n = (k + limit)%nat ->
   Forall (fun x => x < 2 ^ w) (firstn limit l) /\
   cw' = cw + 2 ^ (4 + N.of_nat k * w) * fields w (firstn limit l)).
Proof.
  intros Hm. induction limit as [|limit IH]; intros l k cw n cw' Hl Hb Hcw Hp.
  - simpl in Hp. inversion Hp; subst. split; [lia|]. intros _. simpl.
    split; [constructor|lia].
  - destruct l as [|x l]; [simpl in Hl; lia|]. cbn [pack] in Hp.
    destruct (m <? x) eqn:Hx.
    + inversion Hp; subst. split; [lia|]. intros; lia.
    + assert (Hx' : x < 2 ^ w).
      { subst m. rewrite N.ones_equiv in Hx.
        assert (0 < 2 ^ w) by (apply N.neq_0_lt_0, N.pow_nonzero; lia). lia. }
      assert (Hpw : 2 ^ (4 + N.of_nat (S k) * w) = 2 ^ (4 + N.of_nat k * w) * 2 ^ w).
      { rewrite <- N.pow_add_r. f_equal. lia. }
      assert (Hlt : x * 2 ^ (4 + N.of_nat k * w) < 2 ^ (4 + N.of_nat (S k) * w)).
      { rewrite Hpw. rewrite (N.mul_comm x).
        apply N.mul_lt_mono_pos_l; [apply N.neq_0_lt_0, N.pow_nonzero; lia|exact Hx']. }
      assert (Hsh : shl64 x (4 + N.of_nat k * w) = N.shiftl x (4 + N.of_nat k * w)).
      { unfold shl64. apply N.mod_small. rewrite N.shiftl_mul_pow2.
        eapply N.lt_le_trans; [exact Hlt|]. apply N.pow_le_mono_r; lia. }
      rewrite Hsh, lor_shiftl_add in Hp by exact Hcw.
      apply IH in Hp; [|simpl in Hl; lia| |].
      * destruct Hp as [H1 H2]. split; [lia|]. intros Hn.
        destruct H2 as [H2 H3]; [lia|]. simpl. split; [constructor; assumption|].
        rewrite H3, Hpw. simpl. lia.
      * replace (S k + limit)%nat with (k + S limit)%nat by lia. exact Hb.
      * rewrite Hpw. rewrite Hpw in Hlt.
        assert ((x + 1) * 2 ^ (4 + N.of_nat k * w) <= 2 ^ w * 2 ^ (4 + N.of_nat k * w))
          by (apply N.mul_le_mono_r; lia). lia.
Qed.

Lemma pack_complete limit w m : forall l k cw,
  (limit <= length l)%nat ->
  Forall (fun x => x <= m) (firstn limit l) ->
  fst (pack limit w m l k cw) = (k + limit)%nat.
Proof.
  induction limit as [|limit IH]; intros l k cw Hl H; simpl; [lia|].
  destruct l as [|x l]; [simpl in Hl; lia|]. simpl in H. inversion H; subst.
  replace (m <? x) with false by lia. rewrite IH; [lia|simpl in Hl; lia|assumption].
Qed.

Lemma unpack_fields w : forall g xs,
  Forall (fun x => x < 2 ^ w) xs -> (length xs <= g)%nat ->
  unpack g w (N.ones w) (fields w xs) = xs ++ repeat 0 (g - length xs).
Proof.
  intros g. induction g as [|g IH]; intros xs H Hl.
  - destruct xs; [reflexivity|simpl in Hl; lia].
  - assert (Hp : 2 ^ w <> 0) by (apply N.pow_nonzero; lia).
    destruct xs as [|x xs].
    + cbn [unpack fields length app]. rewrite N.shiftr_0_l.
      change 0 with (fields w []) at 2. rewrite (IH []); [|constructor|simpl; lia].
      simpl. now rewrite Nat.sub_0_r.
    + inversion H; subst. simpl. f_equal.
      * rewrite N.land_ones, N.mul_comm, N.mod_add by exact Hp. now apply N.mod_small.
      * rewrite N.shiftr_div_pow2, N.mul_comm, N.div_add by exact Hp.
        rewrite N.div_small by assumption. rewrite N.add_0_l. apply IH; [assumption|].
        simpl in Hl; lia.
Qed.

Definition sel_ok (s : N) : bool :=
  (mask s =? N.ones (itemWidth s)) && (1 <=? groupSize s)%nat &&
  (4 + N.of_nat (groupSize s) * itemWidth s <=? 64) && (s <? 16) && (0 <? itemWidth s).

Lemma packing_ok : Forall (fun s => sel_ok s = true) packing_selectors.
Proof. repeat constructor. Qed.

Lemma decode_word_packed s xs :
  sel_ok s = true -> Forall (fun x => x < 2 ^ itemWidth s) xs -> (length xs <= groupSize s)%nat ->
  decode_word (s + 2 ^ 4 * fields (itemWidth s) xs) = xs ++ repeat 0 (groupSize s - length xs).
Proof.
  unfold sel_ok. intros Hs H Hl. unfold decode_word.
  assert (E : N.land (s + 2 ^ 4 * fields (itemWidth s) xs) 15 = s).
  { change 15 with (N.ones 4). rewrite N.land_ones, N.mul_comm, N.mod_add by discriminate.
    apply N.mod_small. change (2 ^ 4) with 16. lia. }
  rewrite E. replace (mask s) with (N.ones (itemWidth s)) by lia.
  rewrite N.shiftr_div_pow2, N.mul_comm, N.div_add by discriminate.
  rewrite N.div_small by (change (2 ^ 4) with 16; lia). rewrite N.add_0_l.
  now apply unpack_fields.
Qed.

Lemma fields_bound w xs : Forall (fun x => x < 2 ^ w) xs -> fields w xs < 2 ^ (N.of_nat (length xs) * w).
Proof.
  induction 1 as [|x xs Hx H IH]; cbn [fields length]; [reflexivity|].
  replace (N.of_nat (S (length xs)) * w) with (N.of_nat (length xs) * w + w) by lia.
  rewrite N.pow_add_r.
  assert ((fields w xs + 1) * 2 ^ w <= 2 ^ (N.of_nat (length xs) * w) * 2 ^ w)
    by (apply N.mul_le_mono_r; lia). lia.
Qed.

(* one chosen selector: word and items *)
Lemma try_selectors_spec sels : Forall (fun s => sel_ok s = true) sels ->
  forall l cw n, l <> [] -> try_selectors sels l = Some (cw, n) ->
  (0 < n <= length l)%nat /\ cw < 2 ^ 64 /\
  (decode_word cw = firstn n l \/ (n = length l /\ exists pad, decode_word cw = l ++ pad)).
Proof.
  induction 1 as [|s sels Hs Hss IH]; intros l cw n Hl Ht; [discriminate|].
  simpl in Ht.
  set (limit := Nat.min (length l) (groupSize s)) in *.
  destruct (pack limit (itemWidth s) (mask s) l 0 s) as [n' cw'] eqn:Hp.
  destruct (Nat.eqb n' limit) eqn:Hn.
  - inversion Ht; subst n' cw'. apply Nat.eqb_eq in Hn. subst n.
    pose proof Hs as Hs'. unfold sel_ok in Hs.
    assert (Hll : (0 < length l)%nat) by (destruct l; [congruence|simpl; lia]).
    assert (Hw : N.of_nat limit * itemWidth s <= N.of_nat (groupSize s) * itemWidth s)
      by (apply N.mul_le_mono_r; lia).
    apply pack_spec in Hp; [|lia|lia| |].
    + destruct Hp as [_ Hp]. specialize (Hp eq_refl). destruct Hp as [H1 H2].
      rewrite N.mul_0_l, N.add_0_r in H2.
      assert (Hlen : length (firstn limit l) = limit) by (rewrite firstn_length; lia).
      split; [lia|]. split.
      { pose proof (fields_bound _ _ H1) as Hf. rewrite Hlen in Hf.
        assert (2 ^ (N.of_nat limit * itemWidth s) <= 2 ^ 60) by (apply N.pow_le_mono_r; lia).
        change (2 ^ 64) with (16 * 2 ^ 60). change (2 ^ 4) with 16 in H2. lia. }
      subst cw. rewrite decode_word_packed by (assumption || lia).
      destruct (Nat.le_gt_cases (groupSize s) (length l)).
      * left. replace (groupSize s - length (firstn limit l))%nat with 0%nat by lia.
        simpl. apply app_nil_r.
      * right. split; [lia|]. exists (repeat 0 (groupSize s - length (firstn limit l))).
        f_equal. apply firstn_all2. lia.
    + rewrite Nat.add_0_l. lia.
    + rewrite N.mul_0_l, N.add_0_r. change (2 ^ 4) with 16. lia.
  - apply IH; assumption.
Qed.

Lemma try_selectors_last l : l <> [] -> Forall (fun x => x < 2 ^ 60) l ->
  exists cw n, try_selectors packing_selectors l = Some (cw, n).
Proof.
  intros Hl H.
  assert (G : forall sels, exists cw n, try_selectors (sels ++ [15]) l = Some (cw, n)).
  { induction sels as [|s sels IH].
    - cbn [app try_selectors].
      set (limit := Nat.min (length l) (groupSize 15)).
      assert (Hlim : limit = 1%nat).
      { unfold limit. change (groupSize 15) with 1%nat. destruct l; [congruence|simpl; lia]. }
      pose proof (pack_complete limit (itemWidth 15) (mask 15) l 0 15) as P.
      destruct (pack limit (itemWidth 15) (mask 15) l 0 15) as [n cw].
      simpl fst in P. rewrite P.
      + rewrite Nat.eqb_refl. eauto.
      + lia.
      + apply Forall_firstn. eapply Forall_impl; [|exact H]. intros a Ha. simpl in Ha.
        change (mask 15) with (2 ^ 60 - 1). lia.
    - cbn [app try_selectors].
      destruct (pack _ _ _ _ _ _) as [n cw]. destruct (Nat.eqb n _); eauto. }
  exact (G [2;3;4;5;6;7;8;9;10;11;12;13;14]).
Qed.

(* ws is a faithful encoding of l *)
Inductive Enc : list N -> list N -> Prop :=
| Enc_nil : Enc [] []
| Enc_full w l ws : decode_word w <> [] -> w < 2 ^ 64 -> Enc l ws -> Enc (decode_word w ++ l) (w :: ws)
| Enc_last w l pad : l <> [] -> w < 2 ^ 64 -> decode_word w = l ++ pad -> Enc l [w].

Lemma first_nonzero_none : forall n l, first_nonzero n l = None -> Forall (eq 0) (firstn n l).
Proof.
  induction n; intros [|x l] H; simpl in *; try constructor.
  - destruct (x =? 0) eqn:E; [|discriminate]. lia.
  - destruct (x =? 0) eqn:E; [|discriminate]. apply IHn.
    destruct (first_nonzero n l); [discriminate|reflexivity].
Qed.

Lemma first_nonzero_some : forall n l i, first_nonzero n l = Some i ->
  (i < n)%nat /\ (i < length l)%nat /\ Forall (eq 0) (firstn i l).
Proof.
  induction n; intros [|x l] i H; simpl in *; try discriminate.
  destruct (x =? 0) eqn:E.
  - destruct (first_nonzero n l) as [j|] eqn:F; [|discriminate]. inversion H; subst.
    apply IHn in F. destruct F as [F1 [F2 F3]]. simpl. repeat split; try lia.
    constructor; [lia|exact F3].
  - inversion H; subst. simpl. repeat split; try lia. constructor.
Qed.

Lemma Forall_eq0_repeat l : Forall (eq 0) l -> l = repeat 0 (length l).
Proof. induction 1; simpl; congruence. Qed.

Lemma decode_word_0 : decode_word 0 = repeat 0 240.
Proof. vm_compute. reflexivity. Qed.
Lemma decode_word_1 : decode_word 1 = repeat 0 120.
Proof. vm_compute. reflexivity. Qed.

Lemma encode_loop_Enc : forall fuel l, (length l <= fuel)%nat -> Forall (fun x => x < 2 ^ 60) l ->
  exists ws, encode_loop fuel l = Some ws /\ Enc l ws.
Proof.
  induction fuel as [|fuel IH]; intros l Hl H.
  - destruct l; [|simpl in Hl; lia]. exists []. split; [reflexivity|constructor].
  - destruct (list_eq_dec N.eq_dec l []) as [->|Hne].
    { exists []. split; [reflexivity|constructor]. }
    assert (Hlen : (0 < length l)%nat) by (destruct l; [congruence|simpl; lia]).
    assert (Hun : encode_loop (S fuel) l =
      match first_nonzero (Nat.min 240 (length l)) l with
      | None => option_map (cons 0) (encode_loop fuel (skipn 240 l))
      | Some i =>
          let sel1 := Nat.leb 120 i in
          let l1 := if sel1 then skipn 120 l else l in
          match try_selectors packing_selectors l1 with
          | None => None
          | Some (cw, n) =>
              option_map (fun ws => (if sel1 then [1] else []) ++ cw :: ws)
                         (encode_loop fuel (skipn n l1))
          end
      end) by (destruct l; [congruence|reflexivity]).
    rewrite Hun. clear Hun.
    destruct (first_nonzero (Nat.min 240 (length l)) l) as [i|] eqn:Hfz.
    + apply first_nonzero_some in Hfz. destruct Hfz as [Hi1 [Hi2 Hi3]].
      cbv zeta. set (sel1 := (120 <=? i)%nat). set (l1 := if sel1 then skipn 120 l else l).
      assert (Hl1 : l1 <> []).
      { unfold l1. destruct sel1 eqn:E; [|assumption]. intros C.
        apply (f_equal (@length N)) in C. rewrite skipn_length in C. simpl in C.
        unfold sel1 in E. lia. }
      assert (Hb1 : Forall (fun x => x < 2 ^ 60) l1).
      { unfold l1. destruct sel1; [apply Forall_skipn|]; assumption. }
      assert (Hlen1 : (length l1 <= length l)%nat).
      { unfold l1. destruct sel1; [rewrite skipn_length|]; lia. }
      destruct (try_selectors_last l1 Hl1 Hb1) as [cw [n Ht]]. rewrite Ht.
      destruct (try_selectors_spec _ packing_ok l1 cw n Hl1 Ht) as [Hn [Hcw Hd]].
      destruct (IH (skipn n l1)) as [ws [Hws He]].
      { rewrite skipn_length. lia. }
      { now apply Forall_skipn. }
      rewrite Hws. simpl option_map. eexists. split; [reflexivity|].
      assert (E1 : Enc l1 (cw :: ws)).
      { destruct Hd as [Hd|[Hd [pad Hp]]].
        - rewrite <- (firstn_skipn n l1). rewrite <- Hd. apply Enc_full; [|assumption|assumption].
          rewrite Hd. intros C. apply (f_equal (@length N)) in C. rewrite firstn_length in C.
          simpl in C. lia.
        - rewrite Hd, skipn_all in He. inversion He; subst; [|exfalso|exfalso].
          + eapply Enc_last; eassumption.
          + destruct (decode_word w); simpl in *; congruence.
          + congruence. }
      unfold l1 in E1. destruct sel1 eqn:E; simpl; [|exact E1].
      assert (Hz : firstn 120 l = decode_word 1).
      { rewrite decode_word_1.
        assert (Hf : Forall (eq 0) (firstn 120 l)).
        { replace (firstn 120 l) with (firstn 120 (firstn i l)).
          - now apply Forall_firstn.
          - rewrite firstn_firstn. f_equal. unfold sel1 in E. lia. }
        apply Forall_eq0_repeat in Hf. rewrite Hf. f_equal. rewrite firstn_length.
        unfold sel1 in E. lia. }
      rewrite <- (firstn_skipn 120 l). rewrite Hz. apply Enc_full; [|reflexivity|exact E1].
      rewrite decode_word_1. discriminate.
    + destruct (IH (skipn 240 l)) as [ws [Hws He]].
      { rewrite skipn_length. lia. }
      { now apply Forall_skipn. }
      rewrite Hws. simpl option_map. eexists. split; [reflexivity|].
      apply first_nonzero_none in Hfz.
      destruct (Nat.le_gt_cases 240 (length l)) as [Hg|Hg].
      * rewrite Nat.min_l in Hfz by lia.
        rewrite <- (firstn_skipn 240 l).
        replace (firstn 240 l) with (decode_word 0).
        -- apply Enc_full; [rewrite decode_word_0; discriminate|reflexivity|exact He].
        -- rewrite decode_word_0. apply Forall_eq0_repeat in Hfz. rewrite Hfz. f_equal.
           rewrite firstn_length. lia.
      * rewrite Nat.min_r, firstn_all in Hfz by lia.
        rewrite (skipn_all2 l) in He by lia.
        assert (ws = []).
        { inversion He; subst; [reflexivity| |congruence].
          destruct (decode_word w); simpl in *; congruence. }
        subst ws. apply Enc_last with (repeat 0 (240 - length l)); [assumption|reflexivity|].
        rewrite decode_word_0. apply Forall_eq0_repeat in Hfz.
        replace 240%nat with (length l + (240 - length l))%nat at 1 by lia.
        rewrite repeat_app. f_equal. now symmetry.
Qed.

Lemma decode_word_length w : (length (decode_word w) <= 240)%nat.
Proof.
  unfold decode_word. set (s := N.land w 15).
  assert (Hs : (s < 16)).
  { unfold s. change 15 with (N.ones 4). rewrite N.land_ones. apply N.mod_lt. discriminate. }
  assert (Hu : forall g a b c, length (unpack g a b c) = g).
  { induction g; intros; simpl; congruence. }
  rewrite Hu. clear Hu.
  assert (Hall : forallb (fun k => groupSize (N.of_nat k) <=? 240)%nat (seq 0 16) = true)
    by (vm_compute; reflexivity).
  rewrite forallb_forall in Hall. specialize (Hall (N.to_nat s)).
  rewrite N2Nat.id in Hall. apply Nat.leb_le, Hall, in_seq. lia.
Qed.

Lemma Enc_decode l ws : Enc l ws -> forall done,
  exists out pad, decode_loop ws (done + length l) done = Some out /\ out = l ++ pad /\
  (length pad < 240)%nat.
Proof.
  induction 1 as [|w l ws Hne Hw HE IH|w l pad Hne Hw Hd]; intros done.
  - exists [], []. simpl. rewrite Nat.add_0_r, Nat.leb_refl. repeat split. simpl. lia.
  - assert (0 < length (decode_word w))%nat by (destruct (decode_word w); [congruence|simpl; lia]).
    cbn [decode_loop]. rewrite app_length.
    replace (done + (length (decode_word w) + length l) <=? done)%nat with false by lia.
    destruct (IH (done + length (decode_word w))%nat) as [out [pad [H1 [H2 H3]]]].
    replace (done + (length (decode_word w) + length l))%nat
      with (done + length (decode_word w) + length l)%nat by lia.
    rewrite H1. exists (decode_word w ++ out), pad. repeat split; [|assumption].
    rewrite H2. apply app_assoc.
  - assert (0 < length l)%nat by (destruct l; [congruence|simpl; lia]).
    cbn [decode_loop].
    replace (done + length l <=? done)%nat with false by lia.
    exists (l ++ pad), pad. rewrite Hd. rewrite app_length.
    replace (done + length l <=? done + (length l + length pad))%nat with true by lia.
    simpl. rewrite app_nil_r. repeat split.
    pose proof (decode_word_length w) as Hb. rewrite Hd, app_length in Hb. lia.
Qed.

Lemma Enc_length l ws : Enc l ws -> (length ws <= length l)%nat.
Proof.
  induction 1 as [|w l ws Hne Hw HE IH|w l pad Hne Hw Hd].
  - simpl; lia.
  - rewrite app_length. simpl. destruct (decode_word w); [congruence|simpl; lia].
  - simpl. destruct l; [congruence|simpl; lia].
Qed.

Lemma Enc_words l ws : Enc l ws -> Forall (fun w => w < 2 ^ 64) ws.
Proof. induction 1; repeat constructor; assumption. Qed.

Lemma encode_total l : Forall (fun x => x < 2 ^ 60) l ->
  exists ws, encode l = Some ws /\ Enc l ws.
Proof. intros H. apply encode_loop_Enc; [lia|exact H]. Qed.

Lemma roundtrip l : Forall (fun x => x < 2 ^ 60) l ->
  exists ws buf, encode l = Some ws /\ decode ws (length l) = Some buf /\
  firstn (length l) buf = l.
Proof.
  intros H. destruct (encode_total l H) as [ws [Hw He]].
  destruct (Enc_decode l ws He 0) as [out [pad [H1 [H2 H3]]]].
  exists ws, out. repeat split; [assumption|exact H1|]. subst out. apply firstn_length_app.
Qed.

Lemma buffers l : Forall (fun x => x < 2 ^ 60) l ->
  exists ws buf, encode l = Some ws /\ Forall (fun w => w < 2 ^ 64) ws /\
  (length ws <= length l)%nat /\
  decode ws (length l) = Some buf /\ (length buf < length l + 240)%nat.
Proof.
  intros H. destruct (encode_total l H) as [ws [Hw He]].
  destruct (Enc_decode l ws He 0) as [out [pad [H1 [H2 H3]]]].
  exists ws, out. repeat split; [assumption|eapply Enc_words; eassumption|
    now apply Enc_length|exact H1|]. subst out. rewrite app_length. lia.
Qed.

(* Decoding does not look at the words after the encoding and is independent of what follows. *)
Lemma decode_loop_app : forall ws n done ws' out,
  decode_loop ws n done = Some out -> decode_loop (ws ++ ws') n done = Some out.
Proof.
  induction ws as [|w ws IH]; intros n done ws' out H.
  - simpl in *. destruct (n <=? done)%nat eqn:E; [|discriminate]. destruct ws'; simpl; now rewrite E.
  - simpl in *. destruct (n <=? done)%nat; [exact H|].
    destruct (decode_loop ws n _) eqn:E; [|discriminate]. now rewrite (IH _ _ ws' _ E).
Qed.
