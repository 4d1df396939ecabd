(* Proofs about Fts_Model: the loop of intersectKWay. *)
From Coq Require Import List NArith Arith Bool Lia ZifyBool ZifyN ZifyNat Sorted Permutation.
From Verif Require Import Std_Model Std_Proof Base ListAux Lex_Proof Fts_Model Fts_Spec Fts_Proof Fts_Proof2
  Fts_Proof3.
Import ListNotations.
Open Scope N_scope.

Section KWay.
  Variables (cids scores : list (list N)) (eids : option (list N)) (room : nat).
  Let k := length cids.
  Let L (i : nat) : list N := nth i cids [].
  Let Sc (i : nat) : list N := nth i scores [].
  Hypothesis Hk : (2 <= k)%nat.
  Hypothesis Hasc : forall i, (i < k)%nat -> ascending (L i).
  Hypothesis Hscores : length scores = k.
  Hypothesis Hlen : forall i, (i < k)%nat -> length (Sc i) = length (L i).
  Hypothesis Heids : match eids with Some es => length es = length (L (k - 1)) | None => True end.

  (* the sum of the scores of the first postings of context x in the lists 0 .. n - 1 *)
  Definition base_sum (n : nat) (x : N) : N :=
    fold_right N.add 0 (map (fun i => first_score x (L i, Sc i)) (seq 0 n)).

  (* x occurs in all lists *)
  Definition common (x : N) : Prop := forall i, (i < k)%nat -> In x (L i).
  Definition commonb (x : N) : bool := forallb (fun l => member x l) cids.
  Lemma commonb_iff x : commonb x = true <-> common x.
  Proof.
    unfold commonb, common. rewrite forallb_forall. split.
    - intros H i Hi. apply member_in, H. apply nth_In. exact Hi.
    - intros H l Hl. apply member_in. destruct (In_nth _ _ [] Hl) as [i [Hi <-]]. now apply H.
  Qed.

  (* what is to be written: for a source posting p the posting emit p *)
  Variables (items : list posting) (emit : posting -> posting).
  Hypothesis Hitems_sorted : fsorted p_cid items.
  Hypothesis Hitems_in : forall p, In p items -> In (p_cid p) (L (k - 1)).
  Definition expected (P : N -> bool) : list posting :=
    map emit (filter (fun p => P (p_cid p) && commonb (p_cid p)) items).
  Hypothesis Hroom : (length (expected (fun _ => true)) <= room)%nat.
  (* one match writes the postings of this context *)
  Hypothesis Hemit : match eids with
    | Some es => forall x, common x -> let m0 := bl x (L (k - 1)) in
        emit_entities x (base_sum (k - 1) x mod 2 ^ 16) es (Sc (k - 1)) (skipn m0 (L (k - 1))) m0 =
        Ok (ble x (L (k - 1)), map emit (filter (fun p => p_cid p =? x) items))
    | None => forall x, common x ->
        [(x, 0, base_sum k x mod 2 ^ 16)] = map emit (filter (fun p => p_cid p =? x) items)
    end.

  Lemma expected_ext P Q : (forall x, common x -> P x = Q x) -> expected P = expected Q.
  Proof.
    intros H. unfold expected. f_equal. apply filter_ext_in. intros p Hp.
    destruct (commonb (p_cid p)) eqn:E; [|now rewrite !andb_false_r].
    rewrite H; auto. now apply commonb_iff.
  Qed.

  Lemma filter_lt_eq x : filter (fun p => (p_cid p <=? x) && commonb (p_cid p)) items =
    filter (fun p => (p_cid p <? x) && commonb (p_cid p)) items ++
    filter (fun p => (p_cid p =? x) && commonb (p_cid p)) items.
  Proof.
    clear Hitems_in Hroom Hemit. induction Hitems_sorted as [|p l Hl IH Hp]; simpl; auto.
    rewrite IH by exact Hl. rewrite Forall_forall in Hp. clear IH.
    destruct (commonb (p_cid p)); [|now rewrite !andb_false_r]. rewrite !andb_true_r.
    destruct (N.compare_spec (p_cid p) x) as [E|E|E].
    - destruct (N.leb_spec (p_cid p) x); [|lia]. destruct (N.ltb_spec (p_cid p) x); [lia|].
      destruct (N.eqb_spec (p_cid p) x); [|lia].
      rewrite (filter_all_false (fun p0 => (p_cid p0 <? x) && _) l); [reflexivity|].
      intros q Hq. specialize (Hp q Hq). destruct (N.ltb_spec (p_cid q) x); [lia|auto].
    - destruct (N.leb_spec (p_cid p) x); [|lia]. destruct (N.ltb_spec (p_cid p) x); [|lia].
      destruct (N.eqb_spec (p_cid p) x); [lia|]. reflexivity.
    - destruct (N.leb_spec (p_cid p) x); [lia|]. destruct (N.ltb_spec (p_cid p) x); [lia|].
      destruct (N.eqb_spec (p_cid p) x); [lia|]. reflexivity.
  Qed.
  Lemma expected_step x : common x ->
    expected (fun y => y <=? x) =
    expected (fun y => y <? x) ++ map emit (filter (fun p => p_cid p =? x) items).
  Proof.
    intros Hx. unfold expected. rewrite filter_lt_eq, map_app. do 2 f_equal.
    apply filter_ext_in. intros p _. destruct (N.eqb_spec (p_cid p) x) as [->|]; auto.
    apply commonb_iff in Hx. now rewrite Hx.
  Qed.
  Lemma expected_room P : (length (expected P) <= room)%nat.
  Proof.
    etransitivity; [|exact Hroom]. unfold expected. rewrite !map_length.
    clear. set (f := fun p => true && commonb (p_cid p)).
    assert (E : forall p, P (p_cid p) && commonb (p_cid p) = P (p_cid p) && f p) by reflexivity.
    rewrite (filter_ext _ _ E). clearbody f. clear E. induction items as [|p l IH]; cbn [filter length]; auto.
    destruct (P (p_cid p)), (f p); cbn [andb length]; lia.
  Qed.

  (* the lists visited since the streak started at list a *)
  Definition visited (a c i : nat) : bool :=
    if Nat.leb a c then Nat.leb a i && Nat.ltb i c else Nat.leb a i || Nat.ltb i c.
  Definition nx (next : list nat) (i : nat) : nat := nth i next 0%nat.

  Definition inv (st : kstate) : Prop :=
    let c := k_list st in let x := k_context st in let s := k_streak st in
    length (k_next st) = k /\ (c < k)%nat /\
    ((exists a, (a < k)%nat /\ (s < k)%nat /\ s = (if Nat.leb a c then c - a else c + k - a)%nat /\
        (forall i, (i < k)%nat ->
           if visited a c i then nx (k_next st) i = S (bl x (L i)) /\ In x (L i)
           else (nx (k_next st) i <= bl x (L i))%nat) /\
        k_out st = expected (fun y => y <? x))
     \/ ((k <= s)%nat /\ (forall i, (i < k)%nat -> (nx (k_next st) i <= ble x (L i))%nat) /\
         k_out st = expected (fun y => y <=? x))).

  Definition rem (next : list nat) : nat :=
    list_sum (map (fun i => (length (L i) - nx next i)%nat) (seq 0 k)).
  Definition measure (st : kstate) : nat :=
    (2 * rem (k_next st) + (if Nat.ltb (k_streak st) k then 1 else 0))%nat.

  Lemma nx_set next c v i : (c < length next)%nat -> nx (list_set next c v) i = if Nat.eqb i c then v else nx next i.
  Proof. intros H. unfold nx. now apply nth_list_set. Qed.

  Lemma inv_bound st i : inv st -> (i < k)%nat -> (nx (k_next st) i <= length (L i))%nat.
  Proof.
    intros [H1 [H2 [[a [Ha [Hs [Hs' [H _]]]]]|[Hs [H _]]]]] Hi; specialize (H i Hi).
    - destruct (visited a (k_list st) i).
      + destruct H as [-> H]. destruct (bl_member _ _ (Hasc i Hi) H) as [Q _].
        pose proof (ble_le (k_context st) (L i)). lia.
      + pose proof (bl_le (k_context st) (L i)). lia.
    - pose proof (ble_le (k_context st) (L i)). lia.
  Qed.

  Lemma base_sum_S n x : base_sum (S n) x = base_sum n x + first_score x (L n, Sc n).
  Proof.
    unfold base_sum. rewrite seq_S, map_app. rewrite Nat.add_0_l.
    cbn [map]. generalize (map (fun i => first_score x (L i, Sc i)) (seq 0 n)). intros l.
    induction l as [|y l IH]; cbn [app fold_right]; [lia|]. rewrite IH. lia.
  Qed.

  (* Lines 232-235 add the first scores of the context *)
  Lemma sum_scores_eq x c next : common x -> (length next = k) ->
    (forall i, (i < k)%nat -> nx next i = if Nat.eqb i c then bl x (L i) else S (bl x (L i))) ->
    forall lists i, (i + lists <= k - 1)%nat ->
    sum_scores scores c next i lists (base_sum i x mod 2 ^ 16) = Ok (base_sum (i + lists) x mod 2 ^ 16).
  Proof.
    intros Hx Hl Hn. induction lists as [|lists IH]; intros i Hi; cbn [sum_scores].
    { now rewrite Nat.add_0_r. }
    rewrite (get_ok next i 0%nat) by lia. cbn [bind]. change (nth i next 0%nat) with (nx next i).
    assert (Hik : (i < k)%nat) by lia.
    assert (Hb : (bl x (L i) < length (Sc i))%nat).
    { rewrite Hlen by auto. destruct (bl_member x (L i) (Hasc i Hik) (Hx i Hik)) as [Q _].
      pose proof (ble_le x (L i)). lia. }
    assert (E : (if Nat.eqb i c then get2 scores i (nx next i) else get2_before scores i (nx next i)) =
                Ok (first_score x (L i, Sc i))).
    { rewrite Hn by auto. rewrite (scores_of_first x (L i) (Sc i)); auto.
      destruct (Nat.eqb i c); cbn [get2_before]; unfold get2; rewrite (get_ok scores i []) by lia; cbn [bind];
        apply get_ok; exact Hb. }
    rewrite E. cbn [bind].
    assert (E2 : add16 (base_sum i x mod 2 ^ 16) (first_score x (L i, Sc i)) = base_sum (S i) x mod 2 ^ 16).
    { rewrite base_sum_S. unfold add16. now rewrite N.add_mod_idemp_l by discriminate. }
    rewrite E2, IH by lia. now rewrite Nat.add_succ_r.
  Qed.

  Lemma next_list c : (c < k)%nat -> ((if Nat.eqb (S c) k then 0 else S c) < k)%nat.
  Proof. destruct (Nat.eqb_spec (S c) k); lia. Qed.

  Lemma visited_next a c i : (a < k)%nat -> (c < k)%nat -> (i < k)%nat ->
    ((if Nat.leb a c then c - a else c + k - a) < k - 1)%nat ->
    visited a (if Nat.eqb (S c) k then 0 else S c)%nat i = Nat.eqb i c || visited a c i.
  Proof.
    intros Ha Hc Hi Hs. unfold visited.
    destruct (Nat.eqb_spec (S c) k); destruct (Nat.leb_spec a c); 
      repeat match goal with |- context[Nat.leb ?p ?q] => destruct (Nat.leb_spec p q) end;
      repeat match goal with |- context[Nat.ltb ?p ?q] => destruct (Nat.ltb_spec p q) end;
      destruct (Nat.eqb_spec i c); simpl; try lia; auto.
  Qed.

  Lemma visited_self a c : (a < k)%nat -> (c < k)%nat -> visited a c c = false.
  Proof.
    intros Ha Hc. unfold visited. destruct (Nat.leb_spec a c); destruct (Nat.ltb_spec c c); simpl;
      repeat match goal with |- context[Nat.leb ?p ?q] => destruct (Nat.leb_spec p q) end; simpl; lia.
  Qed.
  Lemma visited_all a c i : (a < k)%nat -> (c < k)%nat -> (i < k)%nat -> i <> c ->
    (if Nat.leb a c then c - a else c + k - a)%nat = (k - 1)%nat -> visited a c i = true.
  Proof.
    intros Ha Hc Hi Hne. unfold visited. destruct (Nat.leb_spec a c); intros Hs.
    - replace a with 0%nat by lia. destruct (Nat.leb_spec 0 i); destruct (Nat.ltb_spec i c); simpl; lia.
    - destruct (Nat.leb_spec a i); destruct (Nat.ltb_spec i c); simpl; lia.
  Qed.
  Lemma visited_start c i : (c < k)%nat -> (i < k)%nat ->
    visited c (if Nat.eqb (S c) k then 0 else S c)%nat i = Nat.eqb i c.
  Proof.
    intros Hc Hi. rewrite visited_next; auto.
    - assert (E : visited c c i = false).
      { unfold visited. rewrite Nat.leb_refl. destruct (Nat.leb_spec c i), (Nat.ltb_spec i c); simpl; lia. }
      rewrite E. apply orb_false_r.
    - rewrite Nat.leb_refl. lia.
  Qed.

  Lemma rem_le next next' : (forall i, (i < k)%nat -> (nx next i <= nx next' i)%nat) ->
    (rem next' <= rem next)%nat.
  Proof. intros H. apply sum_le. intros i Hi. apply in_seq in Hi. specialize (H i). lia. Qed.
  Lemma rem_lt next next' c : (forall i, (i < k)%nat -> (nx next i <= nx next' i)%nat) ->
    (c < k)%nat -> (nx next c < nx next' c)%nat -> (nx next' c <= length (L c))%nat ->
    (rem next' < rem next)%nat.
  Proof.
    intros H Hc H1 H2. apply (sum_lt _ _ _ c).
    - intros i Hi. apply in_seq in Hi. specialize (H i). lia.
    - apply in_seq. lia.
    - lia.
  Qed.

  Definition step_ok (st : kstate) (r : kresult) : Prop :=
    match r with
    | KStop out => out = expected (fun _ => true)
    | KNext st' => inv st' /\ (measure st' < measure st)%nat
    end.

  Lemma common_index y i : common y -> (i < k)%nat -> exists j, (j < length (L i))%nat /\ nth j (L i) 0 = y.
  Proof. intros H Hi. apply In_nth. now apply H. Qed.

  Lemma kway_step_ok st : inv st -> exists r, kway_step cids scores eids room st = Ok r /\ step_ok st r.
  Proof.
    intros Hinv. pose proof (inv_bound st) as Hbound. 
    destruct st as [c x s next out]. destruct (Hinv) as [Hl [Hc Hcase]].
    cbn [k_list k_context k_streak k_next k_out] in *.
    unfold kway_step. cbn [k_list k_context k_streak k_next k_out]. fold k.
    rewrite (get_ok cids c []) by exact Hc. fold (L c). cbn [bind].
    rewrite (get_ok next c 0%nat) by lia. fold (nx next c). cbn [bind].
    pose proof (Hbound c Hinv Hc) as Hn0. set (n0 := nx next c) in *.
    pose proof (Hasc c Hc) as Hs. pose proof (bl_le x (L c)) as Hbl. pose proof (ble_le x (L c)) as Hble.
    pose proof (bl_ble x (L c)) as Hbb.
    (* n0 against the position of x *)
    assert (C1 : (s < k)%nat -> (n0 <= bl x (L c))%nat).
    { intros Hsk. destruct Hcase as [[a [Ha [_ [_ [H _]]]]]|[H _]]; [|lia].
      specialize (H c Hc). now rewrite visited_self in H. }
    assert (C2 : (n0 <= ble x (L c))%nat).
    { destruct (Nat.lt_ge_cases s k) as [Hsk|Hsk]; [specialize (C1 Hsk); lia|].
      destruct Hcase as [[a [Ha [H _]]]|[_ [H _]]]; [lia|]. now apply H. }
    (* stopping *)
    assert (Stop : (bl x (L c) = length (L c) \/ ((k <= s)%nat /\ ble x (L c) = length (L c))) ->
                   out = expected (fun _ => true)).
    { intros Hfull. destruct Hcase as [[a [Ha [Hsk [_ [_ ->]]]]]|[Hsk [_ ->]]];
        apply expected_ext; intros y Hy; destruct (common_index y c Hy Hc) as [j [Hj Ej]].
      - destruct Hfull as [Hfull|[? ?]]; [|lia]. pose proof (nth_below x (L c) j Hs Hj) as Q.
        apply N.ltb_lt. rewrite <- Ej. apply Q. lia.
      - pose proof (nth_below_eq x (L c) j Hs Hj) as Q.
        apply N.leb_le. rewrite <- Ej. apply Q. destruct Hfull as [Hfull|[? ?]]; lia. }
    destruct (Nat.eqb_spec n0 (length (L c))) as [En|En].
    { exists (KStop out). split; auto. cbn [step_ok]. apply Stop.
      destruct (Nat.lt_ge_cases s k) as [Hsk|Hsk]; [specialize (C1 Hsk); left; lia|right; lia]. }
    rewrite advance_to_eq by (auto; lia). set (n := Nat.max n0 (bl x (L c))) in *.
    destruct (Nat.eqb_spec n (length (L c))) as [En'|En'].
    { exists (KStop out). split; auto. cbn [step_ok]. apply Stop. left. lia. }
    assert (Hn : (n < length (L c))%nat) by lia.
    rewrite (get_ok (L c) n 0) by exact Hn. cbn [bind]. set (at_ := nth n (L c) 0) in *.
    assert (Hat : x <= at_).
    { destruct (N.le_gt_cases x at_) as [|Q]; auto. apply (nth_below x (L c) n Hs Hn) in Q. lia. }
    assert (Hin : In at_ (L c)) by (apply nth_In; exact Hn).
    assert (Hset : forall v i, (i < k)%nat -> nx (list_set (list_set next c n) c v) i =
                                if Nat.eqb i c then v else nx next i).
    { intros v i Hi. rewrite nx_set by (rewrite list_set_length; lia).
      destruct (Nat.eqb_spec i c); auto. rewrite nx_set by lia. destruct (Nat.eqb_spec i c); [lia|auto]. }
    assert (Hmeas : forall c' x' s', 
      (measure (mk_kstate c' x' s' (list_set (list_set next c n) c (S n)) out) <
       measure (mk_kstate c x s next out))%nat).
    { intros c' x' s'. unfold measure. cbn [k_streak k_next].
      assert (Q : (rem (list_set (list_set next c n) c (S n)) < rem next)%nat).
      { apply (rem_lt _ _ c); auto.
        - intros i Hi. rewrite Hset by auto. destruct (Nat.eqb_spec i c) as [->|]; [fold n0; lia|lia].
        - rewrite Hset, Nat.eqb_refl by auto. fold n0. lia.
        - rewrite Hset, Nat.eqb_refl by auto. lia. }
      destruct (Nat.ltb s' k); destruct (Nat.ltb s k); lia. }
    destruct (N.eqb_spec at_ x) as [Eat|Eat].
    - destruct (Nat.eqb_spec (S s) k) as [Esk|Esk].
      + (* a match *)
        destruct Hcase as [[a [Ha [Hsk [Hs' [H Hout]]]]]|[Hsk _]]; [|lia].
        specialize (C1 Hsk). assert (Enb : n = bl x (L c)) by lia.
        assert (Hothers : forall i, (i < k)%nat -> i <> c -> nx next i = S (bl x (L i)) /\ In x (L i)).
        { intros i Hi Hne. specialize (H i Hi). rewrite visited_all in H; auto. lia. }
        assert (Hcom : common x).
        { intros i Hi. destruct (Nat.eq_dec i c) as [->|Hne]; [now rewrite <- Eat|]. now apply Hothers. }
        assert (Hnx : forall i, (i < k)%nat -> nx (list_set next c n) i =
                        if Nat.eqb i c then bl x (L i) else S (bl x (L i))).
        { intros i Hi. rewrite nx_set by lia. destruct (Nat.eqb_spec i c) as [->|Hne]; auto.
          now apply Hothers. }
        assert (Hl' : length (list_set next c n) = k) by (rewrite list_set_length; auto).
        pose proof (sum_scores_eq x c (list_set next c n) Hcom Hl' Hnx (k - 1) 0%nat (le_n _)) as HS.
        change (base_sum 0 x mod 2 ^ 16) with 0 in HS. rewrite Nat.add_0_l in HS. rewrite HS. cbn [bind].
        rewrite (get_ok (list_set next c n) (k - 1) 0%nat) by lia.
        fold (nx (list_set next c n) (k - 1)). rewrite Hnx by lia. cbn [bind].
        assert (Hlast : (k - 1 < k)%nat) by lia.
        pose proof (expected_room (fun y => y <=? x)) as HR. rewrite expected_step in HR by auto.
        rewrite app_length in HR. rewrite <- Hout in HR.
        destruct (bl_member x (L (k - 1)) (Hasc _ Hlast) (Hcom _ Hlast)) as [Q1 Q2].
        pose proof (ble_le x (L (k - 1))) as Q3.
        assert (Hgrow : forall i, (i < k)%nat -> (nx next i <= nx (list_set next c n) i)%nat).
        { intros i Hi. rewrite nx_set by lia. destruct (Nat.eqb_spec i c) as [->|]; [fold n0; lia|lia]. }
        assert (Hupto : forall i, (i < k)%nat -> (nx (list_set next c n) i <= ble x (L i))%nat).
        { intros i Hi. rewrite Hnx by auto.
          destruct (bl_member x (L i) (Hasc _ Hi) (Hcom _ Hi)) as [R1 _]. destruct (Nat.eqb i c); lia. }
        destruct eids as [es|].
        * assert (E0 : (if Nat.eqb (k - 1) c
                        then Ok (if Nat.eqb (k - 1) c then bl x (L (k - 1)) else S (bl x (L (k - 1))))
                        else match (if Nat.eqb (k - 1) c then bl x (L (k - 1)) else S (bl x (L (k - 1)))) with
                             | O => Oob | S m => Ok m end) = Ok (bl x (L (k - 1)))).
          { destruct (Nat.eqb (k - 1) c); reflexivity. }
          rewrite E0. cbn [bind]. rewrite (get_ok cids (k - 1) []) by exact Hlast. fold (L (k - 1)). cbn [bind].
          rewrite (get_ok scores (k - 1) []) by lia. fold (Sc (k - 1)). cbn [bind].
          rewrite (Hemit x Hcom). cbn [bind].
          destruct (Nat.leb_spec (length out + length (map emit (filter (fun p => p_cid p =? x) items))) room); [|lia].
          eexists. split; [reflexivity|]. cbn [step_ok]. split.
          -- split; [cbn [k_next]; rewrite ?list_set_length; auto|]. split; [exact Hlast|]. right.
             cbn [k_list k_context k_streak k_next k_out]. split; [lia|]. split.
             ++ intros i Hi. rewrite nx_set by lia. destruct (Nat.eqb_spec i (k - 1)) as [->|]; auto.
             ++ rewrite Hout. now rewrite expected_step.
          -- unfold measure. cbn [k_streak k_next].
             assert (R : (rem (list_set (list_set next c n) (k - 1) (ble x (L (k - 1)))) <= rem next)%nat).
             { apply rem_le. intros i Hi. rewrite nx_set by lia. destruct (Nat.eqb_spec i (k - 1)) as [->|]; auto.
               specialize (Hgrow (k - 1)%nat Hlast). specialize (Hupto (k - 1)%nat Hlast). lia. }
             destruct (Nat.ltb_spec (S s) k); [lia|]. destruct (Nat.ltb_spec s k); lia.
        * assert (E0 : (if Nat.eqb (k - 1) c
                        then get2 scores (k - 1) (if Nat.eqb (k - 1) c then bl x (L (k - 1)) else S (bl x (L (k - 1))))
                        else get2_before scores (k - 1) (if Nat.eqb (k - 1) c then bl x (L (k - 1)) else S (bl x (L (k - 1)))))
                       = Ok (first_score x (L (k - 1), Sc (k - 1)))).
          { rewrite (scores_of_first x (L (k - 1)) (Sc (k - 1))); auto.
            destruct (Nat.eqb (k - 1) c); cbn [get2_before]; unfold get2; rewrite (get_ok scores (k - 1) []) by lia;
              cbn [bind]; apply get_ok; fold (Sc (k - 1)); rewrite Hlen by auto; lia. }
          rewrite E0. cbn [bind].
          assert (E1 : add16 (base_sum (k - 1) x mod 2 ^ 16) (first_score x (L (k - 1), Sc (k - 1))) =
                       base_sum k x mod 2 ^ 16).
          { replace k with (S (k - 1)) at 4 by lia. rewrite base_sum_S. unfold add16.
            now rewrite N.add_mod_idemp_l by discriminate. }
          rewrite E1.
          assert (E2 : lt 0 (length (map emit (filter (fun p => p_cid p =? x) items)))).
          { rewrite <- (Hemit x Hcom). simpl. lia. }
          destruct (Nat.ltb_spec (length out) room); [|lia].
          eexists. split; [reflexivity|]. cbn [step_ok]. split.
          -- split; [cbn [k_next]; rewrite ?list_set_length; auto|]. split; [exact Hlast|]. right.
             cbn [k_list k_context k_streak k_next k_out]. split; [lia|]. split; auto.
             rewrite Hout. rewrite expected_step by auto. now rewrite (Hemit x Hcom).
          -- unfold measure. cbn [k_streak k_next].
             pose proof (rem_le next (list_set next c n) Hgrow).
             destruct (Nat.ltb_spec (S s) k); [lia|]. destruct (Nat.ltb_spec s k); lia.
      + (* same context, streak goes on *)
        eexists. split; [reflexivity|]. cbn [step_ok]. split; [|apply Hmeas].
        split; [cbn [k_next]; rewrite ?list_set_length; auto|]. split; [now apply next_list|].
        cbn [k_list k_context k_streak k_next k_out].
        destruct Hcase as [[a [Ha [Hsk [Hs' [H Hout]]]]]|[Hsk [H Hout]]].
        * left. specialize (C1 Hsk). assert (Enb : n = bl x (L c)) by lia.
          exists a. split; auto. split; [lia|]. split.
          { destruct (Nat.eqb_spec (S c) k); destruct (Nat.leb_spec a c);
              repeat match goal with |- context[Nat.leb ?p ?q] => destruct (Nat.leb_spec p q) end; lia. }
          split; auto. intros i Hi. rewrite visited_next; auto; [|lia].
          rewrite Hset by auto. destruct (Nat.eqb_spec i c) as [->|Hne].
          -- cbn [orb]. split; [lia|]. now rewrite <- Eat.
          -- cbn [orb]. apply H. auto.
        * right. split; [lia|]. split; auto. intros i Hi. rewrite Hset by auto.
          destruct (Nat.eqb_spec i c) as [->|Hne]; auto.
          assert (Q : nth n (L c) 0 <= x) by (fold at_; lia).
          apply (nth_below_eq x (L c) n Hs Hn) in Q. lia.
    - (* a higher context *)
      assert (Hlt : x < at_) by lia.
      assert (Ebl : bl at_ (L c) = n).
      { apply Nat.le_antisymm.
        - destruct (Nat.le_gt_cases (bl at_ (L c)) n) as [|Q]; auto.
          apply (nth_below at_ (L c) n Hs Hn) in Q. fold at_ in Q. lia.
        - pose proof (bl_mono x at_ (L c)). pose proof (ble_bl x at_ (L c)). lia. }
      eexists. split; [reflexivity|]. cbn [step_ok]. split; [|apply Hmeas].
      split; [cbn [k_next]; rewrite ?list_set_length; auto|]. split; [now apply next_list|].
      cbn [k_list k_context k_streak k_next k_out]. left. exists c. split; auto. split; [lia|]. split.
      { destruct (Nat.eqb_spec (S c) k);
          repeat match goal with |- context[Nat.leb ?p ?q] => destruct (Nat.leb_spec p q) end; lia. }
      split.
      + intros i Hi. rewrite visited_start by auto. rewrite Hset by auto.
        destruct (Nat.eqb_spec i c) as [->|Hne]; [split; auto; lia|].
        pose proof (bl_mono x at_ (L i)). pose proof (ble_bl x at_ (L i)).
        destruct Hcase as [[a [Ha [Hsk [Hs' [H' _]]]]]|[Hsk [H' _]]]; specialize (H' i Hi).
        * destruct (visited a c i); [|lia]. destruct H' as [-> Hx].
          destruct (bl_member x (L i) (Hasc i Hi) Hx) as [R1 _]. lia.
        * lia.
      + destruct Hcase as [[a [Ha [Hsk [Hs' [_ ->]]]]]|[Hsk [_ ->]]]; apply expected_ext; intros y Hy;
          destruct (common_index y c Hy Hc) as [j [Hj Ej]];
          pose proof (nth_below at_ (L c) j Hs Hj) as Q; rewrite Ej in Q.
        * specialize (C1 Hsk). pose proof (nth_below x (L c) j Hs Hj) as R. rewrite Ej in R.
          destruct (N.ltb_spec y x), (N.ltb_spec y at_); auto; lia.
        * pose proof (nth_below_eq x (L c) j Hs Hj) as R. rewrite Ej in R.
          destruct (N.leb_spec y x), (N.ltb_spec y at_); auto; lia.
  Qed.

  Lemma kway_loop_ok : forall fuel st, inv st -> (measure st < fuel)%nat ->
    kway_loop fuel cids scores eids room st = Ok (expected (fun _ => true)).
  Proof.
    induction fuel as [|fuel IH]; intros st Hi Hf; [lia|]. cbn [kway_loop].
    destruct (kway_step_ok st Hi) as [r [E H]]. rewrite E. cbn [bind]. destruct r as [out|st']; cbn [step_ok] in H.
    - now rewrite H.
    - apply IH; [apply H|]. destruct H. lia.
  Qed.
End KWay.
