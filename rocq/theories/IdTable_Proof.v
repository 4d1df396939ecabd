(* Proofs about IdTable_Model. *)
From Coq Require Import List NArith Arith Lia Bool.
From Coq Require Import ZifyBool ZifyN ZifyNat.
From Verif Require Import Bytes ListAux IdTable_Model.
Import ListNotations.
Open Scope N_scope.

(* ---------- the growth of the capacity ---------- *)
Lemma r24_exact x : x < 2 ^ 24 -> r24 x = x.
Proof.
  intros H. unfold r24. destruct (N.eq_dec x 0) as [->|Hx]; [reflexivity|].
  replace (N.log2 x <? 24) with true; [reflexivity|]. symmetry. apply N.ltb_lt.
  apply N.log2_lt_pow2; lia.
Qed.

Lemma r24_bounds x : 2 ^ 24 * r24 x <= (2 ^ 24 + 1) * x /\ (2 ^ 24 - 1) * x <= 2 ^ 24 * r24 x.
Proof.
  destruct (N.lt_ge_cases x (2 ^ 24)) as [H|H].
  - rewrite r24_exact by exact H. lia.
  - unfold r24.
    assert (He : 24 <= N.log2 x) by (apply N.log2_le_pow2; lia).
    replace (N.log2 x <? 24) with false by lia.
    assert (Hx : 2 ^ N.log2 x <= x) by (apply N.log2_spec; lia).
    set (e := N.log2 x) in *. clearbody e.
    set (h := 2 ^ (e - 24)).
    assert (Hu : 2 ^ (e - 23) = 2 * h).
    { unfold h. replace (e - 23) with (N.succ (e - 24)) by lia. apply N.pow_succ_r'. }
    assert (Hh : 2 ^ e = 2 ^ 24 * h) by (unfold h; rewrite <- N.pow_add_r; f_equal; lia).
    rewrite Hu. assert (Hp : h <> 0) by (unfold h; apply N.pow_nonzero; discriminate).
    rewrite Hh in Hx. clear Hu Hh. clearbody h.
    assert (E2 : 2 * h / 2 = h) by (rewrite N.mul_comm; apply N.div_mul; discriminate). rewrite E2.
    pose proof (N.div_mod x (2 * h) ltac:(lia)) as D. pose proof (N.mod_lt x (2 * h) ltac:(lia)) as M.
    set (q := x / (2 * h)) in *. set (r := x mod (2 * h)) in *. clearbody q r.
    change (2 ^ 24) with 16777216 in *.
    destruct ((r <? h) || (r =? h) && N.even q) eqn:E.
    + assert (r <= h) by lia. nia.
    + assert (h <= r) by lia. nia.
Qed.

(* the capacity really grows, and not beyond the double *)
Lemma grown_bounds c : c + 1 <= grown c <= 2 * c + 2.
Proof.
  unfold grown. destruct (N.lt_ge_cases c (2 ^ 20)) as [H|H].
  - rewrite (r24_exact c), (r24_exact (3 * c)), r24_exact by lia.
    pose proof (N.div_mod (3 * c + 2) 2 ltac:(lia)). pose proof (N.mod_lt (3 * c + 2) 2 ltac:(lia)). lia.
  - pose proof (r24_bounds c) as B1. pose proof (r24_bounds (3 * r24 c)) as B2.
    pose proof (r24_bounds (r24 (3 * r24 c) + 2)) as B3.
    change (2 ^ 24) with 16777216 in *. change (2 ^ 20) with 1048576 in *.
    set (a := r24 c) in *. set (b := r24 (3 * a)) in *. set (d := r24 (b + 2)) in *. clearbody a b d.
    pose proof (N.div_mod d 2 ltac:(lia)). pose proof (N.mod_lt d 2 ltac:(lia)). lia.
Qed.

(* ---------- the rows of a table ---------- *)
Record rep (t : tab) (l : list (list N)) : Prop := {
  r_width : Forall (fun r => length r = N.to_nat (t_cols t)) l;
  r_size : t_size t = N.of_nat (length l);
  r_data : exists rest, t_data t = concat l ++ rest;
  r_len : N.of_nat (length (t_data t)) = t_cap t * t_cols t;
  r_cap : t_size t <= t_cap t }.

Lemma concat_len (c : nat) (l : list (list N)) : Forall (fun r => length r = c) l -> length (concat l) = (length l * c)%nat.
Proof. induction 1; simpl; auto. rewrite app_length. lia. Qed.

Lemma off_nat t r : off t r = (N.to_nat r * N.to_nat (t_cols t))%nat.
Proof. unfold off. lia. Qed.

(* row r, as operator()(r, c) reads it *)
Lemma concat_row (c : nat) (l : list (list N)) r d : Forall (fun r => length r = c) l -> (r < length l)%nat ->
  firstn c (skipn (r * c) (concat l ++ d)) = nth r l [].
Proof.
  intros F. revert r. induction F as [|x l Hx F IH]; intros r Hr; [simpl in Hr; lia|].
  cbn [concat]. rewrite <- app_assoc. destruct r as [|r].
  - cbn [Nat.mul skipn nth]. rewrite firstn_app, Hx, Nat.sub_diag, <- Hx, firstn_all. apply app_nil_r.
  - replace (S r * c)%nat with (length x + r * c)%nat by lia. rewrite skipn_add.
    rewrite skipn_app, skipn_all, Nat.sub_diag. cbn [skipn app nth]. apply IH. simpl in Hr. lia.
Qed.

Lemma rep_unique t l l' : t_cols t <> 0 -> rep t l -> rep t l' -> l = l'.
Proof.
  intros Hc R R'. apply nth_ext with [] [].
  - pose proof (r_size _ _ R). pose proof (r_size _ _ R'). lia.
  - intros n Hn. destruct (r_data _ _ R) as [d Hd]. destruct (r_data _ _ R') as [d' Hd'].
    rewrite <- (concat_row _ l n d (r_width _ _ R) Hn), <- Hd.
    rewrite <- (concat_row _ l' n d' (r_width _ _ R')), <- Hd'; auto.
    pose proof (r_size _ _ R). pose proof (r_size _ _ R'). lia.
Qed.

Section Table.
  Variable maxlen : N.
  Hypothesis maxlen_small : maxlen < 2 ^ 60.

  Definition fits (t : tab) : Prop := t_cap t * t_cols t <= maxlen /\ t_cols t < 2 ^ 60.

  Lemma grow_to t l newRows t' newcap :
    rep t l -> newcap = (if newRows =? 0 then grown (t_cap t) else t_cap t + newRows) -> newcap < W ->
    newcap * t_cols t < W -> t_cap t <= newcap -> t_cols t < 2 ^ 60 ->
    grow maxlen newRows t = Ok t' ->
    rep t' l /\ t_cap t' = newcap /\ t_cols t' = t_cols t /\ t_size t' = t_size t /\ fits t'.
  Proof. clear maxlen_small.
    intros R Hn Hw Hwc Hle Hc. unfold grow.
    replace (if newRows =? 0 then grown (t_cap t) else (t_cap t + newRows) mod W) with newcap.
    2:{ subst newcap. destruct (newRows =? 0); auto. now rewrite N.mod_small. }
    rewrite (N.mod_small _ _ Hwc). destruct (N.ltb_spec maxlen (newcap * t_cols t)); [discriminate|].
    intros E. injection E as <-. destruct (r_data _ _ R) as [rest Hd]. pose proof (r_len _ _ R) as Hl.
    assert (t_cap t * t_cols t <= newcap * t_cols t) by nia.
    assert (Hv : vec_resize (t_data t) (newcap * t_cols t) =
                 t_data t ++ repeat 0 (N.to_nat (newcap * t_cols t) - length (t_data t))).
    { unfold vec_resize. f_equal. apply firstn_all2. lia. }
    split; [|repeat split; simpl; auto; lia].
    constructor; simpl; rewrite ?Hv; try apply R.
    - exists (rest ++ repeat 0 (N.to_nat (newcap * t_cols t) - length (t_data t))). rewrite Hd, <- app_assoc.
      reflexivity.
    - rewrite app_length, repeat_length. lia.
    - pose proof (r_cap _ _ R). lia.
  Qed.

  (* making room for one more row *)
  Lemma grow_one t l : rep t l -> fits t -> t_size t + 1 < 2 ^ 62 ->
    match grow_if maxlen (t_cap t <=? t_size t + 1) 0 t with
    | Ok t' => rep t' l /\ t_size t' + 1 <= t_cap t' /\ t_cols t' = t_cols t /\ t_size t' = t_size t /\ fits t'
    | Throw => True
    | UB => False
    end.
  Proof.
    intros R [F1 F2] Hs. unfold grow_if. destruct (N.leb_spec (t_cap t) (t_size t + 1)) as [H|H].
    - destruct (grow maxlen 0 t) as [t'| |] eqn:E; auto.
      + pose proof (grown_bounds (t_cap t)) as [G1 G2].
        assert (Hw : grown (t_cap t) * t_cols t < W) by (unfold W in *; nia).
        destruct (grow_to t l 0 t' (grown (t_cap t)) R eq_refl) as (R' & E1 & E2 & E3 & Fi); auto.
        * unfold W. lia.
        * lia.
        * pose proof (r_cap _ _ R); split; [exact R'|]; repeat split; auto; try lia; apply Fi.
      + unfold grow in E. cbn [N.eqb] in E. destruct (_ <? _); discriminate.
    - split; [exact R|]. repeat split; auto. lia.
  Qed.

  (* writing a row behind the last one *)
  Lemma store_row t l row : rep t l -> t_size t + 1 <= t_cap t -> length row = N.to_nat (t_cols t) ->
    exists t', with_data t (t_size t + 1) (store (t_data t) (off t (t_size t)) row) = Ok t' /\ rep t' (l ++ [row]) /\
               t_cols t' = t_cols t /\ t_cap t' = t_cap t.
  Proof. clear maxlen_small maxlen.
    intros R Hc Hr. destruct (r_data _ _ R) as [rest Hd]. pose proof (r_len _ _ R) as Hl.
    pose proof (concat_len _ _ (r_width _ _ R)) as Hcl. pose proof (r_size _ _ R) as Hs.
    assert (Hrest : (N.to_nat (t_cols t) <= length rest)%nat).
    { rewrite Hd, app_length, Hcl in Hl. nia. }
    assert (Hst : store (t_data t) (off t (t_size t)) row =
                  Some (concat l ++ row ++ skipn (N.to_nat (t_cols t)) rest)).
    { apply store_at' with (old := firstn (N.to_nat (t_cols t)) rest).
      - now rewrite Hd, firstn_skipn.
      - rewrite off_nat, Hcl, Hs, Nat2N.id. reflexivity.
      - rewrite firstn_length. lia. }
    rewrite Hst. eexists. split; [reflexivity|]. split; [|split; reflexivity].
    constructor; simpl.
    - apply Forall_app. split; [apply R|]. constructor; auto.
    - rewrite app_length. simpl. lia.
    - exists (skipn (N.to_nat (t_cols t)) rest). rewrite concat_app. simpl. rewrite app_nil_r. now rewrite <- app_assoc.
    - rewrite <- Hl, Hd, !app_length, skipn_length. lia.
    - lia.
  Qed.

  Lemma load_own t l i : rep t l -> (i < length l)%nat ->
    load (t_data t) (i * N.to_nat (t_cols t)) (N.to_nat (t_cols t)) = Some (nth i l []).
  Proof. clear maxlen_small maxlen.
    intros R Hi. destruct (r_data _ _ R) as [rest Hd]. pose proof (concat_len _ _ (r_width _ _ R)) as Hcl.
    unfold load. rewrite Hd, app_length, Hcl.
    replace (_ <=? _)%nat with true by (symmetry; apply Nat.leb_le; nia).
    f_equal. apply concat_row; [apply R|exact Hi].
  Qed.

  Lemma nth_width t l i : rep t l -> (i < length l)%nat -> length (nth i l []) = N.to_nat (t_cols t).
  Proof. clear maxlen_small maxlen. intros R Hi. pose proof (r_width _ _ R) as F. rewrite Forall_forall in F. apply F, nth_In, Hi. Qed.

  (* consecutive rows *)
  Lemma skip_rows (c : nat) n (l : list (list N)) (d : list N) : Forall (fun r => length r = c) l -> (n <= length l)%nat ->
    skipn (n * c) (concat l ++ d) = concat (skipn n l) ++ d.
  Proof. clear maxlen_small maxlen.
    intros F. revert n. induction F as [|x l Hx F IH]; intros [|n] Hn; auto; [simpl in Hn; lia|].
    cbn [concat skipn]. rewrite <- app_assoc. replace (S n * c)%nat with (length x + n * c)%nat by lia.
    rewrite skipn_add, skipn_app, skipn_all, Nat.sub_diag. cbn [skipn app]. apply IH. simpl in Hn. lia.
  Qed.
  Lemma first_rows (c : nat) n (l : list (list N)) (d : list N) : Forall (fun r => length r = c) l -> (n <= length l)%nat ->
    firstn (n * c) (concat l ++ d) = concat (firstn n l).
  Proof. clear maxlen_small maxlen.
    intros F. revert n. induction F as [|x l Hx F IH]; intros [|n] Hn; auto; [simpl in Hn; lia|].
    cbn [concat firstn]. rewrite <- app_assoc. replace (S n * c)%nat with (length x + n * c)%nat by lia.
    rewrite firstn_add, firstn_app, firstn_all, Nat.sub_diag, skipn_app, skipn_all, Nat.sub_diag.
    cbn [firstn skipn app]. rewrite app_nil_r. f_equal. apply IH. simpl in Hn. lia.
  Qed.
  Lemma load_rows (c : nat) b k (l : list (list N)) (d : list N) : Forall (fun r => length r = c) l -> (b + k <= length l)%nat ->
    load (concat l ++ d) (b * c) (k * c) = Some (concat (firstn k (skipn b l))).
  Proof. clear maxlen_small maxlen.
    intros F H. unfold load. rewrite app_length, (concat_len c) by exact F.
    replace (_ <=? _)%nat with true by (symmetry; apply Nat.leb_le; nia).
    f_equal. rewrite skip_rows by (auto; lia). apply first_rows.
    - clear -F. revert l F. induction b; intros [|x l] F; simpl; auto. apply IHb. inversion F; auto.
    - rewrite skipn_length. lia.
  Qed.

  Lemma Forall_first {A} (P : A -> Prop) n l : Forall P l -> Forall P (firstn n l).
  Proof. clear maxlen_small maxlen. intros F. rewrite <- (firstn_skipn n l) in F. now apply Forall_app in F. Qed.
  Lemma Forall_skip {A} (P : A -> Prop) n l : Forall P l -> Forall P (skipn n l).
  Proof. clear maxlen_small maxlen. intros F. rewrite <- (firstn_skipn n l) in F. now apply Forall_app in F. Qed.

  Lemma store_tail A T o j bs : o = (length A + j)%nat -> (j + length bs <= length T)%nat ->
    store (A ++ T) o bs = Some (A ++ firstn j T ++ bs ++ skipn (j + length bs) T).
  Proof. clear maxlen_small maxlen.
    intros -> H. rewrite (app_assoc A (firstn j T)).
    apply store_at' with (old := firstn (length bs) (skipn j T)).
    - rewrite skipn_add. rewrite <- app_assoc, !firstn_skipn. reflexivity.
    - rewrite app_length, firstn_length. lia.
    - rewrite firstn_length, skipn_length. lia.
  Qed.

  Lemma insert_ok t l pos src ls b e :
    rep t l -> fits t -> rep src ls -> t_cols src = t_cols t -> e <= t_size src ->
    t_size t + (e - b) < 2 ^ 62 -> (t_size t + (e - b)) * t_cols t < W ->
    match insert maxlen pos src b e t with
    | Ok t' => rep t' (firstn (N.to_nat pos) l ++ firstn (N.to_nat (e - b)) (skipn (N.to_nat b) ls) ++
                       skipn (N.to_nat pos) l) /\ t_cols t' = t_cols t /\ fits t'
    | Throw => True
    | UB => False
    end.
  Proof. clear maxlen_small.
    intros R [F1 F2] Rs Ec He Hs Hw. unfold insert. pose proof (r_size _ _ R) as Hsz.
    destruct (N.leb_spec e b) as [Hb|Hb].
    { replace (e - b) with 0 by lia. cbn [N.to_nat firstn app]. rewrite firstn_skipn. split; [exact R|]. repeat split; auto. }
    set (k := e - b) in *. assert (Hk : 0 < k) by lia.
    set (g := grow_if maxlen (t_cap t <? t_size t + k) (t_size t + k - t_cap t) t).
    assert (G : match g with
                | Ok t' => rep t' l /\ t_size t' + k <= t_cap t' /\ t_cols t' = t_cols t /\ t_size t' = t_size t /\ fits t'
                | Throw => True | UB => False end).
    { unfold g, grow_if. destruct (N.ltb_spec (t_cap t) (t_size t + k)) as [H|H].
      - destruct (grow maxlen (t_size t + k - t_cap t) t) as [t'| |] eqn:E; auto.
        + destruct (grow_to t l (t_size t + k - t_cap t) t' (t_size t + k) R) as (R' & E1 & E2 & E3 & Fi); auto;
            try (unfold W; lia).
          * destruct (N.eqb_spec (t_size t + k - t_cap t) 0); lia.
          * split; [exact R'|]; repeat split; auto; try lia; apply Fi.
        + unfold grow in E. destruct (_ <? _) in E; discriminate.
      - split; [exact R|]. repeat split; auto; lia. }
    destruct g as [t1| |]; cbn [bind]; auto. destruct G as (R1 & Hc1 & Ec1 & Es1 & Fi1).
    rewrite Es1. set (target := N.min pos (t_size t)).
    assert (Ht : N.to_nat target = Nat.min (N.to_nat pos) (length l)) by lia.
    destruct (r_data _ _ R1) as [rest Hd]. pose proof (concat_len _ _ (r_width _ _ R1)) as Hcl.
    pose proof (r_len _ _ R1) as Hl.
    set (c := N.to_nat (t_cols t1)) in *.
    assert (El : l = firstn (N.to_nat target) l ++ skipn (N.to_nat target) l) by now rewrite firstn_skipn.
    set (l1 := firstn (N.to_nat target) l) in *. set (l2 := skipn (N.to_nat target) l) in *.
    assert (W1 : Forall (fun r => length r = c) l1) by apply Forall_first, R1.
    assert (W2 : Forall (fun r => length r = c) l2) by apply Forall_skip, R1.
    assert (N1 : length l1 = N.to_nat target) by (unfold l1; rewrite firstn_length; lia).
    assert (N2 : (length l2 = length l - N.to_nat target)%nat) by (unfold l2; rewrite skipn_length; lia).
    assert (Q1 : firstn (N.to_nat pos) l = l1).
    { unfold l1. rewrite Ht. destruct (Nat.min_spec (N.to_nat pos) (length l)) as [[? ->]|[? ->]]; auto.
      rewrite firstn_all. apply firstn_all2. lia. }
    assert (Q2 : skipn (N.to_nat pos) l = l2).
    { unfold l2. rewrite Ht. destruct (Nat.min_spec (N.to_nat pos) (length l)) as [[? ->]|[? ->]]; auto.
      rewrite skipn_all. apply skipn_all2. lia. }
    (* the memmove *)
    rewrite off_nat. fold c.
    replace (N.to_nat (t_cols t1 * (t_size t - target))) with (length l2 * c)%nat by (rewrite N2; nia).
    rewrite Hd, (load_rows c) by (try apply R1; lia). fold l2.
    replace (firstn (length l2) l2) with l2 by (symmetry; apply firstn_all).
    set (T := concat l2 ++ rest).
    assert (ET : concat l ++ rest = concat l1 ++ T) by (rewrite El at 1; rewrite concat_app, <- app_assoc; reflexivity).
    assert (LT : (N.to_nat k * c + length l2 * c <= length T)%nat).
    { assert (L' : N.of_nat (length (concat l1 ++ T)) = t_cap t1 * t_cols t1) by (rewrite <- ET, <- Hd; exact Hl).
      rewrite app_length, (concat_len c l1 W1) in L'.
      assert (HN : (length l1 + length l2 + N.to_nat k <= N.to_nat (t_cap t1))%nat) by lia.
      assert (HC : (N.to_nat (t_cap t1) * c = length l1 * c + length T)%nat) by lia. nia. }
    rewrite ET. rewrite off_nat. fold c.
    rewrite (store_tail (concat l1) T _ (N.to_nat k * c)).
    2:{ rewrite (concat_len c l1 W1), N1. nia. }
    2:{ rewrite (concat_len c l2 W2). lia. }
    rewrite (concat_len c l2 W2).
    (* the new rows *)
    destruct (r_data _ _ Rs) as [rests Hds]. rewrite Hds.
    assert (Ecs : N.to_nat (t_cols src) = c) by (unfold c; lia).
    rewrite off_nat, Ecs. replace (N.to_nat (t_cols t1 * k)) with (N.to_nat k * c)%nat by (unfold c; lia).
    pose proof (r_width _ _ Rs) as Ws. rewrite Ecs in Ws. pose proof (r_size _ _ Rs) as Hss.
    rewrite (load_rows c) by (auto; lia).
    set (new := firstn (N.to_nat k) (skipn (N.to_nat b) ls)).
    assert (Wn : Forall (fun r => length r = c) new) by apply Forall_first, Forall_skip, Ws.
    assert (Nn : length new = N.to_nat k) by (unfold new; rewrite firstn_length, skipn_length; lia).
    rewrite (store_tail (concat l1) _ _ 0).
    2:{ rewrite (concat_len c l1 W1), N1. lia. }
    2:{ rewrite (concat_len c new Wn), Nn, !app_length, firstn_length, (concat_len c l2 W2). lia. }
    cbn [firstn app Nat.add]. rewrite (concat_len c new Wn), Nn.
    rewrite (skipn_app (N.to_nat k * c)), skipn_all2 by (rewrite firstn_length; lia).
    replace (N.to_nat k * c - length (firstn (N.to_nat k * c) T))%nat with 0%nat by (rewrite firstn_length; lia).
    cbn [skipn app]. unfold with_data. rewrite Q1, Q2. split; [|split; [exact Ec1|]].
    - constructor; simpl.
      + apply Forall_app. split; [exact W1|]. apply Forall_app. auto.
      + rewrite !app_length, Nn. lia.
      + exists (skipn (N.to_nat k * c + length l2 * c) T). rewrite !concat_app, !app_assoc. reflexivity.
      + rewrite <- Hl, Hd, ET, !app_length, skipn_length, (concat_len c new Wn), (concat_len c l2 W2), Nn. lia.
      + lia.
    - unfold fits in *. simpl. exact Fi1.
  Qed.

  Lemma erase_ok t l b e :
    rep t l -> fits t ->
    let e0 := match e with Some e => e | None => b + 1 end in
    match erase b e t with
    | Ok t' => rep t' (if b <? e0 then firstn (N.to_nat b) l ++ skipn (N.to_nat e0) l else l) /\
               t_cols t' = t_cols t /\ fits t'
    | Throw => False
    | UB => False
    end.
  Proof. clear maxlen_small.
    intros R F e0. unfold erase. fold e0. clearbody e0. pose proof (r_size _ _ R) as Hs.
    set (e1 := if t_size t <? e0 then t_size t else e0).
    assert (H1 : e1 = N.min e0 (t_size t)) by (unfold e1; destruct (N.ltb_spec (t_size t) e0); lia).
    destruct (N.leb_spec e1 b) as [H|H].
    { split; [|auto]. destruct (N.ltb_spec b e0); auto.
      rewrite firstn_all2, skipn_all2 by lia. now rewrite app_nil_r. }
    replace (b <? e0) with true by lia.
    destruct (r_data _ _ R) as [rest Hd]. set (c := N.to_nat (t_cols t)) in *.
    assert (Hw : Forall (fun r => length r = c) l) by apply R.
    assert (Q : skipn (N.to_nat e0) l = skipn (N.to_nat e1) l).
    { rewrite H1. destruct (N.min_spec e0 (t_size t)) as [[? ->]|[? ->]]; auto.
      rewrite !skipn_all2 by lia. reflexivity. }
    rewrite Q. set (l2 := skipn (N.to_nat e1) l).
    assert (N2 : (length l2 = length l - N.to_nat e1)%nat) by apply skipn_length.
    assert (W2 : Forall (fun r => length r = c) l2) by apply Forall_skip, R.
    rewrite off_nat. fold c. replace (N.to_nat ((t_size t - e1) * t_cols t)) with (length l2 * c)%nat by (rewrite N2; nia).
    rewrite Hd, (load_rows c) by (auto; lia). fold l2. rewrite firstn_all.
    set (l1 := firstn (N.to_nat b) l). assert (N1 : length l1 = N.to_nat b) by (unfold l1; rewrite firstn_length; lia).
    assert (W1 : Forall (fun r => length r = c) l1) by apply Forall_first, R.
    set (T := concat (skipn (N.to_nat b) l) ++ rest).
    assert (ET : concat l ++ rest = concat l1 ++ T).
    { unfold T, l1. rewrite app_assoc, <- concat_app, firstn_skipn. reflexivity. }
    assert (LT : (length l2 * c <= length T)%nat).
    { unfold T. rewrite app_length, (concat_len c) by apply Forall_skip, R. rewrite skipn_length. nia. }
    rewrite ET, (store_tail (concat l1) T _ 0).
    2:{ rewrite (concat_len c l1 W1), N1, off_nat. fold c. lia. }
    2:{ rewrite (concat_len c l2 W2). lia. }
    cbn [firstn app Nat.add]. unfold with_data. split; [|auto].
    pose proof (r_len _ _ R) as Hl. rewrite Hd, ET in Hl.
    constructor; simpl.
    - apply Forall_app; auto.
    - rewrite app_length. lia.
    - exists (skipn (length (concat l2)) T). rewrite concat_app, app_assoc. reflexivity.
    - rewrite <- Hl, !app_length, skipn_length, (concat_len c l2 W2). lia.
    - pose proof (r_cap _ _ R). lia.
  Qed.

  Lemma reserve_ok t l n : rep t l -> fits t -> n < 2 ^ 62 -> n * t_cols t < W ->
    match reserve maxlen n t with
    | Ok t' => rep t' l /\ t_cols t' = t_cols t /\ t_size t' = t_size t /\ n <= t_cap t' /\ fits t'
    | Throw => True
    | UB => False
    end.
  Proof. clear maxlen_small.
    intros R F Hn Hw. unfold reserve, grow_if. destruct (N.ltb_spec (t_cap t) n) as [H|H].
    - destruct (grow maxlen (n - t_cap t) t) as [t'| |] eqn:E; auto.
      + destruct (grow_to t l (n - t_cap t) t' n R) as (R' & E1 & E2 & E3 & Fi); auto; try (unfold W; lia); try apply F.
        * destruct (N.eqb_spec (n - t_cap t) 0); lia.
        * split; [exact R'|]; repeat split; auto; try lia; apply Fi.
      + unfold grow in E. destruct (_ <? _) in E; discriminate.
    - auto.
  Qed.

  (* a table with a different number of rows over the same memory *)
  Lemma resize_rep t l n : rep t l -> n <= t_cap t ->
    exists junk, rep {| t_size := n; t_cap := t_cap t; t_cols := t_cols t; t_data := t_data t |}
                     (firstn (N.to_nat n) l ++ junk).
  Proof. clear maxlen_small maxlen.
    intros R Hn. destruct (r_data _ _ R) as [rest Hd]. pose proof (r_len _ _ R) as Hl.
    pose proof (r_size _ _ R) as Hs. set (c := N.to_nat (t_cols t)) in *.
    destruct (N.le_gt_cases n (t_size t)) as [H|H].
    - exists []. rewrite app_nil_r. constructor; simpl; auto.
      + apply Forall_first, R.
      + rewrite firstn_length. lia.
      + exists (concat (skipn (N.to_nat n) l) ++ rest).
        now rewrite app_assoc, <- concat_app, firstn_skipn, Hd.
    - assert (HW : forall m (d : list N), (m * c <= length d)%nat -> exists junk d', d = concat junk ++ d' /\
                   Forall (fun r => length r = c) junk /\ length junk = m).
      { induction m as [|m IH]; intros d Hm; [exists [], d; simpl; auto|].
        destruct (IH (skipn c d)) as (j & d' & E1 & E2 & E3); [rewrite skipn_length; lia|].
        exists (firstn c d :: j), d'. simpl. rewrite <- app_assoc, <- E1, firstn_skipn. repeat split; auto.
        constructor; auto. rewrite firstn_length. lia. }
      pose proof (concat_len _ _ (r_width _ _ R)) as Hcl. fold c in Hcl.
      destruct (HW (N.to_nat (n - t_size t)) rest) as (j & d' & E1 & E2 & E3).
      { rewrite Hd, app_length, Hcl in Hl.
        assert (N.to_nat (t_cap t) * c = length l * c + length rest)%nat by lia. nia. }
      exists j. rewrite firstn_all2 by lia. constructor; simpl; auto.
      + apply Forall_app. split; [apply R|exact E2].
      + rewrite app_length. lia.
      + exists d'. now rewrite Hd, E1, concat_app, app_assoc.
  Qed.

  Lemma set_ok t l r c v : rep t l -> r < t_size t -> c < t_cols t ->
    exists t', set r c v t = Ok t' /\
      rep t' (firstn (N.to_nat r) l ++
              [firstn (N.to_nat c) (nth (N.to_nat r) l []) ++ [v] ++ skipn (S (N.to_nat c)) (nth (N.to_nat r) l [])] ++
              skipn (S (N.to_nat r)) l) /\
      t_cols t' = t_cols t /\ t_cap t' = t_cap t.
  Proof. clear maxlen_small maxlen.
    intros R Hr Hc. destruct (r_data _ _ R) as [rest Hd]. pose proof (r_size _ _ R) as Hs.
    set (w := N.to_nat (t_cols t)) in *. assert (F : Forall (fun x => length x = w) l) by apply R.
    set (i := N.to_nat r). assert (Hi : (i < length l)%nat) by lia.
    set (row := nth i l []). assert (Lr : length row = w) by (apply (nth_width t); auto).
    assert (El : l = firstn i l ++ [row] ++ skipn (S i) l).
    { rewrite <- (firstn_skipn i l) at 1. f_equal. unfold row. simpl. apply skipn_nth_cons. exact Hi. }
    set (l1 := firstn i l) in *. set (l2 := skipn (S i) l) in *.
    assert (W1 : Forall (fun x => length x = w) l1) by apply Forall_first, R.
    assert (W2 : Forall (fun x => length x = w) l2) by apply Forall_skip, R.
    assert (N1 : length l1 = i) by (unfold l1; rewrite firstn_length; lia).
    set (j := N.to_nat c).
    set (row' := firstn j row ++ [v] ++ skipn (S j) row).
    assert (Lr' : length row' = w).
    { unfold row'. rewrite !app_length, firstn_length, skipn_length. simpl. unfold j. lia. }
    assert (St : store (t_data t) (off t r + N.to_nat c) [v] = Some (concat l1 ++ row' ++ concat l2 ++ rest)).
    { assert (Er : row = firstn j row ++ [nth j row 0] ++ skipn (S j) row).
      { rewrite <- (firstn_skipn j row) at 1. f_equal. simpl. apply skipn_nth_cons. unfold j. lia. }
      assert (Ed : t_data t = (concat l1 ++ firstn j row) ++ [nth j row 0] ++ (skipn (S j) row ++ concat l2 ++ rest)).
      { rewrite Hd, El, !concat_app. cbn [concat]. rewrite app_nil_r. rewrite Er at 1. rewrite <- !app_assoc. reflexivity. }
      unfold row'. replace (concat l1 ++ (firstn j row ++ [v] ++ skipn (S j) row) ++ concat l2 ++ rest)
        with ((concat l1 ++ firstn j row) ++ [v] ++ (skipn (S j) row ++ concat l2 ++ rest))
        by (rewrite <- !app_assoc; reflexivity).
      apply store_at' with (old := [nth j row 0]); [exact Ed| |reflexivity].
      rewrite off_nat, app_length, (concat_len w l1 W1), N1, firstn_length. fold w. unfold i, j. lia. }
    unfold set. rewrite St. eexists. split; [reflexivity|]. split; [|split; reflexivity].
    pose proof (r_len _ _ R) as Hl. rewrite Hd, El, !concat_app in Hl. cbn [concat] in Hl.
    constructor; simpl.
    - apply Forall_app. split; [exact W1|]. constructor; auto.
    - rewrite El in Hs. rewrite !app_length in *. simpl in *. lia.
    - exists rest. rewrite concat_app. cbn [concat]. now rewrite <- !app_assoc.
    - rewrite <- Hl, !app_length. simpl. lia.
    - apply R.
  Qed.
End Table.
