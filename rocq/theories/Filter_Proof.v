From Coq Require Import List NArith ZArith Arith Bool Lia Sorted Permutation ZifyBool ZifyN ZifyNat.
From Verif Require Import Table_Spec Std_Model Std_Proof Ops_Spec Filter_Model.
Import ListNotations.
Open Scope N_scope.

(* ---- splitting a list at a monotone predicate ---- *)

(* q is true on a prefix of l only *)
Definition prefix_true {A} (q : A -> bool) (l : list A) : Prop :=
  StronglySorted (fun x y => q y = true -> q x = true) l.

Lemma prefix_true_nth {A} (q : A -> bool) l d : prefix_true q l ->
  forall k k', (k <= k')%nat -> (k' < length l)%nat -> q (nth k' l d) = true -> q (nth k l d) = true.
Proof.
  induction 1 as [|x l Hs IH Hf]; intros k k' Hk Hk' Hq; simpl in Hk'; [lia|].
  destruct k, k'; simpl in *; auto; try lia.
  - rewrite Forall_forall in Hf. apply (Hf (nth k' l d)); auto. apply nth_In; lia.
  - apply (IH k k'); auto; lia.
Qed.

Lemma firstn_filter {A} (q : A -> bool) l d r : (r <= length l)%nat ->
  (forall k, (k < r)%nat -> q (nth k l d) = true) ->
  (forall k, (r <= k < length l)%nat -> q (nth k l d) = false) ->
  firstn r l = filter q l /\ skipn r l = filter (fun x => negb (q x)) l.
Proof.
  revert r. induction l as [|x l IH]; intros r Hr H1 H2; simpl in Hr.
  - assert (r = 0)%nat by lia; subst; auto.
  - destruct r as [|r].
    + destruct (IH 0%nat ltac:(lia)) as [E1 E2].
      * intros; lia.
      * intros k Hk. apply (H2 (S k)). simpl. lia.
      * pose proof (H2 0%nat ltac:(simpl; lia)) as Hx. simpl in Hx. simpl. rewrite Hx. simpl.
        simpl in E1, E2. split; congruence.
    + destruct (IH r ltac:(lia)) as [E1 E2].
      * intros k Hk. apply (H1 (S k)). lia.
      * intros k Hk. apply (H2 (S k)). simpl. lia.
      * pose proof (H1 0%nat ltac:(lia)) as Hx. simpl in Hx. simpl. rewrite Hx. simpl.
        split; congruence.
Qed.

(* the position found by a binary search splits the list into filter q and the rest *)
Lemma lower_bound_split {A} (q : A -> bool) (l : list A) (d : A) f first :
  prefix_true q l -> (first <= length l)%nat ->
  (forall p, (p < length l)%nat -> f p = q (nth p l d)) ->
  (forall k, (k < first)%nat -> q (nth k l d) = true) ->
  exists r, lower_bound f first (length l) = Some r /\ (first <= r <= length l)%nat /\
    firstn r l = filter q l /\ skipn r l = filter (fun x => negb (q x)) l /\
    (forall k, (k < r)%nat -> q (nth k l d) = true) /\
    (forall k, (r <= k < length l)%nat -> q (nth k l d) = false).
Proof.
  intros Hp Hf1 Hf Hbefore.
  destruct (lower_bound_spec f first (length l) Hf1) as (r & E & Hr & H1 & H2).
  - intros k k' Hk Hkk Hk' Ht. rewrite Hf in * by lia. eapply prefix_true_nth; eauto.
  - exists r. assert (A1 : forall k, (k < r)%nat -> q (nth k l d) = true).
    { intros k Hk. destruct (Nat.lt_ge_cases k first); auto. rewrite <- Hf by lia. apply H1; lia. }
    assert (A2 : forall k, (r <= k < length l)%nat -> q (nth k l d) = false).
    { intros k Hk. rewrite <- Hf by lia. apply H2; lia. }
    destruct (firstn_filter q l d r ltac:(lia) A1 A2) as [E1 E2].
    repeat split; auto; lia.
Qed.

Lemma insert_rows_0 src e : (e <= length src)%nat -> insert_rows [] src 0 e = firstn e src.
Proof.
  intros. unfold insert_rows. destruct e; simpl; auto.
Qed.

Lemma insert_rows_end res src b : (b <= length src)%nat ->
  insert_rows res src b (length src) = res ++ skipn b src.
Proof.
  intros H. unfold insert_rows. destruct (Nat.leb_spec (length src) b).
  - rewrite skipn_all2 by lia. now rewrite app_nil_r.
  - rewrite firstn_all2; auto. rewrite skipn_length. lia.
Qed.

(* rows [b, e) where firstn b = filter p, firstn e = filter q and p implies q *)
Lemma insert_rows_between {A} (p q : A -> bool) (l : list A) b e : (b <= e)%nat ->
  firstn b l = filter p l -> firstn e l = filter q l ->
  skipn b l = filter (fun x => negb (p x)) l ->
  (forall x, p x = true -> q x = true) ->
  firstn (e - b) (skipn b l) = filter (fun x => negb (p x) && q x) l.
Proof.
  intros Hbe H1 H2 H3 Himp.
  assert (E : filter p l ++ firstn (e - b) (skipn b l) = filter q l).
  { rewrite <- H1, <- H2. rewrite <- (firstn_skipn b (firstn e l)).
    rewrite firstn_firstn, Nat.min_l by lia. f_equal. rewrite skipn_firstn_comm. reflexivity. }
  rewrite H3 in E |- *.
  assert (G : filter q (filter (fun x => negb (p x)) l) = filter (fun x => negb (p x) && q x) l).
  { clear. induction l; simpl; auto. destruct (p a); simpl; auto. destruct (q a); simpl; congruence. }
  rewrite <- G.
  assert (K : filter q l = filter p l ++ filter q (filter (fun x => negb (p x)) l)).
  { rewrite <- (firstn_skipn b l) at 1. rewrite filter_app, H3. f_equal.
    rewrite H1. clear -Himp. induction l; simpl; auto. destruct (p a) eqn:E; simpl; auto.
    rewrite (Himp _ E). congruence. }
  rewrite K in E. now apply app_inv_head in E.
Qed.

(* ---- values ---- *)

(* non-negative numbers with upper bytes zero for FLOAT, no restriction otherwise *)
Definition plain (t : result_type) (id : N) : Prop :=
  match t with FLOAT => id <= 2139095040 | _ => True end.

Lemma plain_value t id : plain t id -> entry_value t id = Some (Z.of_N id).
Proof.
  destruct t; auto. unfold plain, entry_value, float_value. intros H.
  change (2 ^ 32) with 4294967296. change (2 ^ 31) with 2147483648.
  rewrite (N.mod_small id 4294967296) by lia. rewrite (N.mod_small id 2147483648) by lia.
  destruct (N.ltb_spec 2139095040 id); [lia|]. destruct (N.ltb_spec id 2147483648); [auto|lia].
Qed.

Lemma sorted_prefix_true (c : nat) (t : table) (q : N -> bool) :
  sorted_on c t -> (forall x y, x <= y -> q y = true -> q x = true) ->
  prefix_true (fun r => q (col c r)) t.
Proof.
  intros H Hq. unfold sorted_on in H. apply Sorted_StronglySorted in H.
  - unfold prefix_true. induction H as [|r t' Hs IH Hf]; constructor; auto.
    rewrite Forall_forall in *. intros s Hin. apply Hq. auto.
  - intros x y z; lia.
Qed.

Lemma sorted_nth (c : nat) (t : table) : sorted_on c t ->
  forall i j, (i <= j)%nat -> (j < length t)%nat -> col c (nth i t []) <= col c (nth j t []).
Proof.
  intros H. unfold sorted_on in H. apply Sorted_StronglySorted in H; [|intros x y z; lia].
  induction H as [|r t Hs IH Hf]; intros i j Hij Hj; simpl in Hj; [lia|].
  destruct i, j; simpl; try lia.
  - rewrite Forall_forall in Hf. apply Hf. apply nth_In. lia.
  - apply IH; lia.
Qed.

Lemma filter_existsb_false {A} (p : A -> bool) l : existsb p l = false -> filter p l = [].
Proof. induction l; simpl; auto. destruct (p a); simpl; [discriminate|auto]. Qed.
Lemma filter_negb_existsb_false {A} (p : A -> bool) l :
  existsb p l = false -> filter (fun x => negb (p x)) l = l.
Proof. induction l; simpl; auto. destruct (p a); simpl; [discriminate|intros; f_equal; auto]. Qed.

Lemma filter_ext_Forall {A} (P : A -> Prop) (p q : A -> bool) l :
  Forall P l -> (forall x, P x -> p x = q x) -> filter p l = filter q l.
Proof.
  induction 1; intros E; simpl; auto. rewrite E by auto. now rewrite IHForall.
Qed.

Lemma filter_filter {A} (p q : A -> bool) l : filter p (filter q l) = filter (fun x => q x && p x) l.
Proof. induction l; simpl; auto. destruct (q a); simpl; auto. destruct (p a); congruence. Qed.

Section Fixed.
  Variables (t : result_type) (lhs : nat) (rhs : N) (input : table).
  Hypothesis Hrhs : plain t rhs.
  Hypothesis Hplain : Forall (fun r => plain t (col lhs r)) input.
  Hypothesis Hsorted : sorted_on lhs input.

  Lemma below_eq p : (p < length input)%nat ->
    below t lhs rhs input p = (col lhs (nth p input []) <? rhs).
  Proof.
    intros Hp. unfold below, value_get, at_row. rewrite (plain_value t rhs Hrhs).
    rewrite Forall_forall in Hplain. rewrite plain_value by (apply Hplain, nth_In; auto).
    simpl. lia.
  Qed.
  Lemma not_above_eq p : (p < length input)%nat ->
    not_above t lhs rhs input p = (col lhs (nth p input []) <=? rhs).
  Proof.
    intros Hp. unfold not_above, value_get, at_row. rewrite (plain_value t rhs Hrhs).
    rewrite Forall_forall in Hplain. rewrite plain_value by (apply Hplain, nth_In; auto).
    simpl. lia.
  Qed.

  Lemma lb_rows : exists lower, lower_bound (below t lhs rhs input) 0 (length input) = Some lower /\
    (lower <= length input)%nat /\
    firstn lower input = filter (fun r => col lhs r <? rhs) input /\
    skipn lower input = filter (fun r => negb (col lhs r <? rhs)) input /\
    (forall k, (k < lower)%nat -> col lhs (nth k input []) <? rhs = true) /\
    (forall k, (lower <= k < length input)%nat -> col lhs (nth k input []) <? rhs = false).
  Proof.
    destruct (lower_bound_split (fun r => col lhs r <? rhs) input [] (below t lhs rhs input) 0)
      as (r & E & Hr & H).
    - apply (sorted_prefix_true lhs input (fun x => x <? rhs)); auto. intros; lia.
    - lia.
    - apply below_eq.
    - intros; lia.
    - exists r. intuition lia.
  Qed.

  Lemma ub_rows first : (first <= length input)%nat ->
    (forall k, (k < first)%nat -> col lhs (nth k input []) <=? rhs = true) ->
    exists upper, upper_bound (not_above t lhs rhs input) first (length input) = Some upper /\
    (first <= upper <= length input)%nat /\
    firstn upper input = filter (fun r => col lhs r <=? rhs) input /\
    skipn upper input = filter (fun r => negb (col lhs r <=? rhs)) input.
  Proof.
    intros Hf Hb.
    destruct (lower_bound_split (fun r => col lhs r <=? rhs) input [] (not_above t lhs rhs input) first)
      as (r & E & Hr & H); auto.
    - apply (sorted_prefix_true lhs input (fun x => x <=? rhs)); auto. intros; lia.
    - apply not_above_eq.
    - exists r. intuition lia.
  Qed.

  Lemma spec_eq op : filter_rows t op lhs rhs input =
    filter (fun r => match op with EQ => col lhs r =? rhs | NE => negb (col lhs r =? rhs)
                   | LT => col lhs r <? rhs | LE => col lhs r <=? rhs
                   | GT => negb (col lhs r <=? rhs) | GE => negb (col lhs r <? rhs) end) input.
  Proof.
    unfold filter_rows. eapply filter_ext_Forall; [exact Hplain|]. intros r Hr. simpl.
    rewrite (plain_value t rhs Hrhs), plain_value by auto. destruct op; simpl; lia.
  Qed.

  Lemma sorted_filter op : compute_filter_fixed t op lhs rhs true input
    = Some (filter_rows t op lhs rhs input).
  Proof.
    rewrite spec_eq. unfold compute_filter_fixed.
    destruct lb_rows as (lower & El & Hl & F1 & S1 & B1 & B2).
    destruct (ub_rows 0 ltac:(lia) ltac:(lia)) as (upper & Eu & Hu & F2 & S2).
    assert (Heq : forall lo, lo = lower -> (negb (Nat.eqb lo (length input)) &&
              (col lhs (at_row input lo) =? rhs)) = existsb (fun r => col lhs r =? rhs) input).
    { intros lo ->. unfold at_row. destruct (Nat.eqb_spec lower (length input)) as [El0|El0]; simpl.
      - symmetry. apply not_true_is_false. rewrite existsb_exists. intros (r & Hin & Hr).
        apply In_nth with (d := []) in Hin. destruct Hin as (k & Hk & E).
        specialize (B1 k ltac:(lia)). rewrite E in B1. lia.
      - destruct (N.eqb_spec (col lhs (nth lower input [])) rhs) as [E|E].
        + symmetry. apply existsb_exists. exists (nth lower input []). split; [apply nth_In; lia|lia].
        + symmetry. apply not_true_is_false. rewrite existsb_exists. intros (r & Hin & Hr).
          apply In_nth with (d := []) in Hin. destruct Hin as (k & Hk & E2).
          destruct (Nat.lt_ge_cases k lower) as [C|C].
          * specialize (B1 k C). rewrite E2 in B1. lia.
          * assert (col lhs (nth lower input []) <= col lhs (nth k input [])).
            { apply sorted_nth; auto. }
            specialize (B2 lower ltac:(lia)). rewrite E2 in H. lia. }
    destruct op.
    - rewrite El, (Heq lower eq_refl). destruct (existsb _ input) eqn:Ex.
      + destruct (ub_rows lower Hl) as (up & Eup & Hup & F3 & S3).
        { intros k Hk. specialize (B1 k Hk). lia. }
        rewrite Eup. unfold insert_rows. f_equal.
        assert (G : firstn (up - lower) (skipn lower input) =
                    filter (fun x => negb (col lhs x <? rhs) && (col lhs x <=? rhs)) input).
        { apply (insert_rows_between (fun x => col lhs x <? rhs)); auto; intros; lia. }
        destruct (Nat.leb_spec up lower).
        * replace (up - lower)%nat with 0%nat in G by lia. simpl in G. rewrite G at 1.
          apply filter_ext. intros; lia.
        * simpl. rewrite G. apply filter_ext. intros; lia.
      + f_equal. symmetry. now apply filter_existsb_false.
    - rewrite El, (Heq lower eq_refl). destruct (existsb _ input) eqn:Ex.
      + destruct (ub_rows lower Hl) as (up & Eup & Hup & F3 & S3).
        { intros k Hk. specialize (B1 k Hk). lia. }
        rewrite Eup. f_equal. rewrite insert_rows_0 by lia. rewrite insert_rows_end by lia.
        rewrite F1, S3. 
        rewrite <- (firstn_skipn lower input) at 3. rewrite filter_app. rewrite F1, S1.
        rewrite !filter_filter. f_equal; apply filter_ext; intros; lia.
      + f_equal. rewrite insert_rows_0 by lia. rewrite firstn_all. symmetry. now apply filter_negb_existsb_false.
    - rewrite El. cbn [option_map]. now rewrite insert_rows_0, F1 by lia.
    - rewrite Eu. cbn [option_map]. now rewrite insert_rows_0, F2 by lia.
    - rewrite Eu. cbn [option_map]. now rewrite insert_rows_end, S2 by lia.
    - rewrite El. cbn [option_map]. now rewrite insert_rows_end, S1 by lia.
  Qed.
End Fixed.

Lemma filter_fixed_spec t op lhs rhs srt input :
  plain t rhs -> Forall (fun r => plain t (col lhs r)) input ->
  (srt = true -> sorted_on lhs input) ->
  compute_filter_fixed t op lhs rhs srt input = Some (filter_rows t op lhs rhs input).
Proof.
  intros Hr Hp Hs. destruct srt.
  - apply sorted_filter; auto.
  - rewrite spec_eq by auto. unfold compute_filter_fixed. f_equal.
    destruct op; auto; eapply filter_ext_Forall; try exact Hp; intros r Hpr; simpl;
      unfold value_get; rewrite (plain_value t rhs Hr), (plain_value t _ Hpr); simpl; lia.
Qed.

Lemma filter_fixed_unsorted t op lhs rhs input :
  op <> EQ -> op <> NE ->
  compute_filter_fixed t op lhs rhs false input = Some (filter_rows t op lhs rhs input).
Proof.
  intros H1 H2. unfold compute_filter_fixed, filter_rows. f_equal.
  destruct op; try congruence; apply filter_ext; intros r; unfold value_get, value_lt, value_le, holds;
    destruct (entry_value t (col lhs r)), (entry_value t rhs); reflexivity.
Qed.

Lemma filter_dynamic_spec t op lhs rhs input :
  compute_filter_dynamic t op lhs rhs input =
  filter (fun r => holds op (entry_value t (col lhs r)) (entry_value t (col rhs r))) input.
Proof.
  unfold compute_filter_dynamic. apply filter_ext. intros r. unfold value_get.
  destruct op; simpl; unfold value_eq, value_lt, value_le, holds;
    destruct (entry_value t (col lhs r)), (entry_value t (col rhs r)); reflexivity.
Qed.

(* ---- ranges ---- *)

Lemma range_rows (lhs : nat) (lo hi : N) (input : table) : sorted_on lhs input ->
  exists lower upper,
    lower_bound (below KB lhs lo input) 0 (length input) = Some lower /\
    lower_bound (below KB lhs hi input) lower (length input) = Some upper /\
    (lower <= upper <= length input)%nat /\
    firstn lower input = filter (fun r => col lhs r <? lo) input /\
    (forall k, (k < lower)%nat -> col lhs (nth k input []) <? lo = true) /\
    firstn (upper - lower) (skipn lower input) =
      filter (fun r => (lo <=? col lhs r) && (col lhs r <? hi)) input.
Proof.
  intros Hs.
  assert (Hp : Forall (fun r => plain KB (col lhs r)) input)
    by (apply Forall_forall; simpl; auto).
  destruct (lb_rows KB lhs lo input I Hp Hs) as (lower & El & Hl & F1 & S1 & B1 & B2).
  exists lower.
  destruct (N.le_gt_cases lo hi) as [C|C].
  - destruct (lower_bound_split (fun r => col lhs r <? hi) input [] (below KB lhs hi input) lower)
      as (upper & Eu & Hu & F2 & S2 & B3 & B4).
    + apply (sorted_prefix_true lhs input (fun x => x <? hi)); auto. intros; lia.
    + auto.
    + intros p Hp'. apply (below_eq KB lhs hi input I Hp); auto.
    + intros k Hk. specialize (B1 k Hk). lia.
    + exists upper. repeat split; auto; try lia.
      rewrite (insert_rows_between (fun x => col lhs x <? lo) (fun x => col lhs x <? hi)); auto; try lia.
      * apply filter_ext; intros; lia.
  - (* empty range: the second search stops immediately *)
    destruct (lower_bound_spec (below KB lhs hi input) lower (length input) Hl) as (upper & Eu & Hu & G1 & G2).
    + intros k k' Hk Hkk Hk' Hb. rewrite (below_eq KB lhs hi input I Hp) in * by lia.
      specialize (B2 k' ltac:(lia)). lia.
    + exists upper. assert (upper = lower).
      { destruct (Nat.eq_dec upper lower); auto. exfalso.
        specialize (G1 lower ltac:(lia)). rewrite (below_eq KB lhs hi input I Hp) in G1 by lia.
        specialize (B2 lower ltac:(lia)). lia. }
      subst upper. repeat split; auto; try lia. rewrite Nat.sub_diag. simpl. symmetry.
      clear -C. induction input; simpl; auto.
      destruct ((lo <=? col lhs a) && (col lhs a <? hi)) eqn:E; auto. lia.
Qed.

Lemma filter_range_spec lhs lo hi srt input :
  (srt = true -> sorted_on lhs input) ->
  compute_filter_range false lhs lo hi srt input =
  Some (filter (fun r => (lo <=? col lhs r) && (col lhs r <? hi)) input).
Proof.
  intros Hs. unfold compute_filter_range. destruct srt; auto.
  destruct (range_rows lhs lo hi input (Hs eq_refl)) as (lower & upper & E1 & E2 & H & _ & _ & E3).
  rewrite E1, E2. f_equal. unfold insert_rows. simpl. rewrite E3.
  destruct (Nat.leb_spec upper lower); auto.
  replace (upper - lower)%nat with 0%nat in E3 by lia. simpl in E3. auto.
Qed.

(* what the inverse filter keeps *)
Lemma filter_range_inverse_spec lhs lo hi srt input :
  (srt = true -> sorted_on lhs input) ->
  compute_filter_range true lhs lo hi srt input =
  Some (if srt then filter (fun r => col lhs r <? lo) input
        else filter (fun r => negb ((lo <=? col lhs r) && (col lhs r <? hi))) input).
Proof.
  intros Hs. unfold compute_filter_range. destruct srt; auto.
  destruct (range_rows lhs lo hi input (Hs eq_refl)) as (lower & upper & E1 & E2 & H & F1 & _ & E3).
  rewrite E1, E2. f_equal. rewrite insert_rows_0 by lia.
  unfold insert_rows. rewrite firstn_length. destruct (Nat.leb_spec (Nat.min lower (length input)) upper); [auto|lia].
Qed.

(* ---- prefix filters: disjoint ranges ---- *)

Definition inR (x : N) (p : N * N) : bool := (fst p <=? x) && (x <? snd p).

Definition by_first (a b : N * N) : bool := fst a <? fst b.

Lemma remove_overlap_mem x : forall ranges prev,
  StronglySorted (fun a b => by_first b a = false) ranges ->
  (forall r, In r ranges -> fst prev <= fst r) ->
  inR x prev || existsb (inR x) (remove_overlap prev ranges) = inR x prev || existsb (inR x) ranges.
Proof.
  induction ranges as [|[a b] rest IH]; intros prev Hs Hprev; simpl; auto.
  inversion Hs as [|? ? Hs' Hf]; subst.
  assert (Hpa : fst prev <= a) by (apply (Hprev (a, b)); simpl; auto).
  set (a' := N.max (snd prev) a). set (b' := N.max b a').
  destruct (N.le_gt_cases (snd prev) a) as [C|C].
  - (* starts behind prev *)
    assert (a' = a) by lia. 
    assert (Hfst : forall r, In r rest -> fst (a', b') <= fst r).
    { intros r Hr. simpl. rewrite Forall_forall in Hf. specialize (Hf r Hr). unfold by_first in Hf. simpl in Hf. lia. }
    specialize (IH (a', b') Hs' Hfst).
    assert (E : inR x (a', b') = inR x (a, b)) by (unfold inR; simpl; lia).
    rewrite !orb_assoc. rewrite <- !orb_assoc. f_equal.
    rewrite IH. rewrite E. reflexivity.
  - (* overlaps prev: the union of prev and the rest is what counts *)
    assert (Ha' : a' = snd prev) by lia.
    (* treat prev and the new range as one range from fst prev to b' *)
    assert (Hall : forall r, In r rest -> a <= fst r).
    { intros r Hr. rewrite Forall_forall in Hf. specialize (Hf r Hr). unfold by_first in Hf. simpl in Hf. lia. }
    specialize (IH (a, b') Hs' Hall).
    assert (Hrem : remove_overlap (a', b') rest = remove_overlap (a, b') rest).
    { destruct rest as [|[c d] rest']; auto. }
    rewrite Hrem.
    assert (E1 : inR x prev || inR x (a', b') = inR x prev || inR x (a, b')).
    { unfold inR; simpl. lia. }
    assert (E2 : inR x prev || inR x (a, b') = inR x prev || inR x (a, b)).
    { unfold inR; simpl. lia. }
    rewrite !orb_assoc, E1, <- !orb_assoc, IH, !orb_assoc, E2. reflexivity.
Qed.

Lemma disjoint_ranges_mem x ranges : StronglySorted (fun a b => by_first b a = false) ranges ->
  existsb (inR x) (disjoint_ranges ranges) = existsb (inR x) ranges.
Proof.
  destruct ranges as [|r rest]; auto. intros H. inversion H as [|? ? Hs Hf]; subst.
  simpl. apply remove_overlap_mem; auto.
  intros r' Hr'. rewrite Forall_forall in Hf. specialize (Hf r' Hr'). unfold by_first in Hf. lia.
Qed.

(* consecutive ranges do not overlap and start in ascending order *)
Inductive chain : N -> list (N * N) -> Prop :=
| chain_nil m : chain m []
| chain_cons m a b rest : m <= a -> chain (N.max a b) rest -> chain m ((a, b) :: rest).

Lemma remove_overlap_chain : forall ranges a b,
  (forall r, In r ranges -> a <= fst r) ->
  StronglySorted (fun a b => by_first b a = false) ranges ->
  chain (N.max a b) (remove_overlap (a, b) ranges).
Proof.
  induction ranges as [|[c d] rest IH]; intros a b Ha Hs; simpl; [constructor|].
  inversion Hs as [|? ? Hs' Hf]; subst.
  pose proof (Ha (c, d) (or_introl eq_refl)) as Hac. simpl in Hac.
  constructor; [lia|].
  set (a' := N.max b c). set (b' := N.max d a').
  replace (N.max a' b') with (N.max c b') by lia.
  assert (Hrem : remove_overlap (a', b') rest = remove_overlap (c, b') rest).
  { destruct rest as [|[? ?] ?]; auto. }
  rewrite Hrem. apply IH; auto.
  intros r Hr. rewrite Forall_forall in Hf. specialize (Hf r Hr). unfold by_first in Hf. simpl in Hf. lia.
Qed.

Lemma disjoint_ranges_chain ranges : StronglySorted (fun a b => by_first b a = false) ranges ->
  chain 0 (disjoint_ranges ranges).
Proof.
  destruct ranges as [|[a b] rest]; simpl; [constructor|]. intros H.
  inversion H as [|? ? Hs Hf]; subst. constructor; [lia|]. apply remove_overlap_chain; auto.
  intros r Hr. rewrite Forall_forall in Hf. specialize (Hf r Hr). unfold by_first in Hf. simpl in Hf. lia.
Qed.

Lemma chain_above m ranges x : chain m ranges -> existsb (inR x) ranges = true -> m <= x.
Proof.
  induction 1; simpl; [discriminate|]. intros E. apply orb_true_iff in E. destruct E as [E|E].
  - unfold inR in E; simpl in E. lia.
  - specialize (IHchain E). lia.
Qed.

Lemma filter_partition_sorted (lhs : nat) (input : table) (p q : N -> bool) :
  sorted_on lhs input -> (forall x y, p x = true -> q y = true -> x < y) ->
  filter (fun r => p (col lhs r) || q (col lhs r)) input =
  filter (fun r => p (col lhs r)) input ++ filter (fun r => q (col lhs r)) input.
Proof.
  intros Hs Hpq. unfold sorted_on in Hs. apply Sorted_StronglySorted in Hs; [|intros x y z; lia].
  induction Hs as [|r t Hs IH Hf]; simpl; auto.
  destruct (p (col lhs r)) eqn:Ep; simpl.
  - destruct (q (col lhs r)) eqn:Eq; [pose proof (Hpq _ _ Ep Eq); lia|]. now rewrite IH.
  - destruct (q (col lhs r)) eqn:Eq; auto.
    assert (E : filter (fun r => p (col lhs r)) t = []).
    { rewrite Forall_forall in Hf. clear IH Hs. induction t as [|s t IHt]; simpl; auto.
      destruct (p (col lhs s)) eqn:Es.
      - pose proof (Hpq _ _ Es Eq). specialize (Hf s (or_introl eq_refl)). lia.
      - apply IHt. intros; apply Hf; simpl; auto. }
    rewrite IH, E. reflexivity.
Qed.

Lemma prefix_sorted_loop_spec lhs input : sorted_on lhs input ->
  forall ranges m res, chain m ranges ->
  prefix_sorted_loop lhs input ranges res =
  Some (res ++ filter (fun r => existsb (inR (col lhs r)) ranges) input).
Proof.
  intros Hs. induction ranges as [|[lo hi] rest IH]; intros m res Hc.
  - simpl. f_equal. replace (filter (fun _ : row => false) input) with (@nil row);
      [now rewrite app_nil_r|]. clear. induction input; auto.
  - inversion Hc as [|? ? ? ? Hm Hc']; subst. cbn [prefix_sorted_loop].
    destruct (range_rows lhs lo hi input Hs) as (lower & upper & E1 & E2 & H & F1 & B1 & E3).
    rewrite E1. destruct (Nat.eqb_spec lower (length input)) as [El|El].
    + f_equal. replace (filter _ input) with (@nil row); [now rewrite app_nil_r|].
      symmetry. cut (forall r, In r input -> existsb (inR (col lhs r)) ((lo, hi) :: rest) = false).
      { clear. induction input as [|r l IHl]; simpl; intros Hf; auto.
        rewrite (Hf r) by auto. apply IHl. intros; apply Hf; auto. }
      intros r Hin. apply In_nth with (d := []) in Hin. destruct Hin as (k & Hk & E).
      specialize (B1 k ltac:(lia)). rewrite E in B1. apply not_true_is_false.
      intros Ht. cbn [existsb] in Ht. apply orb_true_iff in Ht. destruct Ht as [Ht|Ht].
      * unfold inR in Ht; simpl in Ht. lia.
      * pose proof (chain_above _ _ _ Hc' Ht). lia.
    + rewrite E2. rewrite (IH (N.max lo hi)) by auto. f_equal.
      assert (Ei : insert_rows res input lower upper = res ++ filter (fun r => inR (col lhs r) (lo, hi)) input).
      { unfold insert_rows, inR. simpl. destruct (Nat.leb_spec upper lower).
        - replace (upper - lower)%nat with 0%nat in E3 by lia. simpl in E3. now rewrite <- E3, app_nil_r.
        - now rewrite E3. }
      rewrite Ei, <- app_assoc. f_equal.
      rewrite <- (filter_partition_sorted lhs input (fun x => inR x (lo, hi)) (fun x => existsb (inR x) rest)); auto.
      intros x y Hx Hy. pose proof (chain_above _ _ _ Hc' Hy). unfold inR in Hx; simpl in Hx. lia.
Qed.

(* grouping the ranges by column *)
Lemma add_range_mem (f : nat -> N) m c r :
  existsb (fun x => existsb (inR (f (fst x))) (snd x)) (add_range m c r) =
  existsb (fun x => existsb (inR (f (fst x))) (snd x)) m || inR (f c) r.
Proof.
  induction m as [|[c' rs] m IH]; simpl.
  - now rewrite !orb_false_r.
  - destruct (Nat.eqb_spec c' c) as [->|E]; simpl.
    + rewrite existsb_app. simpl. rewrite orb_false_r.
      destruct (existsb (inR (f c)) rs), (inR (f c) r), (existsb _ m); reflexivity.
    + rewrite IH. now rewrite orb_assoc.
Qed.

Lemma group_ranges_mem (f : nat -> N) ds m :
  existsb (fun x => existsb (inR (f (fst x))) (snd x))
    (fold_left (fun m d => add_range m (fst d) (snd d)) ds m) =
  existsb (fun x => existsb (inR (f (fst x))) (snd x)) m ||
  existsb (fun d => inR (f (fst d)) (snd d)) ds.
Proof.
  revert m. induction ds as [|d ds IH]; intros m; simpl; [now rewrite orb_false_r|].
  rewrite IH, add_range_mem, orb_assoc. reflexivity.
Qed.

Lemma add_range_head m c r c0 rs0 m0 : m = (c0, rs0) :: m0 ->
  exists rs1 m1, add_range m c r = (c0, rs1) :: m1.
Proof. intros ->. simpl. destruct (Nat.eqb c0 c); eauto. Qed.

Lemma group_ranges_head lhs range ds : exists rs m,
  group_ranges ((lhs, range) :: ds) = (lhs, rs) :: m.
Proof.
  unfold group_ranges. simpl.
  assert (G : forall ds m rs0 m0, m = (lhs, rs0) :: m0 ->
    exists rs1 m1, fold_left (fun m d => add_range m (fst d) (snd d)) ds m = (lhs, rs1) :: m1).
  { clear. induction ds as [|d ds IH]; intros m rs0 m0 E; simpl; [eauto|].
    destruct (add_range_head m (fst d) (snd d) _ _ _ E) as (rs1 & m1 & E1). eapply IH; eauto. }
  eapply G; reflexivity.
Qed.

Lemma filter_prefix_spec sort lhs range additional sorted_by input :
  (forall l, sort_result by_first l (sort l)) ->
  (forall s rest, sorted_by = s :: rest -> sorted_on s input) ->
  compute_filter_prefix sort lhs range additional sorted_by input =
  Some (filter_ranges ((lhs, range) :: additional) input).
Proof.
  intros Hsort Hs. unfold compute_filter_prefix.
  set (g := group_ranges ((lhs, range) :: additional)).
  assert (Hmem : forall r : row,
    existsb (fun x => existsb (fun p => (fst p <=? col (fst x) r) && (col (fst x) r <? snd p)) (snd x))
      (map (fun e => (fst e, disjoint_ranges (sort (snd e)))) g) =
    existsb (in_range r) ((lhs, range) :: additional)).
  { intros r.
    transitivity (existsb (fun x => existsb (inR (col (fst x) r)) (snd x)) g).
    - clearbody g. induction g as [|[c rs] g' IH]; simpl; auto. f_equal; auto.
      destruct (Hsort rs) as [Hperm Hss].
      change (existsb (inR (col c r)) (disjoint_ranges (sort rs)) = existsb (inR (col c r)) rs).
      rewrite disjoint_ranges_mem by auto.
      apply Bool.eq_true_iff_eq. rewrite !existsb_exists. split; intros (p & Hp & Hq); exists p; split; auto.
      + eapply Permutation_in; [apply Permutation_sym, Hperm|auto].
      + eapply Permutation_in; [apply Hperm|auto].
    - unfold g, group_ranges. rewrite (group_ranges_mem (fun c => col c r)). reflexivity. }
  unfold filter_ranges.
  destruct (group_ranges_head lhs range additional) as (rs & m & Eg).
  assert (Hdef : Some (filter (fun e => existsb (fun x => existsb (fun p =>
              (fst p <=? col (fst x) e) && (col (fst x) e <? snd p)) (snd x))
              (map (fun e => (fst e, disjoint_ranges (sort (snd e)))) g)) input) =
              Some (filter (fun r => existsb (in_range r) ((lhs, range) :: additional)) input)).
  { f_equal. apply filter_ext. intros; apply Hmem. }
  fold g in Eg. rewrite Eg in *. cbn [map fst snd] in *.
  destruct m as [|[c2 rs2] m].
  - destruct sorted_by as [|s rest]; [exact Hdef|]. cbn [map].
    destruct (Nat.eqb_spec lhs s) as [->|E]; [|exact Hdef].
    rewrite Nat.eqb_refl.
    rewrite (prefix_sorted_loop_spec s input (Hs s rest eq_refl) _ 0 [])
      by (apply disjoint_ranges_chain; apply Hsort).
    cbn [app]. refine (eq_trans _ Hdef). f_equal. apply filter_ext. intros r. simpl. now rewrite orb_false_r.
  - destruct sorted_by; exact Hdef.
Qed.

(* ---- comparison with a word of the vocabulary ---- *)

Section Words.
  Variables (W : Type) (lt : W -> W -> bool).
  Hypothesis Hlt : strict_weak_order lt.
  Variables (words : list W) (w : W).
  Hypothesis Hwords : StronglySorted (fun x y => lt y x = false) words.

  Lemma swo_lt_le x y z : lt x y = true -> lt z y = false -> lt x z = true.
  Proof.
    intros H1 H2. destruct (lt x z) eqn:E; auto.
    pose proof (swo_incomp lt Hlt x z y E H2). congruence.
  Qed.
  Lemma swo_le_lt x y z : lt y x = false -> lt y z = true -> lt x z = true.
  Proof.
    intros H1 H2. destruct (lt x z) eqn:E; auto.
    pose proof (swo_incomp lt Hlt y x z H1 E). congruence.
  Qed.

  Lemma vocab_lb : exists lb, vocab_lower_bound lt words w = Some lb /\ (lb <= length words)%nat /\
    (forall k x, nth_error words k = Some x -> lt x w = (k <? lb)%nat).
  Proof.
    unfold vocab_lower_bound.
    destruct words as [|d ws] eqn:Ew.
    { exists 0%nat. repeat split; auto. intros [|k] x H; discriminate. }
    rewrite <- Ew in *.
    destruct (lower_bound_split (fun x => lt x w) words d
      (fun p => match nth_error words p with Some x => lt x w | None => false end) 0)
      as (lb & E & Hl & _ & _ & B1 & B2).
    - unfold prefix_true. clear Ew. induction Hwords as [|x l Hs IH Hf]; constructor; auto.
      rewrite Forall_forall in *. intros y Hy Hyw. eapply swo_le_lt; eauto.
    - lia.
    - intros p Hp. erewrite (nth_error_nth' words d) by auto. reflexivity.
    - intros; lia.
    - exists lb. repeat split; auto; try lia.
      intros k x Hk. assert (Hlen : (k < length words)%nat) by (apply nth_error_Some; congruence).
      pose proof (nth_error_nth words k d Hk) as En.
      destruct (Nat.ltb_spec k lb) as [C|C].
      + specialize (B1 k C). now rewrite En in B1.
      + specialize (B2 k ltac:(lia)). now rewrite En in B2.
  Qed.

  Lemma vocab_ub : exists ub, vocab_upper_bound lt words w = Some ub /\ (ub <= length words)%nat /\
    (forall k x, nth_error words k = Some x -> lt w x = (ub <=? k)%nat).
  Proof.
    unfold vocab_upper_bound, upper_bound.
    destruct words as [|d ws] eqn:Ew.
    { exists 0%nat. repeat split; auto. intros [|k] x H; discriminate. }
    rewrite <- Ew in *.
    destruct (lower_bound_split (fun x => negb (lt w x)) words d
      (fun p => match nth_error words p with Some x => negb (lt w x) | None => false end) 0)
      as (ub & E & Hl & _ & _ & B1 & B2).
    - unfold prefix_true. clear Ew. induction Hwords as [|x l Hs IH Hf]; constructor; auto.
      rewrite Forall_forall in *. intros y Hy Hyw. apply negb_true_iff in Hyw. apply negb_true_iff.
      eapply (swo_incomp lt Hlt); eauto.
    - lia.
    - intros p Hp. erewrite (nth_error_nth' words d) by auto. reflexivity.
    - intros; lia.
    - exists ub. repeat split; auto; try lia.
      intros k x Hk. assert (Hlen : (k < length words)%nat) by (apply nth_error_Some; congruence).
      pose proof (nth_error_nth words k d Hk) as En.
      destruct (Nat.leb_spec ub k) as [C|C].
      + specialize (B2 k ltac:(lia)). rewrite En in B2. now apply negb_false_iff in B2.
      + specialize (B1 k C). rewrite En in B1. now apply negb_true_iff in B1.
  Qed.

  (* the rows whose word satisfies the comparison *)
  Definition word_rows (op : comparison_op) (lhs : nat) (input : table) : table :=
    filter (fun r => match nth_error words (N.to_nat (col lhs r)) with
                     | Some x => word_holds lt op x w | None => false end) input.

  Lemma filter_kb_spec op lhs srt input :
    (srt = true -> sorted_on lhs input) ->
    Forall (fun r => col lhs r < N.of_nat (length words)) input ->
    (op = NE -> srt = false) ->
    (op = LE \/ op = GT -> exists x, nth_error words 0 = Some x /\ lt w x = false) ->
    compute_filter_kb lt words op lhs w srt input = Some (word_rows op lhs input).
  Proof.
    intros Hs Hin HNE HLE. unfold compute_filter_kb, word_rows.
    destruct vocab_lb as (lb & El & Hl & Bl). destruct vocab_ub as (ub & Eu & Hu & Bu).
    rewrite El, Eu.
    assert (Hlbub : (lb <= ub)%nat).
    { destruct (Nat.le_gt_cases lb ub); auto. exfalso.
      destruct (nth_error words ub) as [x|] eqn:Ex.
      - pose proof (Bl _ _ Ex). pose proof (Bu _ _ Ex).
        assert (lt x w = true) by (rewrite H0; apply Nat.ltb_lt; lia).
        assert (lt w x = true) by (rewrite H1; apply Nat.leb_le; lia).
        pose proof (swo_trans lt Hlt _ _ _ H2 H3). rewrite (swo_irrefl lt Hlt) in H4. discriminate.
      - apply nth_error_None in Ex. lia. }
    assert (Hrow : forall r, col lhs r < N.of_nat (length words) -> exists x,
      nth_error words (N.to_nat (col lhs r)) = Some x /\
      lt x w = (N.to_nat (col lhs r) <? lb)%nat /\ lt w x = (ub <=? N.to_nat (col lhs r))%nat).
    { intros r Hr. destruct (nth_error words (N.to_nat (col lhs r))) as [x|] eqn:Ex.
      - exists x. auto 6.
      - apply nth_error_None in Ex. lia. }
    assert (HpKB : Forall (fun r => plain KB (col lhs r)) input) by (apply Forall_forall; simpl; auto).
    assert (Hub : op = LE \/ op = GT -> (0 < ub)%nat).
    { intros Ho. destruct (HLE Ho) as (x & Hx & Hwx). pose proof (Bu _ _ Hx) as Hb. rewrite Hwx in Hb.
      symmetry in Hb. apply Nat.leb_gt in Hb. lia. }
    destruct op.
    - rewrite filter_range_spec by auto. f_equal. eapply filter_ext_Forall; [exact Hin|].
      intros r Hr. destruct (Hrow r Hr) as (x & -> & E1 & E2). simpl. rewrite E1, E2. lia.
    - rewrite filter_range_inverse_spec by auto. rewrite HNE by auto. f_equal.
      eapply filter_ext_Forall; [exact Hin|].
      intros r Hr. destruct (Hrow r Hr) as (x & -> & E1 & E2). simpl. rewrite E1, E2. lia.
    - rewrite filter_fixed_spec by (simpl; auto). f_equal. unfold filter_rows.
      eapply filter_ext_Forall; [exact Hin|]. intros r Hr. destruct (Hrow r Hr) as (x & -> & E1 & E2).
      simpl. rewrite E1. lia.
    - specialize (Hub (or_introl eq_refl)). destruct (Nat.ltb_spec 0 ub); [|lia].
      rewrite filter_fixed_spec by (simpl; auto). f_equal. unfold filter_rows.
      eapply filter_ext_Forall; [exact Hin|]. intros r Hr. destruct (Hrow r Hr) as (x & -> & E1 & E2).
      simpl. rewrite E2. lia.
    - specialize (Hub (or_intror eq_refl)). destruct (Nat.ltb_spec 0 ub); [|lia].
      rewrite filter_fixed_spec by (simpl; auto). f_equal. unfold filter_rows.
      eapply filter_ext_Forall; [exact Hin|]. intros r Hr. destruct (Hrow r Hr) as (x & -> & E1 & E2).
      simpl. rewrite E2. lia.
    - rewrite filter_fixed_spec by (simpl; auto). f_equal. unfold filter_rows.
      eapply filter_ext_Forall; [exact Hin|]. intros r Hr. destruct (Hrow r Hr) as (x & -> & E1 & E2).
      simpl. rewrite E1. lia.
  Qed.
End Words.
