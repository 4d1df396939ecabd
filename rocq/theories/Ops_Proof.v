From Coq Require Import String List NArith ZArith Arith Bool Lia Sorted Permutation ZifyBool ZifyN ZifyNat.
From Verif Require Import ListAux Table_Spec Std_Model Std_Proof Lex_Proof Ops_Spec Ops_Model.
Import ListNotations.
Open Scope N_scope.

(* ---- UNION: the rows ---- *)

Lemma append_chunks_spec n : forall i chunk input res,
  append_chunks n i chunk input res = res ++ firstn (n * chunk) (skipn (i * chunk) input).
Proof.
  induction n as [|n IH]; intros i chunk input res; cbn [append_chunks].
  - simpl. now rewrite app_nil_r.
  - rewrite IH, <- app_assoc. f_equal.
    replace ((i + 1) * chunk - i * chunk)%nat with chunk by nia.
    replace (S n * chunk)%nat with (chunk + n * chunk)%nat by lia.
    replace ((i + 1) * chunk)%nat with (i * chunk + chunk)%nat by nia.
    rewrite firstn_add, skipn_add. reflexivity.
Qed.

Lemma append_chunked_spec chunk input res : chunk <> 0%nat ->
  append_chunked chunk input res = Some (res ++ input).
Proof.
  intros H. unfold append_chunked. destruct (Nat.eqb_spec chunk 0); [lia|]. f_equal.
  rewrite append_chunks_spec. simpl skipn. rewrite <- app_assoc. f_equal. apply firstn_skipn.
Qed.

Definition origins_in (side : origin -> option nat) (w : nat) (os : list origin) : Prop :=
  Forall (fun o => forall c, side o = Some c -> (c < w)%nat) os.

Lemma map_row_spec side os w r : origins_in side w os -> length r = w ->
  map_row side os r = Some (union_row side os r).
Proof.
  intros H Hw. induction H as [|o os Ho Hos IH]; simpl; auto.
  destruct (side o) as [c|] eqn:E.
  - specialize (Ho c eq_refl). rewrite (nth_error_nth' r 0) by lia. rewrite IH. reflexivity.
  - rewrite IH. reflexivity.
Qed.

Lemma map_rows_spec side os w t : origins_in side w os -> width w t ->
  forall res, map_rows side os t res = Some (res ++ map (union_row side os) t).
Proof.
  intros H Hw. induction Hw as [|r t Hr Ht IH]; intros res; simpl.
  - now rewrite app_nil_r.
  - rewrite (map_row_spec side os w) by auto. rewrite IH, <- app_assoc. reflexivity.
Qed.

Lemma columns_match_row side : forall os i r,
  columns_match side i os = true -> length r = (i + length os)%nat ->
  union_row side os r = skipn i r.
Proof.
  induction os as [|o os IH]; intros i r H Hr; simpl in *.
  - now rewrite skipn_all2 by lia.
  - destruct (side o) as [c|] eqn:E; [|discriminate].
    apply andb_true_iff in H. destruct H as [Hc H]. apply Nat.eqb_eq in Hc. subst c.
    rewrite (IH (i + 1)%nat r H) by lia. unfold col.
    rewrite (skipn_nth_cons i r 0) by lia. now rewrite Nat.add_1_r.
Qed.

Lemma append_side_spec side os chunk w t res : chunk <> 0%nat -> origins_in side w os -> width w t ->
  append_side side os chunk w t res = Some (res ++ map (union_row side os) t).
Proof.
  intros Hc Ho Hw. unfold append_side. destruct t as [|r t]; [simpl; now rewrite app_nil_r|].
  destruct (Nat.eqb w (length os) && columns_match side 0 os) eqn:E.
  - apply andb_true_iff in E. destruct E as [Ew E]. apply Nat.eqb_eq in Ew.
    rewrite append_chunked_spec by auto. f_equal. f_equal. symmetry.
    rewrite <- (map_id (r :: t)) at 2. apply map_ext_in. intros s Hs.
    unfold width in Hw. rewrite Forall_forall in Hw.
    rewrite (columns_match_row side os 0 s E); auto. rewrite (Hw s Hs). lia.
  - now apply (map_rows_spec side os w).
Qed.

Lemma compute_union_spec os wl wr a b :
  os <> [] -> N.of_nat (length os) <= 100000 ->
  origins_in fst wl os -> origins_in snd wr os -> width wl a -> width wr b ->
  compute_union os wl wr a b = Some (table_union os a b).
Proof.
  intros Hne Hmax Ho1 Ho2 Ha Hb. unfold compute_union.
  destruct (Nat.eqb_spec (length os) 0) as [E|E]; [destruct os; [congruence|discriminate]|].
  assert (Hchunk : N.to_nat (100000 / N.of_nat (length os)) <> 0%nat).
  { assert (1 <= 100000 / N.of_nat (length os)); [|lia].
    apply N.div_le_lower_bound; lia. }
  rewrite (append_side_spec fst) by auto. rewrite (append_side_spec snd) by auto. reflexivity.
Qed.

(* ---- UNION: the variables ---- *)

Lemma var_find_app m m' v : var_find (m ++ m') v =
  match var_find m v with Some c => Some c | None => var_find m' v end.
Proof.
  unfold var_find. induction m as [|[u c] m IH]; simpl; auto. destruct (String.eqb u v); auto.
Qed.

Lemma var_find_none m v : var_find m v = None <-> ~ In v (map fst m).
Proof.
  unfold var_find. induction m as [|[u c] m IH]; simpl; [intuition|].
  destruct (String.eqb_spec u v); simpl; [split; [discriminate|tauto]|]. rewrite IH. tauto.
Qed.

Lemma var_find_In m v c : NoDup (map fst m) -> (var_find m v = Some c <-> In (v, c) m).
Proof.
  unfold var_find. induction m as [|[u d] m IH]; simpl; intros H; [split; [discriminate|tauto]|].
  inversion H as [|? ? Hn Hd]; subst. destruct (String.eqb_spec u v); simpl.
  - subst. split; [intros E; injection E; intros; subst; auto|].
    intros [E|E]; [congruence|]. exfalso. apply Hn. apply (in_map fst) in E. exact E.
  - rewrite IH by auto. split; auto. intros [E|E]; [congruence|auto].
Qed.

(* the variables of the union: the left map, then the new ones on consecutive columns *)
Lemma union_add_vars_spec right : forall m column,
  NoDup (map fst m) ->
  exists ext, union_add_vars m column right = m ++ ext /\
    NoDup (map fst (m ++ ext)) /\
    map snd ext = seq column (length ext) /\
    (forall v, In v (map fst ext) <-> ~ In v (map fst m) /\ In v (map fst right)).
Proof.
  induction right as [|[v c] right IH]; intros m column Hd; simpl.
  - exists []. rewrite app_nil_r. simpl. intuition.
  - destruct (var_find m v) as [d|] eqn:E.
    + destruct (IH m column Hd) as (ext & E1 & E2 & E3 & E4). exists ext.
      split; auto. split; auto. split; auto. intros u. rewrite E4. split; [tauto|].
      intros [H1 [H2|H2]]; auto. subst. exfalso.
      assert (var_find m u = None) by (now apply var_find_none). congruence.
    + apply var_find_none in E.
      assert (Hd' : NoDup (map fst (m ++ [(v, column)]))).
      { rewrite map_app. simpl. rewrite <- (rev_involutive (map fst m ++ [v])).
        apply NoDup_rev. rewrite rev_app_distr. simpl. constructor.
        - now rewrite <- in_rev.
        - now apply NoDup_rev. }
      destruct (IH _ (column + 1)%nat Hd') as (ext & E1 & E2 & E3 & E4).
      exists ((v, column) :: ext). rewrite E1, <- app_assoc in *. cbn [app] in *.
      split; auto. split; auto. split.
      { simpl. rewrite E3. f_equal. f_equal. lia. }
      intros u. simpl. rewrite E4. rewrite map_app, in_app_iff. simpl. split.
      * intros [H|H]; [subst; auto|]. tauto.
      * intros [H1 [H2|H2]]; auto. destruct (string_dec v u); auto. right. tauto.
Qed.

Definition columns_covered (m : var_map) : Prop :=
  NoDup (map fst m) /\ NoDup (map snd m) /\ Forall (fun c => (c < length m)%nat) (map snd m).

Lemma union_vars_spec left right : columns_covered left ->
  exists ext, union_vars left right = left ++ ext /\
    NoDup (map fst (left ++ ext)) /\ NoDup (map snd (left ++ ext)) /\
    Forall (fun c => (c < length (left ++ ext))%nat) (map snd (left ++ ext)) /\
    (forall v, In v (map fst ext) <-> ~ In v (map fst left) /\ In v (map fst right)).
Proof.
  intros (Hf & Hs & Hlt).
  destruct (union_add_vars_spec right left (length left) Hf) as (ext & E1 & E2 & E3 & E4).
  exists ext. split; auto. split; auto. split.
  { rewrite map_app, E3. apply NoDup_app_intro; auto using seq_NoDup.
    intros x Hx1 Hx2. rewrite Forall_forall in Hlt. apply Hlt in Hx1. apply in_seq in Hx2. lia. }
  split; auto.
  rewrite app_length, map_app. apply Forall_app. split.
  - eapply Forall_impl; [|exact Hlt]. simpl; intros; lia.
  - rewrite E3. apply Forall_forall. intros x Hx. apply in_seq in Hx. lia.
Qed.

Lemma list_set_spec {A} (l : list A) : forall i x, (i < length l)%nat ->
  exists l', list_set l i x = Some l' /\ (length l' = length l)%nat /\
    (forall d k, nth k l' d = if Nat.eqb k i then x else nth k l d).
Proof.
  induction l as [|y l IH]; intros i x H; simpl in H; [lia|].
  destruct i as [|i]; simpl.
  - exists (x :: l). repeat split; auto. intros d [|k]; reflexivity.
  - destruct (IH i x ltac:(lia)) as (l' & E & Hl & Hn). exists (y :: l'). rewrite E. simpl.
    repeat split; auto. intros d [|k]; simpl; auto.
Qed.

Lemma fill_origins_spec left right : forall vars os,
  NoDup (map snd vars) -> Forall (fun c => (c < length os)%nat) (map snd vars) ->
  exists os', fill_origins left right vars os = Some os' /\ length os' = length os /\
    (forall v c, In (v, c) vars -> nth c os' (None, None) = (var_find left v, var_find right v)) /\
    (forall c, ~ In c (map snd vars) -> nth c os' (None, None) = nth c os (None, None)).
Proof.
  induction vars as [|[v c] vars IH]; intros os Hd Hlt; simpl.
  - exists os. repeat split; auto. intros ? ? [].
  - inversion Hd as [|? ? Hn Hd']; subst. inversion Hlt as [|? ? Hc Hlt']; subst.
    destruct (list_set_spec os c (var_find left v, var_find right v) Hc) as (os1 & E & Hl & Hnth).
    rewrite E. destruct (IH os1 Hd') as (os' & E2 & Hl2 & H1 & H2).
    { rewrite Hl. exact Hlt'. }
    exists os'. split; auto. split; [lia|]. split.
    + intros u d [Hu|Hu]; [|auto]. injection Hu; intros; subst.
      rewrite H2 by auto. rewrite Hnth, Nat.eqb_refl. reflexivity.
    + intros d Hnd. rewrite H2 by tauto. rewrite Hnth.
      destruct (Nat.eqb_spec d c); auto. subst. tauto.
Qed.

Lemma nth_union_row side os r c : (c < length os)%nat ->
  col c (union_row side os r) =
  match side (nth c os (None, None)) with Some d => col d r | None => UNBOUND end.
Proof.
  intros H. unfold col at 1, union_row.
  set (f := fun o => match side o with Some d => col d r | None => UNBOUND end).
  rewrite (nth_indep _ 0 (f (None, None))) by (now rewrite map_length). now rewrite map_nth.
Qed.

Lemma binding_find m r v : binding String.eqb m r v =
  match var_find m v with Some c => col c r | None => UNBOUND end.
Proof. unfold binding, var_find. destruct (find _ m); reflexivity. Qed.

Lemma union_spec left right wl wr a b :
  columns_covered left -> NoDup (map fst right) ->
  Forall (fun c => (c < wl)%nat) (map snd left) -> Forall (fun c => (c < wr)%nat) (map snd right) ->
  width wl a -> width wr b ->
  union_vars left right <> [] -> N.of_nat (length (union_vars left right)) <= 100000 ->
  exists os res, union_origins left right = Some os /\
    compute_union os wl wr a b = Some res /\
    width (length (union_vars left right)) res /\
    length res = (length a + length b)%nat /\
    forall v, map (fun r => binding String.eqb (union_vars left right) r v) res =
              map (fun r => binding String.eqb left r v) a ++
              map (fun r => binding String.eqb right r v) b.
Proof.
  intros Hcov Hdr Hcl Hcr Ha Hb Hne Hmax.
  destruct (union_vars_spec left right Hcov) as (ext & Euv & Hd1 & Hd2 & Hlt & Hext).
  unfold union_origins. rewrite Euv in *.
  set (vars := left ++ ext) in *.
  destruct (fill_origins_spec left right vars (repeat (None, None) (length vars)) Hd2)
    as (os & E & Hl & Hnth & _).
  { now rewrite repeat_length. }
  rewrite repeat_length in Hl.
  (* every column has a variable *)
  assert (Hall : forall c, (c < length os)%nat -> exists v, In (v, c) vars).
  { intros c Hc. assert (Hin : In c (map snd vars)).
    { assert (Hincl : incl (seq 0 (length vars)) (map snd vars)).
      { apply NoDup_length_incl; auto.
        - rewrite seq_length, map_length. lia.
        - intros x Hx. rewrite Forall_forall in Hlt. apply in_seq. specialize (Hlt x Hx). lia. }
      apply Hincl. apply in_seq. lia. }
    apply in_map_iff in Hin. destruct Hin as ((v & c') & Ec & Hin). simpl in Ec. subst. eauto. }
  assert (Ho1 : origins_in fst wl os).
  { apply Forall_forall. intros o Ho c Hc. apply In_nth with (d := (None, None)) in Ho.
    destruct Ho as (k & Hk & Ek). destruct (Hall k Hk) as (v & Hv).
    rewrite (Hnth v k Hv) in Ek. subst o. simpl in Hc.
    destruct Hcov as (Hf & _). apply var_find_In in Hc; auto.
    rewrite Forall_forall in Hcl. apply Hcl. apply (in_map snd) in Hc. exact Hc. }
  assert (Ho2 : origins_in snd wr os).
  { apply Forall_forall. intros o Ho c Hc. apply In_nth with (d := (None, None)) in Ho.
    destruct Ho as (k & Hk & Ek). destruct (Hall k Hk) as (v & Hv).
    rewrite (Hnth v k Hv) in Ek. subst o. simpl in Hc.
    apply var_find_In in Hc; auto.
    rewrite Forall_forall in Hcr. apply Hcr. apply (in_map snd) in Hc. exact Hc. }
  assert (Hosne : os <> []).
  { intros ->. simpl in Hl. destruct vars; [congruence|discriminate]. }
  assert (Hosmax : N.of_nat (length os) <= 100000) by (rewrite Hl; lia).
  exists os, (table_union os a b). split; auto. split.
  { now apply compute_union_spec. }
  split.
  { unfold table_union, width. apply Forall_app. split; apply Forall_forall; intros r Hr;
      apply in_map_iff in Hr; destruct Hr as (s & <- & _); unfold union_row; now rewrite map_length. }
  split.
  { unfold table_union. now rewrite app_length, !map_length. }
  assert (Hside : forall (side : origin -> option nat) (m : var_map) (HS : forall v, side (var_find left v, var_find right v) = var_find m v),
    (forall v, ~ In v (map fst vars) -> var_find m v = None) ->
    forall v (t : table), map (fun r => binding String.eqb vars r v) (map (union_row side os) t) =
    map (fun r => binding String.eqb m r v) t).
  { intros side m HS Hnone v t. rewrite map_map. apply map_ext. intros r.
    rewrite !binding_find. destruct (var_find vars v) as [c|] eqn:Ec.
    - apply var_find_In in Ec; auto.
      assert (Hc : (c < length os)%nat).
      { rewrite Forall_forall in Hlt. rewrite Hl. apply Hlt. apply (in_map snd) in Ec. exact Ec. }
      rewrite nth_union_row by auto. rewrite (Hnth v c Ec), HS. reflexivity.
    - apply var_find_none in Ec. now rewrite Hnone. }
  intros v. unfold table_union. rewrite map_app. f_equal.
  - apply Hside; auto. intros u Hu. apply var_find_none. intros Hin. apply Hu. unfold vars.
    rewrite map_app, in_app_iff. auto.
  - apply Hside; auto. intros u Hu. apply var_find_none. intros Hin. apply Hu. unfold vars.
    rewrite map_app, in_app_iff. destruct (in_dec string_dec u (map fst left)); auto.
    right. apply Hext. auto.
Qed.

(* ---- DISTINCT ---- *)

Definition same_key (ks : list nat) (s r : row) : bool := forallb (fun c => col c s =? col c r) ks.

Lemma same_key_cols ks s r : same_key ks s r = true <-> cols ks s = cols ks r.
Proof.
  unfold same_key, cols. induction ks as [|k ks IH]; simpl; [tauto|].
  rewrite andb_true_iff, IH, N.eqb_eq. split; [intros [-> ->]; auto|].
  intros H. injection H. auto.
Qed.

Lemma unique_by_first_of_each ks : forall t last seen,
  ksorted (cols ks) (last :: t) -> In last seen ->
  (forall s, In s seen -> lex_le (cols ks s) (cols ks last)) ->
  unique_by (same_key ks) last t = first_of_each ks seen t.
Proof.
  induction t as [|r t IH]; intros last seen Hs Hin Hle; simpl; auto.
  assert (Hsr : ksorted (cols ks) (r :: t)) by (eapply ksorted_tail; eauto).
  assert (Hlr : lex_le (cols ks last) (cols ks r)) by (apply (ksorted_head _ _ _ r Hs); simpl; auto).
  destruct (same_key ks last r) eqn:E.
  - assert (Ex : existsb (fun s => same_key ks s r) seen = true).
    { apply existsb_exists. eauto. }
    unfold same_key in Ex. rewrite Ex.
    apply same_key_cols in E.
    apply IH.
    + inversion Hsr as [|? ? H1 H2]; subst. constructor; auto.
      eapply Forall_impl; [|exact H2]. intros s. simpl. now rewrite E.
    + simpl; auto.
    + intros s [<-|Hsn]; [|auto]. rewrite E. apply lex_le_refl.
  - assert (Ex : existsb (fun s => same_key ks s r) seen = false).
    { apply existsb_false_iff. intros s Hsn. destruct (same_key ks s r) eqn:Es; auto.
      apply same_key_cols in Es. exfalso.
      assert (cols ks last = cols ks r).
      { apply lex_le_antisym; auto. rewrite <- Es. auto. }
      apply same_key_cols in H. congruence. }
    unfold same_key in Ex. rewrite Ex. f_equal.
    apply IH; auto; simpl; auto.
    intros s [<-|Hsn]; [apply lex_le_refl|]. eapply lex_le_trans; eauto.
Qed.

Lemma distinct_spec w keep t : sorted_lex keep t -> (length keep <= w)%nat ->
  distinct_rows w keep t = Some (first_of_each keep [] t).
Proof.
  intros Hs Hw. unfold distinct_rows. destruct t as [|r t]; auto.
  destruct (Nat.leb_spec (length keep) w); [|lia]. f_equal. simpl. f_equal.
  apply (unique_by_first_of_each keep t r [r]).
  - now apply sorted_lex_ksorted.
  - simpl; auto.
  - intros s [<-|[]]. apply lex_le_refl.
Qed.

(* what first_of_each means *)
Lemma first_of_each_spec ks : forall t seen,
  let out := first_of_each ks seen t in
  NoDup (map (cols ks) out) /\
  (forall r, In r out -> In r t /\ forall s, In s seen -> cols ks s <> cols ks r) /\
  (forall r, In r t -> (exists s, In s seen /\ cols ks s = cols ks r) \/
                       (exists s, In s out /\ cols ks s = cols ks r)).
Proof.
  induction t as [|r t IH]; intros seen; cbn [first_of_each].
  - simpl. repeat split; try tauto. constructor.
  - specialize (IH (r :: seen)). destruct IH as (H1 & H2 & H3).
    destruct (existsb _ seen) eqn:E.
    + apply existsb_exists in E. destruct E as (s0 & Hs0 & E0). change (same_key ks s0 r = true) in E0.
      apply same_key_cols in E0. repeat split; auto.
      * right. now apply H2.
      * intros s Hs. apply H2 in H. apply H. simpl; auto.
      * intros q [<-|Hq]; [left; eauto|]. destruct (H3 q Hq) as [(s & [<-|Hs] & Es)|G]; eauto.
        left. exists s0. split; auto. congruence.
    + rewrite existsb_false_iff in E. simpl. repeat split.
      * constructor; auto. intros Hin. apply in_map_iff in Hin. destruct Hin as (q & Eq & Hq).
        apply H2 in Hq. destruct Hq as [_ Hq]. apply (Hq r); simpl; auto.
      * destruct H as [<-|H]; auto. right. now apply H2.
      * destruct H as [<-|H].
        -- intros s Hs Heq. specialize (E s Hs). change (same_key ks s r = false) in E.
           apply same_key_cols in Heq. congruence.
        -- intros s Hs. apply H2 in H. apply H. simpl; auto.
      * intros q [<-|Hq]; [right; exists r; auto|].
        destruct (H3 q Hq) as [(s & [<-|Hs] & Es)|(s & Hs & Es)].
        -- right. exists r. auto.
        -- left. eauto.
        -- right. exists s. auto.
Qed.

(* ---- Sort and ORDER BY ---- *)

Lemma sort_less_swo c : strict_weak_order (sort_less c).
Proof. constructor; unfold sort_less; intros; lia. Qed.

Lemma order_by_less_irrefl key x : order_by_less key x x = false.
Proof.
  induction key as [|[c d] key IH]; simpl; [lia|]. rewrite N.ltb_irrefl. auto.
Qed.

Lemma order_by_less_swo key : strict_weak_order (order_by_less key).
Proof.
  constructor.
  - apply order_by_less_irrefl.
  - intros x y z. induction key as [|[c d] key IH]; simpl; [lia|].
    destruct (N.ltb_spec (col c x) (col c y)), (N.ltb_spec (col c y) (col c x)),
      (N.ltb_spec (col c y) (col c z)), (N.ltb_spec (col c z) (col c y)),
      (N.ltb_spec (col c x) (col c z)), (N.ltb_spec (col c z) (col c x));
      try lia; auto; destruct d; simpl; congruence.
  - intros x y z. induction key as [|[c d] key IH]; simpl; [lia|].
    destruct (N.ltb_spec (col c x) (col c y)), (N.ltb_spec (col c y) (col c x)),
      (N.ltb_spec (col c y) (col c z)), (N.ltb_spec (col c z) (col c y)),
      (N.ltb_spec (col c x) (col c z)), (N.ltb_spec (col c z) (col c x));
      try lia; auto; destruct d; simpl; congruence.
Qed.

Lemma order_by_less_le key r s : order_by_less key s r = false -> order_le key r s.
Proof.
  induction key as [|[c d] key IH]; simpl; auto.
  destruct (N.ltb_spec (col c s) (col c r)), (N.ltb_spec (col c r) (col c s)); try lia.
  - destruct d; simpl; [auto|discriminate].
  - destruct d; simpl; [discriminate|auto].
  - intros H1. right. split; [lia|auto].
Qed.

Lemma StronglySorted_nth {A} (R : A -> A -> Prop) l : StronglySorted R l ->
  forall i j x y, (i < j)%nat -> nth_error l i = Some x -> nth_error l j = Some y -> R x y.
Proof.
  induction 1 as [|a l Hs IH Hf]; intros i j x y Hij Hx Hy; [destruct i; discriminate|].
  destruct j; [lia|]. destruct i; simpl in *.
  - injection Hx as <-. rewrite Forall_forall in Hf. apply Hf. eapply nth_error_In; eauto.
  - apply (IH i j); auto. lia.
Qed.

Lemma order_by_ordered key inp out : sort_result (order_by_less key) inp out -> ordered key out.
Proof.
  intros [_ Hs] i j r s Hij Hr Hx. apply order_by_less_le.
  exact (StronglySorted_nth _ _ Hs i j r s Hij Hr Hx).
Qed.

Lemma sort_sorted c inp out : sort_result (sort_less c) inp out -> sorted_on c out.
Proof.
  intros [_ Hs]. apply StronglySorted_Sorted. induction Hs as [|r t Hs IH Hf]; constructor; auto.
  eapply Forall_impl; [|exact Hf]. unfold sort_less. intros s. simpl. lia.
Qed.

(* the claimed sort order: leading ascending columns *)
Lemma order_le_lex cs key r s :
  order_le (map (fun c => (c, false)) cs ++ key) r s -> lex_le (cols cs r) (cols cs s).
Proof.
  induction cs as [|c cs IH]; simpl; intros H.
  - unfold lex_le. discriminate.
  - unfold lex_le in *. simpl. destruct H as [H|[H1 H2]].
    + rewrite (proj2 (N.compare_lt_iff _ _) H). discriminate.
    + rewrite H1, N.compare_refl. auto.
Qed.

Lemma order_by_sorted_lex cs key inp out :
  sort_result (order_by_less (map (fun c => (c, false)) cs ++ key)) inp out -> sorted_lex cs out.
Proof.
  intros [_ Hs]. apply StronglySorted_Sorted. induction Hs as [|r t Hs IH Hf]; constructor; auto.
  eapply Forall_impl; [|exact Hf]. intros s H. simpl in H. apply order_by_less_le in H.
  eapply order_le_lex; eauto.
Qed.

Lemma sort_sorted_lex c inp out : sort_result (sort_less c) inp out -> sorted_lex [c] out.
Proof.
  intros [_ Hs]. apply StronglySorted_Sorted. induction Hs as [|r t Hs IH Hf]; constructor; auto.
  eapply Forall_impl; [|exact Hf]. unfold sort_less, lex_le. intros s H. simpl.
  destruct (N.compare_spec (col c r) (col c s)); try discriminate. lia.
Qed.

(* ---- DISTINCT as planned ---- *)

Lemma sorted_lex_prefix ks cs t : sorted_lex (ks ++ cs) t -> sorted_lex ks t.
Proof.
  intros H. unfold sorted_lex in *. induction H as [|r t H IH Hh]; constructor; auto.
  destruct Hh as [|s t Hrs]; constructor. revert Hrs. unfold lex_le, cols. rewrite !map_app.
  clear. induction ks as [|k ks IH]; simpl; [discriminate|].
  destruct (col k r ?= col k s); auto.
Qed.

Lemma distinct_plan_sorted srt keep sub out :
  sorted_lex srt sub -> presorted (distinct_plan srt keep) sub out ->
  sorted_lex keep out /\ Permutation sub out.
Proof.
  intros Hs. unfold distinct_plan.
  destruct (Nat.leb (length keep) (length srt) && _) eqn:E; simpl.
  - intros ->. split; auto. apply andb_true_iff in E. destruct E as [E1 E2]. apply Nat.leb_le in E1.
    assert (G : srt = keep ++ skipn (length keep) srt).
    { clear Hs. revert keep E1 E2. induction srt as [|c srt IH]; intros [|k keep] E1 E2; simpl in *; auto; try lia.
      apply andb_true_iff in E2. destruct E2 as [E2 E3]. apply Nat.eqb_eq in E2. subst.
      f_equal. apply IH; auto. lia. }
    rewrite G in Hs. eapply sorted_lex_prefix; eauto.
  - assert (G : presorted (OrderedBy (map (fun i => (i, false)) keep)) sub out ->
                sorted_lex keep out /\ Permutation sub out).
    { simpl. intros H. split; [|apply H]. eapply (order_by_sorted_lex keep []). rewrite app_nil_r. exact H. }
    destruct keep as [|c [|c2 keep]]; auto. simpl. intros H. split; [|apply H].
    eapply sort_sorted_lex; eauto.
Qed.

Lemma planned_distinct w srt keep sub mid :
  sorted_lex srt sub -> (length keep <= w)%nat ->
  presorted (distinct_plan srt keep) sub mid ->
  exists out, distinct_rows w keep mid = Some out /\
    NoDup (map (cols keep) out) /\ (forall r, In r out -> In r sub) /\
    (forall r, In r sub -> exists s, In s out /\ cols keep s = cols keep r).
Proof.
  intros Hs Hw Hp. destruct (distinct_plan_sorted _ _ _ _ Hs Hp) as [Hk Hperm].
  exists (first_of_each keep [] mid). split; [now apply distinct_spec|].
  destruct (first_of_each_spec keep mid []) as (H1 & H2 & H3). split; auto. split.
  - intros r Hr. apply H2 in Hr. eapply Permutation_in; [apply Permutation_sym, Hperm|tauto].
  - intros r Hr. destruct (H3 r) as [(s & [] & _)|H]; auto. eapply Permutation_in; eauto.
Qed.

(* insertion sort: some sort result exists *)
Fixpoint insert_by {A} (lt : A -> A -> bool) (x : A) (l : list A) : list A :=
  match l with [] => [x] | y :: l' => if lt y x then y :: insert_by lt x l' else x :: l end.
Fixpoint sort_by {A} (lt : A -> A -> bool) (l : list A) : list A :=
  match l with [] => [] | x :: l' => insert_by lt x (sort_by lt l') end.

Lemma insert_by_perm {A} (lt : A -> A -> bool) x l : Permutation (x :: l) (insert_by lt x l).
Proof.
  induction l as [|y l IH]; simpl; auto. destruct (lt y x); auto.
  eapply perm_trans; [apply perm_swap|]. now constructor.
Qed.

Lemma sort_by_result {A} (lt : A -> A -> bool) (H : strict_weak_order lt) l :
  sort_result lt l (sort_by lt l).
Proof.
  assert (Hins : forall x l, StronglySorted (fun x y => lt y x = false) l ->
    StronglySorted (fun x y => lt y x = false) (insert_by lt x l)).
  { intros x. induction 1 as [|y t Hs IH Hf]; simpl; [repeat constructor|].
    destruct (lt y x) eqn:E.
    - constructor; auto. apply Forall_forall. intros z Hz.
      apply (Permutation_in z (Permutation_sym (insert_by_perm lt x t))) in Hz.
      destruct Hz as [<-|Hz].
      + destruct (lt x y) eqn:E2; auto. pose proof (swo_trans lt H _ _ _ E E2).
        rewrite (swo_irrefl lt H) in H0. discriminate.
      + rewrite Forall_forall in Hf. auto.
    - constructor; [constructor; auto|]. constructor; auto.
      rewrite Forall_forall in *. intros z Hz. specialize (Hf z Hz).
      eapply (swo_incomp lt H); eauto. }
  split.
  - induction l as [|x l IH]; simpl; auto.
    eapply perm_trans; [|apply insert_by_perm]. now constructor.
  - induction l as [|x l IH]; simpl; [constructor|auto].
Qed.
