From Coq Require Import List NArith Arith Bool Lia Sorted ZifyN ZifyNat ZifyBool.
From Verif Require Import Table_Spec Lex_Proof Std_Model Std_Proof Strings_Model Strings_Spec Strings_Proof Strings_Proof3 Strings_Thm
  Collate_Model Collate_Spec.
Import ListNotations.
Open Scope N_scope.

(* ---- the parts ---- *)
Lemma literal_like_1 c : literal_like [c] <-> c = 34 \/ c = 127.
Proof.
  split.
  - intros (r & [H|H]); injection H as -> _; auto.
  - intros [-> | ->]; exists []; auto.
Qed.
Lemma literal_like_cons c r : literal_like (c :: r) <-> c = 34 \/ c = 127.
Proof.
  split.
  - intros (r' & [H|H]); injection H as -> _; auto.
  - intros [-> | ->]; exists r; auto.
Qed.
Lemma split_parts a : parts a (first_char (extractComparable a)) (inner (extractComparable a)) (langtag (extractComparable a)).
Proof.
  unfold extractComparable. destruct a as [|c r]; [apply parts_empty|]. cbn [startsWith skipn].
  rewrite !(andb_comm _ (startsWith r [])). replace (startsWith r []) with true by now destruct r.
  cbn [andb]. destruct ((c =? 34) || (c =? 127)) eqn:L.
  - assert (LL : literal_like [c]) by (apply literal_like_1; lia).
    destruct (C51_literal_end r [34]) as (e & -> & E). destruct e as [p|]; cbn [first_char inner langtag].
    + destruct E as [U F]. assert (U0 := U). apply unescaped_iff in U as [(x & y & R & <-) _].
      cbn [app] in R. subst r. rewrite (firstn_len x). replace (skipn (length x + 1) (x ++ 34 :: y)) with y.
      * apply parts_literal; auto.
      * change (34 :: y) with ([34] ++ y). rewrite app_assoc.
        replace (length x + 1)%nat with (length (x ++ [34])) by (rewrite app_length; reflexivity).
        symmetry. apply skipn_len.
    + now apply parts_open.
  - cbn [first_char inner langtag]. apply parts_other. rewrite literal_like_cons. lia.
Qed.
Lemma parts_split a c v t : parts a c v t -> extractComparable a = Split c v t.
Proof.
  intros H. assert (U : forall x v1 t1 v2 t2,
    unescaped_at [34] (v1 ++ [34] ++ t1) (length v1) ->
    (forall q, (q < length v1)%nat -> ~ unescaped_at [34] (v1 ++ [34] ++ t1) q) ->
    x = v1 ++ [34] ++ t1 -> x = v2 ++ [34] ++ t2 ->
    unescaped_at [34] (v2 ++ [34] ++ t2) (length v2) ->
    (forall q, (q < length v2)%nat -> ~ unescaped_at [34] (v2 ++ [34] ++ t2) q) -> v1 = v2 /\ t1 = t2).
  { intros x v1 t1 v2 t2 U1 F1 -> E U2 F2. rewrite <- E in U2, F2.
    assert (L : length v1 = length v2).
    { destruct (lt_eq_lt_dec (length v1) (length v2)) as [[L|L]|L]; auto.
      - now apply F2 in L. - now apply F1 in L. }
    assert (V : v1 = v2).
    { apply (f_equal (firstn (length v1))) in E. rewrite firstn_len, L, firstn_len in E. auto. }
    subst v2. split; auto. apply app_inv_head in E. now injection E. }
  pose proof (split_parts a) as P. destruct (extractComparable a) as [c' v' t'] eqn:E. cbn in P.
  destruct H as [|c r H|c v t H H1 H2|c r H H1]; inversion P; subst; auto.
  - exfalso. apply H. apply literal_like_cons. now apply literal_like_1.
  - exfalso. apply H. apply literal_like_cons. now apply literal_like_1.
  - exfalso. match goal with X : ~ literal_like _ |- _ => apply X end. apply literal_like_cons. now apply literal_like_1.
  - match goal with X : _ = v ++ _ |- _ => destruct (U _ _ _ _ _ H1 H2 eq_refl (eq_sym X)) as [-> ->]; auto end.
  - exfalso. match goal with X : forall q, ~ _ |- _ => apply (X (length v)); assumption end.
  - exfalso. match goal with X : ~ literal_like _ |- _ => apply X end. apply literal_like_cons. now apply literal_like_1.
  - exfalso. match goal with X : unescaped_at _ _ _ |- _ => now apply H1 in X end.
Qed.
Lemma split_inj a b : closed a -> closed b -> extractComparable a = extractComparable b -> a = b.
Proof.
  intros CA CB E. pose proof (split_parts a) as PA. pose proof (split_parts b) as PB. rewrite <- E in PB.
  destruct (extractComparable a) as [c v t]. cbn in PA, PB.
  inversion PA; inversion PB; subst; auto; try discriminate; try congruence.
  all: try (exfalso; match goal with X : ~ literal_like _ |- _ => apply X; apply literal_like_cons; now apply literal_like_1 end).
  all: try match goal with X : closed (?c :: ?r), Y : literal_like [?c], Z : forall q, ~ unescaped_at _ ?r q |- _ =>
    destruct (X c r eq_refl Y) as [q Q]; now apply Z in Q end.
  all: exfalso; match goal with Y : literal_like [0] |- _ => apply literal_like_1 in Y; lia end.
Qed.

(* ---- comparisons ---- *)
Lemma or_else_eq c d : or_else c d = Eq <-> c = Eq /\ d = Eq.
Proof. destruct c; cbn; intuition discriminate. Qed.
Lemma or_else_opp c d : CompOpp (or_else c d) = or_else (CompOpp c) (CompOpp d).
Proof. now destruct c. Qed.
Lemma or_else_lt c d : or_else c d = Lt <-> c = Lt \/ c = Eq /\ d = Lt.
Proof. destruct c; cbn; intuition discriminate. Qed.

Definition pre {A} (cmp : A -> A -> comparison) : Prop :=
  (forall a, cmp a a = Eq) /\ (forall a b, cmp b a = CompOpp (cmp a b)) /\
  (forall a b c, cmp a b <> Gt -> cmp b c <> Gt -> cmp a c <> Gt).
Lemma pre_eq_l {A} (cmp : A -> A -> comparison) a b c : pre cmp -> cmp a b = Eq -> cmp a c = cmp b c.
Proof.
  intros (R & S & T) E. assert (E' : cmp b a = Eq) by now rewrite S, E.
  destruct (cmp a c) eqn:X, (cmp b c) eqn:Y; auto; exfalso;
  try (apply (T b a c); congruence); try (apply (T a b c); congruence).
  - assert (cmp c a = Eq) by now rewrite S, X. assert (cmp c b = Gt) by now rewrite S, Y. apply (T c a b); congruence.
  - assert (cmp c a = Gt) by now rewrite S, X. assert (cmp c b = Eq) by now rewrite S, Y. apply (T c b a); congruence.
Qed.
Lemma pre_eq_r {A} (cmp : A -> A -> comparison) a b c : pre cmp -> cmp b c = Eq -> cmp a b = cmp a c.
Proof.
  intros P E. assert (H := pre_eq_l cmp b c a P E). destruct P as (R & S & T).
  rewrite (S b a), (S c a). now rewrite H.
Qed.
Lemma pre_lt_trans {A} (cmp : A -> A -> comparison) a b c : pre cmp -> cmp a b = Lt -> cmp b c <> Gt -> cmp a c = Lt.
Proof.
  intros P L H. destruct (cmp a c) eqn:X; auto; exfalso.
  - assert (Y := pre_eq_l cmp a c b P X). destruct P as (R & S & T). rewrite (S b c) in Y.
    rewrite L in Y. destruct (cmp b c); cbn in Y; congruence.
  - destruct P as (R & S & T). apply (T a b c); congruence.
Qed.
Lemma pre_or_else {A} (f g : A -> A -> comparison) : pre f -> pre g -> pre (fun a b => or_else (f a b) (g a b)).
Proof.
  intros PF PG. pose proof PF as (R & S & T). pose proof PG as (R' & S' & T'). split; [|split].
  - intros a. now rewrite R, R'.
  - intros a b. now rewrite S, S', or_else_opp.
  - intros a b c H1 H2. destruct (f a b) eqn:E1.
    + rewrite (pre_eq_l f a b c PF E1). destruct (f b c) eqn:E2; cbn in *; try congruence. now apply (T' a b c).
    + destruct (f b c) eqn:E2; cbn in *; try congruence.
      * rewrite <- (pre_eq_r f a b c PF E2), E1. discriminate.
      * rewrite (pre_lt_trans f a b c PF E1); [discriminate|congruence].
    + cbn in H1. congruence.
Qed.
Lemma pre_image {A B} (f : A -> B) cmp : pre cmp -> pre (fun a b => cmp (f a) (f b)).
Proof. intros (R & S & T). split; [|split]; auto. intros a b c. apply T. Qed.
Lemma pre_lex : pre lex_cmp.
Proof.
  split; [apply lex_cmp_refl|]. split; [intros; apply lex_cmp_antisym|].
  intros a b c. exact (lex_le_trans a b c).
Qed.
Lemma pre_n : pre N.compare.
Proof.
  split; [apply N.compare_refl|]. split; [intros; now rewrite N.compare_antisym|].
  intros a b c H1 H2. change (a <= c). change (a <= b) in H1. change (b <= c) in H2. lia.
Qed.
Lemma pre_const {A} : pre (fun _ _ : A => Eq).
Proof. split; [|split]; auto. Qed.
Lemma pre_spec cmp : pre cmp -> preorder_compare cmp.
Proof. intros (R & S & T). now constructor. Qed.

Lemma pre_compare_split ic l : pre ic -> pre (fun a b => compare_split ic a b l).
Proof.
  intros P. unfold compare_split. apply pre_or_else; [apply (pre_image first_char); apply pre_n|].
  apply pre_or_else; [now apply (pre_image inner)|]. destruct (is_total l); [|apply pre_const].
  apply pre_or_else; [apply (pre_image langtag) | apply (pre_image inner)]; apply pre_lex.
Qed.
Lemma pre_icu loc s : icu_ok loc -> pre (icu_compare loc s).
Proof.
  intros K. pose proof (pre_image (icu_key loc s) _ pre_lex) as (R & S & T).
  split; [|split]; intros *; rewrite ?(ok_keys loc K); auto. apply T.
Qed.
Lemma pre_compare loc l : icu_ok loc -> pre (fun a b => compare loc a b l).
Proof.
  intros K. unfold compare.
  apply (pre_image extractComparable (fun a b => compare_split (fun x y => locale_compare loc x y l) a b l)).
  apply pre_compare_split. now apply pre_icu.
Qed.

Lemma compare_total_eq loc a b : icu_ok loc ->
  compare loc a b TOTAL = Eq <-> extractComparable a = extractComparable b.
Proof.
  intros K. unfold compare, compare_split. cbn [is_total]. rewrite !or_else_eq, N.compare_eq_iff, !lex_cmp_eq.
  destruct (extractComparable a) as [c v t], (extractComparable b) as [c' v' t']. cbn [first_char inner langtag]. split.
  - intros (-> & _ & -> & ->). auto.
  - intros E. injection E as -> -> ->. repeat split; auto. apply (proj1 (pre_icu loc Identical K)).
Qed.
Lemma compare_precedes loc a b : compare loc a b TOTAL = Lt <-> precedes loc a b.
Proof.
  unfold compare, compare_split. cbn [is_total]. split.
  - intros H. pose proof (split_parts a) as PA. pose proof (split_parts b) as PB.
    destruct (extractComparable a) as [c v t], (extractComparable b) as [c' v' t']. cbn [first_char inner langtag] in *.
    exists c, v, t, c', v', t'. split; [exact PA|]. split; [exact PB|].
    apply or_else_lt in H as [H|[H H']]; [left; exact H|right]. apply N.compare_eq_iff in H. split; [exact H|].
    apply or_else_lt in H' as [H'|[H' H2]]; [left; exact H'|right]. split; [exact H'|].
    apply or_else_lt in H2 as [H2|[H2 H3]]; [left; exact H2|right]. now apply lex_cmp_eq in H2.
  - intros (c & v & t & c' & v' & t' & PA & PB & H). apply parts_split in PA, PB. rewrite PA, PB.
    cbn [first_char inner langtag].
    destruct H as [H|[-> H]]; [apply or_else_lt; left; exact H|]. rewrite N.compare_refl. cbn [or_else].
    unfold locale_compare. cbn [collator].
    destruct H as [H|[E H]]; [apply or_else_lt; left; exact H|]. rewrite E. cbn [or_else].
    destruct H as [H|[-> H]]; [apply or_else_lt; left; exact H|]. now rewrite lex_cmp_refl.
Qed.
Lemma rank_le_total l : (rank (collator l) <= rank Identical)%nat.
Proof. destruct l; cbn; lia. Qed.
Lemma compare_finer loc l m a b : icu_ok loc -> (rank (collator l) <= rank (collator m))%nat ->
  is_total l = false -> compare loc a b l = Lt -> compare loc a b m = Lt.
Proof.
  intros K R T. unfold compare, compare_split. rewrite T. intros H.
  apply or_else_lt in H as [H|[H H']]; [apply or_else_lt; auto|]. rewrite H. cbn [or_else].
  apply or_else_lt in H' as [H'|[H' X]]; [|discriminate].
  apply or_else_lt. left. unfold locale_compare in *. eapply (ok_finer loc K); eauto.
Qed.
Lemma compare_coarser loc l a b : icu_ok loc -> compare loc a b TOTAL = Lt -> compare loc a b l <> Gt.
Proof.
  intros K H G. destruct (is_total l) eqn:T; [destruct l; try discriminate; congruence|].
  assert (X : compare loc b a l = Lt).
  { destruct (pre_compare loc l K) as (_ & S & _). now rewrite S, G. }
  apply (compare_finer loc l TOTAL) in X; auto; [|apply rank_le_total].
  destruct (pre_compare loc TOTAL K) as (_ & S & _). rewrite S, H in X. discriminate.
Qed.

(* ---- sort keys ---- *)
Lemma c_str_id s : ~ In 0 s -> c_str s = s.
Proof.
  induction s as [|c s IH]; intros H; auto. unfold c_str. cbn [take_while].
  destruct (c =? 0) eqn:E; [exfalso; apply H; left; lia|]. cbn [negb]. f_equal. apply IH. intros I. apply H. now right.
Qed.
Lemma key_nonzero loc s l : icu_ok loc -> is_total l = false -> ~ In 0 (getSortKey loc s l).
Proof. intros K T. unfold getSortKey. rewrite T, app_nil_r. apply (ok_nonzero loc K). Qed.
Lemma strcmp_keys loc a b l : icu_ok loc -> is_total l = false ->
  strcmp (getSortKey loc a l) (getSortKey loc b l) = locale_compare loc a b l.
Proof.
  intros K T. unfold strcmp. rewrite !c_str_id by now apply key_nonzero.
  unfold locale_compare. rewrite (ok_keys loc K). unfold getSortKey. now rewrite T, !app_nil_r.
Qed.

(* ---- searches ---- *)
Lemma strongly_nth {A} (R : A -> A -> Prop) d l : StronglySorted R l ->
  forall i j, (i < j < length l)%nat -> R (nth i l d) (nth j l d).
Proof.
  induction 1 as [|x l S IH F]; intros i j H; [cbn in H; lia|]. destruct j as [|j]; [lia|].
  destruct i as [|i]; cbn [nth].
  - rewrite Forall_forall in F. apply F, nth_In. cbn in H. lia.
  - apply IH. cbn in H. lia.
Qed.
(* a downward closed predicate *)
Lemma lower_bound_words words below :
  (forall i j, (i < j < length words)%nat -> below (word_at words j) = true -> below (word_at words i) = true) ->
  exists r, vocab_lower_bound words below = Some r /\ (r <= length words)%nat /\
  forall i, (i < length words)%nat -> ((i < r)%nat <-> below (word_at words i) = true).
Proof.
  intros M. unfold vocab_lower_bound.
  destruct (lower_bound_spec (fun i => below (word_at words i)) 0 (length words)) as (r & -> & R & A & B); [lia| |].
  - intros k k' _ L H. destruct (Nat.eq_dec k k') as [->|]; auto. apply M. lia.
  - exists r. split; auto. split; [lia|]. intros i I. split.
    + intros H. apply A. lia.
    + intros H. destruct (lt_dec i r); auto. rewrite B in H; [discriminate|lia].
Qed.
Lemma pre_below {A} (cmp : A -> A -> comparison) a b x : pre cmp -> cmp a b <> Gt -> cmp b x = Lt -> cmp a x = Lt.
Proof.
  intros P H L. destruct (cmp a b) eqn:E; [|apply (pre_lt_trans cmp a b x); auto; congruence|congruence].
  now rewrite (pre_eq_l cmp a b x P E).
Qed.
Lemma less_iff c : less c = true <-> c = Lt.
Proof. destruct c; cbn; intuition discriminate. Qed.
