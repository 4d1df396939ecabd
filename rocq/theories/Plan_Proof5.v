(* The scans for one triple give its solutions. *)
From Coq Require Import String List NArith Arith Bool Lia Permutation Sorted.
From Verif Require Import Table_Spec Ops_Spec Ops_Model Vars_Model Vars_Thm Plan_Model Plan_Spec Plan_Proof1 Plan_Proof2 Plan_Proof3 Plan_Proof4 Lex_Proof.
Import ListNotations.
Local Open Scope nat_scope.

(* a triple in the column order of a permutation *)
Definition perm_row (ord : order) (x : N * N * N) : row :=
  match x with
  | (s, p, o) =>
      match ord with
      | SPO => [s; p; o] | SOP => [s; o; p] | PSO => [p; s; o]
      | POS => [p; o; s] | OSP => [o; s; p] | OPS => [o; p; s]
      end
  end.
Definition term_ok (voc : string -> option N) (t : string) (i : N) : bool :=
  is_var t || match voc t with Some j => N.eqb j i | None => false end.
Definition same_ok (a b : string) (i j : N) : bool := negb (is_var a && String.eqb a b) || N.eqb i j.
(* the triple x matches the pattern t, the value it gives to a variable, and the mapping *)
Definition tmatch (voc : string -> option N) (t : triple) (x : N * N * N) : bool :=
  match x with
  | (i, j, k) =>
      term_ok voc (t_s t) i && term_ok voc (t_p t) j && term_ok voc (t_o t) k &&
      same_ok (t_s t) (t_p t) i j && same_ok (t_s t) (t_o t) i k && same_ok (t_p t) (t_o t) j k
  end.
Definition tget (t : triple) (x : N * N * N) (v : string) : option N :=
  match x with
  | (i, j, k) => if String.eqb (t_s t) v then Some i else if String.eqb (t_p t) v then Some j
                 else if String.eqb (t_o t) v then Some k else None
  end.
Definition tbag (voc : string -> option N) (kb : graph) (U : list string) (t : triple) : list mapping :=
  map (fun x => map (tget t x) U) (filter (tmatch voc t) kb).

Lemma values_find_gen vs : forall m k v, NoDup vs ->
  var_find (values_vars m k vs) v =
  match find (fun i => match nth_error vs i with Some x => String.eqb x v | None => false end) (seq 0 (length vs)) with
  | Some i => Some (k + i)
  | None => var_find m v
  end.
Proof.
  intros m k v N. destruct (find _ (seq 0 (length vs))) as [i|] eqn:E.
  - apply find_some in E. destruct E as [Hi E]. destruct (nth_error vs i) as [x|] eqn:En; [|discriminate].
    apply String.eqb_eq in E. subst x. revert m k i Hi En. induction N as [|x vs Hx N IH]; intros m k i Hi En; [destruct i; discriminate|].
    cbn [values_vars]. destruct i as [|i]; cbn [nth_error] in En.
    + injection En as ->. rewrite values_other by auto. rewrite find_set, String.eqb_refl. f_equal. lia.
    + rewrite (IH _ (k + 1) i); auto; [f_equal; lia|]. apply in_seq. apply in_seq in Hi. cbn [length] in Hi. lia.
  - apply values_other. intros Hi. apply In_nth_error in Hi. destruct Hi as (i & Hi).
    assert (i < length vs) by (apply nth_error_Some; congruence).
    assert (X : In i (seq 0 (length vs))) by (apply in_seq; lia). apply (find_none _ _ E i) in X.
    rewrite Hi, String.eqb_refl in X. discriminate.
Qed.
Lemma values_fst vs : forall m k, NoDup (map fst m) -> NoDup (map fst (values_vars m k vs)).
Proof. induction vs as [|v vs IH]; intros m k H; cbn; auto. apply IH. now apply set_nodup. Qed.
Lemma values_full vs : NoDup vs -> full (values_vars [] 0 vs) (length vs).
Proof.
  intros H. split; [apply values_fst; constructor|].
  assert (X : forall v c, var_find (values_vars [] 0 vs) v = Some c <-> nth_error vs c = Some v).
  { intros v c. split; [|now apply C46_values]. rewrite values_find_gen by auto.
    destruct (find _ _) as [i|] eqn:E; [|discriminate]. intros Q. injection Q as <-. apply find_some in E. destruct E as [_ E].
    destruct (nth_error vs i); [|discriminate]. apply String.eqb_eq in E. now subst. }
  split; [|split].
  - intros v c E. apply X in E. apply nth_error_Some. congruence.
  - intros v v' c E E'. apply X in E. apply X in E'. congruence.
  - intros c Hc. destruct (nth_error vs c) as [v|] eqn:E; [exists v; now apply X|]. apply nth_error_None in E. lia.
Qed.
Lemma values_dom vs v : NoDup vs -> (var_find (values_vars [] 0 vs) v <> None <-> In v vs).
Proof.
  intros H. split.
  - intros E. destruct (in_dec string_dec v vs) as [|Nv]; auto. rewrite values_other in E by auto. now elim E.
  - intros Hv. apply In_nth_error in Hv. destruct Hv as (i & Hi). rewrite (C46_values vs v i H Hi). discriminate.
Qed.

(* ---------- rows of a scan ---------- *)
Lemma row_eqb_eq a : forall b, row_eqb a b = true <-> a = b.
Proof.
  induction a as [|x a IH]; intros [|y b]; cbn; split; try discriminate; auto.
  - rewrite andb_true_iff, N.eqb_eq, IH. intros [-> ->]. auto.
  - intros E. injection E as -> ->. rewrite N.eqb_refl. cbn. now apply IH.
Qed.
Lemma cols_seq_gen (r : row) : forall pre, map (fun c => nth c (pre ++ r) 0%N) (seq (length pre) (length r)) = r.
Proof.
  induction r as [|x r IH]; intros pre; cbn [length seq map]; auto. f_equal.
  - rewrite app_nth2 by auto. now rewrite Nat.sub_diag.
  - specialize (IH (pre ++ [x])). rewrite app_length in IH. cbn [length] in IH. rewrite Nat.add_1_r in IH.
    rewrite <- app_assoc in IH. exact IH.
Qed.
Lemma cols_seq (r : row) k : length r = k -> cols (seq 0 k) r = r.
Proof. intros <-. exact (cols_seq_gen r []). Qed.
Lemma lex_cmp_app p x y : lex_cmp (p ++ x) (p ++ y) = lex_cmp x y.
Proof. induction p as [|a p IH]; cbn; auto. now rewrite N.compare_refl. Qed.
Lemma lookup_length voc l ids : lookup_all voc l = Some ids -> length ids = length l.
Proof.
  revert ids. induction l as [|t l IH]; cbn; intros ids H; [injection H as <-; auto|].
  destruct (voc t), (lookup_all voc l); try discriminate. injection H as <-. cbn. f_equal. auto.
Qed.
Lemma skipn_firstn_eq (r : row) k ids : firstn k r = ids -> r = ids ++ skipn k r.
Proof. intros <-. symmetry. apply firstn_skipn. Qed.
Lemma scan_sorted_aux (ids : list N) k (t : table) : length ids + k = 3 -> width 3 t -> sorted_lex [0; 1; 2] t ->
  Forall (fun r => firstn (length ids) r = ids) t ->
  width k (map (skipn (length ids)) t) /\ sorted_lex (seq 0 k) (map (skipn (length ids)) t).
Proof.
  intros L W' S' P. induction t as [|r t IH]; cbn [map]; [split; constructor|].
  inversion W' as [|? ? W1 W2]; subst. inversion S' as [|? ? S1 S2]; subst. inversion P as [|? ? P1 P2]; subst.
  destruct (IH W2 S1 P2) as [H1 H2]. split; constructor; auto.
  - rewrite skipn_length. lia.
  - inversion S2 as [|r' t' Hr]; subst; cbn [map]; constructor. inversion W2 as [|? ? W3 _]; subst. inversion P2 as [|? ? P3 _]; subst.
    unfold lex_le in *. rewrite !cols_seq by (rewrite skipn_length; lia). change [0; 1; 2] with (seq 0 3) in Hr.
    rewrite !cols_seq in Hr by auto. rewrite (skipn_firstn_eq r _ _ P1), (skipn_firstn_eq r' _ _ P3), lex_cmp_app in Hr. exact Hr.
Qed.
Lemma scan_sorted voc ix ord bound k : width 3 (ix ord) -> sorted_lex [0; 1; 2] (ix ord) -> length bound + k = 3 ->
  width k (scan_table voc ix ord bound) /\ sorted_lex (seq 0 k) (scan_table voc ix ord bound).
Proof.
  intros W S L. unfold scan_table. destruct (lookup_all voc bound) as [ids|] eqn:E; [|split; constructor].
  pose proof (lookup_length _ _ _ E) as Li. apply scan_sorted_aux.
  - lia.
  - now apply width_filter.
  - now apply sorted_filter.
  - apply Forall_forall. intros r Hr. apply filter_In in Hr. now apply row_eqb_eq.
Qed.

Lemma filter_id {A} (f : A -> bool) l : (forall x, In x l -> f x = true) -> filter f l = l.
Proof.
  induction l as [|a l IH]; intros H; cbn; auto. rewrite (H a) by now left. f_equal. apply IH. intros x Hx. apply H. now right.
Qed.
Lemma triple_vars_in t v : In v (triple_vars t) <-> is_var v = true /\ (v = t_s t \/ v = t_p t \/ v = t_o t).
Proof.
  unfold triple_vars. rewrite nodup_In, filter_In. cbn [In]. intuition.
Qed.
(* the variables of a triple whose predicate does not occur as subject or object, if it is a variable *)
Definition predicate_ok (t : triple) : Prop := is_var (t_p t) = true -> t_p t <> t_s t /\ t_p t <> t_o t.
Lemma triple_vars_length t : predicate_ok t ->
  length (triple_vars t) =
  (if is_var (t_s t) then 1 else 0) + (if is_var (t_p t) then 1 else 0) +
  (if is_var (t_o t) then if is_var (t_s t) && String.eqb (t_s t) (t_o t) then 0 else 1 else 0).
Proof.
  destruct t as [s p o]. unfold predicate_ok, triple_vars. cbn [t_s t_p t_o filter]. intros Ok.
  destruct (is_var s) eqn:Es, (is_var p) eqn:Ep, (is_var o) eqn:Eo; try (specialize (Ok eq_refl); destruct Ok as [Ok1 Ok2]);
    cbn [andb]; try destruct (String.eqb_spec s o) as [->|Ne];
    repeat (cbn [nodup]; match goal with |- context [in_dec string_dec ?x ?l] => destruct (in_dec string_dec x l) end);
    cbn [In] in *; cbn; auto; exfalso; intuition congruence.
Qed.

Lemma computes_eq o voc ix sat leaf t x y tab : computes o voc ix sat leaf (EqFilter t x y) tab ->
  exists a, computes o voc ix sat leaf t a /\
    tab = filter (fun r => same_value (value_of (vars o t) r x) (value_of (vars o t) r y)) a.
Proof. intros H. inversion H; subst. eauto. Qed.

Section Seeds.
Variable o : oracle.
Variable voc : string -> option N.
Variable ix : index.
Variable sat : filt -> list (option N) -> bool.
Variable leaf : nat -> table -> Prop.
Variable U : list string.
Variable n : nat.
Variable nvars npriv : nat -> list string.
Variable nbag : nat -> list mapping.
Variable fs : list filt.
Variable kb : graph.
Hypothesis Hix : forall ord, Permutation (ix ord) (map (perm_row ord) kb) /\ sorted_lex [0; 1; 2] (ix ord).
Notation INV := (Inv o voc ix sat leaf U n nvars npriv nbag fs).
Hypothesis nlens : forall i, lens (length U) (nbag i).
Variable i : nat.
Variable t : triple.
Hypothesis Hi : i < n.
Hypothesis Hvars : forall v, In v (nvars i) <-> In v (triple_vars t).
Hypothesis HUall : forall v, In v U -> is_var v = true.
Hypothesis HUv : forall v, In v (triple_vars t) -> In v U.
Hypothesis Hbag : nbag i = tbag voc kb U t.

Lemma ix_width ord : width 3 (ix ord).
Proof.
  apply (width_perm 3 (map (perm_row ord) kb)); [apply Permutation_sym, Hix|]. apply Forall_forall. intros r Hr.
  apply in_map_iff in Hr. destruct Hr as ([[a b] c] & <- & _). now destruct ord.
Qed.
Lemma bits_single j : N.testbit (bit i) (N.of_nat j) = true <-> j = i.
Proof. rewrite bit_spec, Nat.eqb_eq. intuition. Qed.
Lemma bag_one : Permutation (bagM U n nbag (bit i)) (nbag i).
Proof. apply bag_single; auto. intros j. apply bit_spec. Qed.
Lemma keep_zero mu : keep sat U fs 0 mu = true.
Proof. unfold keep. apply forallb_forall. intros j _. now rewrite N.bits_0. Qed.
Lemma inv_seed tr : full (vars o tr) (width_of tr) ->
  (forall v, In v U -> (var_find (vars o tr) v <> None <-> In v (triple_vars t))) ->
  (forall v, ~ In v U -> var_find (vars o tr) v <> None -> In v (npriv i)) ->
  (forall tab, denotes o voc ix sat leaf tr tab -> width (width_of tr) tab /\ sorted_lex (sorted_of tr) tab /\
     Permutation (map (read U (vars o tr)) tab) (nbag i)) ->
  INV tr (bit i) 0.
Proof.
  intros F D Pv S. constructor; auto.
  - intros v Hv. rewrite D by auto. rewrite <- Hvars. split; [intros H; exists i; rewrite bits_single; auto|].
    intros (j & Hj & H). apply bits_single in Hj. now subst.
  - intros v Nv Hv. exists i. rewrite bits_single. auto.
  - intros j Hj. apply bits_single in Hj. now subst.
  - intros j Hj. now rewrite N.bits_0 in Hj.
  - intros _ tab Dn. destruct (S tab Dn) as (S1 & S2 & S3). split; auto. split; auto. exists 0%N. split; [intros j; auto|].
    split; [intros j Hj; now rewrite N.bits_0 in Hj|]. unfold solves. rewrite S3, <- bag_one. apply Permutation_refl'.
    symmetry. apply filter_id. intros mu _. apply keep_zero.
Qed.
Lemma denotes_scan ord bound vs tab : denotes o voc ix sat leaf (Scan ord bound vs) tab -> tab = scan_table voc ix ord bound.
Proof.
  intros [H|(ord' & vs' & E & _ & ->)].
  - now inversion H.
  - injection E as -> -> ->. unfold scan_table. cbn. symmetry. rewrite filter_id; [apply map_id|]. intros r _. reflexivity.
Qed.
Lemma perm_length ord x : length (perm_row ord x) = 3.
Proof. destruct x as [[a b] c]. now destruct ord. Qed.
Lemma scan_read ord bound m (P : N * N * N -> bool) :
  (forall x, match lookup_all voc bound with
             | Some ids => row_eqb (firstn (length bound) (perm_row ord x)) ids = P x
             | None => P x = false
             end) ->
  Permutation (map (read U m) (scan_table voc ix ord bound))
    (map (fun x => read U m (skipn (length bound) (perm_row ord x))) (filter P kb)).
Proof.
  intros H. unfold scan_table. destruct (lookup_all voc bound) as [ids|] eqn:E.
  - rewrite (lookup_length _ _ _ E). rewrite map_map.
    rewrite (Permutation_map _ (perm_filter _ _ _ (proj1 (Hix ord)))). rewrite filter_map_comm, map_map.
    apply Permutation_refl'. f_equal. apply filter_ext. exact H.
  - rewrite filter_none_iff; [constructor|auto].
Qed.
(* a scan whose bound keys are the constants of t *)
Lemma inv_scan ord bound vs : NoDup vs -> length bound + length vs = 3 ->
  (forall v, In v vs <-> In v (triple_vars t)) ->
  (forall x, match lookup_all voc bound with
             | Some ids => row_eqb (firstn (length bound) (perm_row ord x)) ids = tmatch voc t x
             | None => tmatch voc t x = false
             end) ->
  (forall x v, In v U -> value (values_vars [] 0 vs) (skipn (length bound) (perm_row ord x)) v = tget t x v) ->
  INV (Scan ord bound vs) (bit i) 0.
Proof.
  intros Nd L V M G. apply inv_seed.
  - cbn [vars width_of]. now apply values_full.
  - intros v Hv. cbn [vars]. rewrite values_dom by auto. apply V.
  - intros v Nv Hv. cbn [vars] in Hv. rewrite values_dom in Hv by auto. elim Nv. apply HUv, V, Hv.
  - intros tab D. apply denotes_scan in D. subst tab. cbn [width_of sorted_of vars].
    destruct (scan_sorted voc ix ord bound (length vs) (ix_width ord) (proj2 (Hix ord)) L) as [W S].
    split; auto. split; auto. rewrite (scan_read ord bound _ _ M), Hbag. unfold tbag. apply Permutation_refl'.
    apply map_ext. intros x. unfold read. apply map_ext_in. intros v Hv. now apply G.
Qed.

(* the filter for `?x p ?x` *)
Lemma inv_eq_scan s p fr : t = T s p s -> is_var s = true -> is_var p = false -> In fr (npriv i) -> ~ In fr U ->
  INV (EqFilter (Scan PSO [p] [s; fr]) s fr) (bit i) 0.
Proof.
  intros Et Vs Vp Hf Nf.
  assert (Us : In s U) by (apply HUv, triple_vars_in; rewrite Et; auto).
  assert (Ne : s <> fr) by (intros ->; auto).
  assert (Nd : NoDup [s; fr]) by (repeat constructor; cbn; intuition).
  assert (Fs : forall v, var_find (values_vars [] 0 [s; fr]) v = if String.eqb s v then Some 0 else if String.eqb fr v then Some 1 else None).
  { intros v. rewrite values_find_gen by auto. cbn [length seq find nth_error].
    destruct (String.eqb s v), (String.eqb fr v); reflexivity. }
  apply inv_seed.
  - cbn [vars width_of]. exact (values_full _ Nd).
  - intros v Hv. cbn [vars]. rewrite values_dom by auto. rewrite triple_vars_in, Et. cbn [In t_s t_p t_o]. split.
    + intros [<-|[<-|[]]]; auto. contradiction.
    + intros [V [-> | [-> | ->]]]; auto. congruence.
  - intros v Nv Hv. cbn [vars] in Hv. rewrite values_dom in Hv by auto. destruct Hv as [<-|[<-|[]]]; auto. contradiction.
  - intros tab [D|(ord & vs & E & _)]; [|discriminate]. apply computes_eq in D. destruct D as (a & D & ->).
    assert (D' := denotes_scan _ _ _ _ (or_introl D)). subst a.
    destruct (scan_sorted voc ix PSO [p] 2 (ix_width PSO) (proj2 (Hix PSO)) eq_refl) as [W S].
    split; [now apply width_filter|]. split; [now apply sorted_filter|].
    cbn [vars]. unfold scan_table. rewrite Hbag. unfold tbag. rewrite Et. cbn [lookup_all].
    destruct (voc p) as [ip|] eqn:Ep.
    + cbn [length]. rewrite filter_map_comm, filter_filter, map_map.
      rewrite (Permutation_map _ (perm_filter _ _ _ (proj1 (Hix PSO)))). rewrite filter_map_comm, map_map.
      assert (Q : forall x, row_eqb (firstn 1 (perm_row PSO x)) [ip] &&
         same_value (value_of (values_vars [] 0 [s; fr]) (skipn 1 (perm_row PSO x)) s)
           (value_of (values_vars [] 0 [s; fr]) (skipn 1 (perm_row PSO x)) fr) = tmatch voc (T s p s) x).
      { intros [[a b] c]. unfold value_of, tmatch, term_ok, same_ok. rewrite !Fs, !String.eqb_refl.
        destruct (String.eqb_spec s fr); [congruence|]. cbn [t_s t_p t_o]. rewrite Vs, Vp, Ep. cbn.
        replace (String.eqb s p) with false by (symmetry; apply String.eqb_neq; congruence).
        rewrite (N.eqb_sym b ip). destruct (N.eqb ip b), (N.eqb a c); reflexivity. }
      rewrite (filter_ext _ _ Q). apply Permutation_refl'. apply map_ext_in. intros [[a b] c] Hx. unfold read. apply map_ext_in. intros v Hv.
      unfold value. rewrite Fs. unfold tget. cbn [t_s t_p t_o perm_row skipn].
      destruct (String.eqb_spec s v) as [->|]; [reflexivity|].
      destruct (String.eqb_spec fr v) as [->|]; [contradiction|]. destruct (String.eqb_spec p v) as [->|]; auto.
      exfalso. rewrite (HUall v Hv) in Vp. discriminate.
    + cbn. rewrite filter_none_iff; [constructor|]. intros [[a b] c] _. unfold tmatch, term_ok. cbn [t_s t_p t_o]. rewrite Vp, Ep.
      cbn. now rewrite andb_false_r.
Qed.
Lemma seeds_of_inv allp fr l : predicate_ok t -> In fr (npriv i) -> ~ In fr U ->
  seeds_of allp fr t = Val l -> forall tr, In tr l -> INV tr (bit i) 0.
Proof.
  intros Ok Hf Nf E tr Htr. unfold seeds_of in E. pose proof (triple_vars_length t Ok) as L. revert E.
  assert (Et : t = T (t_s t) (t_p t) (t_o t)) by (destruct t; reflexivity). unfold predicate_ok in Ok. rewrite L. clear L.
  revert Ok Et. generalize (t_s t) as s, (t_p t) as p, (t_o t) as ob. intros s p ob Ok Et.
  assert (SC : forall ord bound vs, NoDup vs -> length bound + length vs = 3 ->
    (forall v, In v vs <-> is_var v = true /\ (v = s \/ v = p \/ v = ob)) ->
    (forall x, match lookup_all voc bound with
             | Some ids => row_eqb (firstn (length bound) (perm_row ord x)) ids = tmatch voc (T s p ob) x
             | None => tmatch voc (T s p ob) x = false
             end) ->
    (forall x v, is_var v = true -> value (values_vars [] 0 vs) (skipn (length bound) (perm_row ord x)) v = tget (T s p ob) x v) ->
    INV (Scan ord bound vs) (bit i) 0).
  { intros ord bound vs H1 H2 H3 H4 H5. rewrite <- Et in H4, H5. apply inv_scan; auto.
    - intros v. rewrite triple_vars_in, Et. cbn [t_s t_p t_o]. apply H3. }
  destruct (is_var s) eqn:Vs, (is_var p) eqn:Vp, (is_var ob) eqn:Vo; try (specialize (Ok eq_refl); destruct Ok as [Op Oo]);
    cbn [andb negb Nat.add]; try destruct (String.eqb_spec s ob) as [Eso|Nso]; cbn [andb negb Nat.add]; intros E; try discriminate;
    try (destruct allp; [|discriminate]); injection E as <-; cbn [In] in Htr; repeat (destruct Htr as [<-|Htr]); try contradiction;
    try (apply inv_eq_scan; auto; rewrite Et, Eso; reflexivity);
    (apply SC;
     [repeat constructor; cbn; intuition congruence
     |reflexivity
     |intros v; cbn [In]; split; [intuition congruence|intros [Hv [-> | [-> | ->]]]; try congruence; auto]
     |intros [[a b] c]; unfold tmatch, term_ok, same_ok; cbn [t_s t_p t_o perm_row length firstn lookup_all]; rewrite ?Vs, ?Vp, ?Vo;
      repeat match goal with |- context [voc ?x] => destruct (voc x) eqn:? end; cbn [andb orb negb row_eqb];
      rewrite ?andb_false_r; auto;
      repeat match goal with |- context [String.eqb ?x ?y] => destruct (String.eqb_spec x y); [exfalso; congruence|] end;
      cbn [andb orb negb]; rewrite ?andb_true_r; auto;
      repeat match goal with |- context [N.eqb ?x ?y] => destruct (N.eqb_spec x y) end; try congruence; auto
     |intros [[a b] c] v Hv; unfold value, tget; cbn [t_s t_p t_o perm_row length skipn]; rewrite values_find_gen
        by (repeat constructor; cbn; intuition congruence);
      cbn [length seq find nth_error];
      repeat match goal with |- context [String.eqb ?x ?y] => destruct (String.eqb_spec x y) end; subst; try congruence; reflexivity]).
Qed.
End Seeds.
