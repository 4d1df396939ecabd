(* Proofs: the text cliques and the collapsed graph. *)
From Coq Require Import String Ascii List NArith Arith Bool Lia Permutation.
From Verif Require Import Plan_Spec Clique_Spec Clique_Model Clique_Proof.
From Verif Require Plan_Model.
Import ListNotations.
Local Open Scope nat_scope.

Lemma add_keys m c i : map fst (add_to_clique m c i) = if in_dec string_dec c (map fst m) then map fst m else map fst m ++ [c].
Proof.
  induction m as [|[c' l] m IH]; cbn [add_to_clique map fst]; [destruct (in_dec string_dec c []) as [[]|]; reflexivity|].
  destruct (String.eqb_spec c' c) as [->|D].
  - destruct (in_dec string_dec c (c :: map fst m)) as [|N]; [reflexivity|]. destruct N. now left.
  - cbn [map fst]. rewrite IH. destruct (in_dec string_dec c (map fst m)), (in_dec string_dec c (c' :: map fst m)) as [H|H]; auto.
    + destruct H. now right.
    + destruct H; congruence.
Qed.
Lemma add_nodup m c i : NoDup (map fst m) -> NoDup (map fst (add_to_clique m c i)).
Proof.
  intros H. rewrite add_keys. destruct (in_dec string_dec c (map fst m)); auto.
  apply Permutation_NoDup with (c :: map fst m); [|now constructor]. apply Permutation_cons_append.
Qed.
Lemma add_in m c i : NoDup (map fst m) -> forall c1 l, In (c1, l) (add_to_clique m c i) <->
  c1 <> c /\ In (c1, l) m \/ c1 = c /\ exists l0, (In (c, l0) m \/ l0 = [] /\ ~ In c (map fst m)) /\ l = l0 ++ [i].
Proof.
  induction m as [|[c' l'] m IH]; intros Nd c1 l; cbn [add_to_clique].
  - cbn. split.
    + intros [H|[]]. injection H as <- <-. right. split; auto. exists []. auto.
    + intros [[_ []]|[-> (l0 & [[]|[-> _]] & ->)]]. auto.
  - cbn [map fst] in *. inversion Nd as [|? ? N1 N2]; subst. destruct (String.eqb_spec c' c) as [->|D].
    + cbn [In]. split.
      * intros [H|H].
        -- injection H as <- <-. right. split; auto. exists l'. auto.
        -- left. split; [|auto]. intros ->. apply N1. change c with (fst (c, l)). now apply in_map.
      * intros [[Hc [H|H]]|[-> (l0 & [[H|H]|[_ H]] & ->)]]; auto.
        -- congruence.
        -- injection H as <-. auto.
        -- destruct N1. change c with (fst (c, l0)). now apply in_map.
        -- destruct H. now left.
    + cbn [In]. rewrite (IH N2). split.
      * intros [H|[[H1 H2]|[-> (l0 & [H|[-> H]] & ->)]]].
        -- injection H as <- <-. left. auto.
        -- left. auto.
        -- right. split; auto. exists l0. auto.
        -- right. split; auto. exists []. split; auto. right. split; auto. intros [Q|Q]; auto.
      * intros [[H1 [H|H]]|[-> (l0 & [[H|H]|[-> H]] & ->)]]; auto.
        -- congruence.
        -- right. right. split; auto. exists l0. auto.
        -- right. right. split; auto. exists []. split; auto. right. split; auto.
Qed.

Lemma index_of_in x l : In x l -> index_of x l < length l /\ nth_error l (index_of x l) = Some x.
Proof.
  induction l as [|y l IH]; [intros []|]. cbn [index_of]. destruct (Nat.eqb_spec x y) as [->|D]; [cbn; auto with arith|].
  intros [H|H]; [congruence|]. destruct (IH H). cbn. split; auto. lia.
Qed.
Lemma index_of_nth l k x : NoDup l -> nth_error l k = Some x -> index_of x l = k.
Proof.
  revert k. induction l as [|y l IH]; intros k Nd H; [destruct k; discriminate|]. inversion Nd; subst.
  destruct k as [|k]; cbn in *; [injection H as ->; now rewrite Nat.eqb_refl|].
  destruct (Nat.eqb_spec x y) as [->|D]; [apply nth_error_In in H; contradiction|]. f_equal. auto.
Qed.

Section Graph.
Variables (ts : list pattern) (g : graph).
Hypothesis B : built ts g.
Notation n := (length ts).

Definition textb (i : nat) : bool := match nth_error ts i with Some t => text_predicate (predicate t) | None => false end.
Definition sel (c : string) (i : nat) : bool :=
  match nth_error ts i with Some t => text_predicate (predicate t) && String.eqb (subject t) c | None => false end.

Lemma identify_upto k : k <= n ->
  let m := fold_left (fun m i => match nth_error (nodes g) i with
                        | Some n => if text_predicate (predicate (n_triple n)) then add_to_clique m (subject (n_triple n)) i else m
                        | None => m
                        end) (seq 0 k) [] in
  NoDup (map fst m) /\ forall c l, In (c, l) m <-> l = filter (sel c) (seq 0 k) /\ l <> [].
Proof.
  destruct B as (B1 & B2 & B3 & _).
  induction k as [|k IH]; intros L; [cbn; split; [constructor|]; intros c l; split; [intros []|intros [-> H]; congruence]|].
  rewrite seq_S, fold_left_app. cbn [Nat.add fold_left]. destruct (IH ltac:(lia)) as [I1 I2].
  match goal with |- context [add_to_clique ?a] => set (m := a) in * end. clear IH. rewrite B3.
  destruct (nth_error ts k) as [t|] eqn:E; [|apply nth_error_None in E; lia]. cbn [option_map triple_node n_triple].
  assert (F : forall c, filter (sel c) (seq 0 k ++ [k]) = filter (sel c) (seq 0 k) ++ if text_predicate (predicate t) && String.eqb (subject t) c then [k] else []).
  { intros c. rewrite filter_app. cbn [filter]. unfold sel at 2. now rewrite E. }
  destruct (text_predicate (predicate t)) eqn:Et.
  - split; [now apply add_nodup|]. intros c l. rewrite (add_in _ _ _ I1), F. cbn [andb].
    destruct (String.eqb_spec (subject t) c) as [<-|D].
    + split.
      * intros [[H _]|[_ (l0 & H & ->)]]; [congruence|]. assert (Q : l0 = filter (sel (subject t)) (seq 0 k)).
        { destruct H as [H|[-> H]]; [now apply I2 in H|].
          destruct (filter (sel (subject t)) (seq 0 k)) as [|y l1] eqn:Ef; auto. destruct H. change (subject t) with (fst (subject t, y :: l1)).
          apply in_map. apply I2. rewrite Ef. split; auto. discriminate. }
        subst l0. split; auto. intros Q. destruct (filter _ _); discriminate Q.
      * intros [-> _]. right. split; auto. eexists. split; [|reflexivity].
        destruct (filter (sel (subject t)) (seq 0 k)) eqn:Ef; [right|left].
        -- split; auto. intros Q. apply in_map_iff in Q. destruct Q as ([c l] & Q1 & Q2). cbn in Q1. subst c. apply I2 in Q2.
           rewrite Ef in Q2. destruct Q2. contradiction.
        -- apply I2. rewrite Ef. split; auto. discriminate.
    + rewrite app_nil_r, I2. split; [|intros H; left; split; auto; congruence]. intros [[_ H]|[-> _]]; auto. congruence.
  - split; auto. intros c l. rewrite I2, F. cbn [andb]. now rewrite app_nil_r.
Qed.

Variable cl : list clique.
Hypothesis P : Permutation (identifyTextCliques g) cl.

Lemma cl_facts : NoDup (map fst cl) /\ forall c l, In (c, l) cl <-> l = filter (sel c) (seq 0 n) /\ l <> [].
Proof.
  destruct B as (_ & B2 & _). unfold identifyTextCliques in P. rewrite B2 in P. destruct (identify_upto n (le_n _)) as [H1 H2].
  split; [apply (Permutation_NoDup (Permutation_map fst P) H1)|].
  intros c l. rewrite <- H2. split; apply Permutation_in; auto. now symmetry.
Qed.
Lemma sel_text c i : sel c i = true <-> exists t, nth_error ts i = Some t /\ text_predicate (predicate t) = true /\ subject t = c.
Proof.
  unfold sel. destruct (nth_error ts i) as [t|].
  - rewrite andb_true_iff, String.eqb_eq. split; [intros [H1 H2]; eauto|intros (u & H & H1 & H2); injection H as <-; auto].
  - split; [discriminate|intros (t & H & _); discriminate].
Qed.
Lemma clique_in c l i : In (c, l) cl -> (In i l <-> sel c i = true).
Proof.
  intros H. apply cl_facts in H. destruct H as [-> _]. rewrite filter_In. split; [tauto|]. intros Hs. split; auto.
  apply in_seq. apply sel_text in Hs. destruct Hs as (t & Ht & _). apply nth_error_lt in Ht. lia.
Qed.

Lemma find_mapi (f : nat * clique -> bool) (l : list clique) : forall k j,
  option_map fst (find f (combine (seq k (length l)) l)) = Some j <->
  k <= j /\ exists x, nth_error l (j - k) = Some x /\ f (j, x) = true /\
    forall j' x', k <= j' < j -> nth_error l (j' - k) = Some x' -> f (j', x') = false.
Proof.
  induction l as [|y l IH]; intros k j; cbn [length seq combine find option_map].
  - split; [discriminate|]. intros [_ (x & H & _)]. destruct (j - k); discriminate H.
  - destruct (f (k, y)) eqn:E.
    + cbn. split.
      * intros H. injection H as <-. split; auto. rewrite Nat.sub_diag. exists y. split; auto. split; auto. intros; lia.
      * intros [L (x & H1 & H2 & H3)]. destruct (Nat.eq_dec k j) as [->|D]; auto.
        specialize (H3 k y ltac:(lia)). rewrite Nat.sub_diag in H3. rewrite H3 in E; auto. discriminate.
    + rewrite IH. split.
      * intros [L (x & H1 & H2 & H3)]. split; [lia|]. exists x. replace (j - k) with (S (j - S k)) by lia. cbn. split; auto. split; auto.
        intros j' x' L' H'. destruct (Nat.eq_dec k j') as [->|D]; [rewrite Nat.sub_diag in H'; injection H' as <-; auto|].
        replace (j' - k) with (S (j' - S k)) in H' by lia. cbn in H'. apply H3; auto. lia.
      * intros [L (x & H1 & H2 & H3)]. assert (D : k <> j).
        { intros ->. rewrite Nat.sub_diag in H1. injection H1 as <-. congruence. }
        split; [lia|]. exists x. replace (j - k) with (S (j - S k)) in H1 by lia. split; auto. split; auto.
        intros j' x' L' H'. apply H3; [lia|]. replace (j' - k) with (S (j' - S k)) by lia. exact H'.
Qed.
Lemma removed_iff i k : removed cl i = Some k <-> exists c l, nth_error cl k = Some (c, l) /\ sel c i = true.
Proof.
  unfold removed. rewrite find_mapi. rewrite Nat.sub_0_r. split.
  - intros [_ ([c l] & H1 & H2 & _)]. exists c, l. split; auto. cbn in H2. apply existsb_exists in H2.
    destruct H2 as (j & Hj & E). apply Nat.eqb_eq in E. subst j. eapply clique_in; eauto. eapply nth_error_In; eauto.
  - intros (c & l & H1 & H2). split; [lia|]. exists (c, l). split; auto. split.
    + cbn. apply existsb_exists. exists i. split; [|apply Nat.eqb_refl]. eapply clique_in; eauto. eapply nth_error_In; eauto.
    + intros j' [c' l'] L H. rewrite Nat.sub_0_r in H. cbn. apply not_true_is_false. intros Q. apply existsb_exists in Q.
      destruct Q as (j & Hj & E). apply Nat.eqb_eq in E. subst j. eapply clique_in in Hj; [|eapply nth_error_In; eauto].
      apply sel_text in H2, Hj. destruct H2 as (t & T1 & _ & T2), Hj as (u & U1 & _ & U2).
      assert (t = u) by congruence. subst u. assert (Hcc : c' = c) by congruence. rewrite Hcc in H.
      destruct cl_facts as [Nd _]. assert (X : j' = k); [|lia].
      apply (proj1 (NoDup_nth_error (map fst cl)) Nd); [rewrite map_length; eauto using nth_error_lt|].
      transitivity (Some c); [exact (map_nth_error fst _ _ H)|symmetry; exact (map_nth_error fst _ _ H1)].
Qed.
Lemma removed_none i : removed cl i = None <-> textb i = false.
Proof.
  destruct (removed cl i) as [k|] eqn:E.
  - apply removed_iff in E. destruct E as (c & l & _ & H). apply sel_text in H. destruct H as (t & H1 & H2 & _).
    unfold textb. rewrite H1, H2. split; discriminate.
  - split; auto. intros _. apply not_true_is_false. intros H. unfold textb in H. destruct (nth_error ts i) as [t|] eqn:Et; [|discriminate].
    assert (S : sel (subject t) i = true) by (apply sel_text; eauto).
    assert (Q : In (subject t, filter (sel (subject t)) (seq 0 n)) cl).
    { apply cl_facts. split; auto. intros Q. assert (X : In i (filter (sel (subject t)) (seq 0 n))).
      { apply filter_In. split; auto. apply in_seq. apply nth_error_lt in Et. lia. }
      rewrite Q in X. exact X. }
    apply In_nth_error in Q. destruct Q as [k Q]. assert (removed cl i = Some k) by (apply removed_iff; eauto). congruence.
Qed.

Definition R : list nat := remaining cl n.
Lemma R_nodup : NoDup R.
Proof. unfold R, remaining. apply NoDup_filter, seq_NoDup. Qed.
Lemma R_in i : In i R <-> i < n /\ textb i = false.
Proof.
  unfold R, remaining. rewrite filter_In, in_seq, <- removed_none. destruct (removed cl i); intuition (try discriminate; lia).
Qed.

(* the old ids of a new node, and the new node of an old id *)
Definition members : list (list nat) := map snd cl ++ map (fun i => [i]) R.
Definition new_of (i : nat) : nat := match removed cl i with Some k => k | None => new_id cl n i end.

Lemma members_in k i : (exists l, nth_error members k = Some l /\ In i l) <-> i < n /\ new_of i = k.
Proof.
  assert (ML : length (map snd cl) = length cl) by apply map_length.
  unfold members, new_of. destruct (Nat.lt_ge_cases k (length cl)) as [L|L].
  - rewrite nth_error_app1 by (unfold clique in *; lia).
    destruct (nth_error cl k) as [[c l]|] eqn:E; [|apply nth_error_None in E; lia]. rewrite (map_nth_error snd _ _ E). cbn [snd].
    split.
    + intros (l' & H & Hi). injection H as <-. eapply clique_in in Hi; [|eapply nth_error_In; eauto].
      pose proof Hi as Hi'. apply sel_text in Hi'. destruct Hi' as (t & Ht & _). split; [eauto using nth_error_lt|].
      assert (Q : removed cl i = Some k) by (apply removed_iff; eauto). now rewrite Q.
    + intros [Hi H]. exists l. split; auto. destruct (removed cl i) as [k'|] eqn:Er.
      * subst k'. apply removed_iff in Er. destruct Er as (c' & l' & H1 & H2). assert (c' = c /\ l' = l) as [-> ->] by (split; congruence).
        eapply clique_in; eauto. eapply nth_error_In; eauto.
      * unfold new_id in H. lia.
  - rewrite nth_error_app2 by (rewrite ML; lia). rewrite ML. split.
    + intros (l & H & Hi). destruct (nth_error R (k - length cl)) as [j|] eqn:E.
      * rewrite (map_nth_error (fun i => [i]) _ _ E) in H. injection H as <-. destruct Hi as [<-|[]].
        pose proof (nth_error_In _ _ E) as Hj. apply R_in in Hj. destruct Hj as [H1 H2]. split; auto.
        apply removed_none in H2. rewrite H2. unfold new_id. fold R. rewrite (index_of_nth R _ j R_nodup E). lia.
      * apply nth_error_None in E. assert (Q : nth_error (map (fun i => [i]) R) (k - length cl) = None) by (apply nth_error_None; rewrite map_length; lia).
        congruence.
    + intros [Hi H]. destruct (removed cl i) as [k'|] eqn:Er.
      * subst k'. apply removed_iff in Er. destruct Er as (c & l & H & _). apply nth_error_lt in H. lia.
      * apply removed_none in Er. assert (Hr : In i R) by (apply R_in; auto). destruct (index_of_in i R Hr) as [H1 H2].
        unfold new_id in H. fold R in H. replace (k - length cl) with (index_of i R) by lia. exists [i]. split; [|now left].
        exact (map_nth_error (fun i => [i]) _ _ H2).
Qed.
Lemma new_of_lt i : i < n -> new_of i < length members.
Proof. intros H. assert (X : exists l, nth_error members (new_of i) = Some l /\ In i l) by (apply members_in; auto). destruct X as (l & X & _). eauto using nth_error_lt. Qed.

Definition triples (l : list nat) : list pattern := flat_map (fun i => match nth_error ts i with Some t => [t] | None => [] end) l.
Definition groups : list (list pattern) := map triples members.

Lemma members_all : Permutation (concat members) (seq 0 n).
Proof.
  apply NoDup_Permutation; [|apply seq_NoDup|].
  - assert (G : forall k (ms : list (list nat)), (forall j l i, nth_error ms j = Some l -> In i l -> new_of i = k + j) -> (forall l, In l ms -> NoDup l) -> NoDup (concat ms)).
    { clear. intros k ms. revert k. induction ms as [|l ms IH]; intros k H1 H2; cbn [concat]; [constructor|].
      assert (Nl : NoDup l) by (apply H2; now left).
      assert (Nc : NoDup (concat ms)).
      { apply (IH (S k)); [|intros; apply H2; now right]. intros j l' i Hj Hi. rewrite (H1 (S j) l' i Hj Hi). lia. }
      assert (Dj : forall i, In i l -> ~ In i (concat ms)).
      { intros i Hi Hc. apply in_concat in Hc. destruct Hc as (l' & Hl' & Hi'). apply In_nth_error in Hl'. destruct Hl' as [j Hj].
        pose proof (H1 0 l i eq_refl Hi). pose proof (H1 (S j) l' i Hj Hi'). lia. }
      clear - Nl Nc Dj. induction l as [|x l IH]; auto. inversion Nl; subst. cbn. constructor.
      - intros Q. apply in_app_or in Q. destruct Q; [contradiction|]. apply (Dj x); auto. now left.
      - apply IH; auto. intros i Hi. apply Dj. now right. }
    apply (G 0).
    + intros j l i Hj Hi. cbn. apply (members_in j i). eauto.
    + intros l Hl. unfold members in Hl. apply in_app_or in Hl. destruct Hl as [Hl|Hl]; apply in_map_iff in Hl.
      * destruct Hl as ([c l'] & <- & Hl). apply cl_facts in Hl. destruct Hl as [-> _]. apply NoDup_filter, seq_NoDup.
      * destruct Hl as (i & <- & _). repeat constructor. intros [].
  - intros i. rewrite in_seq. split.
    + intros H. apply in_concat in H. destruct H as (l & Hl & Hi). apply In_nth_error in Hl. destruct Hl as [k Hk].
      assert (X : i < n /\ new_of i = k) by (apply members_in; eauto). lia.
    + intros [_ H]. assert (X : exists l, nth_error members (new_of i) = Some l /\ In i l) by (apply members_in; auto).
      destruct X as (l & X & Hi). apply in_concat. exists l. split; auto. eapply nth_error_In; eauto.
Qed.
Lemma triples_all : triples (seq 0 n) = ts.
Proof.
  unfold triples. clear. assert (G : forall pre l : list pattern, flat_map (fun i => match nth_error (pre ++ l) i with Some t => [t] | None => [] end) (seq (length pre) (length l)) = l).
  { intros pre l. revert pre. induction l as [|x l IH]; intros pre; cbn [length seq flat_map]; auto.
    rewrite nth_error_app2, Nat.sub_diag by lia. cbn [nth_error app]. f_equal.
    specialize (IH (pre ++ [x])). rewrite app_length in IH. cbn in IH. rewrite Nat.add_1_r in IH.
    rewrite <- app_assoc in IH. exact IH. }
  apply (G [] ts).
Qed.
Lemma triples_concat ls : triples (concat ls) = concat (map triples ls).
Proof. unfold triples. induction ls as [|l ls IH]; cbn; auto. now rewrite flat_map_app, IH. Qed.
Lemma groups_all : Permutation (concat groups) ts.
Proof. unfold groups. rewrite <- triples_concat, <- triples_all at 1. unfold triples. apply Permutation_flat_map. apply members_all. Qed.
Lemma triples_in l t : In t (triples l) <-> exists i, In i l /\ nth_error ts i = Some t.
Proof.
  unfold triples. rewrite in_flat_map. split; intros (i & Hi & H); exists i; (split; [auto|]).
  - destruct (nth_error ts i); [|destruct H]. destruct H as [->|[]]. auto.
  - rewrite H. now left.
Qed.
End Graph.
