(* Proofs: the triple graph. *)
From Coq Require Import String Ascii List NArith Arith Bool Lia Permutation.
From Verif Require Import Plan_Spec Clique_Spec Clique_Model.
From Verif Require Plan_Model.
Import ListNotations.
Local Open Scope nat_scope.

(* ---------- sets ---------- *)
Lemma set_insert_in v l x : In x (set_insert v l) <-> x = v \/ In x l.
Proof.
  induction l as [|y l IH]; cbn [set_insert]; [cbn; intuition|].
  destruct (String.compare v y) eqn:E.
  - apply String.compare_eq_iff in E. subst y. cbn. intuition.
  - cbn. intuition.
  - cbn [In]. rewrite IH. intuition.
Qed.
Lemma ids_insert_in i l x : In x (ids_insert i l) <-> x = i \/ In x l.
Proof.
  induction l as [|y l IH]; cbn [ids_insert]; [cbn; intuition|].
  destruct (Nat.compare_spec i y) as [E|E|E].
  - subst y. cbn. intuition.
  - cbn. intuition.
  - cbn [In]. rewrite IH. intuition.
Qed.
Lemma ids_set_in l x : In x (ids_set l) <-> In x l.
Proof.
  unfold ids_set. assert (G : forall l s, In x (fold_left (fun s i => ids_insert i s) l s) <-> In x l \/ In x s).
  { clear l. induction l as [|i l IH]; intros s; cbn [fold_left]; [cbn; tauto|]. rewrite IH, ids_insert_in. cbn. intuition. }
  rewrite G. cbn. tauto.
Qed.

Lemma is_var_variable s : Plan_Model.is_var s = true <-> variable s.
Proof.
  unfold variable. destruct s as [|c s]; cbn; [split; [discriminate|intros [? H]; discriminate H]|].
  rewrite Ascii.eqb_eq. split; [intros ->; eauto|intros [s' H]; now injection H].
Qed.
Lemma insert_vars_in vs t v : In v (insert_vars vs t) <-> occurs v t \/ In v vs.
Proof.
  destruct t as [[s p] o]. unfold insert_vars, occurs.
  assert (G : forall x l, In v (if Plan_Model.is_var x then set_insert x l else l) <-> variable v /\ v = x \/ In v l).
  { intros x l. destruct (Plan_Model.is_var x) eqn:E.
    - rewrite set_insert_in. apply is_var_variable in E. intuition; subst; auto.
    - split; auto. intros [[Hv ->]|H]; auto. apply is_var_variable in Hv. congruence. }
  rewrite !G. intuition.
Qed.
Lemma insert_all_in ts v : forall vs, In v (fold_left insert_vars ts vs) <-> (exists t, In t ts /\ occurs v t) \/ In v vs.
Proof.
  induction ts as [|t ts IH]; intros vs; cbn [fold_left].
  - split; auto. intros [[t [[] _]]|H]; auto.
  - rewrite IH, insert_vars_in. split.
    + intros [[u [H1 H2]]|[H|H]]; auto; left; [exists u|exists t]; cbn; auto.
    + intros [[u [[->|H1] H2]]|H]; auto. left. eauto.
Qed.
Lemma has_var_in n v : has_var n v = true <-> In v (n_vars n).
Proof.
  unfold has_var. rewrite existsb_exists. split.
  - intros [x [H E]]. apply String.eqb_eq in E. now subst.
  - intros H. exists v. split; auto. apply String.eqb_refl.
Qed.

(* ---------- the graph ---------- *)
Lemma push_length l i x : length (push l i x) = length l.
Proof. unfold push. rewrite map_length, combine_length, seq_length. lia. Qed.
Lemma nth_mapi {A B} (f : nat * A -> B) (l : list A) : forall k j, nth_error (map f (combine (seq k (length l)) l)) j =
  option_map (fun x => f (k + j, x)) (nth_error l j).
Proof.
  induction l as [|y l IH]; intros k j; cbn [length seq combine map]; [destruct j; reflexivity|].
  destruct j as [|j]; cbn [nth_error option_map]; [now rewrite Nat.add_0_r|]. rewrite IH. destruct (nth_error l j); cbn; auto.
  do 3 f_equal. lia.
Qed.
Lemma push_in l i x k y : i < length l -> (In y (nth k (push l i x) []) <-> In y (nth k l []) \/ k = i /\ y = x).
Proof.
  intros L. destruct (Nat.lt_ge_cases k (length l)) as [H|H].
  - destruct (nth_error l k) as [e|] eqn:E; [|apply nth_error_None in E; lia].
    assert (P : nth_error (push l i x) k = Some (if Nat.eqb k i then e ++ [x] else e)).
    { unfold push. rewrite nth_mapi, E. cbn. now destruct (Nat.eqb k i). }
    rewrite (nth_error_nth _ _ _ P), (nth_error_nth _ _ _ E). destruct (Nat.eqb_spec k i) as [->|D].
    + rewrite in_app_iff. cbn. intuition.
    + intuition.
  - rewrite !nth_overflow by (rewrite ?push_length; auto). cbn. intuition lia.
Qed.

Lemma inner_in ns v id is : forall a, id < length a -> Forall (fun i => i < id) is ->
  let a' := fold_left (fun a i => match nth_error ns i with
                            | Some other => if has_var other v then push (push a id i) i id else a
                            | None => a
                            end) is a in
  length a' = length a /\
  forall x y, In y (nth x a' []) <-> In y (nth x a []) \/
    exists i n, In i is /\ nth_error ns i = Some n /\ In v (n_vars n) /\ (x = id /\ y = i \/ x = i /\ y = id).
Proof.
  induction is as [|i is IH]; intros a L F; cbn [fold_left].
  - split; auto. intros x y. split; auto. intros [H|(i & n & [] & _)]; auto.
  - inversion F as [|? ? Hi F']; subst.
    assert (Skip : (forall n, nth_error ns i = Some n -> ~ In v (n_vars n)) ->
      let a' := fold_left (fun a i => match nth_error ns i with
                            | Some other => if has_var other v then push (push a id i) i id else a
                            | None => a
                            end) is a in
      length a' = length a /\
      forall x y, In y (nth x a' []) <-> In y (nth x a []) \/
        exists i0 n, In i0 (i :: is) /\ nth_error ns i0 = Some n /\ In v (n_vars n) /\ (x = id /\ y = i0 \/ x = i0 /\ y = id)).
    { intros No. destruct (IH a L F') as [I1 I2]. split; auto. intros x y. rewrite I2. split.
      - intros [H|(j & n & H & H')]; auto. right. exists j, n. split; [now right|auto].
      - intros [H|(j & n & [->|H] & H1 & H2 & H3)]; auto; [destruct (No n H1 H2)|]. right. exists j, n. auto. }
    destruct (nth_error ns i) as [n|] eqn:E; [|apply Skip; discriminate].
    destruct (has_var n v) eqn:Hv.
    + clear Skip. apply has_var_in in Hv. destruct (IH (push (push a id i) i id)) as [I1 I2]; auto; [rewrite !push_length; auto|].
      rewrite !push_length in I1. split; auto. intros x y. rewrite I2, !push_in by (rewrite ?push_length; lia). split.
      * intros [[[H|H]|H]|(j & m & H & H')]; auto; right; [exists i, n|exists i, n|exists j, m]; cbn; auto.
      * intros [H|(j & m & [<-|H] & H1 & H2 & H3)]; [tauto|tauto|]. right. exists j, m. auto.
    + apply Skip. intros m Em Hm. injection Em as <-. apply has_var_in in Hm. congruence.
Qed.
Lemma outer_in ns id vs : forall a, id < length a ->
  let a' := fold_left (fun a v =>
      fold_left (fun a i => match nth_error ns i with
                            | Some other => if has_var other v then push (push a id i) i id else a
                            | None => a
                            end) (seq 0 id) a) vs a in
  length a' = length a /\
  forall x y, In y (nth x a' []) <-> In y (nth x a []) \/
    exists v i n, In v vs /\ i < id /\ nth_error ns i = Some n /\ In v (n_vars n) /\ (x = id /\ y = i \/ x = i /\ y = id).
Proof.
  induction vs as [|v vs IH]; intros a L; cbn [fold_left].
  - split; auto. intros x y. split; auto. intros [H|(v & i & n & [] & _)]; auto.
  - destruct (inner_in ns v id (seq 0 id) a L) as [I1 I2]; [apply Forall_forall; intros i Hi; apply in_seq in Hi; lia|].
    match goal with |- context [fold_left _ vs ?b] => set (a1 := b) in * end.
    destruct (IH a1) as [J1 J2]; [lia|]. split; [lia|]. intros x y. rewrite J2, I2. split.
    + intros [[H|(i & n & H1 & H2)]|(u & i & n & H1 & H2)]; auto; right.
      * apply in_seq in H1. exists v, i, n. split; [now left|]. split; [lia|exact H2].
      * exists u, i, n. split; [now right|exact H2].
    + intros [H|(u & i & n & [->|H1] & H2 & H3)]; auto; [left; right|right].
      * exists i, n. split; auto. apply in_seq. lia.
      * exists u, i, n. auto.
Qed.

Definition built (ts : list pattern) (g : graph) : Prop :=
  length (nodes g) = length ts /\ length (adj g) = length ts /\
  (forall i, nth_error (nodes g) i = option_map (triple_node i) (nth_error ts i)) /\
  forall x y, In y (nth x (adj g) []) <->
    x <> y /\ exists t u, nth_error ts x = Some t /\ nth_error ts y = Some u /\ exists v, occurs v t /\ occurs v u.

Lemma nth_error_lt {A} (l : list A) i x : nth_error l i = Some x -> i < length l.
Proof. intros H. apply nth_error_Some. congruence. Qed.
Lemma add_triple_built ts g t : built ts g -> built (ts ++ [t]) (add_triple g t).
Proof.
  intros (B1 & B2 & B3 & B4). unfold add_triple.
  destruct (outer_in (nodes g) (length (nodes g)) (n_vars (triple_node (length (nodes g)) t)) (adj g ++ [[]])) as [O1 O2];
    [rewrite app_length; cbn; lia|].
  match goal with |- built _ (Gr ?a _) => set (a' := a) in * end.
  unfold built. cbn [nodes adj]. rewrite !app_length in *. cbn [length] in *. split; [lia|]. split; [lia|]. split.
  - intros i. destruct (Nat.lt_ge_cases i (length ts)) as [H|H].
    + rewrite !nth_error_app1 by lia. apply B3.
    + rewrite !nth_error_app2 by lia. rewrite B1. destruct (i - length ts) as [|k] eqn:E; cbn.
      * do 2 f_equal. lia.
      * destruct k; reflexivity.
  - intros x y. rewrite O2. clear O1 O2 a'.
    assert (Old : In y (nth x (adj g ++ [[]]) []) <-> In y (nth x (adj g) [])).
    { destruct (Nat.lt_ge_cases x (length ts)) as [H|H]; [rewrite app_nth1 by lia; tauto|].
      rewrite app_nth2, (nth_overflow (adj g)) by lia. destruct (x - length (adj g)) as [|[|?]]; cbn; tauto. }
    rewrite Old, B4. split.
    + intros [(H1 & t1 & u & H2 & H3 & H4)|(v & i & n & H1 & H2 & H3 & H4 & H5)].
      * split; auto. exists t1, u. rewrite !nth_error_app1; eauto using nth_error_lt.
      * rewrite B3 in H3. destruct (nth_error ts i) as [u|] eqn:Eu; [|discriminate]. injection H3 as <-. cbn [n_vars triple_node] in *.
        apply insert_vars_in in H1, H4. destruct H1 as [H1|[]]. destruct H4 as [H4|[]].
        assert (Et : nth_error (ts ++ [t]) (length (nodes g)) = Some t) by (rewrite nth_error_app2, B1, Nat.sub_diag by lia; reflexivity).
        assert (Eu' : nth_error (ts ++ [t]) i = Some u) by (rewrite nth_error_app1; eauto using nth_error_lt).
        destruct H5 as [[-> ->]|[-> ->]]; (split; [lia|]); [exists t, u|exists u, t]; split; auto; split; auto; exists v; auto.
    + intros (H1 & t1 & u & H2 & H3 & v & H4 & H5).
      assert (Split : forall i q, nth_error (ts ++ [t]) i = Some q -> nth_error ts i = Some q \/ i = length (nodes g) /\ q = t).
      { intros i q Hq. destruct (Nat.lt_ge_cases i (length ts)) as [H|H]; [rewrite nth_error_app1 in Hq; auto|].
        rewrite nth_error_app2 in Hq by lia. right. destruct (i - length ts) as [|k] eqn:E; cbn in Hq.
        - injection Hq as <-. split; auto. lia.
        - destruct k; discriminate. }
      destruct (Split _ _ H2) as [Q|[-> ->]], (Split _ _ H3) as [Q'|[-> ->]].
      * left. split; auto. exists t1, u. eauto.
      * right. exists v, x, (triple_node x t1). cbn [n_vars triple_node]. rewrite !insert_vars_in. split; auto.
        split; [rewrite B1; eauto using nth_error_lt|]. rewrite B3, Q. cbn. auto.
      * right. exists v, y, (triple_node y u). cbn [n_vars triple_node]. rewrite !insert_vars_in. split; auto.
        split; [rewrite B1; eauto using nth_error_lt|]. rewrite B3, Q'. cbn. auto.
      * congruence.
Qed.
Lemma create_built ts g : createTripleGraph ts = Some g -> built ts g.
Proof.
  unfold createTripleGraph. destruct (64 <? length ts); [discriminate|]. intros H. injection H as <-.
  assert (G : forall ts done g, built done g -> built (done ++ ts) (fold_left add_triple ts g)).
  { clear. induction ts as [|t ts IH]; intros done g B; cbn [fold_left]; [now rewrite app_nil_r|].
    replace (done ++ t :: ts) with ((done ++ [t]) ++ ts) by (rewrite <- app_assoc; reflexivity). apply IH. now apply add_triple_built. }
  apply (G ts []). repeat split; cbn; auto; try (intros i; destruct i; reflexivity); intros.
  - destruct x; destruct H.
  - destruct x; destruct H.
  - destruct H as [_ (t & u & H & _)]. destruct x; discriminate H.
Qed.
