(* Proofs about cache keys: requests answered through the cache. *)
From Coq Require Import Ascii String List NArith Bool Lia ZifyBool ZifyN ZifyNat.
From Verif Require Import Conv_Model Keys_Model Keys_Spec Keys_Proof Keys_Proof2 Keys_Proof3 Keys_Proof4 Keys_Proof5.
Import ListNotations.
Open Scope N_scope.

Lemma keys_alike o1 o2 : texts_ok o1 -> texts_ok o2 -> cache_key o1 = cache_key o2 -> alike o1 o2.
Proof.
  intros H1 H2 H. destruct keys_read as [K _].
  apply (K o1 o2 0%nat [] []); try assumption. unfold cache_key in H. now rewrite H.
Qed.

Lemma complete_no_hidden :
  (forall o, complete o -> hidden o = shape o) /\ (forall t, complete_tree t -> hidden_tree t = shape_tree t) /\
  (forall s : side, True).
Proof.
  apply op_tree_side_ind; unfold shape, shape_tree; intros; cbn [complete complete_tree hidden hidden_tree erase map] in *;
    try contradiction; try exact I; auto.
  all: try (match goal with [ H : _ /\ _ |- _ ] => destruct H end; rewrite ?H1; f_equal; f_equal; auto; f_equal; auto; fail).
  all: f_equal; f_equal; auto.
Qed.

Section Cached.
  Context {R : Type} (A : algebra R) (U : op -> Prop).
  Hypothesis consistent : forall o1 o2, U o1 -> U o2 -> cache_key o1 = cache_key o2 -> eval A o1 = eval A o2.

  Definition holds (c : cache R) : Prop :=
    Forall (fun kv => exists o, U o /\ cache_key o = fst kv /\ snd kv = eval A o) c.

  Lemma cache_find_ok (c : cache R) k v : cache_find c k = Some v -> In (k, v) c.
  Proof.
    induction c as [|[k' v'] c IH]; cbn; [discriminate|]. destruct (text_eqb k' k) eqn:E.
    - apply text_eqb_eq in E. intros [= <-]. left. now subst.
    - intros H. right. auto.
  Qed.

  Lemma through_ok (c : cache R) (o : op) (f : cache R -> R * cache R) : U o -> holds c ->
    (let (v, c') := f c in v = eval A o /\ holds c') ->
    let (v, c') := through c o f in v = eval A o /\ holds c'.
  Proof.
    intros Ho Hc Hf. unfold through. destruct (cache_find c (cache_key o)) as [v|] eqn:E.
    - split; [|assumption]. apply cache_find_ok in E. unfold holds in Hc. rewrite Forall_forall in Hc.
      apply Hc in E as (o' & Ho' & Ek & Ev). cbn in Ek, Ev. rewrite Ev. now apply consistent.
    - destruct (f c) as [v c']. destruct Hf as [-> Hc']. split; [reflexivity|].
      constructor; [|assumption]. cbn. eauto.
  Qed.

  Definition answers_op (o : op) : Prop := forall c, Forall U (parts o) -> holds c ->
    let (v, c') := getResult A c o in v = eval A o /\ holds c'.
  Definition answers_tree (t : tree) : Prop := forall c, Forall U (parts_tree t) -> holds c ->
    let (v, c') := getResult_tree A c t in v = eval_tree A t /\ holds c'.
  Definition answers_side (s : side) : Prop := forall c, Forall U (parts_side s) -> holds c ->
    let (v, c') := getResult_side A c s in v = eval_side A s /\ holds c'.

  Lemma parts_self o : Forall U (parts o) -> U o.
  Proof. destruct o; cbn; intros H; now inversion H. Qed.

  Theorem getResult_ok : (forall o, answers_op o) /\ (forall t, answers_tree t) /\ (forall s, answers_side s).
  Proof.
    apply op_tree_side_ind; unfold answers_op, answers_tree, answers_side; intros;
      try (match goal with [ HP : Forall U (parts ?o), HC : holds ?c |- let (_, _) := getResult A ?c ?o in _ ] =>
             pose proof (parts_self _ HP) as Hself;
             cbn [getResult]; apply (through_ok c); [assumption|assumption|]; cbn [parts] in HP;
             apply Forall_inv_tail in HP
           end);
      try (cbn; split; [reflexivity|assumption]; fail).
    (* two subtrees *)
    all: try (match goal with [ HP : Forall U (parts_tree ?l ++ parts_tree ?r),
                   I1 : forall c, Forall U (parts_tree ?l) -> _, I2 : forall c, Forall U (parts_tree ?r) -> _, HC : holds ?c |- _ ] =>
           apply Forall_app in HP as [HP1 HP2];
           specialize (I1 c HP1 HC); destruct (getResult_tree A c l) as [v1 c1]; destruct I1 as [-> HC1];
           specialize (I2 c1 HP2 HC1); destruct (getResult_tree A c1 r) as [v2 c2]; destruct I2 as [-> HC2];
           split; [reflexivity|assumption] end).
    (* one subtree *)
    all: try (match goal with [ HP : Forall U (parts_tree ?l),
                   I1 : forall c, Forall U (parts_tree ?l) -> _, HC : holds ?c |- let (_, _) := (let (_, _) := getResult_tree A ?c ?l in _) in _ ] =>
           specialize (I1 c HP HC); destruct (getResult_tree A c l) as [v1 c1]; destruct I1 as [-> HC1];
           split; [reflexivity|assumption] end).
    - (* path *)
      apply Forall_app in H2 as [P1 P2]. apply Forall_app in P2 as [P2 P3].
      specialize (H c P1 H3). destruct (getResult_tree A c sub) as [v1 c1]. destruct H as [-> C1].
      specialize (H0 c1 P2 C1). destruct (getResult_side A c1 left) as [v2 c2]. destruct H0 as [-> C2].
      specialize (H1 c2 P3 C2). destruct (getResult_side A c2 right) as [v3 c3]. destruct H1 as [-> C3].
      split; [reflexivity|assumption].
    - cbn [getResult_tree eval_tree]. now apply H.
    - cbn [getResult_side eval_side]. specialize (H c0 H0 H1). destruct (getResult_tree A c0 t) as [v1 c1].
      destruct H as [-> C1]. now split.
  Qed.

  Lemma evict_holds c k : holds c -> holds (evict c k).
  Proof.
    induction 1 as [|[k' v] c H Hc IH]; cbn; [constructor|].
    destruct (text_eqb k' k); [assumption|]. now constructor.
  Qed.

  Theorem answers_ok es : forall c, holds c -> (forall o, In o (requested es) -> Forall U (parts o)) ->
    answers A c es = map (eval A) (requested es).
  Proof.
    induction es as [|[o|k] es IH]; intros c Hc HU; [reflexivity| |].
    - cbn [answers requested map] in *. pose proof (proj1 getResult_ok o c (HU o (or_introl eq_refl)) Hc) as G.
      destruct (getResult A c o) as [v c']. destruct G as [-> Hc']. f_equal. apply IH; [assumption|].
      intros q Hq. apply HU. now right.
    - cbn [answers requested] in *. apply IH; [now apply evict_holds|assumption].
  Qed.
End Cached.

(* The text of a tree is never the key of an operation. *)
Lemma tree_text_no_key t o : tree_ok t -> texts_ok o -> treeString 0 t <> cache_key o.
Proof.
  intros Ht Ho H. unfold cache_key in H. destruct (asString_header 0 o) as (rest & E).
  destruct (tree_begins 0 t) as (rest' & E').
  destruct (PeanoNat.Nat.eq_dec (tag o) 10) as [T|T].
  - destruct o; try discriminate T. clear E E'. cbn [asString] in H. cbn [texts_ok] in Ho. destruct Ho as [H1 H2].
    rewrite <- (app_nil_r (treeString 0 t)) in H.
    apply (proj1 (proj2 keys_read) t left 0%nat) in H as [_ H]; try assumption. discriminate H.
  - rewrite E, E' in H. cbn [spaces repeat app] in H. revert H.
    apply (clash_ok [123] (nth (tag o) headers [])). exact (headers_clash 10 (tag o) ltac:(lia) (tag_bound o) (not_eq_sym T)).
Qed.
