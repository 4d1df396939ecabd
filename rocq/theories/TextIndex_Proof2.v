(* The sorted postings, block by block, and what the blocks hold. *)
From Coq Require Import List NArith Arith Bool Lia Permutation Sorted ZifyN ZifyNat ZifyBool.
From Verif Require Import Base Std_Model Std_Proof ListAux Ops_Spec Fts_Model Fts_Spec Postings_Model
  Fts_Proof Fts_Proof7 TextIndex_Model TextIndex_Spec TextIndex_Proof.
Import ListNotations.
Open Scope N_scope.

(* ---- the order ---- *)
Definition text_le (a b : entry) : Prop := text_less b a = false.
Lemma text_less_swo : strict_weak_order text_less.
Proof.
  constructor; unfold text_less.
  - intros x. rewrite !N.eqb_refl, Bool.eqb_reflx. lia.
  - intros x y z. destruct x as [b c w s e], y as [b1 c1 w1 s1 e1], z as [b2 c2 w2 s2 e2].
    cbn [t_block t_cid t_word t_score t_ent]. destruct e, e1, e2; cbn [Bool.eqb negb];
    repeat (match goal with |- context [N.eqb ?x ?y] => destruct (N.eqb_spec x y) end); try lia; subst; lia.
  - intros x y z. destruct x as [b c w s e], y as [b1 c1 w1 s1 e1], z as [b2 c2 w2 s2 e2].
    cbn [t_block t_cid t_word t_score t_ent]. destruct e, e1, e2; cbn [Bool.eqb negb];
    repeat (match goal with |- context [N.eqb ?x ?y] => destruct (N.eqb_spec x y) end); try lia; subst; lia.
Qed.

Lemma text_le_block a b : text_le a b -> t_block a <= t_block b.
Proof. unfold text_le, text_less. destruct (N.eqb_spec (t_block b) (t_block a)); lia. Qed.
Lemma text_le_ent a b : text_le a b -> t_block a = t_block b -> t_ent a = true -> t_ent b = true.
Proof.
  unfold text_le, text_less. intros H E Ha. rewrite E, N.eqb_refl in H. rewrite Ha in H.
  destruct (t_ent b); auto.
Qed.
Lemma text_le_cid a b : text_le a b -> t_block a = t_block b -> t_ent a = t_ent b -> t_cid a <= t_cid b.
Proof.
  unfold text_le, text_less. intros H E Ha. rewrite E, N.eqb_refl, Ha, Bool.eqb_reflx in H.
  destruct (N.eqb_spec (t_cid b) (t_cid a)); lia.
Qed.

(* ---- groups ---- *)
Definition in_block (b : N) (l : entry) : bool := t_block l =? b.
Definition groups (vec : list entry) : list (N * list entry) :=
  map (fun b => (b, filter (in_block b) vec)) (distinct (map t_block vec)).

Lemma sorted_head_distinct x l : StronglySorted N.le (x :: l) ->
  distinct l = filter (fun y => negb (y =? x)) (distinct l) \/
  distinct l = x :: filter (fun y => negb (y =? x)) (distinct l).
Proof.
  intros H. destruct l as [|y l]; [now left|].
  apply StronglySorted_inv in H. destruct H as [H1 H2]. inversion H2; subst.
  apply StronglySorted_inv in H1. destruct H1 as [H5 H6]. cbn [distinct filter].
  destruct (N.eqb_spec y x) as [->|Hn]; cbn [negb].
  - right. f_equal. symmetry. apply filter_all_true. intros z Hz. apply filter_In in Hz. tauto.
  - left. f_equal. symmetry. apply filter_all_true. intros z Hz. apply filter_In in Hz.
    destruct Hz as [Hz _]. apply (proj1 (distinct_in _ _)) in Hz. rewrite Forall_forall in H6. specialize (H6 z Hz). lia.
Qed.

Lemma flat_map_map' {A B C} (f : B -> list C) (g : A -> B) l :
  flat_map f (map g l) = flat_map (fun a => f (g a)) l.
Proof. induction l; cbn; congruence. Qed.
Lemma flat_map_ext' {A B} (f g : A -> list B) l : (forall a, In a l -> f a = g a) ->
  flat_map f l = flat_map g l.
Proof. induction l as [|a l IH]; cbn; intros H; auto. rewrite H by auto. rewrite IH; auto. Qed.

Lemma groups_concat vec : StronglySorted text_le vec -> vec = flat_map snd (groups vec).
Proof.
  unfold groups. rewrite flat_map_map'. cbn [snd].
  induction vec as [|l vec IH]; intros H; [reflexivity|].
  assert (Hb : StronglySorted N.le (t_block l :: map t_block vec)).
  { clear IH. change (t_block l :: map t_block vec) with (map t_block (l :: vec)).
    induction (l :: vec) as [|x v IHv]; [constructor|].
    apply StronglySorted_inv in H. destruct H as [H1 H2]. constructor; auto.
    rewrite Forall_forall in *. intros y Hy. apply in_map_iff in Hy. destruct Hy as [z [<- Hz]].
    apply text_le_block. auto. }
  apply StronglySorted_inv in H. destruct H as [H1 H2]. specialize (IH H1).
  cbn [map distinct flat_map filter]. unfold in_block at 1. rewrite N.eqb_refl.
  rewrite (flat_map_ext' (fun b => if in_block b l then l :: filter (in_block b) vec else filter (in_block b) vec)
             (fun b => filter (in_block b) vec)).
  2:{ intros b Hin. apply filter_In in Hin. unfold in_block at 1.
      destruct (N.eqb_spec (t_block l) b); auto. subst. rewrite N.eqb_refl in Hin.
      destruct Hin as [_ Hin]; discriminate Hin. }
  cbn [app]. f_equal.
  destruct (sorted_head_distinct _ _ Hb) as [E|E].
  - rewrite <- E. rewrite (filter_all_false (in_block (t_block l))); [exact IH|].
    intros a Ha. unfold in_block. apply N.eqb_neq. intros Eq.
    assert (In (t_block a) (distinct (map t_block vec))) by (apply distinct_in, in_map; auto).
    rewrite E in H. apply filter_In in H. rewrite Eq, N.eqb_refl in H. destruct H as [_ H]; discriminate H.
  - rewrite IH at 1. rewrite E at 1. cbn [flat_map]. reflexivity.
Qed.

Lemma groups_nodup vec : NoDup (map fst (groups vec)).
Proof. unfold groups. rewrite map_map. cbn [fst]. rewrite map_id. apply distinct_nodup. Qed.

Lemma in_classics p ls : In p (classics ls) <-> exists l, In l ls /\ t_ent l = false /\ post l = p.
Proof.
  unfold classics. rewrite in_map_iff. split.
  - intros [l [E H]]. apply filter_In in H. exists l. destruct (t_ent l); cbn in H; intuition congruence.
  - intros [l [H1 [H2 H3]]]. exists l. split; auto. apply filter_In. rewrite H2. auto.
Qed.
Lemma in_entities p ls : In p (entities ls) <-> exists l, In l ls /\ t_ent l = true /\ post l = p.
Proof.
  unfold entities. rewrite in_map_iff. split.
  - intros [l [E H]]. apply filter_In in H. exists l. intuition.
  - intros [l [H1 [H2 H3]]]. exists l. split; auto. apply filter_In. auto.
Qed.

Lemma sorted_filter {A} (R : A -> A -> Prop) p l : StronglySorted R l -> StronglySorted R (filter p l).
Proof.
  induction 1 as [|x l H1 IH H2]; [constructor|]. cbn. destruct (p x); auto. constructor; auto.
  rewrite Forall_forall in *. intros y Hy. apply filter_In in Hy. apply H2. tauto.
Qed.
Lemma block_cids vec b f : StronglySorted text_le vec ->
  ascending (map p_cid (map post (filter (fun l => Bool.eqb (t_ent l) f) (filter (in_block b) vec)))).
Proof.
  intros H. apply (sorted_filter _ (in_block b)) in H.
  apply (sorted_filter _ (fun l => Bool.eqb (t_ent l) f)) in H.
  assert (Hin : forall l, In l (filter (fun l => Bool.eqb (t_ent l) f) (filter (in_block b) vec)) ->
            t_block l = b /\ t_ent l = f).
  { intros l Hl. rewrite !filter_In in Hl. unfold in_block in Hl. destruct Hl as [[_ H1] H2].
    apply N.eqb_eq in H1. apply Bool.eqb_prop in H2. auto. }
  induction (filter (fun l => Bool.eqb (t_ent l) f) (filter (in_block b) vec)) as [|l ls IH];
    cbn [map]; [constructor|].
  apply StronglySorted_inv in H. destruct H as [H1 H2]. constructor.
  - apply IH; auto. intros; apply Hin; now right.
  - rewrite Forall_forall in *. intros c Hc. rewrite map_map in Hc. apply in_map_iff in Hc.
    destruct Hc as [l' [<- Hl']]. change (p_cid (post ?x)) with (t_cid x).
    destruct (Hin l (or_introl eq_refl)) as [A1 A2]. destruct (Hin l' (or_intror Hl')) as [B1 B2].
    apply text_le_cid; [now apply H2|congruence|congruence].
Qed.
Lemma filter_ext' {A} (p q : A -> bool) l : (forall a, p a = q a) -> filter p l = filter q l.
Proof. intros H. induction l; cbn; auto. rewrite H, IHl. reflexivity. Qed.
Lemma filter_length_le {A} (p : A -> bool) l : (length (filter p l) <= length l)%nat.
Proof. induction l; cbn; auto. destruct (p a); cbn; lia. Qed.

Lemma group_ok_intro vec b : StronglySorted text_le vec ->
  (exists l, In l vec /\ t_block l = b /\ t_ent l = false) ->
  (forall l, In l vec -> t_cid l < 2 ^ 60 /\ t_word l < 2 ^ 64 /\ t_score l < 2 ^ 16) ->
  N.of_nat (length vec) < 2 ^ 60 ->
  group_ok (b, filter (in_block b) vec).
Proof.
  intros Hs [l [H1 [H2 H3]]] Hr Hl. unfold group_ok.
  assert (St : forall f, storable_list (map post (filter (fun l => Bool.eqb (t_ent l) f) (filter (in_block b) vec)))).
  { intros f. split; [now apply block_cids|]. split.
    - apply Forall_forall. intros p Hp. apply in_map_iff in Hp. destruct Hp as [x [<- Hx]].
      rewrite !filter_In in Hx. apply (Hr x). tauto.
    - rewrite map_length. pose proof (filter_length_le (fun l => Bool.eqb (t_ent l) f) (filter (in_block b) vec)).
      pose proof (filter_length_le (in_block b) vec). lia. }
  split; [|split; [|split]].
  - apply Forall_forall. intros x Hx. apply filter_In in Hx. unfold in_block in Hx. now apply N.eqb_eq.
  - assert (Hin : In l (filter (in_block b) vec)).
    { apply filter_In. split; auto. unfold in_block. now apply N.eqb_eq. }
    pose proof (sorted_filter _ (in_block b) _ Hs) as Hs'.
    assert (Hb : forall x, In x (filter (in_block b) vec) -> t_block x = b).
    { intros x Hx. apply filter_In in Hx. unfold in_block in Hx. now apply N.eqb_eq. }
    destruct (filter (in_block b) vec) as [|x ls]; [contradiction Hin|].
    destruct (t_ent x) eqn:E; auto. exfalso. destruct Hin as [Hin|Hin]; [congruence|].
    apply StronglySorted_inv in Hs'. destruct Hs' as [_ Hs']. rewrite Forall_forall in Hs'.
    pose proof (text_le_ent x l (Hs' l Hin)). rewrite H in H3; [discriminate H3| |auto].
    rewrite (Hb x), H2; auto; now left.
  - unfold classics. rewrite (filter_ext' (fun l => negb (t_ent l)) (fun l => Bool.eqb (t_ent l) false)); auto;
    intros a; now destruct (t_ent a).
  - unfold entities. rewrite (filter_ext' t_ent (fun l => Bool.eqb (t_ent l) true)); auto;
    intros a; now destruct (t_ent a).
Qed.

(* ---- the contents of a block ---- *)
Lemma perm_filter {A} (p : A -> bool) l l' : Permutation l l' -> Permutation (filter p l) (filter p l').
Proof.
  induction 1; cbn; auto; repeat match goal with |- context [if p ?x then _ else _] => destruct (p x) end;
    auto; try constructor. eapply Permutation_trans; eauto.
Qed.
Lemma classics_perm b vec vec' : Permutation vec vec' ->
  Permutation (classics (filter (in_block b) vec)) (classics (filter (in_block b) vec')).
Proof. intros H. unfold classics. now apply Permutation_map, perm_filter, perm_filter. Qed.
Lemma entities_perm b vec vec' : Permutation vec vec' ->
  Permutation (entities (filter (in_block b) vec)) (entities (filter (in_block b) vec')).
Proof. intros H. unfold entities. now apply Permutation_map, perm_filter, perm_filter. Qed.
Lemma filter_flat_map {A B} (p : B -> bool) (f : A -> list B) l :
  filter p (flat_map f l) = flat_map (fun a => filter p (f a)) l.
Proof. induction l; cbn; auto. now rewrite filter_app, IHl. Qed.
Lemma map_flat_map {A B C} (g : B -> C) (f : A -> list B) l :
  map g (flat_map f l) = flat_map (fun a => map g (f a)) l.
Proof. induction l; cbn; auto. now rewrite map_app, IHl. Qed.
Lemma filter_map' {A B} (p : B -> bool) (f : A -> B) l :
  filter p (map f l) = map f (filter (fun a => p (f a)) l).
Proof. induction l; cbn; auto. destruct (p (f a)); cbn; congruence. Qed.

Definition context_classics (bounds : list N) (b : N) (c : context) : list posting :=
  map (fun w => (c_id c, fst w, snd w))
    (filter (fun w => getWordBlockId bounds (fst w) =? b) (c_words c) ++
     filter (fun e => getEntityBlockId bounds (fst e) =? b) (c_ents c)).
Lemma vec_classics bounds b cs :
  classics (filter (in_block b) (text_vec bounds cs)) = flat_map (context_classics bounds b) cs.
Proof.
  unfold text_vec, classics. rewrite !filter_flat_map, map_flat_map. apply flat_map_ext'. intros c _.
  unfold addContextToVector, context_classics. rewrite !filter_app, !map_app, !filter_map', !map_map.
  cbn [t_block t_ent in_block negb]. unfold in_block. cbn [t_block t_ent post].
  rewrite <- app_assoc || idtac. f_equal.
  - rewrite filter_all_true by auto. reflexivity.
  - rewrite (filter_all_true (fun _ => true)) by auto.
    rewrite !filter_flat_map, map_flat_map.
    match goal with |- _ ++ ?x = _ => assert (E : x = []) end.
    { induction (touchedBlocks bounds c) as [|t ts IH]; cbn [flat_map]; auto. rewrite IH, app_nil_r.
      rewrite !filter_map'. cbn [t_ent negb]. rewrite filter_all_false by auto. reflexivity. }
    rewrite E, app_nil_r. reflexivity.
Qed.

Lemma vec_entities bounds b cs :
  entities (filter (in_block b) (text_vec bounds cs)) =
  flat_map entities_of (filter (fun c => existsb (N.eqb b) (touchedBlocks bounds c)) cs).
Proof.
  unfold text_vec, entities. rewrite !filter_flat_map, map_flat_map.
  induction cs as [|c cs IH]; cbn [flat_map filter]; auto. rewrite IH. clear IH.
  transitivity ((if existsb (N.eqb b) (touchedBlocks bounds c) then entities_of c else []) ++
    flat_map entities_of (filter (fun c => existsb (N.eqb b) (touchedBlocks bounds c)) cs)).
  2:{ now destruct (existsb (N.eqb b) (touchedBlocks bounds c)). }
  f_equal. unfold addContextToVector. rewrite !filter_app, !map_app, !filter_map'.
  cbn [t_block t_ent]. rewrite (filter_all_false (fun _ => false)) by auto.
  rewrite (filter_all_false (fun _ => false)) by auto. cbn [map app].
  rewrite !filter_flat_map, map_flat_map.
  pose proof (NoDup_nodup N.eq_dec (map (fun w => getWordBlockId bounds (fst w)) (c_words c) ++
                  map (fun e => getEntityBlockId bounds (fst e)) (c_ents c))) as Hd.
  fold (touchedBlocks bounds c) in Hd.
  induction (touchedBlocks bounds c) as [|t ts IH]; cbn [flat_map existsb]; auto.
  inversion Hd as [|? ? Hd1 Hd2]; subst. rewrite IH by auto. clear IH.
  rewrite !filter_map', map_map. unfold in_block, post. cbn [t_block t_ent t_cid t_word t_score].
  rewrite (filter_all_true (fun _ => true)) by auto. rewrite (N.eqb_sym b t).
  destruct (N.eqb_spec t b) as [->|Hn]; cbn [orb].
  - rewrite filter_all_true by auto.
    replace (existsb (N.eqb b) ts) with false; [now rewrite app_nil_r|].
    symmetry. apply not_true_is_false. intros E. apply existsb_exists in E. destruct E as [x [E1 E2]].
    apply N.eqb_eq in E2. subst. auto.
  - rewrite filter_all_false by auto. reflexivity.
Qed.
