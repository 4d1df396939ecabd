(* Proofs about Fts_Model: filtering and intersection. *)
From Coq Require Import List NArith Arith Bool Lia ZifyBool ZifyN ZifyNat Sorted Permutation.
From Verif Require Import Std_Model Std_Proof Base ListAux Lex_Proof Fts_Model Fts_Spec.
Import ListNotations.
Open Scope N_scope.

Lemma filter_range_loop_eq first last block : forall res,
  filter_range_loop first last block res =
  res ++ map (fun p => (p_cid p, p_score p))
           (filter (fun p => (first <=? p_eid p) && (p_eid p <=? last)) block).
Proof.
  induction block as [|p block IH]; intros res; cbn [filter_range_loop filter].
  - cbn. now rewrite app_nil_r.
  - destruct ((first <=? p_eid p) && (p_eid p <=? last)); rewrite IH; auto.
    cbn [map]. now rewrite <- app_assoc.
Qed.

Section Sorted.
  Context {A : Type} (f : A -> N).
  Definition fsorted (l : list A) : Prop := StronglySorted (fun a b => f a <= f b) l.

  Lemma fsorted_app l1 l2 : fsorted (l1 ++ l2) -> fsorted l1 /\ fsorted l2 /\
    (forall a b, In a l1 -> In b l2 -> f a <= f b).
  Proof.
    induction l1 as [|x l1 IH]; simpl; intros H.
    - repeat split; auto. constructor. intros a b [].
    - inversion H as [|? ? H1 H2]; subst. destruct (IH H1) as [I1 [I2 I3]].
      rewrite Forall_app in H2. destruct H2 as [H2 H3]. repeat split; auto.
      + constructor; auto.
      + intros a b [<-|Ha] Hb; auto. rewrite Forall_forall in H3. auto.
  Qed.

  Lemma drop_below_ge x l : fsorted l -> Forall (fun a => x <= f a) (drop_while (fun a => f a <? x) l).
  Proof.
    induction l as [|y l IH]; simpl; intros H; auto. inversion H as [|? ? H1 H2]; subst.
    destruct (N.ltb_spec (f y) x); auto. constructor; auto.
    eapply Forall_impl; [|exact H2]. cbv beta. lia.
  Qed.
  Lemma take_below_lt x l : Forall (fun a => f a < x) (take_while (fun a => f a <? x) l).
  Proof.
    eapply Forall_impl; [|apply (take_while_all (fun a => f a <? x))]. cbv beta. lia.
  Qed.
  Lemma drop_eq_gt x l : fsorted l -> Forall (fun a => x <= f a) l ->
    Forall (fun a => x < f a) (drop_while (fun a => x =? f a) l).
  Proof.
    induction l as [|y l IH]; simpl; intros H HF; auto. inversion H as [|? ? H1 H2]; subst.
    inversion HF; subst. destruct (N.eqb_spec x (f y)); auto. constructor; [lia|].
    eapply Forall_impl; [|exact H2]. cbv beta. lia.
  Qed.
  Lemma fsorted_drop (p : A -> bool) l : fsorted l -> fsorted (drop_while p l).
  Proof.
    intros H. rewrite <- (take_drop_while p l) in H. now apply fsorted_app in H.
  Qed.
End Sorted.

Lemma member_in x l : member x l = true <-> In x l.
Proof.
  unfold member. rewrite existsb_exists. split.
  - intros [y [H1 H2]]. now replace x with y by lia.
  - intros H. exists x. split; auto. lia.
Qed.
Lemma member_not x l : member x l = false <-> ~ In x l.
Proof. rewrite <- member_in. destruct (member x l); split; congruence. Qed.

Lemma filter_all_true {A} (p : A -> bool) l : (forall a, In a l -> p a = true) -> filter p l = l.
Proof.
  induction l as [|x l IH]; simpl; intros H; auto. rewrite H by auto. rewrite IH; auto.
Qed.
Lemma filter_all_false {A} (p : A -> bool) l : (forall a, In a l -> p a = false) -> filter p l = [].
Proof.
  induction l as [|x l IH]; simpl; intros H; auto. rewrite H by auto. apply IH; auto.
Qed.

Lemma intersect_loop_eq fuel : forall m e res,
  ascending m -> fsorted p_cid e -> (length m + length e <= fuel)%nat ->
  intersect_loop fuel m e res = Ok (res ++ filter (fun p => member (p_cid p) m) e).
Proof.
  induction fuel as [|fuel IH]; intros m e res Hm He Hf.
  - destruct m; destruct e; simpl in Hf; try lia. cbn. now rewrite app_nil_r.
  - destruct m as [|m0 ml] eqn:Em.
    { cbn [intersect_loop]. rewrite filter_all_false by (intros; reflexivity).
      now rewrite app_nil_r. }
    destruct e as [|p el] eqn:Ee.
    { cbn. now rewrite app_nil_r. }
    rewrite <- Em in *. rewrite <- Ee in *. 
    assert (EQ : intersect_loop (S fuel) m e res =
      match drop_while (fun x => x <? p_cid p) m with
      | [] => Ok res
      | x :: m' =>
          match drop_while (fun q => p_cid q <? x) e with
          | [] => Ok res
          | e' => intersect_loop fuel m' (drop_while (fun q => x =? p_cid q) e')
                    (res ++ take_while (fun q => x =? p_cid q) e')
          end
      end) by (rewrite Em, Ee; reflexivity).
    rewrite EQ. clear EQ.
    assert (Hp : forall q, In q e -> p_cid p <= p_cid q).
    { rewrite Ee. intros q [<-|Hq]; [lia|]. rewrite Ee in He. inversion He as [|? ? H1 H2]; subst.
      rewrite Forall_forall in H2. auto. }
    pose proof (take_drop_while (fun x => x <? p_cid p) m) as Sm.
    pose proof (take_below_lt (fun x => x) (p_cid p) m) as Tm.
    pose proof (drop_below_ge (fun x => x) (p_cid p) m Hm) as Dm.
    pose proof (fsorted_drop (fun x => x) (fun x => x <? p_cid p) m Hm) as Fm.
    cbv beta in Tm, Dm.
    set (A := take_while (fun x => x <? p_cid p) m) in *.
    assert (Lm : le (length (drop_while (fun x => x <? p_cid p) m)) (length m)) by apply drop_while_length.
    destruct (drop_while (fun x => x <? p_cid p) m) as [|x m'] eqn:Ed.
    { rewrite filter_all_false; [now rewrite app_nil_r|]. intros q Hq. apply member_not.
      rewrite <- Sm, app_nil_r. rewrite Forall_forall in Tm. intros C. specialize (Tm _ C).
      specialize (Hp q Hq). lia. }
    pose proof (take_drop_while (fun q => p_cid q <? x) e) as Se.
    pose proof (take_below_lt p_cid x e) as Te.
    pose proof (drop_below_ge p_cid x e He) as De.
    pose proof (fsorted_drop p_cid (fun q => p_cid q <? x) e He) as Fe.
    assert (Le : le (length (drop_while (fun q => p_cid q <? x) e)) (length e)) by apply drop_while_length.
    set (T := take_while (fun q => p_cid q <? x) e) in *.
    assert (Fm1 := StronglySorted_inv Fm). destruct Fm1 as [Fm1 Fm2].
    (* a dropped posting is not a member *)
    assert (HT : forall q, In q T -> member (p_cid q) m = false).
    { intros q Hq. apply member_not. rewrite <- Sm. rewrite in_app_iff. intros [C|C].
      - rewrite Forall_forall in Tm. specialize (Tm _ C).
        assert (In q e) by (rewrite <- Se; apply in_or_app; auto). specialize (Hp q H). lia.
      - rewrite Forall_forall in Te. specialize (Te _ Hq). destruct C as [C|C]; [lia|].
        rewrite Forall_forall in Fm2. specialize (Fm2 _ C). cbv beta in Fm2. lia. }
    destruct (drop_while (fun q => p_cid q <? x) e) as [|q e'] eqn:Ede.
    { rewrite filter_all_false; [now rewrite app_nil_r|]. rewrite <- Se, app_nil_r. exact HT. }
    set (E := q :: e') in *.
    pose proof (take_drop_while (fun q => x =? p_cid q) E) as S2.
    pose proof (take_while_all (fun q => x =? p_cid q) E) as T2.
    pose proof (drop_eq_gt p_cid x E Fe De) as D2.
    pose proof (fsorted_drop p_cid (fun q => x =? p_cid q) E Fe) as F2.
    assert (L2 : le (length (drop_while (fun q => x =? p_cid q) E)) (length E)) by apply drop_while_length.
    rewrite IH; [|exact Fm1|exact F2|simpl in Lm; lia].
    f_equal. rewrite <- app_assoc. f_equal.
    transitivity (filter (fun p => member (p_cid p) m)
      (T ++ take_while (fun q => x =? p_cid q) E ++ drop_while (fun q => x =? p_cid q) E));
      [|now rewrite S2, Se].
    rewrite !filter_app. rewrite (filter_all_false _ T HT). cbn [app]. f_equal.
    + symmetry. apply filter_all_true. intros r Hr. apply member_in. rewrite <- Sm.
      apply in_or_app. right. left. rewrite Forall_forall in T2. specialize (T2 _ Hr). cbv beta in T2. lia.
    + apply filter_ext_in. intros r Hr. rewrite Forall_forall in D2. specialize (D2 _ Hr).
      cbv beta in D2. apply eq_true_iff_eq. rewrite !member_in. rewrite <- Sm. rewrite in_app_iff.
      split; auto. { right. simpl. auto. }
      intros [C|[C|C]]; auto; [|lia]. rewrite Forall_forall in Tm. specialize (Tm _ C).
      inversion Dm; subst. lia.
Qed.

Lemma intersect_eq old m e : ascending m -> fsorted p_cid e -> m <> [] -> e <> [] ->
  intersect old m e = Ok (filter (fun p => member (p_cid p) m) e).
Proof.
  intros Hm He H1 H2. destruct m; [easy|]. destruct e; [easy|].
  unfold intersect. rewrite intersect_loop_eq; auto.
Qed.
