(* Facts about the library algorithms of Std_Model.v. *)
From Coq Require Import List NArith Arith Lia Bool Sorted Permutation.
From Coq Require Import ZifyBool ZifyN ZifyNat.
From Verif Require Import Base Std_Model.
Import ListNotations.

Lemma take_drop_while {A} (p : A -> bool) l : take_while p l ++ drop_while p l = l.
Proof. induction l; simpl; auto. destruct (p a); simpl; congruence. Qed.

Lemma take_while_all {A} (p : A -> bool) l : Forall (fun x => p x = true) (take_while p l).
Proof. induction l; simpl; auto. destruct (p a) eqn:E; constructor; auto. Qed.

Lemma drop_while_head {A} (p : A -> bool) l x r : drop_while p l = x :: r -> p x = false.
Proof.
  induction l; simpl; [discriminate|]. destruct (p a) eqn:E; auto.
  intros H; injection H; intros; subst; auto.
Qed.

Lemma drop_while_length {A} (p : A -> bool) l : length (drop_while p l) <= length l.
Proof. induction l; simpl; auto. destruct (p a); simpl; lia. Qed.

Lemma drop_while_id {A} (p : A -> bool) x l : p x = false -> drop_while p (x :: l) = x :: l.
Proof. intros H. simpl. now rewrite H. Qed.

Lemma drop_while_lt {A} (p : A -> bool) x l :
  p x = true -> length (drop_while p (x :: l)) < length (x :: l).
Proof. intros H. simpl. rewrite H. pose proof (drop_while_length p l). lia. Qed.

Lemma drop_while_nil_all {A} (p : A -> bool) l :
  drop_while p l = [] -> Forall (fun x => p x = true) l.
Proof.
  intros H. rewrite <- (take_drop_while p l), H, app_nil_r. apply take_while_all.
Qed.

Lemma lower_bound_loop_spec fuel below first len :
  len <= fuel ->
  (forall k k', first <= k -> k <= k' -> k' < first + len ->
     below k' = true -> below k = true) ->
  let r := lower_bound_loop fuel below first len in
  first <= r <= first + len /\
  (forall k, first <= k < r -> below k = true) /\
  (forall k, r <= k < first + len -> below k = false).
Proof.
  revert first len; induction fuel; intros first len Hf Hm; cbn [lower_bound_loop].
  - assert (len = 0) by lia. subst. simpl. repeat split; intros; lia.
  - destruct len as [|len'].
    + simpl. repeat split; intros; lia.
    + set (len := S len') in *.
      assert (Hh : Nat.div2 len < len) by (apply Nat.lt_div2; lia).
      set (half := Nat.div2 len) in *.
      destruct (below (first + half)) eqn:E.
      * specialize (IHfuel (first + half + 1) (len - half - 1)).
        destruct IHfuel as (H1 & H2 & H3); [lia| |].
        { intros k k' ? ? ? Hb. apply (Hm k k'); auto; lia. }
        cbv zeta in *. repeat split; try lia.
        -- intros k Hk. destruct (le_lt_dec (first + half + 1) k).
           ++ apply H2; lia.
           ++ apply (Hm k (first + half)); auto; lia.
        -- intros k Hk. apply H3. lia.
      * specialize (IHfuel first half).
        destruct IHfuel as (H1 & H2 & H3); [lia| |].
        { intros k k' ? ? ? Hb. apply (Hm k k'); auto; lia. }
        cbv zeta in *. repeat split; try lia; auto.
        intros k Hk. destruct (le_lt_dec (first + half) k).
        -- destruct (below k) eqn:E2; auto.
           rewrite (Hm (first + half) k) in E; auto; lia.
        -- apply H3. lia.
Qed.

Lemma lower_bound_spec below first last :
  first <= last ->
  (forall k k', first <= k -> k <= k' -> k' < last -> below k' = true -> below k = true) ->
  exists r, lower_bound below first last = Some r /\ first <= r <= last /\
  (forall k, first <= k < r -> below k = true) /\
  (forall k, r <= k < last -> below k = false).
Proof.
  intros Hle Hm. unfold lower_bound. replace (first <=? last) with true by lia.
  destruct (lower_bound_loop_spec (last - first) below first (last - first)) as (H1 & H2 & H3).
  - lia.
  - intros. apply (Hm k k'); auto; lia.
  - eexists. split; [reflexivity|]. split; [lia|]. split; auto.
    intros. apply H3. lia.
Qed.
