(* What the aggregation of rows computes. *)
From Coq Require Import List NArith Arith Bool Lia Permutation Sorted.
From Verif Require Import Table_Spec Rows_Spec Rows_Model.
Import ListNotations.
Open Scope N_scope.

Fixpoint lexle (l r : list N) : Prop :=
  match l, r with
  | x :: l', y :: r' => x < y \/ (x = y /\ lexle l' r')
  | _, _ => True
  end.
Lemma lexle_antisym l : forall r, length l = length r -> lexle l r -> lexle r l -> l = r.
Proof.
  induction l as [|x l IH]; intros [|y r] L H1 H2; cbn in *; try lia; auto. destruct H1 as [H1|[-> H1]], H2 as [H2|[E2 H2]]; try lia.
  f_equal. apply IH; auto.
Qed.
Lemma less_from_le l : forall r e, length l = length r -> less_from r l e = false -> lexle l r.
Proof.
  induction l as [|x l IH]; intros [|y r] e L H; cbn in *; auto; try lia. destruct (N.eqb_spec y x) as [->|Ne]; [right; split; eauto|].
  apply N.ltb_ge in H. left. lia.
Qed.
Lemma sorted_le a b : length a = length b -> less_row b a = false -> lexle (entities a) (entities b).
Proof.
  intros L H. unfold less_row in H. cbn [entities lexle]. destruct (N.eqb_spec (col 0 b) (col 0 a)) as [E|E].
  - right. split; auto. eapply less_from_le; [|exact H]. rewrite !skipn_length. lia.
  - apply N.ltb_ge in H. left. lia.
Qed.
Lemma same_from_eq l : forall r, length l = length r -> same_from l r = true <-> l = r.
Proof.
  induction l as [|x l IH]; intros [|y r] L; cbn in *; try lia; [tauto|]. destruct (N.eqb_spec x y) as [->|Ne].
  - rewrite IH by lia. split; [now intros ->|]. intros H. now injection H.
  - split; congruence.
Qed.
Lemma same_row_eq a b : length a = length b -> same_row a b = true <-> entities a = entities b.
Proof.
  intros L. unfold same_row, entities. rewrite andb_true_iff, N.eqb_eq, same_from_eq by (rewrite !skipn_length; lia).
  split; [now intros [-> ->]|]. intros H. injection H. auto.
Qed.
Lemma with_score_entities n r : (2 <= length r)%nat -> entities (with_score n r) = entities r.
Proof. destruct r as [|e [|s r]]; cbn; try lia. reflexivity. Qed.

(* the rows of one combination g, then the remaining rows *)
Fixpoint fin (k : nat) (g : table) (l : table) : table :=
  match l with
  | [] => firstn k g
  | r :: l' => if same_row r (hd [] g) then fin k (g ++ [r]) l'
               else map (with_score (N.of_nat (length g))) (firstn k g) ++ fin k [r] l'
  end.
Lemma in_firstn {X} k (l : list X) x : In x (firstn k l) -> In x l.
Proof. intros H. rewrite <- (firstn_skipn k l). apply in_or_app. now left. Qed.
Lemma last_app (res : table) r d : last (res ++ [r]) d = r.
Proof. induction res as [|x res IH]; cbn; auto. destruct (res ++ [r]) eqn:E; [destruct res; discriminate|exact IH]. Qed.
Lemma last_in (g : table) d : g <> [] -> In (last g d) g.
Proof. induction g as [|x [|y g] IH]; intros H; [congruence|now left|]. right. apply IH. discriminate. Qed.
Lemma last_app2 (a b : table) d : b <> [] -> last (a ++ b) d = last b d.
Proof.
  intros H. induction a as [|x a IH]; auto. cbn [app]. destruct (a ++ b) eqn:E; [apply app_eq_nil in E; tauto|]. cbn [last]. now rewrite <- IH.
Qed.
Lemma step_eq k res cnt r : step k (res, cnt) r =
  if same_row r (last res []) then (if (S cnt <=? k)%nat then res ++ [r] else res, S cnt)
  else (update_last (Nat.min cnt k) (N.of_nat cnt) res ++ [r], 1%nat).
Proof. reflexivity. Qed.
Lemma firstn_one {X} k (r : X) : (0 < k)%nat -> firstn k [r] = [r].
Proof. destruct k; [lia|]. intros _. cbn. now rewrite firstn_nil. Qed.
Lemma fold_fin k w l : forall g done, (0 < k)%nat -> g <> [] -> (forall r, In r g -> length r = w) -> (forall r, In r l -> length r = w) ->
  (forall a b, In a g -> In b g -> entities a = entities b) ->
  fst (fold_left (step k) l (done ++ firstn k g, length g)) = done ++ fin k g l.
Proof.
  induction l as [|r l IH]; intros g done Hk Hg Wg Wl Hs; [reflexivity|]. cbn [fold_left fin].
  assert (Fg : firstn k g <> []) by (destruct g, k; cbn; congruence || lia).
  assert (Lg : In (last (done ++ firstn k g) []) g).
  { rewrite last_app2 by auto. assert (X := last_in (firstn k g) [] Fg). exact (in_firstn _ _ _ X). }
  assert (Hh : In (hd [] g) g) by (destruct g; [congruence|now left]).
  assert (Ls : same_row r (last (done ++ firstn k g) []) = same_row r (hd [] g)).
  { apply eq_true_iff_eq. rewrite !same_row_eq by (rewrite (Wl r) by apply in_eq; symmetry; apply Wg; auto). now rewrite (Hs _ _ Lg Hh). }
  rewrite step_eq. unfold table, row in *. rewrite Ls. destruct (same_row r (hd [] g)) eqn:E.
  - assert (X : (if (S (length g) <=? k)%nat then (done ++ firstn k g) ++ [r] else done ++ firstn k g) = done ++ firstn k (g ++ [r])).
    { destruct (Nat.leb_spec (S (length g)) k) as [H|H].
      - rewrite !firstn_all2 by (rewrite ?app_length; cbn; lia). now rewrite app_assoc.
      - rewrite firstn_app. replace (k - length g)%nat with 0%nat by lia. cbn [firstn]. now rewrite app_nil_r. }
    rewrite X. replace (S (length g)) with (length (g ++ [r])) by (rewrite app_length; cbn; lia).
    apply IH; auto.
    + destruct g; discriminate.
    + intros r0 H. apply in_app_iff in H. destruct H as [H|[<-|[]]]; auto using in_eq.
    + intros; apply Wl; now right.
    + assert (Er : entities r = entities (hd [] g)) by (apply same_row_eq; [rewrite (Wl r) by apply in_eq; symmetry; apply Wg; auto|auto]).
      intros a b Ha Hb. apply in_app_iff in Ha, Hb. destruct Ha as [Ha|[<-|[]]], Hb as [Hb|[<-|[]]]; auto; rewrite Er; auto.
  - unfold update_last. rewrite app_length, firstn_length. replace (Nat.min (length g) k) with (Nat.min k (length g)) by lia.
    replace (length done + Nat.min k (length g) - Nat.min k (length g))%nat with (length done) by lia.
    rewrite firstn_app, skipn_app, Nat.sub_diag, firstn_all, skipn_all. cbn [firstn skipn app]. rewrite app_nil_r.
    assert (N1 : [r] <> []) by (intros X; inversion X). specialize (IH [r] (done ++ map (with_score (N.of_nat (length g))) (firstn k g)) Hk N1).
    rewrite firstn_one in IH by auto. cbn [length] in IH.
    etransitivity; [|etransitivity; [apply IH|now rewrite <- app_assoc]]; [unfold table, row; now rewrite <- !app_assoc| | |].
    + intros r0 [<-|[]]. auto using in_eq.
    + intros; apply Wl; now right.
    + intros a b [<-|[]] [<-|[]]. reflexivity.
Qed.

Lemma rows_of_app key a b : rows_of key (a ++ b) = rows_of key a ++ rows_of key b.
Proof. apply filter_app. Qed.
Lemma rows_of_all key g : (forall r, In r g -> entities r = key) -> rows_of key g = g.
Proof.
  unfold rows_of. induction g as [|r g IH]; intros H; cbn; auto. unfold has_entities at 1. rewrite (H r) by now left.
  destruct (list_eq_dec N.eq_dec key key); [|congruence]. f_equal. apply IH. intros; apply H; now right.
Qed.
Lemma rows_of_none key g : (forall r, In r g -> entities r <> key) -> rows_of key g = [].
Proof.
  unfold rows_of. induction g as [|r g IH]; intros H; cbn; auto. unfold has_entities at 1.
  destruct (list_eq_dec N.eq_dec (entities r) key) as [E|]; [elim (H r); auto; now left|]. apply IH. intros; apply H; now right.
Qed.
Lemma fin_rows k w key : (2 <= w)%nat -> forall l g K, g <> [] -> (forall r, In r g -> entities r = K) -> (forall r, In r (g ++ l) -> length r = w) ->
  StronglySorted (fun a b => lexle (entities a) (entities b)) (g ++ l) ->
  rows_of key (fin k g l) =
    (if list_eq_dec N.eq_dec (entities (last (g ++ l) [])) key then firstn k (rows_of key (g ++ l))
     else map (with_score (N.of_nat (length (rows_of key (g ++ l))))) (firstn k (rows_of key (g ++ l)))).
Proof.
  intros Hw. induction l as [|r l IH]; intros g K Hg HK W S; cbn [fin].
  - rewrite !app_nil_r. assert (X := last_in g [] Hg). destruct (list_eq_dec N.eq_dec (entities (last g [])) key) as [E|E].
    + rewrite (HK _ X) in E. subst K. rewrite (rows_of_all key g) by auto. apply rows_of_all. intros r H. apply HK. now apply in_firstn in H.
    + rewrite (HK _ X) in E. rewrite (rows_of_none key g) by (intros r H; rewrite (HK r H); auto). rewrite firstn_nil. cbn.
      apply rows_of_none. intros r H. apply in_firstn in H. rewrite (HK r H). auto.
  - assert (Hh : In (hd [] g) g) by (destruct g; [congruence|now left]).
    destruct (same_row r (hd [] g)) eqn:E.
    + assert (Er : entities r = entities (hd [] g)).
      { apply same_row_eq; auto. rewrite (W r), (W (hd [] g)); auto; apply in_or_app; [now left|right; now left]. }
      specialize (IH (g ++ [r]) K). rewrite <- !app_assoc in IH. cbn [app] in IH. apply IH; auto; [destruct g; discriminate|].
      intros x Hx. apply in_app_iff in Hx. destruct Hx as [Hx|[<-|[]]]; auto. rewrite Er. auto.
    + assert (Ne : entities r <> K).
      { intros Er. assert (X : same_row r (hd [] g) = true); [|congruence]. apply same_row_eq; [|now rewrite (HK _ Hh)].
        rewrite (W r), (W (hd [] g)); auto; apply in_or_app; [now left|right; now left]. }
      assert (S2 : StronglySorted (fun a b => lexle (entities a) (entities b)) (r :: l)).
      { clear - S. induction g as [|x g IHg]; auto. inversion S; subst. auto. }
      assert (Nl : forall x, In x (r :: l) -> entities x <> K).
      { intros x Hx Ex. destruct Hx as [<-|Hx]; [auto|]. apply Ne. 
        assert (L1 : lexle (entities (hd [] g)) (entities r)).
        { clear - S Hg. destruct g as [|y g]; [congruence|]. cbn in *. inversion S as [|? ? _ F]; subst. rewrite Forall_forall in F. apply F. apply in_or_app. right. now left. }
        assert (L2 : lexle (entities r) (entities x)) by (inversion S2 as [|? ? _ F]; subst; rewrite Forall_forall in F; auto).
        rewrite (HK _ Hh) in L1. rewrite Ex in L2. apply lexle_antisym; auto.
        rewrite <- (HK _ Hh). unfold entities. cbn [length]. rewrite !skipn_length. rewrite (W r), (W (hd [] g)); auto; apply in_or_app; [now left|right; now left]. }
      rewrite rows_of_app. assert (N1 : [r] <> []) by (intros X; inversion X). specialize (IH [r] (entities r) N1). cbn [app] in IH. rewrite IH; auto.
      * rewrite rows_of_app. assert (Ll : last (g ++ r :: l) [] = last (r :: l) []) by (apply last_app2; discriminate). rewrite Ll.
        destruct (list_eq_dec N.eq_dec K key) as [->|Nk].
        -- assert (Z : rows_of key (r :: l) = []) by now apply rows_of_none. rewrite Z, firstn_nil, !app_nil_r. cbn [length].
           rewrite (rows_of_all key g) by auto.
           destruct (list_eq_dec N.eq_dec (entities (last (r :: l) [])) key) as [E2|E2].
           ++ exfalso. apply (Nl (last (r :: l) [])); auto. apply last_in. discriminate.
           ++ cbn [map]. rewrite !app_nil_r. apply rows_of_all. intros x Hx. apply in_map_iff in Hx. destruct Hx as (y & <- & Hy). apply in_firstn in Hy. rewrite with_score_entities; auto.
              rewrite W by (apply in_or_app; auto). lia.
        -- rewrite (rows_of_none key g) by (intros x Hx; rewrite (HK x Hx); auto). cbn [app].
           rewrite (rows_of_none key (map _ _)); [reflexivity|]. intros x Hx. apply in_map_iff in Hx. destruct Hx as (y & <- & Hy). apply in_firstn in Hy.
           rewrite with_score_entities; [rewrite (HK y Hy); auto|]. rewrite W by (apply in_or_app; auto). lia.
      * intros x [<-|[]]. reflexivity.
      * intros x Hx. apply W. apply in_or_app. now right.
Qed.
Lemma agg_rows_ok sort k w t : (0 < k)%nat -> (2 <= w)%nat -> width w t -> Permutation (sort t) t -> StronglySorted (fun a b => less_row b a = false) (sort t) ->
  forall key, rows_of key (agg_rows sort k t) =
    (if list_eq_dec N.eq_dec (entities (last (sort t) [])) key then firstn k (rows_of key (sort t))
     else map (with_score (N.of_nat (length (rows_of key t)))) (firstn k (rows_of key (sort t)))).
Proof.
  intros Hk Hw W P S key. assert (Ws : forall r, In r (sort t) -> length r = w).
  { intros r Hr. unfold width in W. rewrite Forall_forall in W. apply W. eapply Permutation_in; eauto. }
  assert (El : length (rows_of key t) = length (rows_of key (sort t))).
  { apply Permutation_length. unfold rows_of. clear - P. induction P as [|x l l' P IH|x y l|a b c P1 I1 P2 I2]; cbn; auto.
    - destruct (has_entities key x); auto.
    - destruct (has_entities key x), (has_entities key y); auto. apply perm_swap.
    - eauto using perm_trans. }
  rewrite El. clear El P W. unfold agg_rows. destruct (sort t) as [|r l] eqn:E.
  - cbn [rows_of filter]. rewrite firstn_nil. match goal with |- _ = if ?b then _ else _ => destruct b; reflexivity end.
  - assert (N1 : [r] <> []) by (intros X; inversion X). assert (F := fold_fin k w l [r] [] Hk N1). rewrite firstn_one in F by auto. cbn [app length] in F.
    etransitivity; [apply f_equal; apply F|].
    + intros x [<-|[]]. apply Ws. now left.
    + intros x Hx. apply Ws. now right.
    + intros a b [<-|[]] [<-|[]]. reflexivity.
    + apply (fin_rows k w key Hw l [r] (entities r)); auto; [intros x [<-|[]]; reflexivity|]. cbn [app].
      clear - S Ws. induction S as [|a l' S IH Fo]; constructor; [apply IH; intros; apply Ws; now right|].
      rewrite Forall_forall in *. intros b Hb. apply sorted_le; auto. rewrite (Ws a), (Ws b) by (auto using in_eq, in_cons). reflexivity.
Qed.
Lemma before_le l : forall r, before l r -> lexle r l -> False.
Proof.
  induction l as [|x l IH]; intros [|y r] H1 H2; cbn in *; try tauto. destruct H1 as [H1|[-> H1]], H2 as [H2|[E H2]]; try lia. eauto.
Qed.
Lemma lexle_refl l : lexle l l.
Proof. induction l; cbn; auto. Qed.
Lemma last_max (l : table) : StronglySorted (fun a b => lexle (entities a) (entities b)) l -> forall r, In r l -> lexle (entities r) (entities (last l [])).
Proof.
  induction 1 as [|a l S IH F]; intros r Hr; [elim Hr|]. destruct l as [|b l].
  - destruct Hr as [<-|[]]. apply lexle_refl.
  - change (last (a :: b :: l) []) with (last (b :: l) ([] : row)). destruct Hr as [<-|Hr]; auto. rewrite Forall_forall in F. apply F.
    apply (last_in (b :: l) []). discriminate.
Qed.
Lemma less_from_refl l e : less_from l l e = e.
Proof. induction l as [|x l IH]; cbn; auto. now rewrite N.eqb_refl. Qed.
Lemma sorted_scores key (l : table) : StronglySorted (fun a b => less_row b a = false) l ->
  StronglySorted (fun a b => score a <= score b) (rows_of key l).
Proof.
  induction 1 as [|a l S IH F]; cbn; [constructor|]. destruct (has_entities key a) eqn:Ha; auto. constructor; auto.
  rewrite Forall_forall in *. intros b Hb. apply filter_In in Hb. destruct Hb as [Hb Eb]. specialize (F b Hb).
  unfold has_entities in Ha, Eb. destruct (list_eq_dec N.eq_dec (entities a) key) as [Ea|], (list_eq_dec N.eq_dec (entities b) key) as [Ebb|]; try discriminate.
  rewrite <- Ebb in Ea. unfold entities in Ea. assert (E0 := f_equal (hd 0) Ea). assert (E3 := f_equal (@tl N) Ea). cbn [hd tl] in E0, E3. unfold less_row in F. rewrite E0, E3, N.eqb_refl, less_from_refl in F.
  apply N.ltb_ge in F. exact F.
Qed.
Lemma split_scores k (l : table) : StronglySorted (fun a b => score a <= score b) l ->
  forall b o, In b (firstn k l) -> In o (skipn k l) -> score b <= score o.
Proof.
  intros S. revert k. induction S as [|a l S IH F]; intros [|k] b o Hb Ho; cbn in *; try tauto. rewrite Forall_forall in F. destruct Hb as [<-|Hb]; eauto.
  apply F. rewrite <- (firstn_skipn k l). apply in_or_app. now right.
Qed.
Lemma perm_rows key (a b : table) : Permutation a b -> Permutation (rows_of key a) (rows_of key b).
Proof.
  unfold rows_of. induction 1 as [|x l l' P IH|x y l|a b c P1 I1 P2 I2]; cbn; auto.
  - destruct (has_entities key x); auto.
  - destruct (has_entities key x), (has_entities key y); auto. apply perm_swap.
  - eauto using perm_trans.
Qed.
Lemma sorted_lex w (l : table) : (forall r, In r l -> length r = w) -> StronglySorted (fun a b => less_row b a = false) l ->
  StronglySorted (fun a b => lexle (entities a) (entities b)) l.
Proof.
  intros Ws S. induction S as [|a l' S IH Fo]; constructor; [apply IH; intros; apply Ws; now right|].
  rewrite Forall_forall in *. intros b Hb. apply sorted_le; auto. rewrite (Ws a), (Ws b) by (auto using in_eq, in_cons). reflexivity.
Qed.
