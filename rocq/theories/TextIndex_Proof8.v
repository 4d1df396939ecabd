(* The contexts collected from a context file. *)
From Coq Require Import List NArith Arith Bool Lia Permutation Sorted ZifyN ZifyNat ZifyBool.
From Verif Require Import Fts_Model Fts_Spec TextIndex_Model TextIndex_Spec.
Import ListNotations.
Open Scope N_scope.

Definition score_of_lines (ls : list line) : option N :=
  match ls with [] => None | _ => Some (score_sum (map ln_score ls)) end.
Fixpoint get (m : list (N * N)) (i : N) : option N :=
  match m with [] => None | (j, s) :: m' => if j =? i then Some s else get m' i end.

Lemma get_add id s m i : get (add_score id s m) i =
  if i =? id then Some (add16 (match get m id with Some t => t | None => 0 end) s) else get m i.
Proof.
  induction m as [|[j t] m IH]; cbn [add_score get].
  - rewrite (N.eqb_sym id i). now destruct (i =? id).
  - destruct (j =? id) eqn:E1; cbn [get].
    + apply N.eqb_eq in E1. subst j. rewrite (N.eqb_sym id i). destruct (i =? id); auto.
    + rewrite IH. destruct (j =? i) eqn:E2; auto. destruct (i =? id) eqn:E3; auto. lia.
Qed.
Lemma add_nodup id s m : NoDup (map fst m) -> NoDup (map fst (add_score id s m)).
Proof.
  assert (K : forall m i, In i (map fst (add_score id s m)) -> i = id \/ In i (map fst m)).
  { clear. induction m as [|[j t] m IH]; intros i; cbn; [intuition|]. destruct (j =? id); cbn; [tauto|].
    intros [H|H]; auto. apply IH in H. tauto. }
  induction m as [|[j t] m IH]; intros H; cbn [add_score map fst]; [constructor; auto|].
  cbn [map fst] in H. inversion H as [|? ? H1 H2]; subst.
  destruct (j =? id) eqn:E; cbn [map fst]; [now constructor|]. constructor; auto.
  intros X. apply K in X. destruct X as [X|X]; [lia|auto].
Qed.
Lemma get_in m i s : NoDup (map fst m) -> In (i, s) m <-> get m i = Some s.
Proof.
  induction m as [|[j t] m IH]; intros H; cbn [get]; [split; [intros []|discriminate]|].
  cbn [map fst] in H. inversion H as [|? ? H1 H2]; subst. destruct (j =? i) eqn:E.
  - apply N.eqb_eq in E. subst j. split.
    + intros [Q|Q]; [congruence|]. exfalso. apply H1. apply in_map_iff. exists (i, s). auto.
    + intros Q. injection Q as ->. now left.
  - rewrite <- IH by auto. split; [intros [Q|Q]; auto; injection Q as -> ->; lia|now right].
Qed.
Lemma score_sum_snoc l s : score_sum (l ++ [s]) = add16 (score_sum l) s.
Proof.
  unfold score_sum, add16. rewrite N.add_mod_idemp_l by discriminate. f_equal.
  induction l as [|a l IH]; cbn [app fold_right]; lia.
Qed.
Lemma score_snoc ls l : score_of_lines (ls ++ [l]) =
  Some (add16 (match score_of_lines ls with Some t => t | None => 0 end) (ln_score l)).
Proof.
  destruct ls as [|x ls]; cbn [app score_of_lines]; f_equal; rewrite ?map_app.
  - cbn [map]. change [ln_score l] with ([] ++ [ln_score l]). rewrite score_sum_snoc. reflexivity.
  - change (x :: ls ++ [l]) with ((x :: ls) ++ [l]). rewrite map_app. cbn [map]. apply score_sum_snoc.
Qed.

Definition describes (c : context) (ls : list line) : Prop :=
  NoDup (map fst (c_words c)) /\ NoDup (map fst (c_ents c)) /\
  (forall i, get (c_words c) i = score_of_lines (filter (for_id false (c_id c) i) ls)) /\
  (forall i, get (c_ents c) i = score_of_lines (filter (for_id true (c_id c) i) ls)).

Lemma filter_snoc {A} (p : A -> bool) l a : filter p (l ++ [a]) = filter p l ++ (if p a then [a] else []).
Proof. rewrite filter_app. cbn. now destruct (p a). Qed.
Lemma take_line_ok c ls l : describes c ls -> ln_cid l = c_id c ->
  c_id (take_line l c) = c_id c /\ describes (take_line l c) (ls ++ [l]).
Proof.
  intros [D1 [D2 [D3 D4]]] E. unfold take_line, describes. destruct (ln_id l) as [j|] eqn:Ej.
  - destruct (ln_entity l) eqn:Ee; cbn [c_id c_words c_ents]; split; auto.
    + split; auto. split; [now apply add_nodup|]. split; intros i; rewrite filter_snoc; unfold for_id at 2;
        rewrite E, N.eqb_refl, Ee, Ej; cbn [andb Bool.eqb].
      * rewrite app_nil_r. auto.
      * rewrite get_add, !D4. rewrite (N.eqb_sym j i). destruct (i =? j) eqn:Ei.
        -- apply N.eqb_eq in Ei. subst i. now rewrite score_snoc.
        -- now rewrite app_nil_r.
    + split; [now apply add_nodup|]. split; auto. split; intros i; rewrite filter_snoc; unfold for_id at 2;
        rewrite E, N.eqb_refl, Ee, Ej; cbn [andb Bool.eqb].
      * rewrite get_add, !D3. rewrite (N.eqb_sym j i). destruct (i =? j) eqn:Ei.
        -- apply N.eqb_eq in Ei. subst i. now rewrite score_snoc.
        -- now rewrite app_nil_r.
      * rewrite app_nil_r. auto.
  - split; auto. split; auto. split; auto. split; intros i; rewrite filter_snoc; unfold for_id at 2; rewrite Ej, andb_false_r, app_nil_r; auto.
Qed.
Lemma filter_other ent x i ls : (forall l, In l ls -> ln_cid l <> x) -> filter (for_id ent x i) ls = [].
Proof.
  induction ls as [|l ls IH]; intros H; auto. cbn [filter]. unfold for_id at 1.
  replace (ln_cid l =? x) with false by (symmetry; apply N.eqb_neq; apply H; now left). cbn [andb].
  apply IH. intros; apply H; now right.
Qed.
Lemma describes_more c ls ls' : describes c ls -> (forall l, In l ls' -> ln_cid l <> c_id c) -> describes c (ls ++ ls').
Proof.
  intros [D1 [D2 [D3 D4]]] H. split; auto. split; auto.
  split; intros i; rewrite filter_app, (filter_other _ _ _ ls'), app_nil_r; auto.
Qed.

Lemma pass_loop_ok lines : forall cur prev, ascending (map ln_cid lines) -> describes cur prev ->
  (forall l, In l prev -> ln_cid l <= c_id cur) -> (forall l, In l lines -> c_id cur <= ln_cid l) ->
  strictly_ascending (map c_id (pass_loop cur lines)) /\
  (forall c, In c (pass_loop cur lines) -> c_id cur <= c_id c /\ describes c (prev ++ lines)) /\
  (forall x, In x (map c_id (pass_loop cur lines)) <-> x = c_id cur \/ In x (map ln_cid lines)).
Proof.
  induction lines as [|l lines IH]; intros cur prev Ha D Hp Hl; cbn [pass_loop].
  - split; [repeat constructor|]. rewrite app_nil_r. split.
    + intros c [<-|[]]. split; auto. lia.
    + intros x. cbn. intuition.
  - cbn [map] in Ha. apply StronglySorted_inv in Ha. destruct Ha as [Ha Hf]. rewrite Forall_forall in Hf.
    assert (Hl' : forall l', In l' lines -> ln_cid l <= ln_cid l') by (intros l' H; apply Hf; now apply in_map).
    destruct (ln_cid l =? c_id cur) eqn:E.
    + apply N.eqb_eq in E. destruct (take_line_ok cur prev l D E) as [E' D'].
      destruct (IH (take_line l cur) (prev ++ [l])) as [I1 [I2 I3]]; auto.
      * intros l' H. rewrite E'. apply in_app_iff in H. destruct H as [H|[<-|[]]]; auto. lia.
      * intros l' H. rewrite E', <- E. auto.
      * rewrite E', <- app_assoc in *. split; auto. split; auto. intros x. rewrite I3. cbn. rewrite E. intuition.
    + assert (Lt : c_id cur < ln_cid l) by (specialize (Hl l (or_introl eq_refl)); lia).
      assert (Dn : describes (mk_context (ln_cid l) [] []) prev).
      { split; [constructor|]. split; [constructor|]. cbn [c_words c_ents c_id].
        split; intros i; rewrite filter_other; auto; intros l' H; specialize (Hp l' H); lia. }
      destruct (take_line_ok _ prev l Dn eq_refl) as [E' D']. cbn [c_id] in E'.
      destruct (IH (take_line l (mk_context (ln_cid l) [] [])) (prev ++ [l])) as [I1 [I2 I3]]; auto.
      * intros l' H. rewrite E'. apply in_app_iff in H. destruct H as [H|[<-|[]]]; [specialize (Hp l' H)|]; lia.
      * intros l' H. rewrite E'. auto.
      * rewrite E', <- app_assoc in *. cbn [app] in I2. split; [|split].
        -- cbn [map]. constructor; [exact I1|]. rewrite Forall_forall. intros x Hx. apply I3 in Hx.
           destruct Hx as [->|Hx]; auto. apply in_map_iff in Hx. destruct Hx as [l' [<- Hx]]. specialize (Hl' l' Hx). lia.
        -- intros c [<-|H].
           ++ split; [lia|]. apply describes_more; auto. intros l' [<-|H]; [lia|]. specialize (Hl' l' H). lia.
           ++ destruct (I2 c H). split; auto. lia.
        -- intros x. cbn [map In]. rewrite I3. intuition.
Qed.
