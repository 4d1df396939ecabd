(* Proofs: the nodes and the edges of the collapsed graph. *)
From Coq Require Import String Ascii List NArith Arith Bool Lia Permutation.
From Verif Require Import Plan_Spec Clique_Spec Clique_Model Clique_Proof Clique_Proof2.
From Verif Require Plan_Model.
Import ListNotations.
Local Open Scope nat_scope.

Lemma flat_map_single {A B} (f : A -> list B) (h : A -> B) l : (forall x, In x l -> f x = [h x]) -> flat_map f l = map h l.
Proof. induction l as [|x l IH]; intros H; cbn; auto. rewrite (H x) by now left. cbn. f_equal. apply IH. intros y Hy. apply H. now right. Qed.
Lemma flat_map_ext_in {A B} (f h : A -> list B) l : (forall x, In x l -> f x = h x) -> flat_map f l = flat_map h l.
Proof. induction l as [|x l IH]; intros H; cbn; auto. rewrite (H x) by now left. f_equal. apply IH. intros y Hy. apply H. now right. Qed.
Lemma nth_error_app_len {A} (a b : list A) n k : length a = n -> nth_error (a ++ b) k = if k <? n then nth_error a k else nth_error b (k - n).
Proof. intros <-. destruct (Nat.ltb_spec k (length a)); [apply nth_error_app1|apply nth_error_app2]; lia. Qed.

Section Collapse.
Variables (ts : list pattern) (g : graph).
Hypothesis B : built ts g.
Variable order : list clique -> list clique.
Hypothesis P : Permutation (identifyTextCliques g) (order (identifyTextCliques g)).
Notation n := (length ts).
Notation cl := (order (identifyTextCliques g)).
Notation G := (collapseTextCliques order g).
Notation R := (R ts cl).
Notation members := (members ts cl).
Notation new_of := (new_of ts cl).

Lemma triples_eq l : clique_triples g l = triples ts l.
Proof.
  destruct B as (_ & _ & B3 & _). unfold clique_triples, triples. apply flat_map_ext_in. intros i _. rewrite B3. now destruct (nth_error ts i).
Qed.

Lemma R_empty : cl = [] -> R = seq 0 n.
Proof.
  intros E. unfold Clique_Proof2.R, remaining. rewrite E. generalize (seq 0 n). induction l as [|i l IH]; auto. cbn [filter]. rewrite IH. reflexivity.
Qed.

(* the nodes *)
Definition node_at (k : nat) : option node :=
  if k <? length cl then option_map (fun c => clique_node g k c) (nth_error cl k)
  else match nth_error R (k - length cl) with Some i => option_map (triple_node k) (nth_error ts i) | None => None end.

Lemma collapse_nodes k : nth_error (nodes G) k = node_at k.
Proof.
  destruct B as (B1 & B2 & B3 & _). unfold collapseTextCliques, node_at. destruct cl as [|c0 cl0] eqn:E.
  - cbn [length Nat.ltb Nat.leb]. rewrite Nat.sub_0_r. pose proof (R_empty E) as Er. rewrite E in Er. rewrite Er, B3.
    destruct (Nat.lt_ge_cases k n) as [H|H].
    + rewrite (nth_error_nth' _ 0) by now rewrite seq_length. now rewrite seq_nth by auto.
    + rewrite (proj2 (nth_error_None (seq 0 n) k)) by now rewrite seq_length. now rewrite (proj2 (nth_error_None ts k)).
  - rewrite <- E in P |- *. cbn [nodes]. rewrite B1. rewrite (nth_error_app_len _ _ (length cl)) by (rewrite map_length, combine_length, seq_length; lia).
    destruct (k <? length cl) eqn:L.
    + now rewrite nth_mapi.
    + assert (Q : flat_map (fun i => match nth_error (nodes g) i with Some x => [set_id (new_id cl n i) x] | None => [] end) (remaining cl n)
        = map (fun i => triple_node (new_id cl n i) (nth i ts (""%string, ""%string, ""%string))) R).
      { apply flat_map_single. intros i Hi. rewrite B3. apply (R_in ts g B cl P) in Hi. destruct Hi as [Hi _].
        rewrite (nth_error_nth' ts (""%string, ""%string, ""%string) Hi). reflexivity. }
      rewrite Q. clear Q. destruct (nth_error R (k - length cl)) as [i|] eqn:Er.
      * rewrite (map_nth_error _ _ _ Er). assert (Hi : In i R) by (eapply nth_error_In; eauto).
        apply (R_in ts g B cl P) in Hi. destruct Hi as [Hi _].
        rewrite (nth_error_nth' ts (""%string, ""%string, ""%string) Hi). cbn [option_map]. do 2 f_equal.
        unfold new_id. change (remaining cl n) with R. rewrite (index_of_nth R _ _ (R_nodup ts cl) Er).
        apply Nat.ltb_ge in L. lia.
      * apply nth_error_None. rewrite map_length. now apply nth_error_None.
Qed.
Lemma members_length : length members = length cl + length R.
Proof. unfold Clique_Proof2.members. now rewrite app_length, !map_length. Qed.
Lemma collapse_lengths : length (nodes G) = length members /\ length (adj G) = length members.
Proof.
  rewrite members_length. split.
  - assert (H : forall k, nth_error (nodes G) k = None <-> length cl + length R <= k).
    { intros k. rewrite collapse_nodes. unfold node_at. destruct (Nat.ltb_spec k (length cl)) as [L|L].
      - destruct (nth_error cl k) eqn:E; [|apply nth_error_None in E; lia]. cbn. split; [discriminate|lia].
      - destruct (nth_error R (k - length cl)) as [i|] eqn:E.
        + pose proof (nth_error_In _ _ E) as Hi. apply (R_in ts g B cl P) in Hi. destruct Hi as [Hi _].
          apply nth_error_lt in E. destruct (nth_error ts i) eqn:Et; [|apply nth_error_None in Et; lia]. cbn. split; [discriminate|lia].
        + apply nth_error_None in E. split; auto. lia. }
    apply Nat.le_antisymm.
    + apply nth_error_None. now apply H.
    + apply H. apply nth_error_None. lia.
  - destruct B as (B1 & B2 & _). unfold collapseTextCliques. destruct cl as [|c0 cl0] eqn:E.
    + cbn [length Nat.add]. pose proof (R_empty E) as Er. rewrite E in Er. rewrite Er, seq_length. auto.
    + rewrite <- E in P |- *. cbn [adj]. rewrite app_length, !map_length, combine_length, seq_length, Nat.min_id.
      f_equal. rewrite B1. reflexivity.
Qed.

(* the edges *)
Definition old_edge (i j : nat) : Prop :=
  i <> j /\ exists t u, nth_error ts i = Some t /\ nth_error ts j = Some u /\ exists v, occurs v t /\ occurs v u.
Lemma new_of_text j : new_of j < length cl -> removed cl j = Some (new_of j).
Proof. unfold Clique_Proof2.new_of. destruct (removed cl j); auto. unfold new_id. lia. Qed.

Lemma collapse_edges k k' : In k' (nth k (adj G) []) <-> k <> k' /\ exists i j, old_edge i j /\ new_of i = k /\ new_of j = k'.
Proof.
  pose proof B as (B1 & B2 & B3 & B4). unfold collapseTextCliques. destruct cl as [|c0 cl0] eqn:E.
  - rewrite B4. assert (N : forall i, i < n -> Clique_Proof2.new_of ts [] i = i).
    { intros i Hi. unfold Clique_Proof2.new_of. cbn [removed]. unfold new_id. cbn [length Nat.add].
      change (remaining [] n) with (Clique_Proof2.R ts []). pose proof (R_empty E) as Er. rewrite E in Er. rewrite Er.
      apply index_of_nth; [apply seq_NoDup|]. rewrite (nth_error_nth' _ 0) by now rewrite seq_length. now rewrite seq_nth. }
    unfold old_edge. split.
    + intros [H (t & u & H1 & H2 & H3)]. split; auto. exists k, k'. split; [eauto 7|]. split; apply N; eauto using nth_error_lt.
    + intros [H (i & j & (D & t & u & H1 & H2 & H3) & <- & <-)]. rewrite !N in * by eauto using nth_error_lt. split; eauto 7.
  - rewrite <- E in P |- *. cbn [adj]. rewrite B1. change (remaining cl n) with R.
    assert (Edge : forall i j, In j (nth i (adj g) []) <-> old_edge i j) by (intros; apply B4).
    assert (Rng : forall i j, old_edge i j -> i < n /\ j < n) by (intros i j (_ & t & u & H1 & H2 & _); eauto using nth_error_lt).
    match goal with |- context [nth k (?a ++ ?b) []] => set (ta := a); set (ra := b) end.
    assert (La : length ta = length cl) by (unfold ta; rewrite map_length, combine_length, seq_length; lia).
    destruct (Nat.lt_ge_cases k (length cl)) as [L|L].
    + rewrite app_nth1 by lia. destruct (nth_error cl k) as [[c l]|] eqn:Ek; [|apply nth_error_None in Ek; lia].
      assert (Q : nth_error ta k = Some (ids_set (flat_map (fun j =>
        match removed cl j with
        | None => [new_id cl n j]
        | Some k' => if Nat.eqb k' k then [] else [k']
        end) (ids_set (flat_map (fun i => nth i (adj g) []) l))))) by (unfold ta; etransitivity; [apply nth_mapi|]; unfold clique in *; rewrite Ek; reflexivity).
      rewrite (nth_error_nth _ _ _ Q). clear Q ta ra La. rewrite ids_set_in, in_flat_map.
      assert (Hl : forall i, In i l -> new_of i = k).
      { intros i Hi. assert (X : i < n /\ new_of i = k); [|tauto]. apply (members_in ts g B cl P). exists l. split; auto.
        unfold Clique_Proof2.members. rewrite nth_error_app1 by now rewrite map_length. exact (map_nth_error snd _ _ Ek). }
      split.
      * intros (j & Hj & Hk). rewrite ids_set_in in Hj. apply in_flat_map in Hj. destruct Hj as (i & Hi & Hj). apply Edge in Hj.
        assert (X : k <> k' /\ new_of j = k').
        { unfold Clique_Proof2.new_of. destruct (removed cl j) as [k1|].
          - destruct (Nat.eqb_spec k1 k); [destruct Hk|]. destruct Hk as [->|[]]. auto.
          - destruct Hk as [<-|[]]. split; auto. unfold new_id. lia. }
        destruct X as [X1 X2]. split; auto. exists i, j. auto.
      * intros [D (i & j & H & H1 & H2)]. exists j. split.
        -- rewrite ids_set_in. apply in_flat_map. exists i. split; [|now apply Edge].
           assert (X : exists l', nth_error members k = Some l' /\ In i l') by (apply (members_in ts g B cl P); split; auto; now apply (Rng i j)).
           destruct X as (l' & X1 & X2). unfold Clique_Proof2.members in X1. rewrite nth_error_app1 in X1 by now rewrite map_length.
           assert (X3 : nth_error (map snd cl) k = Some l) by exact (map_nth_error snd _ _ Ek). unfold clique in *. congruence.
        -- unfold Clique_Proof2.new_of in H2. destruct (removed cl j) as [k1|]; [|now left].
           subst k1. destruct (Nat.eqb_spec k' k); [congruence|]. now left.
    + rewrite app_nth2 by lia. rewrite La. destruct (nth_error R (k - length cl)) as [i|] eqn:Ek.
      * assert (Q : nth_error ra (k - length cl) = Some (ids_set (map (fun j =>
          match removed cl j with None => new_id cl n j | Some k => k end) (nth i (adj g) [])))) by exact (map_nth_error _ _ _ Ek).
        rewrite (nth_error_nth _ _ _ Q). clear Q ta ra La. rewrite ids_set_in, in_map_iff.
        assert (Hk : forall i', i' < n -> (new_of i' = k <-> i' = i)).
        { assert (M : nth_error members k = Some [i]).
          { unfold Clique_Proof2.members. rewrite (nth_error_app_len _ _ (length cl)) by apply map_length.
            rewrite (proj2 (Nat.ltb_ge _ _) L).
            exact (map_nth_error (fun i => [i]) _ _ Ek). }
          intros i' Hi'. split.
          - intros Hn. assert (X : exists l', nth_error members k = Some l' /\ In i' l') by (apply (members_in ts g B cl P); auto).
            destruct X as (l' & X1 & X2). rewrite M in X1. injection X1 as <-. destruct X2 as [->|[]]. reflexivity.
          - intros ->. assert (X : i < n /\ new_of i = k); [|tauto]. apply (members_in ts g B cl P). exists [i]. split; auto. now left. }
        split.
        -- intros (j & Hj & He). change (new_of j = k') in Hj. apply Edge in He. pose proof (Rng _ _ He) as [R1 R2]. split.
           ++ intros ->. apply (Hk j R2) in Hj. subst j. destruct He. congruence.
           ++ exists i, j. split; auto. split; auto. now apply Hk.
        -- intros [D (i' & j & He & H1 & H2)]. pose proof (Rng _ _ He) as [R1 R2]. apply (Hk i' R1) in H1. subst i'.
           exists j. split; [exact H2|]. now apply Edge.
      * assert (Q : nth (k - length cl) ra [] = []).
        { apply nth_overflow. unfold ra. rewrite map_length. now apply nth_error_None. }
        rewrite Q. clear Q ta ra La. split; [intros []|]. intros [D (i & j & He & H1 & H2)]. pose proof (Rng _ _ He) as [R1 R2].
        pose proof (new_of_lt ts g B cl P i R1) as H3. rewrite H1, members_length in H3. apply nth_error_None in Ek. lia.
Qed.

Lemma group_at k : nth_error (groups ts cl) k = option_map (triples ts) (nth_error members k).
Proof. unfold groups. destruct (nth_error members k) eqn:E; [now apply map_nth_error|]. apply nth_error_None. rewrite map_length. now apply nth_error_None. Qed.
Lemma collapse_shares k k' : In k' (nth k (adj G) []) <->
  k <> k' /\ exists a b, nth_error (groups ts cl) k = Some a /\ nth_error (groups ts cl) k' = Some b /\ share a b.
Proof.
  rewrite collapse_edges. split; intros [D H]; (split; [auto|]).
  - destruct H as (i & j & (_ & t & u & H1 & H2 & v & H3 & H4) & <- & <-).
    assert (X : exists l, nth_error members (new_of i) = Some l /\ In i l) by (apply (members_in ts g B cl P); split; eauto using nth_error_lt).
    assert (Y : exists l, nth_error members (new_of j) = Some l /\ In j l) by (apply (members_in ts g B cl P); split; eauto using nth_error_lt).
    destruct X as (l & X1 & X2), Y as (l' & Y1 & Y2). exists (triples ts l), (triples ts l'). rewrite !group_at, X1, Y1. split; auto. split; auto.
    exists v, t, u. rewrite !triples_in. split; [exists i; auto|]. split; [exists j; auto|]. auto.
  - destruct H as (a & b & H1 & H2 & v & t & u & H3 & H4 & H5 & H6). rewrite group_at in H1, H2.
    destruct (nth_error members k) as [l|] eqn:E1; [|discriminate]. destruct (nth_error members k') as [l'|] eqn:E2; [|discriminate].
    injection H1 as <-. injection H2 as <-. apply triples_in in H3, H4. destruct H3 as (i & Hi & Ti), H4 as (j & Hj & Tj).
    assert (X : i < n /\ new_of i = k) by (apply (members_in ts g B cl P); eauto).
    assert (Y : j < n /\ new_of j = k') by (apply (members_in ts g B cl P); eauto).
    exists i, j. split; [|split; tauto]. split; [|eauto 8]. intros ->. destruct X, Y. congruence.
Qed.
End Collapse.
