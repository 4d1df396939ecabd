(* The pattern made of a property path: the whole path. *)
From Coq Require Import List Arith NArith Bool Lia.
From Verif Require Import Conv_Model Keys_Model PPath_Model PPath_Spec PPath_Proof.
Import ListNotations.
Open Scope N_scope.

Lemma rep_unfold o n t cs b : computeCanBeNull (Path o n t cs b) =
  Path o n t (map computeCanBeNull cs)
    (let all := match cs with [] => false | _ => forallb can_be_null (map computeCanBeNull cs) end in
     match o with TRANSITIVE | TRANSITIVE_MAX => true | TRANSITIVE_MIN => (n =? 0) || all | _ => all end).
Proof. cbn [computeCanBeNull]. destruct cs; reflexivity. Qed.
Lemma map_rep ps : map computeCanBeNull (map tree ps) = map rep ps.
Proof. rewrite map_map. reflexivity. Qed.

Lemma rep_null p : uniform p -> sequences_ok p -> can_be_null (rep p) = can_be_empty p.
Proof.
  induction p as [t|p IH|ps IH|ps IH|p IH|p IH|p IH|n p IH] using ppath_ind'; intros U S; unfold rep; cbn [tree]; unfold node, leaf; rewrite rep_unfold; cbn [can_be_null can_be_empty forallb map]; auto.
  - cbn in U, S. change (computeCanBeNull (tree p)) with (rep p). rewrite IH; auto. apply andb_true_r.
  - cbn [uniform sequences_ok] in U, S. apply fix_all in U. destruct S as (_ & _ & L & S). apply fix_all in S.
    destruct ps as [|q ps]; [cbn in L; lia|]. rewrite map_rep. cbn [map]. change (tree q :: map tree ps) with (map tree (q :: ps)).
    cbv zeta. change (rep q :: map rep ps) with (map rep (q :: ps)). clear L.
    assert (forall l, Forall (fun p => uniform p -> sequences_ok p -> can_be_null (rep p) = can_be_empty p) l -> Forall uniform l -> Forall sequences_ok l ->
       forallb can_be_null (map rep l) = forallb can_be_empty l) as X.
    { clear. induction 1 as [|p l H F IH]; intros U S; [auto|]. inversion U; inversion S; subst. cbn. rewrite H, IH; auto. }
    cbn [map]. rewrite <- X; auto.
  - cbn [uniform sequences_ok] in U, S. destruct U as [U1 U]. apply fix_all in U. destruct S as (L & S). apply fix_all in S.
    assert (forall l b, Forall (fun p => uniform p -> sequences_ok p -> can_be_null (rep p) = can_be_empty p) l -> Forall uniform l -> Forall sequences_ok l ->
       (forall q, In q l -> can_be_empty q = b) -> forallb can_be_null (map rep l) = match l with [] => true | _ => b end) as X.
    { clear. induction 1 as [|p l H F IH]; intros U S E; [auto|]. inversion U; inversion S; subst. cbn [map forallb]. rewrite H, (E p); auto; [|left; auto].
      rewrite IH; auto; [|intros q Hq; apply E; right; auto]. destruct l; [apply andb_true_r|]. destruct b; auto. }
    destruct ps as [|q ps]; [cbn in L; lia|]. rewrite map_rep. specialize (X _ _ IH U S U1). cbv zeta. cbn [map]. cbn [map] in X. rewrite X. reflexivity.
  - cbn in U, S. change (computeCanBeNull (tree p)) with (rep p). rewrite IH; auto. apply andb_true_r.
Qed.

Section Graph.
  Variable G : list N -> list N -> list N -> Prop.

  Lemma seed_good p : uniform p -> sequences_ok p -> good G (seedFromPropertyPath (rep p)) (proper G p).
  Proof.
    induction p as [t|p IH|ps IH|ps IH|p IH|p IH|p IH|n p IH] using ppath_ind'; intros U S; unfold rep; cbn [tree]; unfold node, leaf; rewrite rep_unfold; cbn [seedFromPropertyPath map snd]; cbn [proper];
      try (change (computeCanBeNull (tree p)) with (rep p)).
    - refine (iri_good G (Path IRI 0 t [] _) _). exact S.
    - apply (inverse_good G _ (proper G p) []). apply IH; auto.
    - cbn [uniform sequences_ok] in U, S. apply fix_all in U. destruct S as (R & K & L & S). apply fix_all in S. rewrite map_rep.
      assert (F : Forall2 (goods G) (map (fun c => (can_be_null c, seedFromPropertyPath c)) (map rep ps)) (map (fun q => (can_be_empty q, proper G q)) ps)).
      { clear - IH U S. induction IH as [|p l H F IH]; cbn [map]; constructor; inversion U; inversion S; subst; auto.
        split; [apply rep_null; auto|apply H; auto]. }
      assert (M : map fst (map (fun c => (can_be_null c, seedFromPropertyPath c)) (map rep ps)) = map can_be_empty ps).
      { clear - F. rewrite !map_map in *. cbn [fst] in *. revert F. induction ps as [|p l IH]; intros F; [auto|]. inversion F as [|? ? ? ? [E _] F']; subst.
        cbn in E. cbn. rewrite E, IH; auto. }
      apply sequence_good; auto.
      + rewrite M. auto.
      + replace (length (filter fst (map (fun c => (can_be_null c, seedFromPropertyPath c)) (map rep ps)))) with (length (filter (fun b => b) (map can_be_empty ps))); auto.
        rewrite <- M. generalize (map (fun c => (can_be_null c, seedFromPropertyPath c)) (map rep ps)). intros l. clear.
        induction l as [|[b f] l IH]; [auto|]. cbn. destruct b; cbn; auto.
      + rewrite !map_length. auto.
    - cbn [uniform sequences_ok] in U, S. destruct U as [U1 U]. apply fix_all in U. destruct S as (L & S). apply fix_all in S. rewrite map_rep.
      rewrite map_map. cbn [snd]. apply alternative_good; [|rewrite !map_length; auto].
      clear - IH U S. induction IH as [|p l H F IH]; cbn [map]; constructor; inversion U; inversion S; subst; auto.
    - apply trans_good. apply IH; auto.
    - apply trans_good. apply IH; auto.
    - apply trans_good. apply IH; auto.
    - apply trans_good. apply IH; auto.
  Qed.

  (* walks *)
  Lemma walk_snoc (R : list N -> list N -> Prop) k x y z : walk R k x y -> R y z -> walk R (S k) x z.
  Proof. intros H E. induction H; econstructor; eauto. constructor. Qed.
  Lemma walk_app (R : list N -> list N -> Prop) a b x y z : walk R a x y -> walk R b y z -> walk R (a + b) x z.
  Proof. intros H E. induction H; cbn [Nat.add]; auto. econstructor; eauto. Qed.

  Lemma last_default {A} (l : list A) d e : l <> [] -> last l d = last l e.
  Proof. induction l as [|a l IH]; intros H; [congruence|]. destruct l; [reflexivity|]. cbn [last] in *. apply IH. congruence. Qed.
  Lemma last_step {A} (a b : A) l : last (a :: b :: l) a = last (b :: l) b.
  Proof. change (last (a :: b :: l) a) with (last (b :: l) a). apply last_default. congruence. Qed.
  (* a walk with the nodes it visits after the first *)
  Lemma walk_trace (R : list N -> list N -> Prop) k x y : walk R k x y <->
    exists vs, length vs = k /\ (forall i u v, nth_error (x :: vs) i = Some u -> nth_error vs i = Some v -> R u v) /\ last (x :: vs) x = y.
  Proof.
    split.
    - induction 1 as [x|k x y z E W IH].
      + exists []. split; auto. split; auto. intros i u v _ H. destruct i; discriminate H.
      + destruct IH as (vs & L & T & Q). exists (y :: vs). split; [cbn; lia|]. split.
        * intros [|i] u v A B; cbn in A, B; [congruence|]. apply (T i); auto.
        * rewrite last_step. exact Q.
    - intros (vs & <- & T & <-). revert x T. induction vs as [|v vs IH]; intros x T; [constructor|].
      cbn [length]. apply (walk_cons _ _ _ v); [apply (T 0%nat); auto|].
      rewrite last_step. apply IH. intros i a b A B. apply (T (S i)); auto.
  Qed.

  (* a walk that visits the same node twice can be made shorter *)
  Lemma walk_split (R : list N -> list N -> Prop) k : forall x y, walk R k x y -> forall j, (j <= k)%nat -> exists z, walk R j x z /\ walk R (k - j) z y.
  Proof.
    intros x y W. induction W as [x|k x y z E W IH]; intros j Hj.
    - replace j with 0%nat by lia. exists x. split; constructor.
    - destruct j as [|j]; [exists x; split; [constructor|]; econstructor; eauto|].
      destruct (IH j ltac:(lia)) as (u & A & B). exists u. split; [econstructor; eauto|]. exact B.
  Qed.
  Lemma walk_nodes (R : list N -> list N -> Prop) nodes k x y : (forall x y, R x y -> In y nodes) -> walk R k x y -> (1 <= k)%nat ->
    exists k', (1 <= k' <= length nodes)%nat /\ walk R k' x y.
  Proof.
    intros In_ W. revert x y W. induction k as [k IH] using lt_wf_ind. intros x y W K.
    destruct (le_lt_dec k (length nodes)) as [L|L]; [exists k; split; auto|].
    (* the nodes after each step *)
    apply walk_trace in W. destruct W as (vs & Lv & T & Q).
    assert (IN : incl vs nodes).
    { intros v I. apply In_nth_error in I. destruct I as [i I]. 
      assert (exists u, nth_error (x :: vs) i = Some u) as [u Hu].
      { destruct (nth_error (x :: vs) i) eqn:E; eauto. apply nth_error_None in E. cbn in E.
        assert (i < length vs)%nat by (apply nth_error_Some; congruence). lia. }
      apply (In_ u). apply (T i); auto. }
    assert (ND : ~ NoDup vs). { intros ND. pose proof (NoDup_incl_length ND IN). lia. }
    assert (exists i j v, (i < j)%nat /\ nth_error vs i = Some v /\ nth_error vs j = Some v) as (i & j & v & Hij & Hi & Hj).
    { clear - ND. induction vs as [|w vs IH]; [destruct ND; constructor|].
      destruct (in_dec text_dec w vs) as [I|I].
      - apply In_nth_error in I. destruct I as [j I]. exists 0%nat, (S j), w. repeat split; auto. lia.
      - destruct IH as (i & j & v & A & B & C). { intros N. apply ND. constructor; auto. }
        exists (S i), (S j), v. repeat split; auto. lia. }
    assert (Lj : (j < length vs)%nat) by (apply nth_error_Some; congruence).
    assert (P1 : forall i v, nth_error vs i = Some v -> walk R (S i) x v /\ walk R (k - S i) v y).
    { intros a b Ha. assert (La : (a < length vs)%nat) by (apply nth_error_Some; congruence).
      apply nth_error_split in Ha. destruct Ha as (l1 & l2 & E & La'). split.
      - apply walk_trace. exists (l1 ++ [b]). split; [rewrite app_length; cbn; lia|]. split.
        + intros c u w A B. apply (T c).
          * rewrite E. change (x :: l1 ++ b :: l2) with ((x :: l1) ++ b :: l2). replace ((x :: l1) ++ b :: l2) with ((x :: l1 ++ [b]) ++ l2) by (cbn [app]; rewrite <- app_assoc; reflexivity).
            rewrite nth_error_app1; auto. apply nth_error_Some. congruence.
          * rewrite E. replace (l1 ++ b :: l2) with ((l1 ++ [b]) ++ l2) by (rewrite <- app_assoc; reflexivity). rewrite nth_error_app1; auto. apply nth_error_Some. congruence.
        + change (x :: l1 ++ [b]) with ((x :: l1) ++ [b]). apply last_last.
      - apply walk_trace. exists l2. split; [subst vs; rewrite app_length in Lv; cbn in Lv; lia|]. split.
        + intros c u w A B. apply (T (S a + c)%nat).
          * rewrite E. change (x :: l1 ++ b :: l2) with ((x :: l1) ++ b :: l2). rewrite nth_error_app2 by (cbn; lia). cbn [length]. rewrite La'. replace (S a + c - S a)%nat with c by lia. auto.
          * rewrite E. rewrite nth_error_app2 by lia. rewrite La'. replace (S a + c - a)%nat with (S c) by lia. auto.
        + rewrite <- Q, E. clear. revert x. induction l1 as [|w l1 IH]; intros x; cbn [app].
          * symmetry. apply last_step.
          * rewrite last_step. apply IH. }
    destruct (P1 i v Hi) as [A _]. destruct (P1 j v Hj) as [_ B].
    apply (IH (S i + (k - S j))%nat); [lia|apply (walk_app R (S i) (k - S j) x v y); auto|lia].
  Qed.

  Lemma walk_mono (R S : list N -> list N -> Prop) k x y : (forall x y, R x y -> S x y) -> walk R k x y -> walk S k x y.
  Proof. intros H W. induction W; econstructor; eauto. Qed.
  (* steps that stand still can be left out *)
  Lemma walk_still (R S : list N -> list N -> Prop) (b : bool) k x y : (forall x y, R x y -> S x y \/ (b = true /\ x = y)) -> walk R k x y ->
    exists k', (k' <= k)%nat /\ walk S k' x y /\ (k' = 0%nat -> (1 <= k)%nat -> b = true).
  Proof.
    intros H W. induction W as [x|k x y z E W IH]; [exists 0%nat; repeat split; [lia|constructor|lia]|].
    destruct IH as (k' & L & W' & Z). destruct (H x y E) as [E'|[Hb ->]].
    - exists (Datatypes.S k'). split; [lia|]. split; [econstructor; eauto|discriminate].
    - exists k'. split; [lia|]. split; auto.
  Qed.

  Variable nodes : list (list N).
  Hypothesis Hnodes : nodes_in G nodes.
  Hypothesis Hsize : N.of_nat (length nodes) <= SIZE_MAX.

  Lemma chain_ends s : Forall (fun R : list N -> list N -> Prop => forall x y, R x y -> In x nodes /\ In y nodes) s -> s <> [] ->
    forall x y, chain s x y -> In x nodes /\ In y nodes.
  Proof.
    induction 1 as [|R s HR F IH]; intros NE x y C; [congruence|]. destruct C as (z & E & C). destruct (HR x z E) as [A B]. split; auto.
    destruct s as [|R' s]; [cbn in C; congruence|]. apply (IH ltac:(congruence) z y C).
  Qed.
  Lemma sel_Forall {A} (P : A -> Prop) l s : sel l s -> Forall (fun p => P (snd p)) l -> Forall P s.
  Proof. induction 1; intros F; [constructor| |]; inversion F; subst; [constructor; auto|auto]. Qed.
  Lemma walk_ends (R : list N -> list N -> Prop) k x y : (forall x y, R x y -> In x nodes /\ In y nodes) -> walk R k x y -> (1 <= k)%nat -> In x nodes /\ In y nodes.
  Proof.
    intros H W. induction W as [x|k x y z E W IH]; intros K; [lia|]. destruct (H x y E) as [A B]. split; auto.
    destruct k; [inversion W; subst; auto|]. apply IH. lia.
  Qed.
  Lemma proper_nodes p : forall x y, proper G p x y -> In x nodes /\ In y nodes.
  Proof.
    induction p as [t|p IH|ps IH|ps IH|p IH|p IH|p IH|n p IH] using ppath_ind'; intros x y H; cbn [proper] in H.
    - apply (Hnodes x t y H).
    - destruct (IH y x H). auto.
    - destruct H as (s & S & NE & C). apply (chain_ends s); auto.
      apply (sel_Forall _ _ _ S). clear - IH. induction IH; cbn [map]; constructor; auto.
    - destruct H as (R & I & H). apply in_map_iff in I. destruct I as (q & <- & I). rewrite Forall_forall in IH. apply (IH q I); auto.
    - destruct H as (k & K & W). apply (walk_ends (proper G p) k); auto; lia.
    - destruct H as (k & K & W). apply (walk_ends (proper G p) k); auto; lia.
    - destruct H as (k & K & W). apply (walk_ends (proper G p) k); auto; lia.
    - destruct H as (k & K & W). apply (walk_ends (proper G p) k); auto; lia.
  Qed.

  Lemma chain_fix ps x y : connects G (Seq ps) x y <-> chain (map (connects G) ps) x y.
  Proof.
    cbn [connects]. revert x. induction ps as [|q ps IH]; intros x; [reflexivity|]. cbn [map chain]. split; intros (z & A & B); exists z; split; auto; apply IH; auto.
  Qed.

  Lemma connects_proper p : forall x y, connects G p x y <-> proper G p x y \/ (can_be_empty p = true /\ x = y).
  Proof.
    induction p as [t|p IH|ps IH|ps IH|p IH|p IH|p IH|n p IH] using ppath_ind'; intros x y.
    - cbn. split; [auto|]. intros [H|[H _]]; [auto|discriminate H].
    - cbn. rewrite IH. intuition congruence.
    - rewrite chain_fix. cbn [proper can_be_empty]. split.
      + intros C.
        assert (X : exists s, sel (map (fun q => (can_be_empty q, proper G q)) ps) s /\ chain s x y /\ (s = [] -> forallb can_be_empty ps = true)).
        { revert x C. induction IH as [|p l H F IHl]; intros x C; cbn [map chain] in C |- *.
          - exists []. split; [constructor|]. split; auto.
          - destruct C as (z & A & B). destruct (IHl z B) as (s & S & C & E). apply H in A. destruct A as [A|[A ->]].
            + exists (proper G p :: s). split; [constructor; auto|]. split; [exists z; auto|discriminate].
            + exists s. split; [rewrite A; constructor; auto|]. split; auto. intros Z. cbn. rewrite A. auto. }
        destruct X as (s & S & C' & E). destruct s as [|R s].
        * right. split; [auto|exact C'].
        * left. exists (R :: s). split; auto. split; [congruence|auto].
      + assert (X : forall s x, sel (map (fun q => (can_be_empty q, proper G q)) ps) s -> chain s x y -> chain (map (connects G) ps) x y).
        { induction IH as [|p l H F IHl]; intros s u S C; cbn [map chain] in *.
          - inversion S; subst. exact C.
          - inversion S as [|? ? ? s' S'|? ? ? S' E]; subst.
            + destruct C as (z & A & B). exists z. split; [apply H; auto|]. apply (IHl s'); auto.
            + exists u. split; [apply H; right; auto|]. apply (IHl s); auto. }
        intros [(s & S & _ & C)|[E ->]].
        * apply (X s); auto.
        * clear X. induction IH as [|p l H F IHl]; [reflexivity|]. cbn [map chain]. cbn [forallb] in E. apply andb_true_iff in E. destruct E as [E1 E2].
          exists y. split; auto. apply H. auto.
    - cbn [connects]. rewrite fix_any. cbn [proper can_be_empty]. rewrite Forall_forall in IH. split.
      + intros H. apply Exists_exists in H. destruct H as (q & I & H). apply IH in H; auto. destruct H as [H|[H E]].
        * left. exists (proper G q). split; auto. apply in_map. auto.
        * right. split; auto. apply existsb_exists. exists q. auto.
      + intros [(R & I & H)|[E ->]]; apply Exists_exists.
        * apply in_map_iff in I. destruct I as (q & <- & I). exists q. split; auto. apply IH; auto.
        * apply existsb_exists in E. destruct E as (q & I & E). exists q. split; auto. apply IH; auto.
    - cbn [connects proper can_be_empty]. rewrite IH. split.
      + intros [->|[H|[_ ->]]]; [right; auto| |right; auto]. left. exists 1%nat. split; [lia|]. econstructor; [exact H|constructor].
      + intros [(k & K & W)|[_ ->]]; [|auto]. replace k with 1%nat in W by lia. inversion W as [|? ? z ? E W']; subst. inversion W'; subst. auto.
    - cbn [connects proper can_be_empty]. split.
      + intros (k & W). destruct (walk_still _ (proper G p) (can_be_empty p) k x y (fun a b => proj1 (IH a b)) W) as (k' & L & W' & _).
        destruct k' as [|k']; [inversion W'; auto|]. left.
        destruct (walk_nodes (proper G p) nodes (S k') x y) as (k2 & K2 & W2); [intros a b H; apply (proper_nodes p a b H)|auto|lia|]. exists k2. split; [lia|auto].
      + intros [(k & K & W)|[_ ->]]; [exists k|exists 0%nat; constructor]. revert W. apply walk_mono. intros a b H. apply IH. auto.
    - cbn [connects proper can_be_empty]. split.
      + intros (k & K & W). destruct (walk_still _ (proper G p) (can_be_empty p) k x y (fun a b => proj1 (IH a b)) W) as (k' & L & W' & Z).
        destruct k' as [|k']; [inversion W'; subst; right; split; auto|]. left.
        destruct (walk_nodes (proper G p) nodes (S k') x y) as (k2 & K2 & W2); [intros a b H; apply (proper_nodes p a b H)|auto|lia|]. exists k2. split; [lia|auto].
      + intros [(k & K & W)|[E ->]].
        * exists k. split; [lia|]. revert W. apply walk_mono. intros a b H. apply IH. auto.
        * exists 1%nat. split; auto. apply (walk_cons _ _ _ y); [apply IH; auto|constructor].
    - cbn [connects proper can_be_empty]. split.
      + intros (k & K & W). destruct (walk_still _ (proper G p) (can_be_empty p) k x y (fun a b => proj1 (IH a b)) W) as (k' & L & W' & _).
        destruct k' as [|k']; [inversion W'; auto|]. left. exists (S k'). split; [lia|auto].
      + intros [(k & K & W)|[_ ->]]; [exists k|exists 0%nat; split; [lia|constructor]]. split; [lia|]. revert W. apply walk_mono. intros a b H. apply IH. auto.
  Qed.
End Graph.
