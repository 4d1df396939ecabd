(* The tree of prefixes holds the candidates and the chosen prefixes; choosing is greedy. *)
From Coq Require Import List NArith Arith Bool Lia Sorted ZifyN ZifyNat ZifyBool.
From Verif Require Import Table_Spec Lex_Proof Strings_Model Strings_Proof3 Vocab_Model Prefix_Model Prefix_Spec Prefix_Proof.
Import ListNotations.
Open Scope N_scope.

Lemma is_prefix_iff p : forall w, is_prefix p w = true <-> prefix_of p w.
Proof.
  induction p as [|x p IH]; intros w; cbn [is_prefix]; [split; [now exists w | auto]|].
  destruct w as [|y w]; [split; [discriminate | intros [s E]; discriminate]|].
  rewrite andb_true_iff, N.eqb_eq, IH. split.
  - intros [-> [s ->]]. now exists s.
  - intros [s E]. injection E as -> ->. split; [reflexivity | now exists s].
Qed.
Lemma is_prefix_sw p w : startsWith w p = is_prefix p w.
Proof. apply eq_iff_eq_true. now rewrite sw_iff, is_prefix_iff. Qed.
Lemma is_prefix_false p w : is_prefix p w = false <-> ~ prefix_of p w.
Proof. rewrite <- is_prefix_iff. destruct (is_prefix p w); intuition congruence. Qed.

(* a node with its fields *)
Inductive holds (x : list N) (o p : N) (a : bool) : tree -> Prop :=
| holds_root ch : holds x o p a (Node x o p a ch)
| holds_child v o' p' a' ch c : In (Some c) ch -> holds x o p a c -> holds x o p a (Node v o' p' a' ch).
Lemma holds_iff x o p a v o' p' a' cs : holds x o p a (Node v o' p' a' (map Some cs)) <->
  (x = v /\ o = o' /\ p = p' /\ a = a') \/ exists c, In c cs /\ holds x o p a c.
Proof.
  split.
  - intros H. inversion H; subst; [left; auto|]. right. eexists. split; [|eassumption]. now apply in_some.
  - intros [(-> & -> & -> & ->)|(c & C & H)]; [constructor|]. apply (holds_child _ _ _ _ _ _ _ _ _ c); auto. now apply in_some.
Qed.
Lemma holds_in x o p a t : holds x o p a t -> in_tree x t.
Proof. induction 1; [now apply in_root | eapply in_child; eauto]. Qed.
Lemma in_holds x t : in_tree x t -> exists o p a, holds x o p a t.
Proof.
  induction 1 as [v o p a ch ->|v o p a ch c C H (o' & p' & a' & IH)]; [do 3 eexists; constructor|].
  exists o', p', a'. eapply holds_child; eauto.
Qed.

(* what an insertion does to the fields *)
Definition inserted (v : list N) (t : tree) (x : list N) (o p : N) (a : bool) : Prop :=
  (x <> v /\ holds x o p a t) \/ (x = v /\ exists o', holds x o' p a t /\ o = o' + 1) \/
  (x = v /\ ~ in_tree v t /\ o = 1 /\ p = 0 /\ a = true).
Lemma not_in_other v c x : good c -> is_prefix (value c) v = false -> in_tree x c -> x <> v.
Proof. intros G P H ->. apply is_prefix_false in P. apply P. now apply in_tree_prefix. Qed.
Lemma siblings cs : StronglySorted ahead (map value cs) -> forall l c r, cs = l ++ c :: r ->
  forall d, In d (l ++ r) -> ~ prefix_of (value c) (value d) /\ ~ prefix_of (value d) (value c).
Proof.
  intros S l c r -> d D. rewrite map_app in S. cbn [map] in S. apply sorted_app_inv in S as (S1 & S2 & S3).
  apply StronglySorted_inv in S2 as [S2 F2]. rewrite Forall_forall in F2.
  assert (H : forall x y, ahead x y -> ~ prefix_of x y /\ ~ prefix_of y x).
  { intros x y [L P]. split; auto. intros Q. apply prefix_le in Q. apply (lex_lt_irrefl x). now apply (lex_lt_le_trans _ y). }
  apply in_app_iff in D as [D|D].
  - destruct (H (value d) (value c)); [apply S3; [now apply in_map | now left]|]. auto.
  - apply H. apply F2. now apply in_map.
Qed.
Lemma insert_holds v w : prefix_of v w -> forall t, good t -> prefix_of (value t) v ->
  (forall x, in_tree x t -> lex_le x w) -> forall t', insertAfter v t = Some t' ->
  forall x o p a, holds x o p a t' -> inserted v t x o p a.
Proof.
  intros P t G. induction G as [val o p a cs S E GC IH]. intros PV B t'. rewrite insertAfter_eq. unfold inserted.
  assert (NV : forall c, In c cs -> forall x, in_tree x c -> x <> val).
  { intros c C x X ->. destruct (E c C) as [Q NE]. apply NE. apply prefix_antisym; auto. apply in_tree_prefix; auto. }
  destruct (list_eq_dec N.eq_dec v val) as [->|NE].
  - intros Q. injection Q as <-. intros x o' p' a' H. apply holds_iff in H as [(-> & -> & -> & ->)|(c & C & H)].
    + right. left. split; [reflexivity|]. exists o. split; [constructor|reflexivity].
    + left. split; [apply (NV c C); now apply holds_in in H|]. apply holds_iff. eauto.
  - assert (BC : forall c, In c cs -> forall x, in_tree x c -> lex_le x w).
    { intros c C x X. apply B. apply in_tree_child. right. eauto. }
    assert (BV : forall c, In c cs -> lex_le (value c) w).
    { intros c C. apply (BC c C). destruct c. now apply in_root. }
    destruct (into_cases (insertAfter v) v cs) as [[F ->]|(l & c & r & Q & SC & ->)].
    + rewrite matching_some. destruct (trailing v w cs S BV P) as (l & r & -> & L & R).
      destruct (kept_moved v l r L R) as [-> ->]. intros Q. injection Q as <-.
      change [Some (new_node v (map Some r))] with (map Some [new_node v (map Some r)]). rewrite <- map_app.
      rewrite Forall_forall in F. assert (NC : forall c, In c (l ++ r) -> forall x, in_tree x c -> x <> v).
      { intros c C x X. apply (not_in_other v c x); auto. rewrite <- is_prefix_sw. now apply F. }
      intros x o' p' a' H. apply holds_iff in H as [(-> & -> & -> & ->)|(c & C & H)].
      * left. split; [auto|constructor].
      * apply in_app_iff in C as [C|[<-|[]]].
        -- left. split; [apply (NC c); [apply in_or_app; now left | now apply holds_in in H]|].
           apply holds_iff. right. exists c. split; [apply in_or_app; now left|exact H].
        -- unfold new_node in H. apply holds_iff in H as [(-> & -> & -> & ->)|(c & C & H)].
           ++ right. right. split; [reflexivity|]. split; [|auto]. intros I. apply in_tree_child in I as [->|(c & C & X)]; auto.
              now apply (NC c C v X).
           ++ left. split; [apply (NC c); [apply in_or_app; now right | now apply holds_in in H]|].
              apply holds_iff. right. exists c. split; [apply in_or_app; now right|exact H].
    + assert (C : In c cs) by (rewrite Q; apply in_or_app; right; now left).
      destruct (insertAfter v c) as [c'|] eqn:IC; [|discriminate]. intros Q'. injection Q' as <-.
      assert (PC : prefix_of (value c) v) by now apply sw_iff.
      assert (OTHER : forall d, In d (l ++ r) -> forall x, in_tree x d -> x <> v).
      { intros d D x X ->. apply in_tree_prefix in X.
        - destruct (siblings cs S l c r Q d D) as [N1 N2]. destruct (prefix_two _ _ _ PC X); contradiction.
        - apply GC. rewrite Q. apply in_app_iff in D as [D|D]; apply in_or_app; [now left | right; now right]. }
      assert (OLD : forall d, In d (l ++ r) -> In d cs).
      { intros d D. rewrite Q. apply in_app_iff in D as [D|D]; apply in_or_app; [now left | right; now right]. }
      intros x o' p' a' H. apply holds_iff in H as [(-> & -> & -> & ->)|(d & D & H)].
      * left. split; [auto|constructor].
      * assert (D' : In d (l ++ r) \/ c' = d).
        { apply in_app_iff in D as [D|[D|D]]; [left; apply in_or_app; now left | now right | left; apply in_or_app; now right]. }
        destruct D' as [D'|<-].
        -- left. split; [apply (OTHER d D'); now apply holds_in in H|]. apply holds_iff. right. exists d. auto.
        -- destruct (IH c C PC (BC c C) c' IC x o' p' a' H) as [[X1 X2]|[(-> & o1 & X2 & X3)|(-> & X2 & X3)]].
           ++ left. split; [exact X1|]. apply holds_iff. eauto.
           ++ right. left. split; [reflexivity|]. exists o1. split; [|exact X3]. apply holds_iff. eauto.
           ++ right. right. split; [reflexivity|]. split; [|exact X3]. intros I.
              apply in_tree_child in I as [->|(d & D' & X)]; [auto|]. rewrite Q in D'.
              apply in_app_iff in D' as [D'|[<-|D']].
              ** apply (OTHER d (in_or_app _ _ _ (or_introl D')) v X). reflexivity.
              ** contradiction.
              ** apply (OTHER d (in_or_app _ _ _ (or_intror D')) v X). reflexivity.
Qed.

Lemma node_in path t s : node_at path t s -> in_tree (value s) t.
Proof. induction 1; [destruct t; now apply in_root | eapply in_child; [eapply nth_error_In; eauto|auto]]. Qed.
(* inserting below any node whose value is a prefix has the same effect as inserting at the root *)
Fixpoint insert_at (v : list N) (path : list nat) (t : tree) : option tree :=
  match path with
  | [] => insertAfter v t
  | i :: path' =>
      match t with
      | Node val own pen act ch =>
          match nth_error ch i with
          | Some (Some c) =>
              match insert_at v path' c with
              | Some c' => Some (Node val own pen act (firstn i ch ++ Some c' :: skipn (S i) ch))
              | None => None
              end
          | _ => None
          end
      end
  end.
Lemma insert_anywhere v path : forall t s, good t -> node_at path t s -> prefix_of (value s) v ->
  insert_at v path t = insertAfter v t.
Proof.
  induction path as [|i path IH]; intros t s G H P; [reflexivity|].
  inversion H as [|i' path' val o p a ch c s' J N]; subst. inversion G as [v' o' p' a' cs S E GC]; subst.
  destruct (map_some_split cs i c J) as (l & r & -> & <-).
  assert (C : In c (l ++ c :: r)) by (apply in_or_app; right; now left).
  assert (PC : prefix_of (value c) v).
  { apply (prefix_trans _ (value s)); auto. apply in_tree_prefix; [now apply GC | now apply (node_in path)]. }
  cbn [insert_at]. rewrite J, (IH c s (GC c C) N P). rewrite insertAfter_eq.
  destruct (list_eq_dec N.eq_dec v val) as [->|NE].
  { exfalso. destruct (E c C) as [P1 P2]. apply P2. now apply prefix_antisym. }
  destruct (into_cases (insertAfter v) v (l ++ c :: r)) as [[F _]|(l' & c' & r' & Q & SC & ->)].
  { exfalso. rewrite Forall_forall in F. specialize (F c C). apply sw_false in F. contradiction. }
  assert (EQ : l = l' /\ c = c' /\ r = r').
  { apply sw_iff in SC. assert (X : length l = length l').
    { destruct (Nat.lt_trichotomy (length l) (length l')) as [X|[X|X]]; auto; exfalso.
      - destruct (siblings _ S l c r eq_refl c') as [N1 N2].
        + assert (Y : nth_error (l ++ c :: r) (length l') = Some c') by (rewrite Q, nth_error_app2, Nat.sub_diag; auto).
          rewrite nth_error_app2 in Y by lia. destruct (length l' - length l)%nat eqn:D; [lia|]. cbn in Y.
          apply nth_error_In in Y. apply in_or_app. now right.
        + destruct (prefix_two _ _ _ PC SC); contradiction.
      - destruct (siblings _ S l' c' r' Q c) as [N1 N2].
        + assert (Y : nth_error (l' ++ c' :: r') (length l) = Some c) by (rewrite <- Q, nth_error_app2, Nat.sub_diag; auto).
          rewrite nth_error_app2 in Y by lia. destruct (length l - length l')%nat eqn:D; [lia|]. cbn in Y.
          apply nth_error_In in Y. apply in_or_app. now right.
        + destruct (prefix_two _ _ _ PC SC); contradiction. }
    apply (f_equal (firstn (length l))) in Q as Q1. apply (f_equal (skipn (length l))) in Q as Q2.
    rewrite X in Q1 at 2. rewrite X in Q2 at 2.
    rewrite !firstn_app, !Nat.sub_diag, !firstn_all in Q1. cbn in Q1. rewrite !app_nil_r in Q1.
    rewrite !skipn_app, !Nat.sub_diag, !skipn_all in Q2. cbn in Q2. injection Q2 as -> ->. auto. }
  destruct EQ as (<- & <- & <-). destruct (insertAfter v c); [|reflexivity]. f_equal. f_equal.
  rewrite !map_app. cbn [map]. replace (length l) with (length (map (@Some tree) l)) by apply map_length.
  rewrite firstn_app, Nat.sub_diag, firstn_all, skipn_app. cbn [firstn]. rewrite app_nil_r, skipn_all2 by lia.
  replace (Datatypes.S (length (map Some l)) - length (map Some l))%nat with 1%nat by lia. reflexivity.
Qed.

(* ---- shared counts and scores ---- *)
Fixpoint shared (t : tree) : N :=
  match t with
  | Node v o p a ch =>
      if a then o + fold_right N.add 0 (map (fun c => match c with Some c => shared c | None => 0 end) ch) else 0
  end.
Definition pen (t : tree) : N := let (_, _, p, _, _) := t in p.
Definition score (k : N) (t : tree) : N := shared t * (N.of_nat (length (value t)) - pen t - k).

Lemma max_list_max k cs :
  (forall c, In c cs -> exists m p s, getMaximum k c = Some (shared c, m, p) /\ node_at p c s /\ score k s = m /\
     forall q s', node_at q c s' -> score k s' <= m) ->
  forall whole i sh best path, (forall j c, nth_error cs j = Some c -> nth_error whole (i + j) = Some (Some c)) ->
  exists best' path', max_list (getMaximum k) (map Some cs) i sh best path =
     Some (sh + fold_right N.add 0 (map shared cs), best', path') /\ best <= best' /\
     (forall c q s', In c cs -> node_at q c s' -> score k s' <= best') /\
     ((best' = best /\ path' = path) \/ exists j p c s, path' = Some (j :: p) /\ nth_error whole j = Some (Some c) /\
        node_at p c s /\ score k s = best').
Proof.
  induction cs as [|c cs IH]; intros H whole i sh best path W; cbn [map max_list fold_right].
  - exists best, path. split; [do 3 f_equal; lia|]. split; [lia|]. split; [intros c q s' []|]. left; auto.
  - fold (max_list (getMaximum k)). destruct (H c (or_introl eq_refl)) as (m & p & s & -> & NA & SC & MX).
    assert (W' : forall j d, nth_error cs j = Some d -> nth_error whole (S i + j) = Some (Some d)).
    { intros j d D. replace (S i + j)%nat with (i + S j)%nat by lia. now apply W. }
    assert (H' := fun d (D : In d cs) => H d (or_intror D)).
    destruct (N.leb_spec best m) as [L|L].
    + destruct (IH H' whole (S i) (sh + shared c) m (Some (i :: p)) W') as (b & q & -> & LB & A & X).
      exists b, q. split; [do 3 f_equal; lia|]. split; [lia|]. split.
      * intros d r s' [<-|D] R; [specialize (MX r s' R); lia|]. now apply (A d r s').
      * right. destruct X as [[-> ->]|X]; [|exact X]. exists i, p, c, s. split; [reflexivity|].
        split; [replace i with (i + 0)%nat by lia; now apply W|]. split; [exact NA|exact SC].
    + destruct (IH H' whole (S i) (sh + shared c) best path W') as (b & q & -> & LB & A & X).
      exists b, q. split; [do 3 f_equal; lia|]. split; [lia|]. split.
      * intros d r s' [<-|D] R; [specialize (MX r s' R); lia|]. now apply (A d r s').
      * destruct X as [X|X]; [left; exact X|right; exact X].
Qed.
Lemma getMaximum_max k t : good t -> exists m p s, getMaximum k t = Some (shared t, m, p) /\ node_at p t s /\ score k s = m /\
  forall q s', node_at q t s' -> score k s' <= m.
Proof.
  intros G. induction G as [v o p a cs S E GC IH].
  destruct (max_list_max k cs IH (map Some cs) 0%nat o 0 None) as (best & path & M & LB & A & X).
  { intros j c J. cbn [Nat.add]. now rewrite nth_error_map, J. }
  change (getMaximum k (Node v o p a (map Some cs))) with
    (match max_list (getMaximum k) (map Some cs) 0%nat o 0 None with
      | None => None
      | Some (shared, best, path) =>
          let len := N.of_nat (length v) in
          let relevant := if p + k <? len then len - p - k else 0 in
          let shared' := if a then shared else 0 in
          let score := shared' * relevant in
          match (if best <=? score then Some (score, []) else option_map (pair best) path) with
          | Some (m, p) => Some (shared', m, p)
          | None => None
          end
      end).
  rewrite M. cbv zeta.
  assert (SH : (if a then o + fold_right N.add 0 (map shared cs) else 0) = shared (Node v o p a (map Some cs))).
  { cbn [shared]. rewrite map_map. reflexivity. }
  rewrite SH. set (t := Node v o p a (map Some cs)) in *.
  assert (SC : shared t * (if p + k <? N.of_nat (length v) then N.of_nat (length v) - p - k else 0) = score k t).
  { unfold score. cbn [value pen t]. f_equal. destruct (N.ltb_spec (p + k) (N.of_nat (length v))); lia. }
  rewrite SC.
  assert (B : forall q s', node_at q t s' -> s' = t \/ score k s' <= best).
  { intros q s' Q. inversion Q as [|i q' v' o' p' a' ch c s'' J Q']; subst; [now left|]. right.
    rewrite nth_error_map in J. destruct (nth_error cs i) as [d|] eqn:D; [|discriminate]. injection J as ->.
    apply (A c q' s'); auto. now apply nth_error_In in D. }
  destruct (N.leb_spec best (score k t)) as [L|L].
  - exists (score k t), [], t. split; [reflexivity|]. split; [constructor|]. split; [reflexivity|].
    intros q s' Q. destruct (B q s' Q) as [->|]; lia.
  - destruct X as [[-> ->]|(j & q & c & s & -> & J & Q & SQ)]; [lia|]. cbn [option_map].
    exists best, (j :: q), s. split; [reflexivity|]. split; [econstructor; eauto|]. split; [exact SQ|].
    intros q' s' Q'. destruct (B q' s' Q') as [->|]; lia.
Qed.

(* ---- the tree represents candidates and chosen prefixes ---- *)
Definition count (f : list N -> bool) (l : list (list N)) : N := N.of_nat (length (filter f l)).
Lemma count_ext f g l : (forall x, In x l -> f x = g x) -> count f l = count g l.
Proof. intros H. unfold count. now rewrite (Lex_Proof.filter_ext_In f g l H). Qed.
Lemma count_or f g l : (forall x, In x l -> f x = true -> g x = false) -> count (fun x => f x || g x) l = count f l + count g l.
Proof.
  unfold count. induction l as [|x l IH]; intros H; [reflexivity|]. cbn [filter]. assert (X := H x (or_introl eq_refl)).
  specialize (IH (fun y Y => H y (or_intror Y))). destruct (f x), (g x); cbn [orb length] in *; try lia.
Qed.
Lemma count_existsb {A} (f : A -> list N -> bool) cs l :
  (forall c l1 l2, cs = l1 ++ c :: l2 -> forall d, In d l2 -> forall x, In x l -> f c x = true -> f d x = false) ->
  fold_right N.add 0 (map (fun c => count (f c) l) cs) = count (fun x => existsb (fun c => f c x) cs) l.
Proof.
  induction cs as [|c cs IH]; intros H; cbn [map fold_right existsb].
  - unfold count. now rewrite filter_none by (apply Forall_forall; reflexivity).
  - rewrite count_or.
    + rewrite IH; [reflexivity|]. intros d l1 l2 E. apply (H d (c :: l1) l2). now rewrite E.
    + intros x X C. apply Lex_Proof.existsb_false_iff. intros d D. apply (H c [] cs eq_refl d D x X C).
Qed.

Definition mem (x : list N) (l : list (list N)) : bool := if in_dec (list_eq_dec N.eq_dec) x l then true else false.
Definition same (x y : list N) : bool := if list_eq_dec N.eq_dec x y then true else false.
Definition occ (chosen : list (list N)) (x v : list N) : bool := is_prefix x v && negb (covered chosen x v).
(* the fields of all nodes but the root *)
Definition fields (cands chosen : list (list N)) (t : tree) : Prop :=
  forall x o p a, holds x o p a t -> x <> [] ->
    o = (if mem x chosen then 0 else count (same x) cands) /\ p = N.of_nat (used chosen x) /\ a = negb (mem x chosen).
Lemma mem_iff x l : mem x l = true <-> In x l.
Proof. unfold mem. destruct (in_dec _ _ _); intuition congruence. Qed.
Lemma mem_false x l : mem x l = false <-> ~ In x l.
Proof. unfold mem. destruct (in_dec _ _ _); intuition congruence. Qed.
Lemma same_iff x y : same x y = true <-> x = y.
Proof. unfold same. destruct (list_eq_dec _ _ _); intuition congruence. Qed.

Lemma covered_iff chosen x v : covered chosen x v = true <-> exists q, In q chosen /\ prefix_of x q /\ prefix_of q v.
Proof.
  unfold covered. rewrite existsb_exists. split.
  - intros (q & Q & H). apply andb_true_iff in H as [H1 H2]. exists q. rewrite <- !is_prefix_iff. auto.
  - intros (q & Q & H1 & H2). exists q. rewrite andb_true_iff, !is_prefix_iff. auto.
Qed.
Lemma bool_iff a b : (a = true <-> b = true) -> a = b.
Proof. destruct a, b; intuition congruence. Qed.

Lemma shared_count cands chosen t : good t -> fields cands chosen t -> value t <> [] -> (forall q, In q chosen -> In q cands) ->
  (forall v, In v cands -> prefix_of (value t) v -> in_tree v t) ->
  shared t = count (occ chosen (value t)) cands.
Proof.
  intros G. induction G as [v o p a cs S E GC IH]. intros F NE CH T. cbn [value] in *.
  destruct (F v o p a (holds_root _ _ _ _ _) NE) as (-> & -> & ->).
  cbn [shared]. rewrite map_map.
  destruct (mem v chosen) eqn:M; cbn [negb].
  - symmetry. unfold count. rewrite filter_none; [reflexivity|]. apply Forall_forall. intros w W. unfold occ.
    destruct (is_prefix v w) eqn:P; [|reflexivity]. cbn [andb]. apply negb_false_iff. apply covered_iff.
    exists v. split; [now apply mem_iff|]. split; [apply prefix_refl | now apply is_prefix_iff].
  - assert (NC : forall c, In c cs -> value c <> []).
    { intros c C X. destruct (E c C) as [[s P] _]. rewrite X in P. destruct v; [contradiction|discriminate]. }
    assert (TC : forall c, In c cs -> forall w, In w cands -> prefix_of (value c) w -> in_tree w c).
    { intros c C w W PW. assert (I := T w W). rewrite in_tree_child in I.
      destruct I as [->|(d & D & X)].
      - apply (prefix_trans _ (value c)); auto. now apply E.
      - exfalso. destruct (E c C) as [Q1 Q2]. apply Q2. now apply prefix_antisym.
      - apply in_split in C as (l & r & Q). assert (X' := X). apply in_tree_prefix in X'; [|now apply GC].
        rewrite Q in D. apply in_app_iff in D as [D|[<-|D]]; auto; exfalso.
        + destruct (siblings cs S l c r Q d (in_or_app _ _ _ (or_introl D))) as [N1 N2].
          destruct (prefix_two _ _ _ PW X'); contradiction.
        + destruct (siblings cs S l c r Q d (in_or_app _ _ _ (or_intror D))) as [N1 N2].
          destruct (prefix_two _ _ _ PW X'); contradiction. }
    assert (X : map shared cs = map (fun c => count (occ chosen (value c)) cands) cs).
    { apply map_ext_in. intros c C. apply IH; auto. intros x o p a H. apply F. apply holds_iff. eauto. }
    change (map (fun x : tree => shared x) cs) with (map shared cs). rewrite X. rewrite (count_existsb (fun c => occ chosen (value c))).
    + rewrite <- count_or.
      * apply count_ext. intros w W. apply bool_iff. rewrite orb_true_iff, same_iff, existsb_exists. unfold occ. split.
        -- intros [<-|(c & C & H)].
           ++ rewrite andb_true_iff, is_prefix_iff, negb_true_iff. split; [apply prefix_refl|].
              destruct (covered chosen v v) eqn:CV; auto. apply covered_iff in CV as (q & Q1 & Q2 & Q3).
              rewrite (prefix_antisym v q Q2 Q3) in M. apply mem_false in M. contradiction.
           ++ rewrite andb_true_iff, is_prefix_iff, negb_true_iff in *. destruct H as [H1 H2].
              split; [apply (prefix_trans _ (value c)); auto; now apply E|].
              destruct (covered chosen v w) eqn:CV; auto. apply covered_iff in CV as (q & Q1 & Q2 & Q3).
              rewrite <- H2. symmetry. apply covered_iff. exists q. split; [exact Q1|]. split; [|exact Q3].
              assert (I := T q (CH q Q1) Q2). apply in_tree_child in I as [->|(d & D & I)].
              { exfalso. apply mem_false in M. contradiction. }
              apply in_tree_prefix in I; [|now apply GC].
              destruct (in_split c cs C) as (l & r & Q). rewrite Q in D. assert (PD := prefix_trans _ _ _ I Q3).
              apply in_app_iff in D as [D|[<-|D]]; auto; exfalso.
              ** destruct (siblings cs S l c r Q d (in_or_app _ _ _ (or_introl D))) as [N1 N2].
                 destruct (prefix_two _ _ _ H1 PD); contradiction.
              ** destruct (siblings cs S l c r Q d (in_or_app _ _ _ (or_intror D))) as [N1 N2].
                 destruct (prefix_two _ _ _ H1 PD); contradiction.
        -- rewrite andb_true_iff, is_prefix_iff, negb_true_iff. intros [P CV]. assert (I := T w W P).
           apply in_tree_child in I as [->|(c & C & I)]; [now left|]. right. exists c. split; [exact C|].
           apply in_tree_prefix in I; [|now apply GC]. rewrite andb_true_iff, is_prefix_iff, negb_true_iff.
           split; [exact I|]. destruct (covered chosen (value c) w) eqn:K; auto.
           apply covered_iff in K as (q & Q1 & Q2 & Q3). rewrite <- CV. symmetry. apply covered_iff. exists q.
           split; [exact Q1|]. split; [|exact Q3]. apply (prefix_trans _ (value c)); auto. now apply E.
      * intros w W H. apply same_iff in H. subst w. apply Lex_Proof.existsb_false_iff. intros c C. unfold occ.
        destruct (is_prefix (value c) v) eqn:P; [|reflexivity]. exfalso. apply is_prefix_iff in P. destruct (E c C) as [Q1 Q2].
        apply Q2. now apply prefix_antisym.
    + intros c l r Q d D w W H. unfold occ in *. apply andb_true_iff in H as [H _].
      destruct (is_prefix (value d) w) eqn:P; [|reflexivity]. exfalso.
      destruct (siblings cs S l c r Q d (in_or_app _ _ _ (or_intror D))) as [N1 N2].
      apply is_prefix_iff in H, P. destruct (prefix_two _ _ _ H P); contradiction.
Qed.

(* what choosing a prefix does to the fields *)
Definition marked (q : list N) (t : tree) (x : list N) (o p : N) (a : bool) : Prop :=
  exists o' p' a', holds x o' p' a' t /\ o = (if same x q then 0 else o') /\
    a = (if same x q then false else a') /\ p = (if is_prefix q x then N.max p' (N.of_nat (length q)) else p').
Lemma penaltizeChildren_holds k t : good t -> forall x o p a, holds x o p a (penaltizeChildren k t) ->
  exists p', holds x o p' a t /\ p = N.max p' k.
Proof.
  intros G. induction G as [v o p a cs S E GC IH]. cbn [penaltizeChildren]. intros x o' p' a' H.
  rewrite map_map in H. change (map (fun x => option_map (penaltizeChildren k) (Some x)) cs) with (map (fun x => Some (penaltizeChildren k x)) cs) in H.
  rewrite <- (map_map (penaltizeChildren k) Some) in H. apply holds_iff in H as [(-> & -> & -> & ->)|(c & C & H)].
  - exists p. split; [constructor|reflexivity].
  - apply in_map_iff in C as (d & <- & D). destruct (IH d D x o' p' a' H) as (p1 & P1 & P2). exists p1.
    split; [|exact P2]. apply holds_iff. eauto.
Qed.
Lemma same_refl x : same x x = true.
Proof. now apply same_iff. Qed.
Lemma same_false x y : x <> y -> same x y = false.
Proof. intros H. destruct (same x y) eqn:E; auto. apply same_iff in E. contradiction. Qed.
Lemma penaltize_holds t : good t -> forall x o p a, holds x o p a (penaltize t) -> marked (value t) t x o p a.
Proof.
  intros G x o p a. unfold penaltize, marked. set (k := N.of_nat (length (value t))).
  destruct (penaltizeChildren_good k t G) as (G' & V & _). assert (H := penaltizeChildren_holds k t G).
  destruct (penaltizeChildren k t) as [v o' p' a' ch]. cbn [value] in V. subst v.
  inversion G' as [v o1 p1 a1 cs S E GC]. subst. intros X. apply holds_iff in X as [(-> & -> & -> & ->)|(c & C & X)].
  - destruct (H (value t) o' p' a') as (p2 & P1 & P2); [constructor|]. exists o', p2, a'. rewrite same_refl.
    split; [exact P1|]. split; [reflexivity|]. split; [reflexivity|].
    now rewrite (proj2 (is_prefix_iff _ _) (prefix_refl _)).
  - destruct (H x o p a) as (p2 & P1 & P2); [apply holds_iff; right; eauto|]. exists o, p2, a.
    assert (PX : prefix_of (value c) x) by (apply in_tree_prefix; [now apply GC | now apply holds_in in X]).
    destruct (E c C) as [Q1 Q2]. assert (P : prefix_of (value t) x) by (apply (prefix_trans _ (value c)); auto).
    rewrite same_false, (proj2 (is_prefix_iff _ _) P); [auto|]. intros ->. apply Q2. now apply prefix_antisym.
Qed.
Lemma change_holds path : forall t s, good t -> node_at path t s -> forall x o p a,
  holds x o p a (change_at penaltize path t) -> marked (value s) t x o p a.
Proof.
  induction path as [|i path IH]; intros t s G H.
  - inversion H; subst. now apply penaltize_holds.
  - inversion H as [|i' path' v o p a ch c s' J N]; subst. inversion G as [v' o' p' a' cs S E GC]; subst.
    destruct (map_some_split cs i c J) as (l & r & -> & <-).
    assert (C : In c (l ++ c :: r)) by (apply in_or_app; right; now left).
    assert (IC := IH c s (GC c C) N). cbn [change_at].
    rewrite map_app. cbn [map]. replace (length l) with (length (map Some l)) by apply map_length.
    rewrite change_nth_split. cbn [option_map]. set (c' := change_at penaltize path c) in *.
    change (Some c' :: map Some r) with (map Some (c' :: r)). rewrite <- map_app.
    change (map Some l ++ Some c :: map Some r) with (map Some l ++ map Some (c :: r)) in *. rewrite <- map_app in *.
    assert (PS : prefix_of (value c) (value s)) by (apply in_tree_prefix; [now apply GC | now apply (node_in path)]).
    assert (KEEP : forall x o1 p1 a1, holds x o1 p1 a1 (Node v o p a (map Some (l ++ c :: r))) -> ~ prefix_of (value s) x ->
      marked (value s) (Node v o p a (map Some (l ++ c :: r))) x o1 p1 a1).
    { intros x o1 p1 a1 X NP. exists o1, p1, a1. split; [exact X|]. rewrite same_false, (proj2 (is_prefix_false _ _) NP); [auto|].
      intros ->. apply NP. apply prefix_refl. }
    intros x o1 p1 a1 X. apply holds_iff in X as [(-> & -> & -> & ->)|(d & D & X)].
    + apply KEEP; [constructor|]. intros P. destruct (E c C) as [Q1 Q2]. apply Q2. apply prefix_antisym; auto.
      apply (prefix_trans _ (value s)); auto.
    + assert (D' : In d (l ++ r) \/ c' = d).
      { apply in_app_iff in D as [D|[D|D]]; [left; apply in_or_app; now left | now right | left; apply in_or_app; now right]. }
      destruct D' as [D'|<-].
      * assert (DD : In d (l ++ c :: r)).
        { apply in_app_iff in D' as [D'|D']; apply in_or_app; [now left | right; now right]. }
        apply KEEP; [apply holds_iff; right; exists d; auto|]. intros P.
        destruct (siblings _ S l c r eq_refl d D') as [N1 N2].
        assert (PD : prefix_of (value d) x) by (apply in_tree_prefix; [now apply GC | now apply holds_in in X]).
        destruct (prefix_two _ _ _ (prefix_trans _ _ _ PS P) PD); contradiction.
      * destruct (IC x o1 p1 a1 X) as (o2 & p2 & a2 & H1 & H2). exists o2, p2, a2. split; [|exact H2].
        apply holds_iff. eauto.
Qed.

Lemma used_cons q chosen x : used (q :: chosen) x = if is_prefix q x then Nat.max (length q) (used chosen x) else used chosen x.
Proof. unfold used. cbn [filter]. destruct (is_prefix q x); reflexivity. Qed.
Lemma mem_cons x q l : mem x (q :: l) = same x q || mem x l.
Proof.
  apply bool_iff. rewrite orb_true_iff, !mem_iff, same_iff. cbn [In]. intuition congruence.
Qed.

Record repr (cands chosen : list (list N)) (t : tree) : Prop := {
  repr_good : good t;
  repr_root : value t = [];
  repr_in : forall v, In v cands -> in_tree v t;
  repr_only : forall v, in_tree v t -> v <> [] -> In v cands;
  repr_fields : fields cands chosen t }.

Lemma mark_repr cands chosen t path s : repr cands chosen t -> node_at path t s -> 
  repr cands (value s :: chosen) (change_at penaltize path t).
Proof.
  intros [G R I O F] N. destruct (change_good path t s G N) as (G' & V' & _ & T' & _). split; auto.
  - now rewrite V'.
  - intros v H. apply T'. now apply I.
  - intros v H. apply O. now apply T'.
  - intros x o p a H NE. apply (change_holds path t s G N) in H as (o' & p' & a' & H & -> & -> & ->).
    destruct (F x o' p' a' H NE) as (-> & -> & ->). rewrite mem_cons, used_cons. split; [|split].
    + destruct (same x (value s)); reflexivity.
    + destruct (is_prefix (value s) x); lia.
    + destruct (same x (value s)); reflexivity.
Qed.

Lemma node_good path t s : good t -> node_at path t s -> good s.
Proof.
  intros G N. induction N as [|i path v o p a ch c s J N IH]; auto. apply IH. inversion G; subst.
  apply nth_error_In, in_some in J. auto.
Qed.
Lemma node_holds path t s : node_at path t s -> forall x o p a, holds x o p a s -> holds x o p a t.
Proof. intros N. induction N; auto. intros. eapply holds_child; [eapply nth_error_In; eauto|auto]. Qed.
Lemma node_in_tree path t s x : good t -> node_at path t s -> in_tree x t -> prefix_of (value s) x -> in_tree x s.
Proof.
  intros G N. induction N as [|i path v o p a ch c s J N IH]; auto. intros X P. inversion G as [v' o' p' a' cs S E GC]; subst.
  destruct (map_some_split cs i c J) as (l & r & -> & <-).
  assert (C : In c (l ++ c :: r)) by (apply in_or_app; right; now left).
  assert (PS : prefix_of (value c) (value s)) by (apply in_tree_prefix; [now apply GC | now apply (node_in path)]).
  assert (PX := prefix_trans _ _ _ PS P).
  apply IH; auto. apply in_tree_child in X as [->|(d & D & X)].
  - exfalso. destruct (E c C) as [Q1 Q2]. apply Q2. apply prefix_antisym; auto.
  - assert (X' := X). apply in_tree_prefix in X'; [|now apply GC].
    apply in_app_iff in D as [D|[<-|D]]; auto; exfalso.
    + destruct (siblings _ S l c r eq_refl d (in_or_app _ _ _ (or_introl D))). destruct (prefix_two _ _ _ PX X'); contradiction.
    + destruct (siblings _ S l c r eq_refl d (in_or_app _ _ _ (or_intror D))). destruct (prefix_two _ _ _ PX X'); contradiction.
Qed.
Lemma in_tree_node x t : in_tree x t -> exists path s, node_at path t s /\ value s = x.
Proof.
  induction 1 as [v o p a ch ->|v o p a ch c C H (path & s & N & V)]; [exists [], (Node v o p a ch); split; [constructor|reflexivity]|].
  apply In_nth_error in C as [i J]. exists (i :: path), s. split; [econstructor; eauto|exact V].
Qed.

Lemma score_gain k cands chosen t path s : repr cands chosen t -> (forall q, In q chosen -> In q cands) -> node_at path t s -> value s <> [] ->
  score (N.of_nat k) s = N.of_nat (gain k cands chosen (value s)).
Proof.
  intros R CH N NE. assert (GS := node_good _ _ _ (repr_good _ _ _ R) N). unfold score.
  rewrite (shared_count cands chosen); auto.
  - destruct s as [v o p a ch]. cbn [value pen] in *.
    destruct (repr_fields _ _ _ R v o p a) as (_ & -> & _); [apply (node_holds path t _ N); constructor|exact NE|].
    unfold gain, occurrences, count. rewrite Nat2N.inj_mul. f_equal. lia.
  - intros x o p a H. apply (repr_fields _ _ _ R). now apply (node_holds path t s N).
  - intros v V P. apply (node_in_tree path t s); auto; [apply (repr_good _ _ _ R) | now apply (repr_in _ _ _ R)].
Qed.

Lemma choose_greedy k cands num : ~ In [] cands -> forall t chosen, repr cands chosen t -> (forall q, In q chosen -> In q cands) ->
  exists ps, choose num (N.of_nat k) t = Val ps /\ greedy k cands num chosen ps.
Proof.
  intros NN. induction num as [|num IH]; intros t chosen R CH; cbn [choose].
  - exists []. split; [reflexivity|constructor].
  - unfold getAndDeleteMaximum. assert (G := repr_good _ _ _ R).
    destruct (getMaximum_max (N.of_nat k) t G) as (m & path & s & E & N & SC & MX).
    destruct (getMaximum_ok (N.of_nat k) t G) as (sh' & m' & path' & s' & E' & N' & Z & A). rewrite E in E'.
    injection E' as <- <- <-. rewrite E, (node_value _ _ _ N).
    assert (ALL : forall x, In x cands -> N.of_nat (gain k cands chosen x) <= m).
    { intros x X. destruct (in_tree_node x t (repr_in _ _ _ R x X)) as (q & u & Q & <-).
      rewrite <- (score_gain k cands chosen t q u); auto; [now apply (MX q)|]. intros V. rewrite V in X. contradiction. }
    destruct (value s) as [|c p] eqn:VS.
    + exists []. split; [reflexivity|]. constructor. intros x X. specialize (ALL x X).
      unfold score in SC. rewrite VS in SC. cbn [length] in SC. change (N.of_nat 0) with 0 in SC. lia.
    + destruct (IH (change_at penaltize path t) ((c :: p) :: chosen)) as (ps & -> & GR).
      * rewrite <- VS. now apply mark_repr.
      * assert (IN : In (c :: p) cands).
        { apply (repr_only _ _ _ R); [|discriminate]. rewrite <- VS. now apply (node_in path). }
        intros q [<-|Q]; auto.
      * exists ((c :: p) :: ps). split; [reflexivity|].
        assert (SG := score_gain k cands chosen t path s R CH N). rewrite VS in SG. specialize (SG ltac:(discriminate)).
        constructor; auto.
        -- apply (repr_only _ _ _ R); [|discriminate]. rewrite <- VS. now apply (node_in path).
        -- destruct (N.eq_dec m 0) as [M|M]; [|lia]. exfalso. rewrite (Z M) in N. inversion N; subst.
           rewrite (repr_root _ _ _ R) in VS. discriminate.
        -- intros x X. specialize (ALL x X). lia.
Qed.

(* ---- inserting the candidates ---- *)
Lemma longest_common_eq a : forall b, commonPrefix a b = longest_common a b.
Proof. induction a as [|x a IH]; intros [|y b]; reflexivity || (cbn; now rewrite IH). Qed.
Lemma longest_common_prefix a : forall b, prefix_of (longest_common a b) a /\ prefix_of (longest_common a b) b.
Proof.
  induction a as [|x a IH]; intros [|y b]; cbn [longest_common]; try (split; eexists; reflexivity).
  destruct (N.eqb_spec x y) as [->|H]; [|split; eexists; reflexivity].
  destruct (IH b) as [[s P] [s' P']]. split; [exists s | exists s']; cbn; congruence.
Qed.
Lemma insert_repr v w cands t : repr cands [] t -> v <> [] -> prefix_of v w -> (forall x, in_tree x t -> lex_le x w) ->
  exists t', insert v t = Some t' /\ repr (cands ++ [v]) [] t' /\ forall x, in_tree x t' <-> x = v \/ in_tree x t.
Proof.
  intros [G R I O F] NE P B. unfold insert.
  assert (PV : prefix_of (value t) v) by (rewrite R; now exists v).
  destruct (insert_good v w P t G PV B) as (t' & E & G' & V' & T'). exists t'. split; [exact E|]. split; [|exact T'].
  split; auto.
  - now rewrite V'.
  - intros x X. apply T'. apply in_app_iff in X as [X|[<-|[]]]; auto.
  - intros x X N. apply in_or_app. apply T' in X as [->|X]; [right; now left|]. left. now apply O.
  - intros x o p a H N. assert (CC : count (same x) (cands ++ [v]) = count (same x) cands + (if same x v then 1 else 0)).
    { unfold count. rewrite filter_app, app_length. cbn [filter]. destruct (same x v); cbn [length]; lia. }
    rewrite CC. change (mem x []) with false. cbn [negb].
    destruct (insert_holds v w P t G PV B t' E x o p a H) as [[X1 X2]|[(-> & o' & X2 & ->)|(-> & X2 & -> & -> & ->)]].
    + destruct (F x o p a X2 N) as (-> & -> & ->). rewrite same_false by auto. change (mem x []) with false. cbn [negb].
      split; [lia|auto].
    + destruct (F v o' p a X2 N) as (-> & -> & ->). rewrite same_refl. change (mem v []) with false. auto.
    + rewrite same_refl. split; [|auto]. unfold count. rewrite filter_none; [reflexivity|]. apply Forall_forall. intros y Y.
      apply same_false. intros <-. apply X2. now apply I.
Qed.
Lemma insert_words_repr min : (0 < min)%nat -> forall ls words, map unescapeNewlinesAndBackslashes ls = map Val words ->
  forall lastWord t cands, repr cands [] t -> (forall x w, in_tree x t -> In w words -> lex_le x w) ->
  StronglySorted lex_le words ->
  exists t', insert_words min lastWord ls t = Val t' /\ repr (cands ++ candidates min lastWord words) [] t'.
Proof.
  intros M. induction ls as [|l ls IH]; intros [|w words] E; try discriminate; intros lastWord t cands R B S; cbn [insert_words candidates].
  - exists t. rewrite app_nil_r. auto.
  - cbn [map] in E. injection E as E1 E2. rewrite E1. cbv zeta. rewrite longest_common_eq.
    apply StronglySorted_inv in S as [S FS]. rewrite Forall_forall in FS.
    destruct (Nat.leb_spec min (length (longest_common lastWord w))) as [L|L].
    + destruct (insert_repr (longest_common lastWord w) w cands t) as (t' & -> & R' & T'); auto.
      * intros X. rewrite X in L. cbn in L. lia.
      * apply longest_common_prefix.
      * intros x X. apply (B x w X). now left.
      * rewrite app_assoc. apply IH; auto. intros x u X U. apply T' in X as [->|X].
        -- apply (lex_le_trans _ w); [apply prefix_le; apply longest_common_prefix | now apply FS].
        -- apply (B x u X). now right.
    + cbn [app]. apply IH; auto. intros x u X U. apply (B x u X). now right.
Qed.
Lemma empty_repr : repr [] [] empty_tree.
Proof.
  split.
  - apply (good_node [] 1 0 true []); [constructor | intros c [] | intros c []].
  - reflexivity.
  - intros v [].
  - intros v H NE. inversion H; subst; [contradiction | match goal with X : In _ [] |- _ => destruct X end].
  - intros x o p a H NE. inversion H; subst; [contradiction | match goal with X : In _ [] |- _ => destruct X end].
Qed.
Lemma candidates_in min last words p : (0 < min)%nat -> In p (candidates min last words) ->
  (min <= length p)%nat /\ common_to_neighbours p (last :: words).
Proof.
  intros M. revert last. induction words as [|w words IH]; intros last; cbn [candidates]; [intros []|]. intros H.
  apply in_app_iff in H as [H|H].
  - destruct (Nat.leb_spec min (length (longest_common last w))); [|destruct H]. destruct H as [<-|[]]. split; [lia|].
    destruct (longest_common_prefix last w). exists [], last, w, words. auto.
  - destruct (IH w H) as [L (a & x & y & b & E & P & Q)]. split; [exact L|]. exists (last :: a), x, y, b. rewrite E. auto.
Qed.
(* greedy choices are distinct candidates *)
Lemma used_in chosen q x : In q chosen -> is_prefix q x = true -> (length q <= used chosen x)%nat.
Proof.
  induction chosen as [|c chosen IH]; [intros []|]. intros [->|I] P; rewrite used_cons.
  - rewrite P. lia.
  - specialize (IH I P). destruct (is_prefix c x); lia.
Qed.
Lemma gain_chosen k cands chosen p : In p chosen -> gain k cands chosen p = 0%nat.
Proof.
  intros I. unfold gain. assert (H := used_in chosen p p I (proj2 (is_prefix_iff _ _) (prefix_refl _))).
  replace (length p - used chosen p)%nat with 0%nat by lia. lia.
Qed.
Lemma greedy_facts k cands n chosen ps : greedy k cands n chosen ps ->
  (length ps <= n)%nat /\ NoDup ps /\ (forall p, In p ps -> In p cands /\ ~ In p chosen).
Proof.
  induction 1 as [chosen|n chosen H|n chosen p ps I P B G (L & ND & C)].
  - split; [cbn; lia|]. split; [constructor | intros p []].
  - split; [cbn; lia|]. split; [constructor | intros p []].
  - split; [cbn; lia|]. split.
    + constructor; auto. intros X. apply C in X as [_ X]. apply X. now left.
    + intros q [<-|Q]; [split; [exact I|]; intros X; apply (gain_chosen k cands) in X; lia|].
      apply C in Q as [Q1 Q2]. split; [exact Q1|]. intros X. apply Q2. now right.
Qed.
