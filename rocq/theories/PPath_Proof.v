(* The graph pattern made of a property path: which pairs of nodes it connects. *)
From Coq Require Import List Arith NArith Bool Lia.
From Verif Require Import Conv_Model Keys_Model Keys_Proof PPath_Model PPath_Spec.
Import ListNotations.
Open Scope N_scope.

(* How a path is represented by the parser, without the flags. *)
Fixpoint tree (p : ppath) : path :=
  match p with
  | Link t => leaf t
  | Inv q => node INVERSE 0 [tree q]
  | Seq ps => node SEQUENCE 0 (map tree ps)
  | Alt ps => node ALTERNATIVE 0 (map tree ps)
  | Opt q => node TRANSITIVE_MAX 1 [tree q]
  | Star q => node TRANSITIVE 0 [tree q]
  | Plus q => node TRANSITIVE_MIN 1 [tree q]
  | UpTo n q => node TRANSITIVE_MAX n [tree q]
  end.
Definition rep (p : ppath) : path := computeCanBeNull (tree p).

(* The patterns of the planner as patterns of the specification. *)
Fixpoint to_pat (o : operation_) : pat :=
  match o with
  | Basic s (Path _ _ iri _ _) o => PTriple s iri o
  | Union a b => PUnion (map to_pat a) (map to_pat b)
  | TransPath l r il ir min max child => PTrans l r il ir min max (map to_pat child)
  end.

Lemma ppath_ind' (Q : ppath -> Prop) :
  (forall t, Q (Link t)) -> (forall p, Q p -> Q (Inv p)) -> (forall ps, Forall Q ps -> Q (Seq ps)) ->
  (forall ps, Forall Q ps -> Q (Alt ps)) -> (forall p, Q p -> Q (Opt p)) -> (forall p, Q p -> Q (Star p)) ->
  (forall p, Q p -> Q (Plus p)) -> (forall n p, Q p -> Q (UpTo n p)) -> forall p, Q p.
Proof.
  intros H1 H2 H3 H4 H5 H6 H7 H8. fix F 1. intros [t|p|ps|ps|p|p|p|n p].
  - apply H1.
  - apply H2, F.
  - apply H3. induction ps as [|q ps IH]; constructor; [apply F|apply IH].
  - apply H4. induction ps as [|q ps IH]; constructor; [apply F|apply IH].
  - apply H5, F.
  - apply H6, F.
  - apply H7, F.
  - apply H8, F.
Qed.

Lemma fix_all {A} (Q : A -> Prop) l : (fix all l := match l with [] => True | q :: qs => Q q /\ all qs end) l <-> Forall Q l.
Proof. induction l as [|q l IH]; [split; auto|]. rewrite Forall_cons_iff, IH. tauto. Qed.
Lemma fix_any {A} (Q : A -> Prop) l : (fix any l := match l with [] => False | q :: qs => Q q \/ any qs end) l <-> Exists Q l.
Proof. induction l as [|q l IH]; [split; [tauto|intros H; inversion H]|]. rewrite Exists_cons, IH. tauto. Qed.

Lemma uniqueVarName_inj a b : uniqueVarName a = uniqueVarName b -> a = b.
Proof.
  unfold uniqueVarName. intros H. injection H as H.
  apply (read_number a b [] []); [rewrite !app_nil_r; auto|exact I|exact I].
Qed.
Lemma uniqueVarName_variable n : is_variable (uniqueVarName n) = true.
Proof. reflexivity. Qed.

Definition text_dec := list_eq_dec N.eq_dec.
Definition upd (mu : list N -> list N) v x : list N -> list N := fun w => if text_dec w v then x else mu w.
Lemma upd_same mu v x : upd mu v x v = x.
Proof. unfold upd. destruct (text_dec v v); congruence. Qed.
Lemma upd_other mu v x w : w <> v -> upd mu v x w = mu w.
Proof. unfold upd. destruct (text_dec w v); congruence. Qed.

(* t is none of the variables made up from number n on *)
Definition old (n : N) (t : list N) : Prop := forall k, n <= k -> t <> uniqueVarName k.
Definition agree (n n' : N) (mu mu' : list N -> list N) : Prop :=
  forall v, (forall k, n <= k < n' -> v <> uniqueVarName k) -> mu' v = mu v.

Lemma old_mono n n' t : n <= n' -> old n t -> old n' t.
Proof. intros H O k Hk. apply O. lia. Qed.
Lemma old_unique n n' : n < n' -> old n' (uniqueVarName n).
Proof. intros H k Hk E. apply uniqueVarName_inj in E. lia. Qed.
Lemma agree_refl n n' mu : agree n n' mu mu.
Proof. intros v _. reflexivity. Qed.
Lemma agree_trans n n1 n2 n3 a b c : n <= n1 -> n2 <= n3 -> n1 <= n2 -> agree n n2 a b -> agree n1 n3 b c -> agree n n3 a c.
Proof. intros L1 L2 L3 H1 H2 v Hv. rewrite H2, H1; auto; intros k Hk; apply Hv; lia. Qed.
Lemma agree_wider n n' m m' a b : m <= n -> n' <= m' -> agree n n' a b -> agree m m' a b.
Proof. intros H1 H2 H v Hv. apply H. intros k Hk. apply Hv. lia. Qed.
Lemma agree_old n n' a b t : agree n n' a b -> old n t -> b t = a t.
Proof. intros H O. apply H. intros k Hk. apply O. lia. Qed.
Lemma agree_value n n' a b t : agree n n' a b -> old n t -> value_of b t = value_of a t.
Proof. intros H O. unfold value_of. destruct (is_variable t); auto. apply (agree_old _ _ _ _ _ H O). Qed.
Lemma agree_upd n mu x : agree n (n + 1) mu (upd mu (uniqueVarName n) x).
Proof. intros v Hv. apply upd_other. apply Hv. lia. Qed.

Section Graph.
  Variable G : list N -> list N -> list N -> Prop.
  Notation rel := (list N -> list N -> Prop).
  Definition sol (mu : list N -> list N) (ps : pattern) : Prop := solution G mu (map to_pat ps).

  Lemma sol_app mu a b : sol mu (a ++ b) <-> sol mu a /\ sol mu b.
  Proof. unfold sol, solution. rewrite map_app, Forall_app. tauto. Qed.
  Lemma sol_nil mu : sol mu [].
  Proof. constructor. Qed.
  Lemma sat_union mu a b : satisfies G mu (to_pat (Union a b)) <-> sol mu a \/ sol mu b.
  Proof. cbn [to_pat satisfies]. rewrite !fix_all. reflexivity. Qed.
  Lemma sol_one mu o : sol mu [o] <-> satisfies G mu (to_pat o).
  Proof. unfold sol, solution. cbn [map]. rewrite Forall_cons_iff. split; [tauto|auto]. Qed.

  (* the pattern reads only variables that are not among those from n on *)
  Definition local (n : N) (ps : pattern) : Prop :=
    forall mu mu', (forall v, old n v -> mu' v = mu v) -> sol mu ps -> sol mu' ps.
  Lemma local_mono n n' ps : n <= n' -> local n ps -> local n' ps.
  Proof. intros L H mu mu' E. apply H. intros v Hv. apply E. apply (old_mono n); auto. Qed.
  Lemma local_agree n n' ps mu mu' : local n ps -> agree n n' mu mu' -> sol mu ps -> sol mu' ps.
  Proof. intros H A. apply H. intros v Hv. apply (agree_old _ _ _ _ _ A Hv). Qed.
  Lemma local_app n a b : local n a -> local n b -> local n (a ++ b).
  Proof. intros Ha Hb mu mu' E. rewrite !sol_app. intros [A B]. split; [apply (Ha mu)|apply (Hb mu)]; auto. Qed.

  (* the pattern connects two terms exactly if R does *)
  Definition good (f : seeder) (R : rel) : Prop :=
    forall l r n, old n l -> old n r -> exists ps n', f l r n = Val (ps, n') /\ n <= n' /\ local n' ps /\
      forall mu, (exists mu', agree n n' mu mu' /\ sol mu' ps) <-> R (value_of mu l) (value_of mu r).

  Lemma good_equiv f R S : (forall x y, R x y <-> S x y) -> good f R -> good f S.
  Proof.
    intros E H l r n Hl Hr. destruct (H l r n Hl Hr) as (ps & n' & A & B & C & D). exists ps, n'. repeat (split; auto).
    - intros X. apply E, D, X. - intros X. apply D, E, X.
  Qed.

  Fixpoint chain (rs : list rel) (x y : list N) : Prop :=
    match rs with [] => x = y | r :: rs' => exists z, r x z /\ chain rs' z y end.

  Lemma join_good fs : forall rs, Forall2 good fs rs -> fs <> [] -> good (fun l r n => join_children l fs r n) (chain rs).
  Proof.
    induction fs as [|f fs IH]; intros rs F NE; [congruence|]. inversion F as [|? R ? rs' Hf F']; subst. clear F NE.
    destruct fs as [|g fs].
    - inversion F'; subst. apply (good_equiv _ R); [|apply Hf]. intros x y. cbn [chain]. split.
      + intros H. exists y. auto. + intros (z & H & <-). auto.
    - specialize (IH rs' F'). assert (NE : g :: fs <> []) by congruence. specialize (IH NE).
      intros l r n Hl Hr. remember (g :: fs) as gs eqn:Egs.
      assert (J : join_children l (f :: gs) r n =
        bind (f l (uniqueVarName n) (n + 1)) (fun '(child, n1) => bind (join_children (uniqueVarName n) gs r n1) (fun '(p, n2) => Val (child ++ p, n2)))).
      { subst gs. reflexivity. }
      rewrite J. clear J.
      assert (L1 : old (n + 1) l) by (apply (old_mono n); [lia|auto]).
      assert (L2 : old (n + 1) (uniqueVarName n)) by (apply old_unique; lia).
      destruct (Hf l (uniqueVarName n) (n + 1) L1 L2) as (ps & n1 & E1 & B1 & C1 & D1). rewrite E1. cbn [bind].
      assert (L3 : old n1 (uniqueVarName n)) by (apply old_unique; lia).
      assert (L4 : old n1 r) by (apply (old_mono n); [lia|auto]).
      destruct (IH (uniqueVarName n) r n1 L3 L4) as (qs & n2 & E2 & B2 & C2 & D2). cbn beta in E2. rewrite E2. cbn [bind].
      exists (ps ++ qs), n2. split; [reflexivity|]. split; [lia|]. split.
      { apply local_app; auto. apply (local_mono n1); auto. }
      intros mu. cbn [chain]. split.
      + intros (mu' & A & S). apply sol_app in S. destruct S as [S1 S2].
        exists (mu' (uniqueVarName n)). split.
        * rewrite <- (agree_value _ _ _ _ l A Hl). apply (D1 mu'). exists mu'. split; [apply agree_refl|auto].
        * rewrite <- (agree_value _ _ _ _ r A Hr). apply (D2 mu'). exists mu'. split; [apply agree_refl|auto].
      + intros (z & R1 & R2). set (mu1 := upd mu (uniqueVarName n) z).
        assert (A1 : agree n (n + 1) mu mu1) by apply agree_upd.
        assert (V1 : value_of mu1 (uniqueVarName n) = z) by (unfold value_of; rewrite uniqueVarName_variable; apply upd_same).
        destruct (proj2 (D1 mu1)) as (mu2 & A2 & S2).
        { rewrite V1, (agree_value _ _ _ _ l A1 Hl). exact R1. }
        assert (A3 : agree n n1 mu mu2) by (apply (agree_trans n (n + 1) (n + 1) n1 mu mu1 mu2); auto; lia).
        destruct (proj2 (D2 mu2)) as (mu3 & A4 & S3).
        { rewrite (agree_value _ _ _ _ _ A2 L2), V1. rewrite (agree_value _ _ _ _ r A3 Hr). exact R2. }
        exists mu3. split; [apply (agree_trans n n1 n1 n2 mu mu2 mu3); auto; lia|].
        apply sol_app. split; auto. apply (local_agree n1 n2 ps mu2); auto.
  Qed.

  Lemma seed_all_good fs : forall rs, Forall2 good fs rs -> forall l r n, old n l -> old n r ->
    exists pss n', seed_all l r fs n = Val (pss, n') /\ n <= n' /\ Forall (local n') pss /\ length pss = length fs /\
      forall mu, (exists mu' ps, agree n n' mu mu' /\ In ps pss /\ sol mu' ps) <-> exists R, In R rs /\ R (value_of mu l) (value_of mu r).
  Proof.
    induction fs as [|f fs IH]; intros rs F l r n Hl Hr; inversion F as [|? R ? rs' Hf F']; subst.
    { exists [], n. repeat (split; [auto; lia|]). intros mu. split; [intros (? & ? & _ & [] & _)|intros (? & [] & _)]. }
    destruct (Hf l r n Hl Hr) as (ps & n1 & E1 & B1 & C1 & D1).
    assert (L3 : old n1 l) by (apply (old_mono n); auto). assert (L4 : old n1 r) by (apply (old_mono n); auto).
    destruct (IH rs' F' l r n1 L3 L4) as (pss & n2 & E2 & B2 & C2 & K2 & D2).
    exists (ps :: pss), n2. cbn [seed_all]. rewrite E1. cbn [bind]. rewrite E2. cbn [bind]. split; [reflexivity|]. split; [lia|].
    split; [constructor; auto; apply (local_mono n1); auto|]. split; [cbn [length]; lia|]. intros mu. split.
    - intros (mu' & qs & A & [<-|I] & S).
      + exists R. split; [left; auto|]. rewrite <- (agree_value _ _ _ _ l A Hl), <- (agree_value _ _ _ _ r A Hr).
        apply (D1 mu'). exists mu'. split; [apply agree_refl|auto].
      + destruct (proj1 (D2 mu')) as (R' & I' & X). { exists mu', qs. split; [apply agree_refl|auto]. }
        exists R'. split; [right; auto|]. rewrite <- (agree_value _ _ _ _ l A Hl), <- (agree_value _ _ _ _ r A Hr). auto.
    - intros (R' & [<-|I] & X).
      + destruct (proj2 (D1 mu) X) as (mu' & A & S). exists mu', ps. split; [apply (agree_wider n n1); auto; lia|]. split; [left; auto|auto].
      + destruct (proj2 (D2 mu)) as (mu' & qs & A & I' & S). { exists R'. auto. }
        exists mu', qs. split; [apply (agree_wider n1 n2); auto; lia|]. split; [right; auto|auto].
  Qed.

  Lemma unite_sol ps : (2 <= length ps)%nat -> exists p, uniteGraphPatterns ps = Val p /\
    forall mu, sol mu p <-> exists q, In q ps /\ sol mu q.
  Proof.
    destruct ps as [|p0 [|p1 ps]]; cbn [length]; try lia. intros _. cbn [uniteGraphPatterns]. eexists. split; [reflexivity|].
    assert (H : forall ps acc mu, sol mu (fold_left (fun p q => [Union p q]) ps acc) <-> sol mu acc \/ exists q, In q ps /\ sol mu q).
    { clear. induction ps as [|q ps IH]; intros acc mu; cbn [fold_left].
      - split; [auto|]. intros [H|(q & [] & _)]. auto.
      - rewrite IH, sol_one, sat_union. split.
        + intros [[H|H]|(q' & I & H)]; [auto|right; exists q; split; [left|]; auto|right; exists q'; split; [right|]; auto].
        + intros [H|(q' & [<-|I] & H)]; [auto|auto|right; exists q'; auto]. }
    intros mu. rewrite H, sol_one, sat_union. split.
    - intros [[S|S]|(q & I & S)]; [exists p0|exists p1|exists q]; cbn [In]; auto.
    - intros (q & [<-|[<-|I]] & S); auto. right. exists q. auto.
  Qed.

  (* which children of a sequence are used *)
  Inductive sel {A} : list (bool * A) -> list A -> Prop :=
  | sel_nil : sel [] []
  | sel_keep b a l s : sel l s -> sel ((b, a) :: l) (a :: s)
  | sel_skip a l s : sel l s -> sel ((true, a) :: l) s.
  Lemma bitmasks_all k : forall m, length m = k -> In m (bitmasks k).
  Proof.
    induction k as [|k IH]; intros m H.
    - destruct m; [left; auto|discriminate].
    - destruct m as [|b m]; [discriminate|]. cbn [bitmasks]. apply in_flat_map. exists m. split; [apply IH; cbn in H; lia|].
      destruct b; cbn; auto.
  Qed.
  Lemma bitmasks_length k : forall m, In m (bitmasks k) -> length m = k.
  Proof.
    induction k as [|k IH]; intros m H; cbn [bitmasks] in H.
    - destruct H as [<-|[]]. reflexivity.
    - apply in_flat_map in H. destruct H as (h & I & [<-|[<-|[]]]); cbn [length]; rewrite (IH h I); reflexivity.
  Qed.
  Lemma sel_included {A} (l : list (bool * A)) : forall s, sel l s <-> exists m, length m = length (filter fst l) /\ s = included m l.
  Proof.
    induction l as [|[b a] l IH]; intros s.
    - split; [intros H; inversion H; subst; exists []; auto|intros (m & _ & ->); constructor].
    - split.
      + intros H. inversion H as [|? ? ? s' H'|? ? ? H']; subst; apply IH in H'; destruct H' as (m & L & ->).
        * destruct b; [exists (true :: m)|exists m]; cbn; auto.
        * exists (false :: m). cbn. auto.
      + intros (m & L & ->). destruct b; cbn [filter fst length] in L.
        * destruct m as [|b m]; [discriminate L|]. cbn [included]. injection L as L. destruct b; constructor; apply IH; exists m; auto.
        * cbn [included]. constructor. apply IH. exists m. auto.
  Qed.

  Definition goods (s : bool * seeder) (r : bool * rel) : Prop := fst s = fst r /\ good (snd s) (snd r).
  Lemma included_goods ss rs : Forall2 goods ss rs -> forall m, Forall2 good (included m ss) (included m rs).
  Proof.
    induction 1 as [|[b f] [b' R] ss rs [E Hf] F IH]; intros m; [constructor|]. cbn in E, Hf. subst b'.
    destruct b; cbn [included]; [|constructor; auto]. destruct m as [|[] m]; [auto|constructor; auto|auto].
  Qed.
  Lemma filter_goods ss rs : Forall2 goods ss rs -> length (filter fst ss) = length (filter fst rs).
  Proof. induction 1 as [|[b f] [b' R] ss rs [E Hf] F IH]; [auto|]. cbn in E. subst b'. cbn [filter fst]. destruct b; cbn [length]; auto. Qed.

  Definition nonempty {A} (l : list A) : bool := match l with [] => false | _ => true end.
  Lemma join_patterns_seed l r children : forall masks n,
    join_patterns l r children masks n =
    seed_all l r (map (fun m => fun l r n => join_children l (included m children) r n)
                      (filter (fun m => nonempty (included m children)) masks)) n.
  Proof.
    induction masks as [|m masks IH]; intros n; [reflexivity|]. cbn [join_patterns filter].
    destruct (included m children) as [|f fs] eqn:E; cbn [nonempty]; [apply IH|]. cbn [map seed_all]. rewrite E.
    destruct (join_children l (f :: fs) r n) as [[p n1]| | | | |]; cbn [bind]; auto. rewrite IH. reflexivity.
  Qed.

  Definition seq_rel (rs : list (bool * rel)) (x y : list N) : Prop := exists s, sel rs s /\ s <> [] /\ chain s x y.

  (* one chunk that is the whole sequence *)
  Lemma chunk_good ss rs l r n : Forall2 goods ss rs -> (length (filter fst ss) <= 10)%nat -> (1 <= length ss)%nat ->
    old n l -> old n r ->
    exists ps n', chunk_pattern l r ss (0%nat, length ss) n = Val (ps, n') /\ n <= n' /\ local n' ps /\
      forall mu, (exists mu', agree n n' mu mu' /\ sol mu' ps) <-> seq_rel rs (value_of mu l) (value_of mu r).
  Proof.
    intros F K NE Hl Hr. unfold chunk_pattern. rewrite Nat.sub_0_r, skipn_O, firstn_all.
    assert (X : existsb (fun '(i, (null, _)) => null && (length ss <=? i)%nat) (combine (seq 0 (length ss)) ss) = false).
    { destruct (existsb _ _) eqn:E; [|reflexivity]. apply existsb_exists in E. destruct E as ([i [b f]] & I & E).
      apply in_combine_l, in_seq in I. apply andb_true_iff in E. destruct E as [_ E]. apply Nat.leb_le in E. lia. }
    rewrite X. clear X. replace (10 <? length (filter fst ss))%nat with false by (symmetry; apply Nat.ltb_ge; lia).
    rewrite join_patterns_seed. set (k := length (filter fst ss)). set (ms := filter (fun m => nonempty (included m ss)) (bitmasks k)).
    assert (FG : Forall2 good (map (fun m => fun l r n => join_children l (included m ss) r n) ms) (map (fun m => chain (included m rs)) ms)).
    { assert (Q : Forall (fun m => nonempty (included m ss) = true) ms).
      { apply Forall_forall. intros m I. apply filter_In in I. tauto. }
      clearbody ms. induction Q as [|m ms E Q IH]; cbn [map]; constructor; auto.
      apply join_good; [apply included_goods; auto|]. destruct (included m ss); [discriminate E|congruence]. }
    assert (NE2 : ms <> []).
    { assert (I : In (repeat true k) ms).
      { apply filter_In. split; [apply bitmasks_all, repeat_length|]. unfold k. clear - NE. destruct ss as [|[[] f] ss]; cbn in *; auto; lia. }
      destruct ms; [destruct I|congruence]. }
    assert (RE : forall x y, (exists R, In R (map (fun m => chain (included m rs)) ms) /\ R x y) <-> seq_rel rs x y).
    { intros x y. unfold seq_rel. split.
      - intros (R & I & H). apply in_map_iff in I. destruct I as (m & <- & I). apply filter_In in I. destruct I as [I E].
        exists (included m rs). split; [|split; [|auto]].
        + apply sel_included. exists m. split; auto. rewrite (bitmasks_length _ _ I). unfold k. apply filter_goods; auto.
        + pose proof (included_goods ss rs F m) as F2. destruct (included m ss); [discriminate E|]. inversion F2; congruence.
      - intros (s & S & E & H). apply sel_included in S. destruct S as (m & L & ->). exists (chain (included m rs)). split; auto.
        apply in_map_iff. exists m. split; auto. apply filter_In. split.
        + apply bitmasks_all. rewrite L. symmetry. apply filter_goods; auto.
        + pose proof (included_goods ss rs F m) as F2. destruct (included m ss); [inversion F2; congruence|reflexivity]. }
    destruct (seed_all_good _ _ FG l r n Hl Hr) as (pss & n' & E & B & C & Le & D). rewrite E. cbn [bind]. rewrite map_length in Le.
    destruct pss as [|p [|q pss]].
    - destruct ms; [congruence|discriminate Le].
    - exists p, n'. split; auto. split; auto. split; [inversion C; auto|]. intros mu. rewrite <- RE, <- D. split.
      + intros (mu' & A & S). exists mu', p. split; auto. split; [left; auto|auto].
      + intros (mu' & q & A & [<-|[]] & S). exists mu'. auto.
    - destruct (unite_sol (p :: q :: pss)) as (u & EU & U); [cbn [length]; lia|]. rewrite EU. cbn [bind].
      exists u, n'. split; auto. split; auto. split.
      + intros mu mu' V. rewrite !U. intros (q' & I & S). exists q'. split; auto. rewrite Forall_forall in C. apply (C q' I mu); auto.
      + intros mu. rewrite <- RE, <- D. split.
        * intros (mu' & A & S). apply U in S. destruct S as (q' & I & S). exists mu', q'. auto.
        * intros (mu' & q' & A & I & S). exists mu'. split; auto. apply U. exists q'. auto.
  Qed.

  Lemma chunk_end_one hn hnn e nulls : (forall k, nth_error nulls k = Some false ->
       hn && hnn = false /\ ((hn = false /\ forall i, (i < k)%nat -> nth_error nulls i = Some false) \/
                             (hnn = false /\ forall i, (i < k)%nat -> nth_error nulls i = Some true))) ->
    exists h, chunk_end hn hnn e nulls = (true, (e + length nulls)%nat, h).
  Proof.
    revert hn hnn e. induction nulls as [|b nulls IH]; intros hn hnn e H.
    - exists hnn. cbn. rewrite Nat.add_0_r. reflexivity.
    - cbn [chunk_end length]. destruct b.
      + destruct (IH true hnn (S e)) as (h & E).
        * intros k Hk. specialize (H (S k) Hk). destruct H as (A & [[B C]|[B C]]).
          { specialize (C 0%nat ltac:(lia)). discriminate C. }
          rewrite B. split; auto. right. split; auto. intros i Hi. apply (C (S i)). lia.
        * exists h. rewrite E. f_equal. f_equal. lia.
      + destruct (H 0%nat eq_refl) as [A _]. rewrite A.
        destruct (IH hn true (S e)) as (h & E).
        * intros k Hk. specialize (H (S k) Hk). destruct H as (A' & [[B C]|[B C]]).
          { rewrite B. split; auto. left. split; auto. intros i Hi. apply (C (S i)). lia. }
          specialize (C 0%nat ltac:(lia)). discriminate C.
        * exists h. rewrite E. f_equal. f_equal. lia.
  Qed.
  Lemma one_chunk nulls fuel : one_run nulls -> nulls <> [] -> (2 <= fuel)%nat -> nonNullChunks fuel nulls 0 [] = Val [(0%nat, length nulls)].
  Proof.
    intros R NE Hf. destruct fuel as [|[|fuel]]; try lia. cbn [nonNullChunks].
    replace (0 <? length nulls)%nat with true by (symmetry; apply Nat.ltb_lt; destruct nulls; [congruence|cbn; lia]).
    rewrite skipn_O. destruct (chunk_end_one false false 0 nulls) as (h & E).
    { intros k Hk. split; auto. destruct (R k Hk); auto. }
    rewrite E. cbn [andb app]. replace (S (0 + length nulls - 1)) with (length nulls) by (destruct nulls; [congruence|cbn; lia]).
    rewrite Nat.ltb_irrefl. reflexivity.
  Qed.

  Lemma sequence_good ss rs : Forall2 goods ss rs -> one_run (map fst ss) -> (length (filter fst ss) <= 10)%nat -> (2 <= length ss)%nat ->
    good (fun l r n => seedFromSequence l r ss n) (seq_rel rs).
  Proof.
    intros F O K L l r n Hl Hr. unfold seedFromSequence. destruct ss as [|s0 [|s1 ss]]; cbn [length] in L; try lia.
    remember (s0 :: s1 :: ss) as ts eqn:E. rewrite one_chunk; auto.
    2:{ subst ts. cbn. congruence. } 2:{ subst ts. cbn [length]. lia. }
    rewrite map_length. cbn [bind length chunk_patterns]. replace (n + N.of_nat (1 - 1)) with n by (cbn; lia).
    destruct (chunk_good ts rs l r n F K ltac:(subst ts; cbn; lia) Hl Hr) as (ps & n' & E1 & B & C & D). rewrite E1. cbn [bind].
    exists ps, n'. auto.
  Qed.
  Lemma alternative_good fs rs : Forall2 good fs rs -> (2 <= length fs)%nat ->
    good (fun l r n => seedFromAlternative l r fs n) (fun x y => exists R, In R rs /\ R x y).
  Proof.
    intros F L l r n Hl Hr. unfold seedFromAlternative.
    destruct (seed_all_good fs rs F l r n Hl Hr) as (pss & n' & E & B & C & Le & D).
    destruct (unite_sol pss) as (u & EU & U); [lia|]. destruct fs as [|f0 [|f1 fs]]; cbn [length] in L; try lia.
    rewrite E. cbn [bind]. rewrite EU. cbn [bind]. exists u, n'. split; auto. split; auto. split.
    - intros mu mu' V. rewrite !U. intros (q & I & S). exists q. split; auto. rewrite Forall_forall in C. apply (C q I mu); auto.
    - intros mu. rewrite <- D. split.
      + intros (mu' & A & S). apply U in S. destruct S as (q' & I & S). exists mu', q'. auto.
      + intros (mu' & q' & A & I & S). exists mu'. split; auto. apply U. exists q'. auto.
  Qed.

  Definition steps (min max : N) (R : rel) (x y : list N) : Prop := exists k, min <= N.of_nat k <= max /\ walk R k x y.
  Lemma walk_iff (R S : rel) : (forall x y, R x y <-> S x y) -> forall k x y, walk R k x y -> walk S k x y.
  Proof. intros E k x y H. induction H; econstructor; eauto. apply E. auto. Qed.
  Lemma trans_good f R rest min max : good f R -> good (fun l r n => seedTrans l r (f :: rest) min max n) (steps min max R).
  Proof.
    intros H l r n Hl Hr. cbn [seedTrans].
    assert (L1 : old (n + 2) (uniqueVarName n)) by (apply old_unique; lia).
    assert (L2 : old (n + 2) (uniqueVarName (n + 1))) by (apply old_unique; lia).
    destruct (H _ _ (n + 2) L1 L2) as (ps & n' & E & B & C & D). rewrite E. cbn [bind].
    eexists. exists n'. split; [reflexivity|]. split; [lia|].
    assert (W : forall mu, sol mu [TransPath l r (uniqueVarName n) (uniqueVarName (n + 1)) min max ps] <-> steps min max R (value_of mu l) (value_of mu r)).
    { intros mu. rewrite sol_one. cbn [to_pat satisfies]. unfold steps.
      assert (Q : forall x y, (exists mu' : list N -> list N, mu' (uniqueVarName n) = x /\ mu' (uniqueVarName (n + 1)) = y /\
          (fix all (l0 : list pat) : Prop := match l0 with [] => True | q :: qs => satisfies G mu' q /\ all qs end) (map to_pat ps)) <-> R x y).
      { intros x y. split.
        - intros (mu' & <- & <- & S). apply fix_all in S. specialize (D mu'). unfold value_of in D. rewrite !uniqueVarName_variable in D.
          apply D. exists mu'. split; [apply agree_refl|exact S].
        - intros X. set (m0 := upd (upd mu (uniqueVarName n) x) (uniqueVarName (n + 1)) y).
          assert (V1 : m0 (uniqueVarName n) = x).
          { unfold m0. rewrite upd_other, upd_same; auto. intros Q. apply uniqueVarName_inj in Q. lia. }
          assert (V2 : m0 (uniqueVarName (n + 1)) = y) by apply upd_same.
          specialize (D m0). unfold value_of in D. rewrite !uniqueVarName_variable, V1, V2 in D.
          destruct (proj2 D X) as (mu' & A & S). exists mu'. split; [rewrite (agree_old _ _ _ _ _ A L1); auto|].
          split; [rewrite (agree_old _ _ _ _ _ A L2); auto|]. apply fix_all. exact S. }
      split; intros (k & Hk & Wk); exists k; split; auto; revert Wk; apply walk_iff; intros x y; [apply Q|symmetry; apply Q]. }
    split.
    - intros mu mu' V. rewrite !W. unfold value_of.
      rewrite (V l), (V r); [auto| |]; apply (old_mono n); auto; lia.
    - intros mu. split.
      + intros (mu' & A & S). apply W in S. rewrite <- (agree_value _ _ _ _ l A Hl), <- (agree_value _ _ _ _ r A Hr). auto.
      + intros S. exists mu. split; [apply agree_refl|]. apply W. auto.
  Qed.
  Lemma inverse_good f R rest : good f R -> good (fun l r n => seedFromInverse l r (f :: rest) n) (fun x y => R y x).
  Proof.
    intros H l r n Hl Hr. destruct (H r l n Hr Hl) as (ps & n' & E & B & C & D). exists ps, n'. cbn [seedFromInverse]. auto.
  Qed.
  Lemma iri_good p : is_variable (match p with Path _ _ t _ _ => t end) = false ->
    good (fun l r n => Val ([Basic l p r], n)) (fun x y => G x (match p with Path _ _ t _ _ => t end) y).
  Proof.
    intros V l r n Hl Hr. exists [Basic l p r], n. destruct p as [o li t cs nu]. cbn in V.
    assert (W : forall mu, sol mu [Basic l (Path o li t cs nu) r] <-> G (value_of mu l) t (value_of mu r)).
    { intros mu. rewrite sol_one. cbn [to_pat satisfies]. unfold value_of at 2. rewrite V. tauto. }
    split; [reflexivity|]. split; [lia|]. split.
    - intros mu mu' E. rewrite !W. unfold value_of. rewrite (E l), (E r); auto.
    - intros mu. split.
      + intros (mu' & A & S). apply W in S. rewrite <- (agree_value _ _ _ _ l A Hl), <- (agree_value _ _ _ _ r A Hr). auto.
      + intros S. exists mu. split; [apply agree_refl|]. apply W. auto.
  Qed.

  (* the pairs connected by a path of at least one link *)
  Fixpoint proper (p : ppath) : rel :=
    match p with
    | Link t => fun x y => G x t y
    | Inv q => fun x y => proper q y x
    | Seq ps => seq_rel (map (fun q => (can_be_empty q, proper q)) ps)
    | Alt ps => fun x y => exists R, In R (map proper ps) /\ R x y
    | Opt q => steps 1 1 (proper q)
    | Star q => steps 1 SIZE_MAX (proper q)
    | Plus q => steps 1 SIZE_MAX (proper q)
    | UpTo n q => steps 1 n (proper q)
    end.
End Graph.
