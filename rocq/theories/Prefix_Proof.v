From Coq Require Import List NArith Arith Bool Lia Sorted ZifyN ZifyNat ZifyBool.
From Verif Require Import Table_Spec Lex_Proof Strings_Model Strings_Proof Strings_Proof3 Vocab_Model Prefix_Model Prefix_Spec.
Import ListNotations.
Open Scope N_scope.

(* ---- prefixes and the order of bytes ---- *)
Lemma sw_iff x p : startsWith x p = true <-> prefix_of p x.
Proof. apply startsWith_iff. Qed.
Lemma sw_false x p : startsWith x p = false <-> ~ prefix_of p x.
Proof. rewrite <- sw_iff. destruct (startsWith x p); intuition congruence. Qed.
Lemma prefix_refl p : prefix_of p p.
Proof. exists []. now rewrite app_nil_r. Qed.
Lemma prefix_trans a b c : prefix_of a b -> prefix_of b c -> prefix_of a c.
Proof. intros [s ->] [s' ->]. exists (s ++ s'). now rewrite app_assoc. Qed.
Lemma prefix_two a b w : prefix_of a w -> prefix_of b w -> prefix_of a b \/ prefix_of b a.
Proof.
  revert b w; induction a as [|x a IH]; intros b w; [left; now exists b|].
  destruct b as [|y b]; [right; now exists (x :: a)|]. intros [s ->] [s' E]. cbn [app] in E. injection E as <- E.
  destruct (IH b (a ++ s)) as [[r ->]|[r ->]]; [now exists s | now exists s' | left | right]; now exists r.
Qed.
Lemma prefix_antisym a b : prefix_of a b -> prefix_of b a -> a = b.
Proof.
  intros [s ->] [s' E]. rewrite <- app_assoc in E. rewrite <- (app_nil_r a) in E at 1. apply app_inv_head in E.
  destruct s; [now rewrite app_nil_r | discriminate].
Qed.
Lemma prefix_le p w : prefix_of p w -> lex_le p w.
Proof.
  intros [s ->]. unfold lex_le. induction p as [|c p IH]; cbn [app lex_cmp].
  - destruct s; discriminate.
  - now rewrite N.compare_refl.
Qed.
(* what is greater than v and no continuation of it is greater than all continuations *)
Lemma above_all v : forall x s, lex_lt v x -> ~ prefix_of v x -> lex_lt (v ++ s) x.
Proof.
  unfold lex_lt. induction v as [|c v IH]; intros x s L P.
  - exfalso. apply P. now exists x.
  - destruct x as [|d x]; [discriminate|]. cbn [app lex_cmp] in *. destruct (N.compare_spec c d) as [->|H|H]; auto.
    apply IH; auto. intros [r ->]. apply P. now exists r.
Qed.
Lemma between v c d w : lex_lt c d -> prefix_of v c -> lex_le d w -> prefix_of v w -> prefix_of v d.
Proof.
  intros L P D [s ->]. destruct (startsWith d v) eqn:E; [now apply sw_iff|]. apply sw_false in E. exfalso.
  assert (H : lex_lt v d) by (apply (lex_le_lt_trans _ c); auto; now apply prefix_le).
  apply (above_all v d s) in H; auto. apply (lex_lt_irrefl d). now apply (lex_le_lt_trans _ (v ++ s)).
Qed.
Lemma below_prefix v x w : lex_le x w -> prefix_of v w -> ~ prefix_of v x -> ~ prefix_of x v -> lex_lt x v.
Proof.
  intros D [s ->] P Q. destruct (lex_total x v) as [H|[->|H]]; auto.
  - exfalso. apply P. apply prefix_refl.
  - exfalso. apply (above_all v x s) in H; auto. apply (lex_lt_irrefl x). now apply (lex_le_lt_trans _ (v ++ s)).
Qed.

(* ---- the tree ---- *)
Lemma tree_induction (P : tree -> Prop) :
  (forall v o p a ch, (forall c, In (Some c) ch -> P c) -> P (Node v o p a ch)) -> forall t, P t.
Proof.
  intros H. fix IH 1. intros [v o p a ch]. apply H. revert ch. fix IHl 1. intros [|x ch] c; [intros []|].
  intros [E|I]; [|now apply (IHl ch)]. destruct x as [t|]; [|discriminate]. injection E as <-. apply IH.
Qed.
Inductive in_tree (x : list N) : tree -> Prop :=
| in_root v o p a ch : x = v -> in_tree x (Node v o p a ch)
| in_child v o p a ch c : In (Some c) ch -> in_tree x c -> in_tree x (Node v o p a ch).
Inductive active_in (x : list N) : tree -> Prop :=
| active_root v o p ch : x = v -> active_in x (Node v o p true ch)
| active_child v o p a ch c : In (Some c) ch -> active_in x c -> active_in x (Node v o p a ch).
(* x comes before y and is no prefix of it *)
Definition ahead (x y : list N) : Prop := lex_lt x y /\ ~ prefix_of x y.
Inductive good : tree -> Prop :=
| good_node v o p a cs : StronglySorted ahead (map value cs) ->
    (forall c, In c cs -> prefix_of v (value c) /\ value c <> v) -> (forall c, In c cs -> good c) ->
    good (Node v o p a (map Some cs)).
Lemma in_some (cs : list tree) c : In (Some c) (map Some cs) <-> In c cs.
Proof.
  rewrite in_map_iff. split; [intros (x & E & H); now injection E as -> | intros H; now exists c].
Qed.
Lemma active_in_tree x t : active_in x t -> in_tree x t.
Proof. induction 1; [now apply in_root | eapply in_child; eauto]. Qed.
Lemma in_tree_prefix x t : good t -> in_tree x t -> prefix_of (value t) x.
Proof.
  intros G. revert x. induction G as [v o p a cs S E GC IH]. intros x H. inversion H; subst; cbn [value]; [apply prefix_refl|].
  match goal with X : In (Some ?c) _ |- _ => apply in_some in X;
    apply (prefix_trans _ (value c)); [apply E; assumption | now apply IH] end.
Qed.
Lemma in_tree_child x v o p a cs : in_tree x (Node v o p a (map Some cs)) <-> x = v \/ exists c, In c cs /\ in_tree x c.
Proof.
  split.
  - intros H. inversion H; subst; auto. right. eexists. split; [|eassumption]. now apply in_some.
  - intros [->|(c & I & H)]; [now apply in_root|]. apply (in_child _ _ _ _ _ _ c); auto. now apply in_some.
Qed.

Definition into_list (f : tree -> option tree) (v : list N) :=
  fix into (l : list (option tree)) : option (option (list (option tree))) :=
    match l with
    | [] => Some None
    | None :: _ => None
    | Some c :: l' =>
        if startsWith v (value c) then
          match f c with Some c' => Some (Some (Some c' :: l')) | None => None end
        else match into l' with Some (Some r) => Some (Some (Some c :: r)) | r => r end
    end.
Lemma insertAfter_eq v val own pen act ch : insertAfter v (Node val own pen act ch) =
  if list_eq_dec N.eq_dec v val then Some (Node val (own + 1) pen act ch)
  else match into_list (insertAfter v) v ch with
       | None => None
       | Some (Some ch') => Some (Node val own pen act ch')
       | Some None =>
           match matching v ch with
           | None => None
           | Some m => Some (Node val own pen act (kept m ++ [Some (new_node v (moved m))]))
           end
       end.
Proof. reflexivity. Qed.
Lemma into_cases f v cs :
  (Forall (fun c => startsWith v (value c) = false) cs /\ into_list f v (map Some cs) = Some None) \/
  exists l c r, cs = l ++ c :: r /\ startsWith v (value c) = true /\
    into_list f v (map Some cs) =
      match f c with Some c' => Some (Some (map Some (l ++ c' :: r))) | None => None end.
Proof.
  induction cs as [|c cs IH]; [left; split; [constructor|reflexivity]|]. cbn [map into_list]. fold (into_list f v).
  destruct (startsWith v (value c)) eqn:E.
  - right. exists [], c, cs. split; [reflexivity|]. split; [exact E|]. reflexivity.
  - destruct IH as [[F ->]|(l & d & r & -> & D & ->)].
    + left. split; [constructor; auto|reflexivity].
    + right. exists (c :: l), d, r. split; [reflexivity|]. split; [exact D|]. now destruct (f d).
Qed.
Lemma matching_some v cs : matching v (map Some cs) = Some (map (fun c => (c, startsWith (value c) v)) cs).
Proof. induction cs as [|c cs IH]; [reflexivity|]. cbn [map matching]. now rewrite IH. Qed.

Lemma sorted_app_inv {A} (R : A -> A -> Prop) l r : StronglySorted R (l ++ r) ->
  StronglySorted R l /\ StronglySorted R r /\ forall x y, In x l -> In y r -> R x y.
Proof.
  induction l as [|a l IH]; cbn [app]; intros S; [split; [constructor|]; split; [exact S|]; intros x y []|].
  apply StronglySorted_inv in S as [S F]. apply IH in S as (S1 & S2 & S3). rewrite Forall_app in F.
  split; [constructor; [exact S1 | apply F]|]. split; [exact S2|]. intros x y [<-|I] J; [|now apply S3].
  destruct F as [_ F]. rewrite Forall_forall in F. now apply F.
Qed.
Lemma sorted_app {A} (R : A -> A -> Prop) l r : StronglySorted R l -> StronglySorted R r ->
  (forall x y, In x l -> In y r -> R x y) -> StronglySorted R (l ++ r).
Proof.
  induction l as [|a l IH]; cbn [app]; intros S1 S2 H; auto. apply StronglySorted_inv in S1 as [S1 F]. constructor.
  - apply IH; auto. intros x y I J. apply H; [now right|auto].
  - rewrite Forall_app. split; auto. apply Forall_forall. intros y J. apply H; [now left|auto].
Qed.
(* the children that continue v are the last ones *)
Lemma trailing v w cs : StronglySorted ahead (map value cs) -> (forall c, In c cs -> lex_le (value c) w) -> prefix_of v w ->
  exists l r, cs = l ++ r /\ Forall (fun c => startsWith (value c) v = false) l /\
    Forall (fun c => startsWith (value c) v = true) r.
Proof.
  intros S B P. induction cs as [|c cs IH]; [exists [], []; auto|]. cbn [map] in S. apply StronglySorted_inv in S as [S F].
  destruct (startsWith (value c) v) eqn:E.
  - exists [], (c :: cs). split; [reflexivity|]. split; [constructor|]. constructor; [exact E|].
    apply Forall_forall. intros d D. rewrite Forall_forall in F.
    destruct (F (value d)) as [L _]; [apply in_map; auto|]. apply sw_iff. apply (between v (value c) (value d) w); auto.
    + now apply sw_iff.
    + apply B. now right.
  - destruct IH as (l & r & -> & L & R); auto; [intros d D; apply B; now right|]. exists (c :: l), r.
    split; [reflexivity|]. split; [constructor; auto|exact R].
Qed.
Lemma filter_forall {A} (f : A -> bool) l : Forall (fun x => f x = true) l -> filter f l = l.
Proof. induction 1 as [|x l H F IH]; cbn [filter]; [reflexivity|]. now rewrite H, IH. Qed.
Lemma filter_none {A} (f : A -> bool) l : Forall (fun x => f x = false) l -> filter f l = [].
Proof. induction 1 as [|x l H F IH]; cbn [filter]; [reflexivity|]. now rewrite H. Qed.
Lemma kept_moved v l r : Forall (fun c => startsWith (value c) v = false) l -> Forall (fun c => startsWith (value c) v = true) r ->
  let m := map (fun c => (c, startsWith (value c) v)) (l ++ r) in kept m = map Some l /\ moved m = map Some r.
Proof.
  intros L R m. assert (K : kept m = map Some l).
  { unfold kept, m. rewrite map_app, filter_app, filter_forall, filter_none, app_nil_r.
    - rewrite map_map. reflexivity.
    - apply Forall_forall. intros x X. apply in_map_iff in X as (c & <- & C). rewrite Forall_forall in R. cbn. now rewrite R.
    - apply Forall_forall. intros x X. apply in_map_iff in X as (c & <- & C). rewrite Forall_forall in L. cbn. now rewrite L. }
  split; [exact K|]. unfold moved. rewrite K. unfold m. rewrite map_app, map_length.
  replace (length l) with (length (map (fun c => (c, startsWith (value c) v)) l)) by apply map_length.
  rewrite skipn_len. clear - R. induction R as [|c r H R IH]; [reflexivity|]. cbn [map]. rewrite IH. cbn. now rewrite H.
Qed.

(* inserting a prefix of a word that is not smaller than all values so far *)
Lemma insert_good v w : prefix_of v w -> forall t, good t -> prefix_of (value t) v ->
  (forall x, in_tree x t -> lex_le x w) ->
  exists t', insertAfter v t = Some t' /\ good t' /\ value t' = value t /\
    forall x, in_tree x t' <-> x = v \/ in_tree x t.
Proof.
  intros P t G. induction G as [val o p a cs S E GC IH]. intros PV B. rewrite insertAfter_eq.
  destruct (list_eq_dec N.eq_dec v val) as [->|NE].
  - eexists. split; [reflexivity|]. split; [now constructor|]. split; [reflexivity|].
    intros x. rewrite !in_tree_child. tauto.
  - assert (BC : forall c, In c cs -> forall x, in_tree x c -> lex_le x w).
    { intros c C x X. apply B. apply in_tree_child. right. eauto. }
    assert (BV : forall c, In c cs -> lex_le (value c) w).
    { intros c C. apply (BC c C). destruct c. now apply in_root. }
    destruct (into_cases (insertAfter v) v cs) as [[F ->]|(l & c & r & Q & SC & ->)].
    + rewrite matching_some. destruct (trailing v w cs S BV P) as (l & r & -> & L & R).
      destruct (kept_moved v l r L R) as [-> ->]. eexists. split; [reflexivity|].
      rewrite map_app in S. apply sorted_app_inv in S as (S1 & S2 & S3).
      assert (FL : forall c, In c l -> ahead (value c) v).
      { intros c C. rewrite Forall_forall in L, F. assert (X := L c C). apply sw_false in X.
        assert (Y := F c (in_or_app _ _ _ (or_introl C))). apply sw_false in Y. split; auto.
        apply (below_prefix v _ w); auto. apply BV. apply in_or_app. now left. }
      assert (GN : good (new_node v (map Some r))).
      { unfold new_node. constructor; auto.
        - intros c C. rewrite Forall_forall in R, F. split; [apply sw_iff; now apply R|]. intros X.
          assert (Y := F c (in_or_app _ _ _ (or_intror C))). apply sw_false in Y. apply Y. rewrite X. apply prefix_refl.
        - intros c C. apply GC. apply in_or_app. now right. }
      split; [|split; [reflexivity|]].
      * change [Some (new_node v (map Some r))] with (map Some [new_node v (map Some r)]). rewrite <- map_app.
        constructor.
        -- rewrite map_app. apply sorted_app; [exact S1 | repeat constructor|]. cbn [map value new_node].
           intros x y X [<-|[]]. apply in_map_iff in X as (c & <- & C). now apply FL.
        -- intros c C. apply in_app_iff in C as [C|[<-|[]]]; [apply E; apply in_or_app; now left|]. cbn [value new_node].
           split; auto.
        -- intros c C. apply in_app_iff in C as [C|[<-|[]]]; [apply GC; apply in_or_app; now left|exact GN].
      * intros x. change [Some (new_node v (map Some r))] with (map Some [new_node v (map Some r)]). rewrite <- map_app.
        rewrite !in_tree_child. split.
        -- intros [->|(c & C & X)]; auto. apply in_app_iff in C as [C|[<-|[]]].
           ++ right. right. exists c. split; [apply in_or_app; now left|exact X].
           ++ apply in_tree_child in X as [->|(c & C & X)]; auto. right. right. exists c. split; [apply in_or_app; now right|exact X].
        -- intros [->|[->|(c & C & X)]]; auto.
           ++ right. exists (new_node v (map Some r)). split; [apply in_or_app; right; now left|]. now apply in_root.
           ++ apply in_app_iff in C as [C|C].
              ** right. exists c. split; [apply in_or_app; now left|exact X].
              ** right. exists (new_node v (map Some r)). split; [apply in_or_app; right; now left|]. apply in_tree_child. eauto.
    + assert (C : In c cs) by (rewrite Q; apply in_or_app; right; now left).
      destruct (IH c C) as (c' & -> & G' & V' & T'); [now apply sw_iff | now apply BC |].
      eexists. split; [reflexivity|]. subst cs. split; [|split; [reflexivity|]].
      * constructor.
        -- rewrite map_app in *. cbn [map] in *. now rewrite V'.
        -- intros d D. apply in_app_iff in D as [D|[<-|D]].
           ++ apply E. apply in_or_app; now left.
           ++ rewrite V'. now apply E.
           ++ apply E. apply in_or_app. right. now right.
        -- intros d D. apply in_app_iff in D as [D|[<-|D]]; auto; apply GC; apply in_or_app; [now left | right; now right].
      * intros x. rewrite !in_tree_child. split.
        -- intros [->|(d & D & X)]; auto. apply in_app_iff in D as [D|[<-|D]].
           ++ right. right. exists d. split; [apply in_or_app; now left|exact X].
           ++ apply T' in X as [->|X]; auto. right. right. exists c. split; auto.
           ++ right. right. exists d. split; [apply in_or_app; right; now right|exact X].
        -- intros [->|[->|(d & D & X)]]; auto.
           ++ right. exists c'. split; [apply in_or_app; right; now left|]. apply T'. now left.
           ++ right. apply in_app_iff in D as [D|[<-|D]].
              ** exists d. split; [apply in_or_app; now left|exact X].
              ** exists c'. split; [apply in_or_app; right; now left|]. apply T'. now right.
              ** exists d. split; [apply in_or_app; right; now right|exact X].
Qed.

(* ---- the maximum ---- *)
Definition is_active (t : tree) : bool := let (_, _, _, a, _) := t in a.
Inductive node_at : list nat -> tree -> tree -> Prop :=
| node_here t : node_at [] t t
| node_below i path v o p a ch c s : nth_error ch i = Some (Some c) -> node_at path c s ->
    node_at (i :: path) (Node v o p a ch) s.
Lemma node_value path t s : node_at path t s -> value_at path t = value s.
Proof.
  induction 1 as [|i path v o p a ch c s H N IH]; [reflexivity|]. cbn [value_at].
  now rewrite (nth_error_nth _ _ None H).
Qed.
Definition max_list (f : tree -> option (N * N * list nat)) :=
  fix go (l : list (option tree)) (i : nat) (shared best : N) (path : option (list nat))
    : option (N * N * option (list nat)) :=
    match l with
    | [] => Some (shared, best, path)
    | None :: _ => None
    | Some c :: l' =>
        match f c with
        | None => None
        | Some (sh, sc, p) =>
            if best <=? sc then go l' (S i) (shared + sh) sc (Some (i :: p))
            else go l' (S i) (shared + sh) best path
        end
    end.
Definition found (whole : list (option tree)) (best : N) (path : option (list nat)) : Prop :=
  best = 0 \/ exists j p c s, path = Some (j :: p) /\ nth_error whole j = Some (Some c) /\ node_at p c s /\
    is_active s = true /\ value s <> [].
Lemma max_list_ok f cs : 
  (forall c, In c cs -> exists sh m p s, f c = Some (sh, m, p) /\ node_at p c s /\ (m = 0 -> p = []) /\
     (0 < m -> is_active s = true /\ value s <> [])) ->
  forall whole i shared best path, (forall j c, nth_error cs j = Some c -> nth_error whole (i + j) = Some (Some c)) ->
  found whole best path ->
  exists shared' best' path', max_list f (map Some cs) i shared best path = Some (shared', best', path') /\
    found whole best' path'.
Proof.
  induction cs as [|c cs IH]; intros H whole i shared best path W F; [eexists; eexists; eexists; split; [reflexivity|exact F]|].
  cbn [map max_list]. fold (max_list f). destruct (H c (or_introl eq_refl)) as (sh & m & p & s & -> & NA & _ & A).
  assert (H' : forall d, In d cs -> exists sh m p s, f d = Some (sh, m, p) /\ node_at p d s /\ (m = 0 -> p = []) /\
     (0 < m -> is_active s = true /\ value s <> [])) by (intros d D; apply H; now right).
  assert (W' : forall j d, nth_error cs j = Some d -> nth_error whole (S i + j) = Some (Some d)).
  { intros j d D. replace (S i + j)%nat with (i + S j)%nat by lia. now apply W. }
  destruct (best <=? m); apply IH; auto.
  destruct (N.eq_dec m 0) as [->|M]; [now left|]. right. destruct A as [A1 A2]; [lia|].
  exists i, p, c, s. split; [reflexivity|]. split; [|split; [exact NA|split; [exact A1|exact A2]]].
  replace i with (i + 0)%nat by lia. now apply W.
Qed.
Lemma getMaximum_ok k t : good t -> exists sh m p s, getMaximum k t = Some (sh, m, p) /\ node_at p t s /\ (m = 0 -> p = []) /\
  (0 < m -> is_active s = true /\ value s <> []).
Proof.
  intros G. induction G as [v o p a cs S E GC IH].
  destruct (max_list_ok (getMaximum k) cs IH (map Some cs) 0%nat o 0 None) as (shared & best & path & M & F).
  { intros j c J. cbn [Nat.add]. now rewrite nth_error_map, J. }
  { now left. }
  change (getMaximum k (Node v o p a (map Some cs))) with
    (match max_list (getMaximum k) (map Some cs) 0%nat o 0 None with
      | None => None
      | Some (shared, best, path) =>
          let len := N.of_nat (length v) in
          let relevant := if p + k <? len then len - p - k else 0 in
          let shared' := if a then shared else 0 in
          let score := shared' * relevant in
          match (if best <=? score then Some (score, []) else option_map (pair best) path) with
          | Some (m, p) => Some (shared', m, p)
          | None => None
          end
      end).
  rewrite M. cbv zeta. set (relevant := if p + k <? N.of_nat (length v) then _ else 0).
  set (score := (if a then shared else 0) * relevant). destruct (N.leb_spec best score) as [L|L].
  - exists (if a then shared else 0), score, [], (Node v o p a (map Some cs)). split; [reflexivity|].
    split; [constructor|]. split; [reflexivity|]. intros H. cbn [is_active value]. unfold score in H.
    split; [destruct a; auto; lia|]. intros ->. unfold relevant in H. cbn [length] in H. change (N.of_nat 0) with 0 in H.
    destruct (N.ltb_spec (p + k) 0); lia.
  - destruct F as [->|(j & q & c & s & -> & J & N & A & V)]; [lia|]. cbn [option_map].
    exists (if a then shared else 0), best, (j :: q), s. split; [reflexivity|].
    split; [econstructor; eauto|]. split; [lia|]. auto.
Qed.

Lemma penaltizeChildren_good k t : good t -> good (penaltizeChildren k t) /\ value (penaltizeChildren k t) = value t /\
  (forall x, in_tree x (penaltizeChildren k t) <-> in_tree x t) /\
  (forall x, active_in x (penaltizeChildren k t) <-> active_in x t) /\ is_active (penaltizeChildren k t) = is_active t.
Proof.
  intros G. induction G as [v o p a cs S E GC IH]. cbn [penaltizeChildren value is_active].
  rewrite map_map. change (map (fun x => option_map (penaltizeChildren k) (Some x)) cs) with (map (fun x => Some (penaltizeChildren k x)) cs).
  rewrite <- (map_map (penaltizeChildren k) Some). split; [|split; [reflexivity|split; [|split; [|reflexivity]]]].
  - constructor.
    + rewrite map_map. erewrite map_ext_in; [exact S|]. intros c C. now apply IH.
    + intros c C. apply in_map_iff in C as (d & <- & D). destruct (IH d D) as (_ & -> & _). now apply E.
    + intros c C. apply in_map_iff in C as (d & <- & D). now apply IH.
  - intros x. rewrite !in_tree_child. split; (intros [->|(c & C & X)]; [now left|right]).
    + apply in_map_iff in C as (d & <- & D). exists d. split; [exact D|]. now apply (IH d D).
    + exists (penaltizeChildren k c). split; [now apply in_map|]. now apply (IH c C).
  - intros x. split; intros H; inversion H; subst; try now constructor.
    + match goal with X : In (Some ?c) _ |- _ => apply in_some in X; apply in_map_iff in X as (d & <- & D) end.
      apply (active_child _ _ _ _ _ _ d); [now apply in_some|]. now apply (IH d D).
    + match goal with X : In (Some ?c) _ |- _ => apply in_some in X;
        apply (active_child _ _ _ _ _ _ (penaltizeChildren k c)); [apply in_some; now apply in_map | now apply (IH c X)] end.
Qed.
Lemma penaltize_good t : good t -> good (penaltize t) /\ value (penaltize t) = value t /\
  (forall x, in_tree x (penaltize t) <-> in_tree x t) /\
  forall x, active_in x (penaltize t) -> active_in x t /\ x <> value t.
Proof.
  intros G. unfold penaltize. set (k := N.of_nat (length (value t))).
  destruct (penaltizeChildren_good k t G) as (G' & V & T & A & _). destruct (penaltizeChildren k t) as [v o p a ch].
  cbn [value] in V. subst v. inversion G' as [v o' p' a' cs S E GC]. subst.
  split; [now constructor|]. split; [reflexivity|]. split.
  - intros x. rewrite <- T. rewrite !in_tree_child. tauto.
  - intros x X. inversion X; subst. match goal with Y : In (Some ?c) _ |- _ => rename Y into C end. split.
    + apply A. eapply active_child; eauto.
    + apply in_some in C. intros ->. destruct (E _ C) as [P NE]. apply NE.
      match goal with Y : active_in _ _ |- _ => apply active_in_tree in Y; apply in_tree_prefix in Y; [|now apply GC] end.
      now apply prefix_antisym.
Qed.

Lemma change_nth_split {A} (f : A -> A) l x r : change_nth f (length l) (l ++ x :: r) = l ++ f x :: r.
Proof. induction l as [|a l IH]; [reflexivity|]. cbn [length app change_nth]. now rewrite IH. Qed.
Lemma map_some_split {B} (cs : list B) i c : nth_error (map Some cs) i = Some (Some c) ->
  exists l r, cs = l ++ c :: r /\ length l = i.
Proof.
  intros H. rewrite nth_error_map in H. destruct (nth_error cs i) as [d|] eqn:E; [|discriminate]. injection H as ->.
  now apply nth_error_split in E.
Qed.
Lemma change_good path : forall t s, good t -> node_at path t s ->
  good (change_at penaltize path t) /\ value (change_at penaltize path t) = value t /\ in_tree (value s) t /\
  (forall x, in_tree x (change_at penaltize path t) <-> in_tree x t) /\
  forall x, active_in x (change_at penaltize path t) -> active_in x t /\ x <> value s.
Proof.
  induction path as [|i path IH]; intros t s G H.
  - inversion H; subst. cbn [change_at]. destruct (penaltize_good s G) as (G' & V & T & A).
    split; [exact G'|]. split; [exact V|]. split; [destruct s; now apply in_root|]. split; [exact T|exact A].
  - inversion H as [|i' path' v o p a ch c s' J N]; subst. inversion G as [v' o' p' a' cs S E GC]; subst.
    destruct (map_some_split cs i c J) as (l & r & -> & <-).
    assert (C : In c (l ++ c :: r)) by (apply in_or_app; right; now left).
    destruct (IH c s (GC c C) N) as (G' & V' & IS & T' & A'). cbn [change_at].
    rewrite map_app. cbn [map]. replace (length l) with (length (map Some l)) by apply map_length.
    rewrite change_nth_split. cbn [option_map]. set (c' := change_at penaltize path c) in *.
    change (Some c' :: map Some r) with (map Some (c' :: r)). rewrite <- map_app.
    change (map Some l ++ Some c :: map Some r) with (map Some l ++ map Some (c :: r)) in *. rewrite <- map_app in *.
    split; [|split; [reflexivity|split; [|split]]].
    + constructor.
      * rewrite map_app in *. cbn [map] in *. now rewrite V'.
      * intros d D. apply in_app_iff in D as [D|[<-|D]].
        -- apply E. apply in_or_app. now left.
        -- rewrite V'. now apply E.
        -- apply E. apply in_or_app. right. now right.
      * intros d D. apply in_app_iff in D as [D|[<-|D]]; auto; apply GC; apply in_or_app; [now left | right; now right].
    + apply in_tree_child. right. eauto.
    + intros x. rewrite !in_tree_child. split; (intros [->|(d & D & X)]; [now left|right]).
      * apply in_app_iff in D as [D|[<-|D]].
        -- exists d. split; [apply in_or_app; now left|exact X].
        -- exists c. split; [exact C|]. now apply T'.
        -- exists d. split; [apply in_or_app; right; now right|exact X].
      * apply in_app_iff in D as [D|[<-|D]].
        -- exists d. split; [apply in_or_app; now left|exact X].
        -- exists c'. split; [apply in_or_app; right; now left|]. now apply T'.
        -- exists d. split; [apply in_or_app; right; now right|exact X].
    + intros x X.
      assert (PS : prefix_of (value c) (value s)) by (apply in_tree_prefix; [now apply GC | exact IS]).
      assert (OTHER : forall d, (ahead (value d) (value c) \/ ahead (value c) (value d)) -> In d (l ++ c :: r) ->
        active_in x d -> x <> value s).
      { intros d AH D XD ->. apply active_in_tree, in_tree_prefix in XD; [|now apply GC].
        destruct (prefix_two _ _ _ PS XD) as [Q|Q], AH as [[L NP]|[L NP]]; try contradiction.
        - apply prefix_le in Q. apply (lex_lt_irrefl (value d)). now apply (lex_lt_le_trans _ (value c)).
        - apply prefix_le in Q. apply (lex_lt_irrefl (value c)). now apply (lex_lt_le_trans _ (value d)). }
      rewrite map_app in S. cbn [map] in S. apply sorted_app_inv in S as (S1 & S2 & S3).
      apply StronglySorted_inv in S2 as [S2 F2]. rewrite Forall_forall in F2.
      inversion X; subst.
      * split; [now constructor|]. intros ->. destruct (E c C) as [P NE]. apply NE.
        apply (prefix_antisym (value c) (value s)); auto.
      * match goal with Y : In (Some ?d) _ |- _ => apply in_some in Y; apply in_app_iff in Y as [D|[<-|D]] end.
        -- split; [eapply active_child; [apply in_some; apply in_or_app; left; exact D|eassumption]|].
           eapply OTHER; [left; apply S3; [apply in_map; exact D|now left]|apply in_or_app; left; exact D|eassumption].
        -- match goal with Y : active_in _ c' |- _ => apply A' in Y as [Y1 Y2] end. split; [|exact Y2].
           eapply active_child; [apply in_some; exact C|exact Y1].
        -- split; [eapply active_child; [apply in_some; apply in_or_app; right; right; exact D|eassumption]|].
           eapply OTHER; [right; apply F2; apply in_map; exact D|apply in_or_app; right; right; exact D|eassumption].
Qed.

Lemma choose_ok k num : forall t, good t -> value t = [] -> exists ps, choose num k t = Val ps /\ (length ps <= num)%nat /\
  NoDup ps /\ Forall (fun p => p <> [] /\ active_in p t) ps.
Proof.
  induction num as [|num IH]; intros t G VT; cbn [choose].
  - exists []. split; [reflexivity|]. split; [cbn; lia|]. split; constructor.
  - unfold getAndDeleteMaximum. destruct (getMaximum_ok k t G) as (sh & m & path & s & -> & N & Z & A).
    rewrite (node_value _ _ _ N). destruct (value s) as [|c p] eqn:VS.
    + exists []. split; [reflexivity|]. split; [cbn; lia|]. split; constructor.
    + destruct (change_good path t s G N) as (G' & V' & IS & T' & A').
      destruct (IH _ G') as (ps & -> & L & ND & F); [now rewrite V'|]. exists ((c :: p) :: ps). split; [reflexivity|].
      split; [cbn; lia|].
      assert (M : 0 < m).
      { destruct (N.eq_dec m 0) as [->|]; [|lia]. exfalso. rewrite (Z eq_refl) in N. inversion N; subst. congruence. }
      assert (AS : active_in (c :: p) t).
      { destruct (A M) as [A1 _]. rewrite <- VS. clear - N A1. induction N; [|eapply active_child; [eapply nth_error_In; eauto|auto]].
        destruct t as [v o q a ch]. cbn [is_active] in A1. subst a. now apply active_root. }
      split.
      * constructor; [|exact ND]. intros I. rewrite Forall_forall in F. destruct (F _ I) as [_ X]. apply A' in X as [_ X]. congruence.
      * constructor; [split; [discriminate|exact AS]|]. eapply Forall_impl; [|exact F]. intros q [Q1 Q2]. split; [exact Q1|].
        now apply A' in Q2.
Qed.
