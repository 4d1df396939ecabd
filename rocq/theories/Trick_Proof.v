(* A triple can be taken out of a group and joined at the end, if its variables are not used where the order matters. *)
From Coq Require Import String List NArith Arith Bool Lia Permutation Morphisms.
From Verif Require Import Table_Spec Plan_Spec Plan_Model Plan_Proof1 Group_Spec Group_Model Group_Proof Group_Proof2 Trick_Spec.
From Verif Require Import HasPred_Spec.
From Verif Require Import Trick_Model.
Import ListNotations.
Local Open Scope nat_scope.

#[local] Instance bjoin_proper : Proper (@Permutation mapping ==> @Permutation mapping ==> @Permutation mapping) bjoin.
Proof. intros A A' PA B B' PB. now apply bjoin_perm. Qed.

Lemma filter_bjoin_l q A H : (forall a h, In a A -> In h H -> q (merge_map a h) = q a) -> filter q (bjoin A H) = bjoin (filter q A) H.
Proof.
  intros Y. unfold bjoin. rewrite filter_flat_map, flat_map_filter. apply flat_map_ext_in. intros a Ha.
  rewrite filter_flat_map. destruct (q a) eqn:Q.
  - apply flat_map_ext_in. intros h Hh. destruct (compat a h); auto. cbn [filter]. now rewrite Y, Q.
  - etransitivity; [|apply (flat_map_nil H)]. apply flat_map_ext_in. intros h Hh. destruct (compat a h); auto. cbn [filter]. now rewrite Y, Q.
Qed.

Section Proof.
Variable U : list string.
Variable triple_solutions : pattern -> list mapping.
Variable sat : gfilter -> list (option N) -> bool.
Hypothesis HU : NoDup U.
Hypothesis Htriples : forall t m, (forall v, In v (pattern_vars is_var t) -> In v U) -> In m (triple_solutions t) ->
  dom U (pattern_vars is_var t, pattern_vars is_var t) m.
Local Notation n := (length U).
Notation ps := (passes U sat).
Notation unit := (empty_mapping U).
Notation seval_element := (eval_element U triple_solutions sat).
Notation seval_elements := (eval_elements U triple_solutions sat).
Notation seval_group := (eval_group U triple_solutions sat).
Notation sc_element := (scope_element U is_var).
Notation sc_elements := (scope_elements U is_var).
Notation sc_group := (scope_group U is_var).
Notation ddom := (dom U).
Notation ddoms := (doms U).

Lemma doms_lens s A : ddoms s A -> lens n A.
Proof. intros D. apply Forall_forall. intros m Hm. apply D, Hm. Qed.

(* ---------- evaluation respects permutations ---------- *)
Lemma eval_element_perm e A A' : Permutation A A' -> Permutation (seval_element e A) (seval_element e A').
Proof.
  intros P. rewrite !eval_element_eq. destruct e as [ts|g|[es fs]|g|g1 g2|q|vs rows|t args fn]; try (now apply bjoin_perm).
  - unfold left_join. now apply flat_map_perm.
  - unfold Group_Spec.minus. now apply perm_filter.
  - unfold extend. now apply Permutation_map.
Qed.
Lemma eval_elements_cons e es A : seval_elements (Cons e es) A = seval_elements es (seval_element e A).
Proof. reflexivity. Qed.
Fixpoint eval_elements_perm es {struct es} : forall A A', Permutation A A' -> Permutation (seval_elements es A) (seval_elements es A').
Proof. destruct es as [|e es]; intros A A' P; [exact P|]. rewrite !eval_elements_cons. apply eval_elements_perm. now apply eval_element_perm. Qed.

(* ---------- a third mapping ---------- *)
Section Three.
Variables (s s2 : scope) (hv : list string) (a h b : mapping).
Hypothesis Da : ddom s a.
Hypothesis Dh : ddom (hv, hv) h.
Hypothesis Db : ddom s2 b.
Hypothesis K : forall v, In v hv -> In v (snd s2) -> In v (fst s).
Lemma three v : get U h v <> None -> get U b v <> None -> get U a v <> None.
Proof. intros Hh Hb. apply Da. apply K; [now apply Dh|now apply Db]. Qed.
Lemma compat_bh : compat (merge_map a b) h = compat a h.
Proof.
  destruct Da as [La _], Dh as [Lh _], Db as [Lb _]. apply eq_iff_eq_true.
  rewrite !(compat_get U HU) by auto using (merge_len U). split; intros H v Hv; specialize (H v Hv); rewrite ?get_merge' in * by auto;
    pose proof (three v); destruct (get U a v), (get U b v), (get U h v); cbn in *; auto; intuition congruence.
Qed.
Lemma compat_hb : compat (merge_map a h) b = compat a b.
Proof.
  destruct Da as [La _], Dh as [Lh _], Db as [Lb _]. apply eq_iff_eq_true.
  rewrite !(compat_get U HU) by auto using (merge_len U). split; intros H v Hv; specialize (H v Hv); rewrite ?get_merge' in * by auto;
    pose proof (three v); destruct (get U a v), (get U b v), (get U h v); cbn in *; auto; intuition congruence.
Qed.
Lemma merge_bh : merge_map (merge_map a h) b = merge_map (merge_map a b) h.
Proof.
  destruct Da as [La _], Dh as [Lh _], Db as [Lb _]. apply (get_ext_gen U U _ _ HU); auto using (merge_len U).
  intros v Hv. rewrite !get_merge' by auto using (merge_len U). pose proof (three v).
  destruct (get U a v), (get U b v), (get U h v); cbn in *; auto; intuition congruence.
Qed.
Lemma get_hb v : In v (snd s2) -> get U (merge_map (merge_map a b) h) v = get U (merge_map a b) v.
Proof.
  intros Hv. destruct Da as [La [Ca _]], Dh as [Lh [_ Ph]], Db as [Lb _]. rewrite !get_merge' by auto using (merge_len U).
  destruct (get U a v) eqn:Ea; auto. destruct (get U b v) eqn:Eb; auto. cbn [merge1]. destruct (get U h v) eqn:Eh; auto.
  exfalso. apply (Ca v); [apply K; auto; apply Ph; congruence|auto].
Qed.
Lemma shares_iff x y : length x = n -> length y = n -> shares x y = true <-> exists v, get U x v <> None /\ get U y v <> None.
Proof.
  intros Lx Ly. split; [|intros (v & H1 & H2); now apply (shares_get U x y v)].
  clear - HU Lx Ly. unfold shares. revert x y Lx Ly. induction U as [|u V IH]; intros [|p x] [|q y] Lx Ly E; cbn in *; try lia; try discriminate.
  inversion HU as [|? ? N1 N2]; subst. destruct p as [p|], q as [q|]; cbn in E.
  - exists u. cbn. rewrite String.eqb_refl. split; discriminate.
  - destruct (IH N2 x y ltac:(lia) ltac:(lia) E) as (v & H1 & H2). exists v. cbn. destruct (String.eqb_spec u v) as [->|]; auto.
    exfalso. apply N1. now apply (get_length V x v).
  - destruct (IH N2 x y ltac:(lia) ltac:(lia) E) as (v & H1 & H2). exists v. cbn. destruct (String.eqb_spec u v) as [->|]; auto.
    exfalso. apply N1. now apply (get_length V x v).
  - destruct (IH N2 x y ltac:(lia) ltac:(lia) E) as (v & H1 & H2). exists v. cbn. destruct (String.eqb_spec u v) as [->|]; auto.
    exfalso. apply N1. now apply (get_length V x v).
Qed.
Lemma shares_hb : shares (merge_map a h) b = shares a b.
Proof.
  destruct Da as [La _], Dh as [Lh _], Db as [Lb _]. apply eq_iff_eq_true. rewrite !shares_iff by auto using (merge_len U).
  split; intros (v & H1 & H2); exists v; split; auto; rewrite ?get_merge' in * by auto; pose proof (three v);
    destruct (get U a v), (get U h v), (get U b v); cbn in *; intuition congruence.
Qed.
End Three.

(* ---------- one element ---------- *)
(* the variables hv have a value before e, where e asks for it *)
Definition apart (hv : list string) (e : element) (s : scope) : Prop :=
  match e with
  | Optional g | Minus g => forall s2, sc_group g = Some s2 -> forall v, In v hv -> In v (snd s2) -> In v (fst s)
  | Bind t args _ => ~ In t hv /\ forall v, In v args -> In v hv -> In v (fst s)
  | _ => True
  end.
Lemma bjoin_swap A B H : lens n A -> lens n B -> lens n H -> Permutation (bjoin (bjoin A H) B) (bjoin (bjoin A B) H).
Proof.
  intros LA LB LH. rewrite !(bjoin_assoc n) by auto. apply bjoin_perm; auto. apply bjoin_comm.
Qed.
Lemma commute_element e s s' A hv H : sc_element e s = Some s' -> wf U s -> ddoms s A -> ddoms (hv, hv) H -> apart hv e s ->
  Permutation (seval_element e (bjoin A H)) (bjoin (seval_element e A) H).
Proof.
  intros E W D DH Ap. pose proof (doms_lens _ _ D) as LA. pose proof (doms_lens _ _ DH) as LH.
  assert (GD : forall g s, sc_group g = Some s -> ddoms s (inner U triple_solutions sat g)).
  { intros g s0 Eg. now apply (proj1 (proj2 (proj2 (solutions_dom U triple_solutions sat HU Htriples)))). }
  assert (GG : forall g s, sc_group g = Some s -> ddoms s (seval_group g)).
  { intros g s0 Eg. rewrite group_inner. apply filter_doms. auto. }
  rewrite sc_element_eq in E. rewrite !eval_element_eq. destruct e as [ts|g|[es fs]|g|g1 g2|q|vs rows|t args fn].
  - cbv zeta in E. destruct (subset (flat_map (pattern_vars is_var) ts) U) eqn:Su; [|discriminate]. rewrite subset_in in Su.
    apply bjoin_swap; auto. eapply doms_lens. apply (fold_bjoin_doms U triple_solutions Htriples ts Su ([], []) [unit]). apply doms_unit.
  - destruct (sc_group g) as [s2|] eqn:Eg; [|discriminate]. apply bjoin_swap; auto. eapply doms_lens; eauto.
  - (* optional *)
    destruct (sc_group (G es fs)) as [s2|] eqn:Eg; [|discriminate]. assert (DB := GD _ _ Eg). cbn [inner] in DB.
    set (B := seval_elements es [unit]) in *. cbn [apart] in Ap. specialize (Ap s2 Eg).
    assert (Wg : forall f, In f fs -> forall v, In v (gf_vars f) -> In v (snd s2)).
    { rewrite sc_group_eq in Eg. destruct (sc_elements es ([], [])) as [s3|]; [|discriminate]. destruct (forallb _ fs && _) eqn:Bq; [|discriminate].
      injection Eg as <-. apply andb_true_iff in Bq. destruct Bq as [Bq _]. rewrite forallb_forall in Bq. intros f Hf. apply subset_in. auto. }
    unfold left_join, bjoin. rewrite !flat_map_flat_map. apply flat_map_perm_in. intros a Ha. rewrite !flat_map_flat_map.
    set (p := fun m => forallb (ps m) fs). set (L := fun x => flat_map (fun b => if compat x b && p (merge_map x b) then [merge_map x b] else []) B).
    change (Permutation (flat_map (fun h => flat_map (fun x => match L x with [] => [x] | l => l end) (if compat a h then [merge_map a h] else [])) H)
      (flat_map (fun y => flat_map (fun h => if compat y h then [merge_map y h] else []) H) (match L a with [] => [a] | l => l end))).
    rewrite flat_map_swap. apply flat_map_perm_in. intros h Hh.
    assert (X : forall y, In y (match L a with [] => [a] | l => l end) -> compat y h = compat a h).
    { intros y Hy. destruct (L a) eqn:EL; [destruct Hy as [<-|[]]; auto|]. rewrite <- EL in Hy. unfold L in Hy. apply in_flat_map in Hy.
      destruct Hy as (b & Hb & Hy). destruct (compat a b && p (merge_map a b)); [|destruct Hy]. destruct Hy as [<-|[]].
      apply (compat_bh s s2 hv); auto. }
    destruct (compat a h) eqn:C.
    + cbn [flat_map]. rewrite app_nil_r.
      assert (EL : L (merge_map a h) = map (fun y => merge_map y h) (L a)).
      { unfold L. rewrite map_flat_map. apply flat_map_ext_in. intros b Hb. rewrite (compat_hb s s2 hv) by auto.
        rewrite (merge_bh s s2 hv) by auto. assert (P : p (merge_map (merge_map a b) h) = p (merge_map a b)).
        { unfold p. apply eq_iff_eq_true. rewrite !forallb_forall.
          assert (Y : forall f, In f fs -> ps (merge_map (merge_map a b) h) f = ps (merge_map a b) f).
          { intros f Hf. apply passes_ext. intros v Hv. apply (get_hb s s2 hv); auto. eapply Wg; eauto. }
          split; intros Z f Hf; specialize (Z f Hf); rewrite Y in *; auto. }
        rewrite P. destruct (compat a b && p (merge_map a b)); reflexivity. }
      rewrite EL. assert (Z : forall l, (forall y, In y l -> compat y h = true) ->
        flat_map (fun y => if compat y h then [merge_map y h] else []) l = map (fun y => merge_map y h) l).
      { induction l as [|y l IH]; intros Hl; auto. cbn [flat_map map]. rewrite (Hl y) by now left. cbn [app]. f_equal. apply IH. intros; apply Hl; now right. }
      destruct (L a) as [|y l] eqn:ELa; cbn [map].
      * rewrite Z; [reflexivity|exact X].
      * rewrite Z; [reflexivity|exact X].
    + cbn [flat_map]. symmetry. apply Permutation_refl'. etransitivity; [|apply (flat_map_nil (match L a with [] => [a] | l => l end))].
      apply flat_map_ext_in. intros y Hy. now rewrite (X y Hy).
  - (* minus *)
    destruct (sc_group g) as [s2|] eqn:Eg; [|discriminate]. assert (DB := GG _ _ Eg). set (B := seval_group g) in *. specialize (Ap s2 Eg).
    apply Permutation_refl'. unfold bjoin. change (filter (fun a => negb (existsb (fun b => compat a b && shares a b) B)) (flat_map (fun a => flat_map (fun b => if compat a b then [merge_map a b] else []) H) A) = flat_map (fun a => flat_map (fun b => if compat a b then [merge_map a b] else []) H) (filter (fun a => negb (existsb (fun b => compat a b && shares a b) B)) A)). rewrite filter_flat_map, flat_map_filter. apply flat_map_ext_in. intros a Ha.
    assert (X : forall h, In h H -> existsb (fun b => compat (merge_map a h) b && shares (merge_map a h) b) B = existsb (fun b => compat a b && shares a b) B).
    { intros h Hh. apply eq_iff_eq_true. rewrite !existsb_exists. split; intros (b & Hb & Y); exists b; split; auto;
        rewrite (compat_hb s s2 hv), (shares_hb s s2 hv) in * by auto; auto. }
    rewrite filter_flat_map. destruct (negb (existsb (fun b => compat a b && shares a b) B)) eqn:Q.
    + apply flat_map_ext_in. intros h Hh. destruct (compat a h); auto. cbn [filter]. now rewrite X, Q.
    + etransitivity; [|apply (flat_map_nil H)]. apply flat_map_ext_in. intros h Hh. destruct (compat a h); auto. cbn [filter]. now rewrite X, Q.
  - destruct (sc_group g1) as [s1|] eqn:E1; [|discriminate]. destruct (sc_group g2) as [s2|] eqn:E2; [|discriminate].
    apply bjoin_swap; auto. apply Forall_app. split; eapply doms_lens; eauto.
  - destruct q as [sel d off lim g]. destruct (sc_group g) as [s2|] eqn:Eg; [|discriminate]. destruct off; [|discriminate]. destruct lim; [discriminate|].
    apply bjoin_swap; auto. rewrite eval_query_eq. cbv zeta. cbn [slice skipn]. apply Forall_forall. intros m Hm.
    assert (Hm' : In m (project U sel (seval_group g))) by (destruct d; [now apply nodup_In in Hm|auto]).
    unfold project in Hm'. apply in_map_iff in Hm'. destruct Hm' as (m0 & <- & _). apply map_length.
  - destruct (subset vs U && _) eqn:Bq; [|discriminate]. apply andb_true_iff in Bq. destruct Bq as [Su Bq]. rewrite forallb_forall in Bq.
    apply bjoin_swap; auto. apply Forall_forall. intros m Hm. specialize (Bq m Hm). unfold has_domain in Bq. apply andb_true_iff in Bq.
    destruct Bq as [Bq _]. now apply Nat.eqb_eq.
  - (* bind *)
    destruct (memb t U && _) eqn:Bq; [|discriminate]. apply andb_true_iff in Bq. destruct Bq as [Bt _]. apply memb_in in Bt.
    destruct Ap as [Nt Ar]. apply Permutation_refl'. unfold bjoin.
    set (F := fun a => put U a t (fn (map (get U a) args))).
    change (map F (flat_map (fun a => flat_map (fun b => if compat a b then [merge_map a b] else []) H) A) =
      flat_map (fun a => flat_map (fun b => if compat a b then [merge_map a b] else []) H) (map F A)).
    rewrite map_flat_map. rewrite (flat_map_concat_map _ (map F A)), map_map, <- flat_map_concat_map. unfold F.
    apply flat_map_ext_in. intros a Ha. rewrite map_flat_map. apply flat_map_ext_in. intros h Hh.
    destruct (D a Ha) as (La & Ca & Pa), (DH h Hh) as (Lh & Ch & Ph). cbn [fst snd] in *.
    set (x := fn (map (get U a) args)).
    assert (Ht : get U h t = None) by (destruct (get U h t) eqn:Z; auto; elim Nt; apply Ph; congruence).
    assert (Lp : length (put U a t x) = n) by now apply put_length.
    assert (Cc : compat (put U a t x) h = compat a h).
    { assert (Q : forall v, In v U -> (get U (put U a t x) v = get U a v \/ get U h v = None)).
      { intros v Hv. rewrite get_put by auto. destruct (String.eqb_spec t v) as [e|]; [right; now rewrite <- e|now left]. }
      apply eq_iff_eq_true. rewrite !(compat_get U HU) by auto. split; intros Y v Hv; specialize (Y v Hv); destruct (Q v Hv) as [Z|Z]; rewrite Z in *; auto;
        [destruct (get U a v)|destruct (get U (put U a t x) v)]; auto. }
    rewrite Cc. destruct (compat a h); auto. cbn [map]. f_equal.
    assert (Ea : map (get U (merge_map a h)) args = map (get U a) args).
    { apply map_ext_in. intros v Hv. rewrite get_merge' by auto. destruct (get U a v) eqn:Z; auto. cbn [merge1].
      destruct (get U h v) eqn:Y; auto. exfalso. apply (Ca v); [|auto]. apply Ar; auto. apply Ph. congruence. }
    rewrite Ea. fold x. apply (get_ext_gen U U _ _ HU); auto using put_length, (merge_len U). intros v Hv.
    rewrite get_merge' by auto. rewrite !get_put by auto using (merge_len U). rewrite get_merge' by auto.
    destruct (String.eqb t v); reflexivity.
Qed.
(* ---------- all elements ---------- *)
Fixpoint clean (hv : list string) (es : elements) (s : scope) : Prop :=
  match es with
  | Nil => True
  | Cons e es' => apart hv e s /\ forall s', sc_element e s = Some s' -> clean hv es' s'
  end.
Lemma step_dom e s s' A : sc_element e s = Some s' -> wf U s -> ddoms s A -> wf U s' /\ ddoms s' (seval_element e A).
Proof. apply (proj1 (solutions_dom U triple_solutions sat HU Htriples)). Qed.
Lemma steps_dom es s s' A : sc_elements es s = Some s' -> wf U s -> ddoms s A -> wf U s' /\ ddoms s' (seval_elements es A).
Proof. apply (proj1 (proj2 (solutions_dom U triple_solutions sat HU Htriples))). Qed.
Lemma sc_elements_cons e es s : sc_elements (Cons e es) s = match sc_element e s with Some s' => sc_elements es s' | None => None end.
Proof. reflexivity. Qed.
Fixpoint commute_elements es {struct es} : forall s s' A hv H, sc_elements es s = Some s' -> wf U s -> ddoms s A -> ddoms (hv, hv) H -> clean hv es s ->
  Permutation (seval_elements es (bjoin A H)) (bjoin (seval_elements es A) H).
Proof.
  destruct es as [|e es]; intros s s' A hv H E W D DH C; [reflexivity|]. rewrite !eval_elements_cons. rewrite sc_elements_cons in E.
  destruct (sc_element e s) as [s1|] eqn:E1; [|discriminate]. destruct C as [C1 C2]. destruct (step_dom e s s1 A E1 W D) as [W1 D1].
  etransitivity; [apply eval_elements_perm; eapply commute_element; eauto|]. eapply commute_elements; eauto.
Qed.

Lemma removals_perm ts t ts' : In (t, ts') (removals ts) -> Permutation ts (t :: ts').
Proof.
  revert t ts'. induction ts as [|u ts IH]; intros t ts' H; cbn [removals] in H; [destruct H|]. destruct H as [H|H].
  - injection H as <- <-. reflexivity.
  - apply in_map_iff in H. destruct H as ([t1 l1] & E & H). injection E as <- <-. cbn [fst snd]. rewrite (IH _ _ H). apply perm_swap.
Qed.
Definition fold_triples (ts : list pattern) : list mapping := fold_left (fun acc t => bjoin acc (triple_solutions t)) ts [unit].
Lemma fold_map ts A : fold_left bjoin (map triple_solutions ts) A = fold_left (fun acc t => bjoin acc (triple_solutions t)) ts A.
Proof. revert A. induction ts as [|t ts IH]; intros A; cbn [map fold_left]; auto. Qed.
Lemma fold_acc ts : forall A, lens n A -> (forall t, In t ts -> lens n (triple_solutions t)) ->
  Permutation (fold_left (fun acc t => bjoin acc (triple_solutions t)) ts A) (bjoin A (fold_triples ts)).
Proof.
  unfold fold_triples. induction ts as [|t ts IH]; intros A LA HL; cbn [fold_left].
  - symmetry. change unit with (unit_map n). now apply bjoin_unit_r.
  - assert (Lt : lens n (triple_solutions t)) by (apply HL; now left). assert (Hts : forall u, In u ts -> lens n (triple_solutions u)) by (intros; apply HL; now right).
    assert (L1 : lens n [unit]) by (constructor; [apply empty_len|constructor]).
    rewrite (IH (bjoin A (triple_solutions t))) by auto using bjoin_lens. rewrite (IH (bjoin [unit] (triple_solutions t))) by auto using bjoin_lens.
    assert (LF : lens n (fold_left (fun acc t => bjoin acc (triple_solutions t)) ts [unit])).
    { clear - Hts L1. revert L1. generalize [unit] as B. induction ts as [|u ts IH]; intros B LB; cbn [fold_left]; auto. apply IH.
      - intros; apply Hts; now right.
      - apply bjoin_lens; auto. apply Hts. now left. }
    change unit with (unit_map n) in *. rewrite (bjoin_unit_l n (triple_solutions t)) by auto. now rewrite (bjoin_assoc n) by auto.
Qed.
Lemma fold_triples_perm ts ts' : Permutation ts ts' -> (forall t, In t ts -> lens n (triple_solutions t)) -> Permutation (fold_triples ts) (fold_triples ts').
Proof.
  assert (L1 : lens n [unit]) by (constructor; [apply empty_len|constructor]).
  assert (C1 : forall t ts, (forall u, In u (t :: ts) -> lens n (triple_solutions u)) ->
     Permutation (fold_triples (t :: ts)) (bjoin (triple_solutions t) (fold_triples ts))).
  { intros t l Hl. unfold fold_triples at 1. cbn [fold_left]. rewrite fold_acc; auto using in_cons.
    - apply bjoin_perm; auto. change unit with (unit_map n). rewrite bjoin_unit_l; auto. apply Hl. now left.
    - apply bjoin_lens; auto. apply Hl. now left. }
  assert (LF : forall l, (forall u, In u l -> lens n (triple_solutions u)) -> lens n (fold_triples l)).
  { unfold fold_triples. intros l. revert L1. generalize [unit] as B. induction l as [|u l IH]; intros B LB Hl; cbn [fold_left]; auto. apply IH.
    - apply bjoin_lens; auto. apply Hl. now left.
    - intros; apply Hl; now right. }
  intros P. induction P as [|t l l' P IH|t u l|l1 l2 l3 P1 IH1 P2 IH2]; intros HL.
  - reflexivity.
  - rewrite (C1 t l), (C1 t l'); auto.
    + apply bjoin_perm; auto. apply IH. intros; apply HL; now right.
    + intros v Hv. apply HL. destruct Hv as [<-|Hv]; [now left|right]. eapply Permutation_in; [symmetry; exact P|auto].
  - assert (Lt : lens n (triple_solutions t)) by (apply HL; right; now left). assert (Lu : lens n (triple_solutions u)) by (apply HL; now left).
    assert (Ll : forall v, In v l -> lens n (triple_solutions v)) by (intros; apply HL; right; now right).
    rewrite (C1 u), (C1 t (u :: l)); auto.
    + etransitivity; [apply bjoin_perm; [reflexivity|apply C1]|]. { intros v [<-|Hv]; auto. }
      etransitivity; [|apply bjoin_perm; [reflexivity|symmetry; apply C1]]. 2:{ intros v [<-|Hv]; auto. }
      rewrite <- !(bjoin_assoc n) by auto. apply bjoin_perm; auto. apply bjoin_comm.
    + intros v [<-|[<-|Hv]]; auto.
  - rewrite IH1 by auto. apply IH2. intros v Hv. apply HL. eapply Permutation_in; [symmetry; exact P1|auto].
Qed.
Lemma triple_lens t : (forall v, In v (pattern_vars is_var t) -> In v U) -> lens n (triple_solutions t).
Proof. intros H. apply Forall_forall. intros m Hm. apply (Htriples t m H Hm). Qed.

Fixpoint split_ok es {struct es} : forall t es' s s2 A, In (t, es') (splits es) -> sc_elements es' s = Some s2 -> wf U s -> ddoms s A ->
  (forall v, In v (pattern_vars is_var t) -> In v U) -> clean (pattern_vars is_var t) es' s ->
  Permutation (seval_elements es A) (bjoin (seval_elements es' A) (triple_solutions t)).
Proof.
  destruct es as [|e es]; intros t es' s s2 A Hin E W D Hv C; [destruct Hin|]. cbn [splits] in Hin. apply in_app_iff in Hin. destruct Hin as [Hin|Hin].
  - destruct e as [ts| | | | | | | ]; try (now destruct Hin). apply in_map_iff in Hin. destruct Hin as ([t1 ts'] & Eq & Hin). injection Eq as <- <-. cbn [fst snd] in *.
    rewrite !eval_elements_cons. rewrite sc_elements_cons in E. destruct (sc_element (Triples ts') s) as [s1|] eqn:E1; [|discriminate].
    destruct C as [_ C]. destruct (step_dom _ _ _ A E1 W D) as [W1 D1].
    assert (DH : ddoms (pattern_vars is_var t1, pattern_vars is_var t1) (triple_solutions t1)) by (intros m Hm; apply Htriples; auto).
    etransitivity; [|eapply commute_elements; eauto]. apply eval_elements_perm. rewrite !eval_element_eq.
    rewrite sc_element_eq in E1. cbv zeta in E1. destruct (subset (flat_map (pattern_vars is_var) ts') U) eqn:Su; [|discriminate]. rewrite subset_in in Su.
    assert (P := removals_perm _ _ _ Hin).
    assert (HL : forall u, In u (t1 :: ts') -> lens n (triple_solutions u)).
    { intros u [<-|Hu]; [now apply triple_lens|]. apply triple_lens. intros v Hv'. apply Su. apply in_flat_map. eauto. }
    assert (LF : lens n (fold_triples ts')).
    { unfold fold_triples. rewrite <- fold_map. eapply doms_lens. apply (fold_bjoin_doms U triple_solutions Htriples ts' Su ([], []) [unit]). apply doms_unit. }
    rewrite !fold_map. change (Permutation (bjoin A (fold_triples ts)) (bjoin (bjoin A (fold_triples ts')) (triple_solutions t1))).
    rewrite (bjoin_assoc n) by (eauto using doms_lens). apply bjoin_perm; auto.
    rewrite (fold_triples_perm ts (t1 :: ts')); auto.
    + unfold fold_triples at 1. cbn [fold_left]. rewrite fold_acc; [|apply bjoin_lens; [constructor; [apply empty_len|constructor]|apply HL; now left]|intros; apply HL; now right].
      rewrite bjoin_comm. apply bjoin_perm; auto. change unit with (unit_map n). rewrite bjoin_unit_l; auto. apply HL. now left.
    + intros u Hu. apply HL. eapply Permutation_in; eauto.
  - apply in_map_iff in Hin. destruct Hin as ([t1 es1] & Eq & Hin). injection Eq as <- <-. cbn [fst snd] in *.
    rewrite !eval_elements_cons. rewrite sc_elements_cons in E. destruct (sc_element e s) as [s1|] eqn:E1; [|discriminate].
    destruct C as [_ C]. destruct (step_dom _ _ _ A E1 W D) as [W1 D1]. eapply split_ok; eauto.
Qed.

(* ---------- variables that are not mentioned ---------- *)
Lemma in_triple_vars o t : in_triple o t = false -> ~ In o (pattern_vars is_var t).
Proof.
  destruct t as [[s p] q]. unfold in_triple, pattern_vars. rewrite !orb_false_iff, !String.eqb_neq, filter_In. cbn. intuition.
Qed.
Lemma mentions_element_eq v e : mentions_element v e =
  match e with
  | Triples ts => existsb (in_triple v) ts
  | Group g | Optional g | Minus g => mentions_group v g
  | Union g1 g2 => mentions_group v g1 || mentions_group v g2
  | Subquery (Q select _ _ _ _) => memb v select
  | Inline vs _ => memb v vs
  | Bind t args _ => memb v (t :: args)
  end.
Proof. destruct e; reflexivity. Qed.
Lemma mentions_elements_eq v e es : mentions_elements v (Cons e es) = mentions_element v e || mentions_elements v es.
Proof. reflexivity. Qed.
Lemma not_memb v l : memb v l = false <-> ~ In v l.
Proof. rewrite <- memb_in. destruct (memb v l); intuition congruence. Qed.
Lemma mentions_ok o :
  (forall e s s', mentions_element o e = false -> sc_element e s = Some s' -> ~ In o (snd s) -> ~ In o (snd s')) /\
  (forall es s s', mentions_elements o es = false -> sc_elements es s = Some s' -> ~ In o (snd s) -> ~ In o (snd s')) /\
  (forall g s, mentions_group o g = false -> sc_group g = Some s -> ~ In o (snd s)) /\
  (forall q : query, True).
Proof.
  assert (J : forall s s2 s', join_scope s s2 = Some s' -> ~ In o (snd s) -> ~ In o (snd s2) -> ~ In o (snd s')).
  { intros s s2 s' E H1 H2. unfold join_scope in E. destruct (joinable s s2); [|discriminate]. injection E as <-. cbn [snd]. rewrite in_app_iff. tauto. }
  apply pattern_ind.
  - intros ts s s' M E N. rewrite sc_element_eq in E. cbv zeta in E. destruct (subset _ U); [|discriminate]. eapply J; eauto. cbn [snd].
    rewrite in_flat_map. intros (t & Ht & Hv). rewrite mentions_element_eq in M. apply (in_triple_vars o t); auto.
    destruct (in_triple o t) eqn:It; auto. assert (X : existsb (in_triple o) ts = true) by (apply existsb_exists; eauto). congruence.
  - intros g IH s s' M E N. rewrite sc_element_eq in E. rewrite mentions_element_eq in M. destruct (sc_group g) as [s2|]; [|discriminate]. eapply J; eauto.
  - intros g IH s s' M E N. rewrite sc_element_eq in E. rewrite mentions_element_eq in M. destruct (sc_group g) as [s2|]; [|discriminate].
    destruct (joinable s s2 && _); [|discriminate]. injection E as <-. cbn [snd]. rewrite in_app_iff. specialize (IH s2 M eq_refl). tauto.
  - intros g IH s s' M E N. rewrite sc_element_eq in E. destruct (sc_group g) as [s2|]; [|discriminate]. destruct (joinable s s2); [|discriminate]. now injection E as <-.
  - intros g1 IH1 g2 IH2 s s' M E N. rewrite sc_element_eq in E. rewrite mentions_element_eq in M. apply orb_false_iff in M. destruct M as [M1 M2].
    destruct (sc_group g1) as [s1|]; [|discriminate]. destruct (sc_group g2) as [s2|]; [|discriminate]. eapply J; eauto. cbn [snd]. rewrite in_app_iff.
    specialize (IH1 s1 M1 eq_refl). specialize (IH2 s2 M2 eq_refl). tauto.
  - intros [sel d off lim g] _ s s' M E N. rewrite sc_element_eq in E. rewrite mentions_element_eq in M. destruct (sc_group g) as [s2|]; [|discriminate].
    destruct off; [|discriminate]. destruct lim; [discriminate|]. destruct (subset (snd s2) sel) eqn:Su; [|discriminate]. rewrite subset_in in Su.
    eapply J; eauto. intros X. apply not_memb in M. auto.
  - intros vs rows s s' M E N. rewrite sc_element_eq in E. rewrite mentions_element_eq in M. destruct (subset vs U && _); [|discriminate]. eapply J; eauto.
    now apply not_memb.
  - intros t args fn s s' M E N. rewrite sc_element_eq in E. rewrite mentions_element_eq in M. destruct (memb t U && _); [|discriminate]. injection E as <-.
    cbn [snd]. rewrite in_app_iff. apply not_memb in M. cbn in M |- *. intuition.
  - intros s s' M E N. cbn in E. now injection E as <-.
  - intros e IHe es IHes s s' M E N. rewrite mentions_elements_eq in M. apply orb_false_iff in M. destruct M as [M1 M2]. rewrite sc_elements_cons in E.
    destruct (sc_element e s) as [s1|] eqn:E1; [|discriminate]. eapply IHes; eauto.
  - intros es IH fs s M E. rewrite sc_group_eq in E. destruct (sc_elements es ([], [])) as [s1|] eqn:E1; [|discriminate]. destruct (forallb _ fs && _); [|discriminate].
    injection E as <-. apply (IH ([], []) s1); auto.
  - auto.
Qed.
Lemma root_ok o : forall es s s', any_root_mentions o es = false -> outside U is_var o es = true -> sc_elements es s = Some s' -> ~ In o (snd s) -> ~ In o (snd s').
Proof.
  induction es as [|e es IH]; intros s s' M Ou E N; [cbn in E; now injection E as <-|]. cbn [any_root_mentions] in M. apply orb_false_iff in M. destruct M as [M1 M2].
  cbn [outside] in Ou. apply andb_true_iff in Ou. destruct Ou as [O1 O2]. rewrite sc_elements_cons in E. destruct (sc_element e s) as [s1|] eqn:E1; [|discriminate].
  apply (IH s1 s'); auto. destruct (mentions_ok o) as [Me _]. destruct e; cbn [root_mentions] in M1; try (apply (Me _ s s1 M1 E1 N)).
  - rewrite sc_element_eq in E1. destruct (sc_group g) as [s2|]; [|discriminate]. destruct (joinable s s2); [|discriminate]. now injection E1 as <-.
  - apply (Me _ s s1) in E1; auto. rewrite mentions_element_eq. now apply negb_true_iff.
Qed.
Lemma clean_ok hv x o : (forall v, In v hv -> v = x \/ v = o) -> forall es s s', any_root_mentions o es = false -> outside U is_var o es = true ->
  subject_first U is_var x es s = true -> sc_elements es s = Some s' -> ~ In o (snd s) -> clean hv es s.
Proof.
  intros Hh. induction es as [|e es IH]; intros s s' M Ou Sf E N; [exact I|]. cbn [any_root_mentions] in M. apply orb_false_iff in M. destruct M as [M1 M2].
  pose proof Ou as Ou0. cbn [outside] in Ou. apply andb_true_iff in Ou. destruct Ou as [O1 O2]. cbn [subject_first] in Sf. apply andb_true_iff in Sf. destruct Sf as [S1 S2].
  rewrite sc_elements_cons in E. destruct (sc_element e s) as [s1|] eqn:E1; [|discriminate]. destruct (mentions_ok o) as (Me & _ & Mg & _). split.
  - destruct e; cbn [apart]; auto.
    + intros s2 E2 v Hv Hs. rewrite E2 in S1. destruct (Hh v Hv) as [-> | ->].
      * apply orb_true_iff in S1. destruct S1 as [S1|S1]; [apply negb_true_iff, not_memb in S1; tauto|now apply memb_in].
      * exfalso. cbn [root_mentions] in M1. rewrite mentions_element_eq in M1. apply (Mg g s2 M1 E2 Hs).
    + intros s2 E2 v Hv Hs. rewrite E2 in S1, O1. destruct (Hh v Hv) as [-> | ->].
      * apply orb_true_iff in S1. destruct S1 as [S1|S1]; [apply negb_true_iff, not_memb in S1; tauto|now apply memb_in].
      * exfalso. apply negb_true_iff, not_memb in O1. tauto.
    + cbn [root_mentions] in M1. rewrite mentions_element_eq in M1. apply not_memb in M1. apply andb_true_iff in S1. destruct S1 as [S0 S1].
      apply negb_true_iff, String.eqb_neq in S0. split.
      * intros Ht. destruct (Hh _ Ht) as [-> | ->]; [congruence|]. apply M1. now left.
      * intros v Ha Hv. destruct (Hh v Hv) as [-> | ->]; [|exfalso; apply M1; now right].
        apply orb_true_iff in S1. destruct S1 as [S1|S1]; [apply negb_true_iff, not_memb in S1; tauto|now apply memb_in].
  - intros s2 E2. rewrite E1 in E2. injection E2 as <-. apply (IH s1 s'); auto.
    apply (root_ok o (Cons e Nil) s s1); auto.
    + cbn [any_root_mentions]. now rewrite M1.
    + cbn [outside]. rewrite O1. reflexivity.
    + rewrite sc_elements_cons, E1. reflexivity.
Qed.

(* ---------- the group ---------- *)
Lemma find_some_in {X} (f : X -> bool) l x : find f l = Some x -> In x l /\ f x = true.
Proof. apply find_some. Qed.
Definition vars_of (x o : string) : list string := filter is_var [x; o].
Theorem group_split es fs x o es' s' :
  is_var o = true -> (is_var x = true -> In x U) -> In o U ->
  In ((x, HAS_PREDICATE, o), es') (splits es) -> any_root_mentions o es' = false -> outside U is_var o es' = true ->
  forallb (fun f => static_on o f || negb (memb o (gf_vars f) || memb x (gf_vars f))) fs = true ->
  sc_elements es' ([], []) = Some s' -> subject_first U is_var x es' ([], []) = true ->
  Permutation (seval_group (G es fs))
    (filter (fun m => forallb (ps m) (filter (static_on o) fs))
       (bjoin (seval_group (G es' (filter (fun f => negb (static_on o f)) fs))) (triple_solutions (x, HAS_PREDICATE, o)))).
Proof.
  intros Vo Vx Uo Hin M Ou F E Sf.
  assert (PV : forall v, In v (pattern_vars is_var (x, HAS_PREDICATE, o)) -> In v U).
  { intros v Hv. unfold pattern_vars in Hv. apply filter_In in Hv. destruct Hv as [[<-|[<-|[<-|[]]]] Hv]; auto. discriminate Hv. }
  assert (PH : forall v, In v (pattern_vars is_var (x, HAS_PREDICATE, o)) -> v = x \/ v = o).
  { intros v Hv. unfold pattern_vars in Hv. apply filter_In in Hv. destruct Hv as [[<-|[<-|[<-|[]]]] Hv]; auto. discriminate Hv. }
  assert (W0 := wf_nil U). assert (D0 := doms_unit U).
  assert (P := split_ok es _ es' ([], []) s' [unit] Hin E W0 D0 PV (clean_ok _ x o PH es' ([], []) s' M Ou Sf E (fun H => H))).
  destruct (steps_dom es' _ s' _ E W0 D0) as [W1 D1].
  assert (DH : ddoms (pattern_vars is_var (x, HAS_PREDICATE, o), pattern_vars is_var (x, HAS_PREDICATE, o)) (triple_solutions (x, HAS_PREDICATE, o)))
    by (intros m Hm; now apply Htriples).
  change (seval_group (G es fs)) with (filter (fun m => forallb (ps m) fs) (seval_elements es [unit])).
  change (seval_group (G es' (filter (fun f => negb (static_on o f)) fs)))
    with (filter (fun m => forallb (ps m) (filter (fun f => negb (static_on o f)) fs)) (seval_elements es' [unit])).
  rewrite (perm_filter _ _ _ P). set (A := seval_elements es' [unit]) in *. set (H := triple_solutions (x, HAS_PREDICATE, o)) in *.
  assert (X : filter (fun m => forallb (ps m) fs) (bjoin A H) =
    filter (fun m => forallb (ps m) (filter (static_on o) fs)) (filter (fun m => forallb (ps m) (filter (fun f => negb (static_on o f)) fs)) (bjoin A H))).
  { rewrite filter_filter. apply filter_ext. intros m. clear. induction fs as [|f fs IH]; cbn; auto. rewrite IH. destruct (static_on o f); cbn;
      destruct (ps m f); cbn; auto; rewrite ?andb_false_r; auto. }
  rewrite X. apply perm_filter. rewrite filter_bjoin_l; [reflexivity|]. intros a h Ha Hh.
  rewrite forallb_forall in F.
    assert (Z : forall f, In f (filter (fun f => negb (static_on o f)) fs) -> ps (merge_map a h) f = ps a f).
    { intros f Hf. apply filter_In in Hf. destruct Hf as [Hf Nf]. specialize (F f Hf). apply negb_true_iff in Nf. rewrite Nf in F. cbn [orb] in F.
      apply negb_true_iff, orb_false_iff in F. destruct F as [F1 F2]. apply not_memb in F1, F2. apply passes_ext. intros v Hv.
      destruct (D1 a Ha) as [La _], (DH h Hh) as (Lh & _ & Ph). rewrite get_merge' by auto. destruct (get U a v) eqn:Ea; auto. cbn [merge1].
      destruct (get U h v) eqn:Eh; auto. exfalso. destruct (PH v) as [-> | ->]; [apply Ph; congruence|tauto|tauto]. }
    apply eq_iff_eq_true. rewrite !forallb_forall. split; intros Q f Hf; specialize (Q f Hf); rewrite Z in *; auto.
Qed.
End Proof.
