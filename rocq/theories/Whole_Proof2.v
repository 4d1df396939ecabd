(* The scans of the files give the tables that the plans are about. *)
From Coq Require Import String List NArith Arith Bool Lia Permutation Sorted.
From Verif Require Conv_Model Perm_Model Perm_Spec Perm_Thm.
From Verif Require Import Table_Spec Lex_Proof Ops_Spec Ops_Model Vars_Model Plan_Model Plan_Proof5 Plan_Exec Collate_Model Vocab_Model Meta_Model Whole_Model.
Import ListNotations.
Local Open Scope nat_scope.

(* ---------- strictly sorted tables ---------- *)
Lemma strict_unique (l : table) : forall l', StronglySorted lex_lt l -> StronglySorted lex_lt l' -> (forall r, In r l <-> In r l') -> l = l'.
Proof.
  induction l as [|a l IH]; intros [|b l'] S S' H; auto.
  - destruct (H b) as [_ X]. destruct X. now left.
  - destruct (H a) as [X _]. destruct X. now left.
  - inversion S as [|? ? S1 S2]; subst. inversion S' as [|? ? S1' S2']; subst. rewrite Forall_forall in S2, S2'.
    assert (E : a = b).
    { destruct (H a) as [[X|X] _]; [now left|auto|]. destruct (H b) as [_ [Y|Y]]; [now left|auto|].
      exfalso. apply (lex_lt_irrefl a). eapply lex_lt_trans; eauto. }
    subst b. f_equal. apply IH; auto. intros r. specialize (H r). cbn in H. split; intros X.
    + destruct H as [[Y|Y] _]; auto. subst r. exfalso. apply (lex_lt_irrefl a). auto.
    + destruct H as [_ [Y|Y]]; auto. subst r. exfalso. apply (lex_lt_irrefl a). auto.
Qed.
Lemma strict_filter f (l : table) : StronglySorted lex_lt l -> StronglySorted lex_lt (filter f l).
Proof.
  induction 1 as [|a l S IH F]; cbn; [constructor|]. destruct (f a); auto. constructor; auto.
  rewrite Forall_forall in *. intros r Hr. apply filter_In in Hr. now apply F.
Qed.
Lemma strict_skipn (ids : list N) (l : table) : StronglySorted lex_lt l -> (forall r, In r l -> firstn (length ids) r = ids) ->
  StronglySorted lex_lt (map (skipn (length ids)) l).
Proof.
  induction 1 as [|a l S IH F]; intros H; cbn [map]; constructor; [apply IH; intros; apply H; now right|].
  rewrite Forall_forall in *. intros r Hr. apply in_map_iff in Hr as (x & <- & Hx). specialize (F x Hx).
  assert (A : a = ids ++ skipn (length ids) a) by (apply skipn_firstn_eq; apply H; now left).
  assert (B : x = ids ++ skipn (length ids) x) by (apply skipn_firstn_eq; apply H; now right).
  unfold lex_lt in *. rewrite A, B, lex_cmp_app in F. exact F.
Qed.

(* ---------- the tables of an index ---------- *)
Definition key (ord : order) : N * N * N -> N * N * N :=
  match ord with
  | SPO => Perm_Spec.SPO | SOP => Perm_Spec.SOP | PSO => Perm_Spec.PSO | POS => Perm_Spec.POS | OSP => Perm_Spec.OSP | OPS => Perm_Spec.OPS
  end.
Lemma perm_key ord t a b c : perm_row ord t = [a; b; c] <-> key ord t = (a, b, c).
Proof. destruct t as [[s p] o]. destruct ord; cbn; split; intros E; congruence. Qed.
Lemma perm_inj ord t t' : perm_row ord t = perm_row ord t' -> t = t'.
Proof. destruct t as [[s p] o], t' as [[s' p'] o']. destruct ord; cbn; intros E; congruence. Qed.
Lemma nodup_perm ord kb : NoDup kb -> NoDup (map (perm_row ord) kb).
Proof.
  induction 1 as [|a l H N IH]; cbn; constructor; auto. intros X. apply in_map_iff in X as (t & E & Ht). apply perm_inj in E. congruence.
Qed.
Lemma ix_strict kb ord : NoDup kb -> StronglySorted lex_lt (ix_of kb ord).
Proof.
  intros H. destruct (ix_of_ok kb ord) as [P S]. assert (N : NoDup (ix_of kb ord)).
  { eapply Permutation_NoDup; [apply Permutation_sym, P|]. now apply nodup_perm. }
  assert (W : forall r, In r (ix_of kb ord) -> length r = 3).
  { intros r Hr. apply (Permutation_in _ P) in Hr. apply in_map_iff in Hr as (t & <- & _). apply perm_length. }
  apply sorted_lex_ksorted in S. change [0; 1; 2] with (seq 0 3) in S. unfold ksorted in S. clear P H.
  induction S as [|a l S IH F]; constructor.
  - inversion N; subst. apply IH; auto. intros; apply W; now right.
  - inversion N as [|? ? N1 N2]; subst. rewrite Forall_forall in *. intros r Hr. specialize (F r Hr).
    rewrite !cols_seq in F by (apply W; cbn; auto). apply lex_le_cases in F as [F|F]; auto. congruence.
Qed.
Definition found (kb : list (N * N * N)) (ord : order) (ids : list N) : table :=
  map (skipn (length ids)) (filter (fun r => row_eqb (firstn (length ids) r) ids) (ix_of kb ord)).
Lemma found_strict kb ord ids : NoDup kb -> StronglySorted lex_lt (found kb ord ids).
Proof.
  intros H. apply strict_skipn; [now apply strict_filter, ix_strict|]. intros r Hr. apply filter_In in Hr as [_ E]. now apply row_eqb_eq.
Qed.
Lemma found_in kb ord ids r : In r (found kb ord ids) <-> exists t, In t kb /\ perm_row ord t = ids ++ r.
Proof.
  unfold found. rewrite in_map_iff. destruct (ix_of_ok kb ord) as [P _]. split.
  - intros (x & <- & Hx). apply filter_In in Hx as [Hx E]. apply (Permutation_in _ P) in Hx. apply in_map_iff in Hx as (t & <- & Ht).
    exists t. split; auto. apply row_eqb_eq in E. now apply skipn_firstn_eq.
  - intros (t & Ht & E). exists (ids ++ r). split; [now rewrite skipn_app, skipn_all, Nat.sub_diag|]. apply filter_In. split.
    + apply (Permutation_in _ (Permutation_sym P)). rewrite <- E. now apply in_map.
    + apply row_eqb_eq. now rewrite firstn_app, firstn_all, Nat.sub_diag, firstn_O, app_nil_r.
Qed.
Lemma scan_found voc kb ord bound ids : lookup_all voc bound = Some ids -> scan_table voc (ix_of kb) ord bound = found kb ord ids.
Proof. intros E. unfold scan_table. now rewrite E. Qed.
Lemma full_found kb ord id : full_scan_method (ix_of kb) ord id = found kb ord [id].
Proof.
  unfold full_scan_method, found. cbn [length].
  assert (W : forall r, In r (ix_of kb ord) -> length r = 3).
  { intros r Hr. apply (Permutation_in _ (proj1 (ix_of_ok kb ord))) in Hr. apply in_map_iff in Hr as (t & <- & _). apply perm_length. }
  induction (ix_of kb ord) as [|r l IH]; [reflexivity|]. cbn [filter]. specialize (W r (or_introl eq_refl)) as L.
  destruct r as [|x r]; [discriminate|]. unfold col at 1. cbn [nth firstn row_eqb]. rewrite andb_true_r. destruct (N.eqb x id); cbn [map];
    rewrite IH by (intros; apply W; now right); reflexivity.
Qed.

(* ---------- the files of an index ---------- *)
Section Files.
Variables per thr : nat.
Variable logmult : N -> N -> N.
Variable sort2 : list (N * N) -> list (N * N).
Variable sort3 : (N * N * N -> N * N * N) -> list (N * N * N) -> list (N * N * N).
Hypothesis Hper : 0 < per.
Hypothesis Hlog : forall a b, (logmult a b < 256)%N.
Hypothesis Hsorts : Perm_Thm.sorts sort2 sort3.
Variable vocab : nat.
Variable triples : list (N * N * N).
Hypothesis Hok : Perm_Thm.input_ok vocab triples.
Variable ix : Perm_Model.index.
Hypothesis Hix : Perm_Model.create_index per thr logmult sort2 sort3 vocab triples = Ok (Some ix).
Let kb := nodup Perm_Thm.triple_dec triples.

Lemma ordered (P : (N * N * N -> N * N * N) -> list N * rmap -> bool -> Prop) : Perm_Thm.all_permutations ix P ->
  forall ord, exists b, P (key ord) (files_of ix ord) b.
Proof. intros (A & B & C & D & E & F) ord. destruct ord; cbn; eauto. Qed.
Lemma kb_nodup : NoDup kb.
Proof. apply NoDup_nodup. Qed.
Lemma kb_in t : In t kb <-> In t triples.
Proof. apply nodup_In. Qed.
Lemma kb_small t x : In t kb -> x = fst (fst t) \/ x = snd (fst t) \/ x = snd t -> (x < N.of_nat vocab)%N.
Proof. destruct t as [[s p] o]. cbn. intros H. apply (proj1 (kb_in _)), Hok in H. destruct H as (H1 & H2 & H3). intros [->|[->| ->]]; auto. Qed.
Lemma found_small ord ids r x : In r (found kb ord ids) -> In x r -> (x < N.of_nat vocab)%N.
Proof.
  intros H Hx. apply found_in in H as (t & Ht & E). apply (kb_small t); auto. assert (I : In x (perm_row ord t)) by (rewrite E; apply in_or_app; now right).
  destruct t as [[s p] o]. destruct ord; cbn in *; intuition.
Qed.

Lemma pair_strict l : StronglySorted Perm_Spec.pair_lt l -> StronglySorted lex_lt (map pair_row l).
Proof.
  induction 1 as [|a l S IH F]; cbn; constructor; auto. rewrite Forall_forall in *. intros r Hr. apply in_map_iff in Hr as (x & <- & Hx).
  specialize (F x Hx). unfold Perm_Spec.pair_lt in F. unfold lex_lt, pair_row. cbn. destruct F as [F|[E F]].
  - now rewrite F.
  - rewrite E, N.compare_refl. now rewrite F.
Qed.
Lemma single_strict l : StronglySorted N.lt l -> StronglySorted lex_lt (map (fun x => [x]) l).
Proof.
  induction 1 as [|a l S IH F]; cbn; constructor; auto. rewrite Forall_forall in *. intros r Hr. apply in_map_iff in Hr as (x & <- & Hx).
  specialize (F x Hx). unfold lex_lt. cbn. now rewrite F.
Qed.
Lemma scan_id_ok ord id : (id < N.of_nat vocab)%N -> scan_id ix ord id = Ok (found kb ord [id]).
Proof.
  intros H. destruct (ordered _ (Perm_Thm.C25_scan per thr logmult sort2 sort3 Hper Hlog Hsorts vocab triples Hok ix Hix) ord) as (b & m & L & S).
  unfold scan_id. rewrite L. cbn [bind]. destruct (S id H) as (l & E & A1 & A2). rewrite E. cbn [bind]. f_equal.
  apply strict_unique; [now apply pair_strict|apply found_strict, kb_nodup|]. intros r. rewrite in_map_iff, found_in. split.
  - intros ([y z] & <- & Hy). apply A2 in Hy as (t & Ht & K). exists t. split; [now apply kb_in|]. now apply perm_key.
  - intros (t & Ht & K). assert (exists y z, r = [y; z]) as (y & z & ->).
    { pose proof (perm_length ord t) as W. rewrite K in W. destruct r as [|y [|z [|]]]; try discriminate. eauto. }
    exists (y, z). split; [reflexivity|]. apply A2. exists t. split; [now apply kb_in|]. now apply perm_key.
Qed.
(* a key that is not there is looked up behind a block *)
Definition bad_key (ord : order) (id1 id2 : N) : Prop := Perm_Spec.past_block per thr (Perm_Spec.relation (key ord) triples id1) id2.
Lemma scan_ids_ok ord id1 id2 : (id1 < N.of_nat vocab)%N ->
  (bad_key ord id1 id2 -> scan_ids ix ord id1 id2 = UB) /\ (~ bad_key ord id1 id2 -> scan_ids ix ord id1 id2 = Ok (found kb ord [id1; id2])).
Proof.
  intros H. destruct (ordered _ (Perm_Thm.C25_scan2_partial per thr logmult sort2 sort3 Hper Hlog Hsorts vocab triples Hok ix Hix) ord) as (b & m & L & S).
  unfold scan_ids. rewrite L. cbn [bind]. destruct (S id1 id2 H) as [S1 S2]. split; intros B; [now rewrite (S1 B)|].
  destruct (S2 B) as (l & E & A1 & A2). rewrite E. cbn [bind]. f_equal.
  apply strict_unique; [now apply single_strict|apply found_strict, kb_nodup|]. intros r. rewrite in_map_iff, found_in. split.
  - intros (z & <- & Hz). apply A2 in Hz as (t & Ht & K). exists t. split; [now apply kb_in|]. now apply perm_key.
  - intros (t & Ht & K). assert (exists z, r = [z]) as (z & ->).
    { pose proof (perm_length ord t) as W. rewrite K in W. destruct r as [|z [|]]; try discriminate. eauto. }
    exists z. split; [reflexivity|]. apply A2. exists t. split; [now apply kb_in|]. now apply perm_key.
Qed.
(* a key that is in the relation is none of these *)
Lemma good_key ord id1 id2 t : In t triples -> fst (fst (key ord t)) = id1 -> snd (fst (key ord t)) = id2 -> ~ bad_key ord id1 id2.
Proof.
  intros Ht E1 E2 (_ & _ & H & _). apply H. unfold Perm_Spec.lhs_of. apply nodup_In. apply in_map_iff. exists (snd (fst (key ord t)), snd (key ord t)).
  split; [exact E2|]. unfold Perm_Spec.relation. apply nodup_In. apply in_map_iff. exists t. split; auto. apply filter_In. split; auto. now apply N.eqb_eq.
Qed.

(* ---------- the scans of a plan ---------- *)
Variable v : vocabulary.
Definition voc (t : string) : option N := match id_of v t with Ok x => x | _ => None end.
Hypothesis Hvoc : forall t id, id_of v t = Ok (Some id) -> (id < N.of_nat vocab)%N.

Lemma index_scan_sound ord bound t : index_scan v ix ord bound = Ok t -> t = scan_table voc (ix_of kb) ord bound.
Proof.
  intros E. destruct bound as [|a [|b [|]]]; try discriminate; cbn [index_scan] in E.
  - destruct (id_of v a) as [[id|]| |] eqn:A; try discriminate; cbn [bind] in E.
    + rewrite scan_id_ok in E by eauto. injection E as <-. symmetry. apply scan_found. cbn. unfold voc. now rewrite A.
    + injection E as <-. unfold scan_table. cbn. unfold voc. now rewrite A.
  - destruct (id_of v a) as [[id|]| |] eqn:A; try discriminate; cbn [bind] in E.
    + destruct (id_of v b) as [[id2|]| |] eqn:B; try discriminate; cbn [bind] in E.
      * assert (X : ~ bad_key ord id id2).
        { intros X. destruct (scan_ids_ok ord id id2 (Hvoc _ _ A)) as [S _]. rewrite (S X) in E. discriminate. }
        rewrite (proj2 (scan_ids_ok ord id id2 (Hvoc _ _ A)) X) in E. injection E as <-. symmetry. apply scan_found. cbn. unfold voc. now rewrite A, B.
      * injection E as <-. unfold scan_table. cbn. unfold voc. now rewrite A, B.
    + injection E as <-. unfold scan_table. cbn. unfold voc. rewrite A. reflexivity.
Qed.
(* all keys of a scan are answered *)
Definition scan_fine (ord : order) (bound : list string) : Prop :=
  match bound with
  | [a] => id_of v a <> UB
  | [a; b] => id_of v a <> UB /\ (forall id1, id_of v a = Ok (Some id1) -> id_of v b <> UB /\ forall id2, id_of v b = Ok (Some id2) -> ~ bad_key ord id1 id2)
  | _ => False
  end.
Lemma id_of_cases t : (exists x, id_of v t = Ok x) \/ id_of v t = UB.
Proof. unfold id_of. destruct (getId _ _ _ _ _); eauto. Qed.
Lemma index_scan_complete ord bound : scan_fine ord bound -> index_scan v ix ord bound = Ok (scan_table voc (ix_of kb) ord bound).
Proof.
  intros F. assert (exists t, index_scan v ix ord bound = Ok t) as (t & E); [|rewrite E; now rewrite (index_scan_sound _ _ _ E)].
  destruct bound as [|a [|b [|]]]; try contradiction; cbn [index_scan scan_fine] in *.
  - destruct (id_of_cases a) as [[[id|] A]|A]; [| |contradiction]; rewrite A; cbn [bind]; [|eauto]. rewrite scan_id_ok by eauto. eauto.
  - destruct F as [F1 F2]. destruct (id_of_cases a) as [[[id|] A]|A]; [| |contradiction]; rewrite A; cbn [bind]; [|eauto].
    destruct (F2 id A) as [F3 F4]. destruct (id_of_cases b) as [[[id2|] B]|B]; [| |contradiction]; rewrite B; cbn [bind]; [|eauto].
    rewrite (proj2 (scan_ids_ok ord id id2 (Hvoc _ _ A)) (F4 id2 B)). eauto.
Qed.
End Files.
