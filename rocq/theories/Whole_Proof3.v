(* Running a plan on the files of an index is running it on the tables that they stand for. *)
From Coq Require Import String List NArith Arith Bool Lia Permutation Sorted.
From Verif Require Conv_Model Perm_Model Perm_Spec Perm_Thm.
From Verif Require Import Table_Spec Lex_Proof Ops_Spec Ops_Model Vars_Model Join_Model MultiJoin_Model Plan_Model Plan_Proof5 Plan_Exec Collate_Model Vocab_Model Meta_Model
  Whole_Model Whole_Proof1 Whole_Proof2.
Import ListNotations.
Local Open Scope nat_scope.

Section Runs.
Variables per thr : nat.
Variable logmult : N -> N -> N.
Variable sort2 : list (N * N) -> list (N * N).
Variable sort3 : (N * N * N -> N * N * N) -> list (N * N * N) -> list (N * N * N).
Hypothesis Hper : 0 < per.
Hypothesis Hlog : forall a b, (logmult a b < 256)%N.
Hypothesis Hsorts : Perm_Thm.sorts sort2 sort3.
Variable vocab : nat.
Variable triples : list (N * N * N).
Hypothesis Hok : Perm_Thm.input_ok vocab triples.
Variable ix : Perm_Model.index.
Hypothesis Hix : Perm_Model.create_index per thr logmult sort2 sort3 vocab triples = Ok (Some ix).
Let kb := nodup Perm_Thm.triple_dec triples.
Variable v : vocabulary.
Hypothesis Hvoc : forall t id, id_of v t = Ok (Some id) -> (id < N.of_nat vocab)%N.
Variable o : oracle.
Variable sat : filt -> list (option N) -> bool.
Let small (x : N) : Prop := (x < N.of_nat vocab)%N.
Notation scanned := (scan_id_ok per thr logmult sort2 sort3 Hper Hlog Hsorts vocab triples Hok ix Hix).

Lemma small_0 : small 0.
Proof.
  unfold small. destruct triples as [|[[s p] q] l] eqn:E.
  - rewrite Perm_Thm.C25_no_triples in Hix by assumption. discriminate.
  - destruct Hok as (_ & _ & H). specialize (H s p q (or_introl eq_refl)). lia.
Qed.
Lemma found_okt ord ids : okt small (found kb ord ids).
Proof. apply Forall_forall. intros r Hr. apply Forall_forall. intros x Hx. exact (found_small vocab triples Hok ord ids r x Hr Hx). Qed.
Lemma scan_okt ord bound : okt small (scan_table (voc v) (ix_of kb) ord bound).
Proof.
  unfold scan_table. destruct (lookup_all (voc v) bound) as [ids|]; [apply (found_okt ord ids)|constructor].
Qed.
Lemma runs_computes leaf t tab : runs o v ix sat t tab -> computes o (voc v) (ix_of kb) sat leaf t tab /\ okt small tab.
Proof.
  induction 1 as [ord bound vs t D E|t x y a _ [IH Z]|t f a _ [IH Z]|t c a b _ [IH Z] S|t k a b _ [IH Z] S|l r lc rc a b t D1 D2 _ [IH1 Z1] _ [IH2 Z2] L J|
    l r lc rc D1 D2 _ [IH Z]|ord vs r lc rc b scan D _ [IH Z] S|l ord vs lc rc a scan D1 D2 _ [IH Z] S|l r a1 a2 b1 b2 a b t _ [IH1 Z1] _ [IH2 Z2] J|
    l r jcs a b t _ [IH1 Z1] _ [IH2 Z2] J].
  - apply (index_scan_sound per thr logmult sort2 sort3 Hper Hlog Hsorts vocab triples Hok ix Hix v Hvoc) in E. subst t.
    split; [now constructor|apply scan_okt].
  - split; [now constructor|now apply okt_filter].
  - split; [now constructor|now apply okt_filter].
  - split; [econstructor; eauto|]. apply (okt_perm small a); auto. apply S.
  - split; [econstructor; eauto|]. apply (okt_perm small a); auto. apply S.
  - split; [eapply CJoin; eauto|]. eapply join_ok; [exact Z1|exact Z2|exact J].
  - split; [apply CJoinEmpty; auto|constructor].
  - assert (F : forall x, In x b -> scan (col rc x) = full_scan_method (ix_of kb) ord (col rc x)).
    { intros x Hx. specialize (S x Hx). rewrite scanned in S.
      - injection S as <-. symmetry. apply full_found.
      - apply (okr_col small small_0). now apply (okt_in small b). }
    rewrite (full_left_ext scan (full_scan_method (ix_of kb) ord) b rc F). split; [now constructor|].
    apply full_left_ok; auto. intros x Hx. rewrite full_found. apply found_okt.
  - assert (F : forall x, In x a -> scan (col lc x) = full_scan_method (ix_of kb) ord (col lc x)).
    { intros x Hx. specialize (S x Hx). rewrite scanned in S.
      - injection S as <-. symmetry. apply full_found.
      - apply (okr_col small small_0). now apply (okt_in small a). }
    rewrite (full_right_ext scan (full_scan_method (ix_of kb) ord) a lc F). split; [now constructor|].
    apply full_right_ok; auto. intros x Hx. rewrite full_found. apply found_okt.
  - split; [eapply CTwo; eauto|]. eapply two_ok; [exact Z1|exact Z2|exact J].
  - split; [eapply CMulti; eauto|]. eapply multi_ok; [apply small_0|exact Z1|exact Z2|exact J].
Qed.

(* the other way round, if all scans are fine *)
Fixpoint scans_fine (t : tree) : Prop :=
  match t with
  | Scan ord [] _ => True
  | Scan ord bound _ => scan_fine per thr triples v ord bound
  | Leaf _ _ _ _ => False
  | EqFilter t _ _ | FilterT t _ | SortT t _ | OrderByT t _ => scans_fine t
  | JoinT l r _ _ | TwoT l r _ _ _ _ | MultiT l r _ => scans_fine l /\ scans_fine r
  end.
(* full scans have three variables *)
Fixpoint scans_wide (t : tree) : Prop :=
  match t with
  | Scan ord [] vs => length vs = 3
  | Scan ord _ _ | Leaf ord _ _ _ => True
  | EqFilter t _ _ | FilterT t _ | SortT t _ | OrderByT t _ => scans_wide t
  | JoinT l r _ _ | TwoT l r _ _ _ _ | MultiT l r _ => scans_wide l /\ scans_wide r
  end.
Lemma computes_runs leaf t tab : computes o (voc v) (ix_of kb) sat leaf t tab -> scans_fine t -> scans_wide t ->
  runs o v ix sat t tab /\ okt small tab.
Proof.
  induction 1 as [ord bound vs D|id w m s t D|t x y a _ IH|t f a _ IH|t c a b _ IH S|t k a b _ IH S|l r lc rc a b t D1 D2 _ IH1 _ IH2 L J|
    l r lc rc D1 D2 _ IH|ord vs r lc rc b D _ IH|l ord vs lc rc a D1 D2 _ IH|l r a1 a2 b1 b2 a b t _ IH1 _ IH2 J|
    l r jcs a b t _ IH1 _ IH2 J]; cbn [scans_fine scans_wide]; intros F W.
  - split; [|apply scan_okt]. constructor; auto. destruct bound as [|x bound].
    + exfalso. unfold dummy in D. cbn in D. rewrite W in D. discriminate.
    + now apply (index_scan_complete per thr logmult sort2 sort3 Hper Hlog Hsorts vocab triples Hok ix Hix v Hvoc).
  - contradiction.
  - destruct (IH F W). split; [now constructor|now apply okt_filter].
  - destruct (IH F W). split; [now constructor|now apply okt_filter].
  - destruct (IH F W). split; [econstructor; eauto|]. apply (okt_perm small a); auto. apply S.
  - destruct (IH F W). split; [econstructor; eauto|]. apply (okt_perm small a); auto. apply S.
  - destruct (IH1 (proj1 F) (proj1 W)) as [R1 Z1]. destruct (IH2 (proj2 F) (proj2 W)) as [R2 Z2].
    split; [eapply RJoin; eauto|]. eapply join_ok; [exact Z1|exact Z2|exact J].
  - destruct (IH (proj1 F) (proj1 W)) as [R1 Z1]. split; [apply RJoinEmpty; auto|constructor].
  - destruct (IH (proj2 F) (proj2 W)) as [R1 Z1].
    assert (G : forall x, In x b -> scan_id ix ord (col rc x) = Ok (full_scan_method (ix_of kb) ord (col rc x))).
    { intros x Hx. rewrite full_found. apply scanned. apply (okr_col small small_0). now apply (okt_in small b). }
    split; [apply RFullLeft; auto|]. apply full_left_ok; auto. intros x Hx. rewrite full_found. apply found_okt.
  - destruct (IH (proj1 F) (proj1 W)) as [R1 Z1].
    assert (G : forall x, In x a -> scan_id ix ord (col lc x) = Ok (full_scan_method (ix_of kb) ord (col lc x))).
    { intros x Hx. rewrite full_found. apply scanned. apply (okr_col small small_0). now apply (okt_in small a). }
    split; [apply RFullRight; auto|]. apply full_right_ok; auto. intros x Hx. rewrite full_found. apply found_okt.
  - destruct (IH1 (proj1 F) (proj1 W)) as [R1 Z1]. destruct (IH2 (proj2 F) (proj2 W)) as [R2 Z2].
    split; [eapply RTwo; eauto|]. eapply two_ok; [exact Z1|exact Z2|exact J].
  - destruct (IH1 (proj1 F) (proj1 W)) as [R1 Z1]. destruct (IH2 (proj2 F) (proj2 W)) as [R2 Z2].
    split; [eapply RMulti; eauto|]. eapply multi_ok; [apply small_0|exact Z1|exact Z2|exact J].
Qed.
End Runs.
