(* Proofs about the responses to queries: the cells of the result of a plan. *)
From Coq Require Import Ascii String List NArith ZArith Arith Bool Lia ZifyBool ZifyN ZifyNat Permutation.
From Verif Require Conv_Model Output_Model Output_Spec Vocab_Model Vocab_Thm Perm_Thm Plan_Spec Plan_Proof3 Plan_Proof5 Plan_Proof7 Whole_Proof2 Whole_Proof3 Whole_Proof4 Whole_Proof5 Whole_Thm Merge_Thm Vocab_Spec Collate_Model Perm_Model.
From Verif Require Import Table_Spec Ops_Model Vars_Model Vars_Thm Plan_Model Plan_Proof2 Plan_Proof3 Plan_Thm Whole_Model.
From Verif Require Strings_Model.
From Verif Require Import SLex_Spec Serve_Spec Serve_Model Serve_Proof.
Import ListNotations.
Local Open Scope nat_scope.

(* ---- lists ---- *)
Lemma window_slice {A} (most off : N) (rows : list A) :
  Output_Spec.window (Some most) off rows (firstn (N.to_nat most) (skipn (N.to_nat off) rows)).
Proof.
  intros k. destruct (N.ltb_spec (N.of_nat k) most) as [H|H].
  - assert (E : forall n (l : list A) i, i < n -> nth_error (firstn n l) i = nth_error l i).
    { induction n as [|n IH]; intros [|a l] [|i] L; try lia; cbn; auto. apply IH. lia. }
    rewrite E by lia. clear. generalize (N.to_nat off). intros n. revert rows. induction n as [|n IH]; intros [|a l]; cbn; auto.
    + now destruct k.
  - apply nth_error_None. rewrite firstn_length. lia.
Qed.
Lemma forall2_firstn {A B} (R : A -> B -> Prop) l l' : Forall2 R l l' -> forall n, Forall2 R (firstn n l) (firstn n l').
Proof. induction 1; intros [|n]; cbn; constructor; auto. Qed.
Lemma forall2_skipn {A B} (R : A -> B -> Prop) l l' : Forall2 R l l' -> forall n, Forall2 R (skipn n l) (skipn n l').
Proof. induction 1; intros [|n]; cbn; try constructor; auto. Qed.
Lemma forall2_maps {A B C} (f : A -> C) (g : B -> C) l : forall l', map f l = map g l' -> Forall2 (fun a b => f a = g b) l l'.
Proof. induction l as [|a l IH]; intros [|b l'] E; try discriminate; constructor; cbn [map] in E; [congruence|]. apply IH. congruence. Qed.
Lemma forall2_split {A B C} (R : A -> B -> Prop) (P : A -> C -> Prop) (Q : B -> C -> Prop) l l' :
  Forall2 R l l' -> (forall a b, In a l -> In b l' -> R a b -> exists c, P a c /\ Q b c) -> exists out, Forall2 P l out /\ Forall2 Q l' out.
Proof.
  induction 1 as [|a b l l' H F IH]; intros X; [exists []; split; constructor|].
  destruct (X a b) as (c & P1 & Q1); try now left. auto.
  destruct IH as (out & P2 & Q2); [intros; apply X; auto; now right|]. exists (c :: out). split; constructor; auto.
Qed.

(* ---- strings ---- *)
Lemma bytes_inj s : forall s', Conv_Model.bytes s = Conv_Model.bytes s' -> s = s'.
Proof.
  induction s as [|c s IH]; intros [|c' s'] E; try discriminate; auto. cbn in E. injection E as E1 E2.
  f_equal; auto. rewrite <- (ascii_N_embedding c), <- (ascii_N_embedding c'). now f_equal.
Qed.
Lemma column_found (m : var_map) v c : var_find m v = Some c -> exists a b, m = a ++ (v, c) :: b /\ ~ In v (map fst a).
Proof.
  induction m as [|[x d] m IH]; [discriminate|]. rewrite find_cons. destruct (String.eqb_spec x v) as [->|H].
  - intros E. injection E as ->. exists [], m. split; [reflexivity|intros []].
  - intros E. destruct (IH E) as (a & b & -> & NI). exists ((x, d) :: a), b. split; [reflexivity|]. cbn. intuition.
Qed.
Lemma value_nth U : forall mu u w, value U mu u = Some w -> In u U /\ In w mu.
Proof.
  induction U as [|x U IH]; intros [|y mu] u w E; try discriminate. cbn [value] in E. destruct (list_eq_dec N.eq_dec x u) as [->|_].
  - injection E as ->. split; now left.
  - apply IH in E as [? ?]. split; now right.
Qed.

(* ---- cells ---- *)
Lemma cell_shown v m w tab row u c x l : var_find m (str u) = Some c -> c < w -> length row = w -> Forall byte u -> (exists r, u = 63%N :: r) ->
  Whole_Thm.shows v (col c row) = Vocab_Model.Word x -> displays x l ->
  Output_Spec.cell (world_of v) (result_of m w tab) row u (Some l).
Proof.
  intros E L W B (r & Hr) S D. destruct (column_found m _ _ E) as (a & b & -> & NI).
  apply (Output_Spec.ce_column _ _ _ u u (map (fun p => (Conv_Model.bytes (fst p), N.of_nat (snd p))) a)
    (map (fun p => (Conv_Model.bytes (fst p), N.of_nat (snd p))) b) (N.of_nat c) Output_Model.KB (col c row)).
  - apply Output_Spec.se_plain. intros t X. rewrite Hr in X. discriminate.
  - cbn [result_of Output_Model.columns]. rewrite map_app. cbn [map fst snd]. now rewrite bytes_str.
  - rewrite map_map. cbn [fst]. intros I. apply in_map_iff in I as ([s k] & X & I). cbn [fst] in X. apply NI.
    apply in_map_iff. exists (s, k). split; auto. cbn [fst]. apply bytes_inj. now rewrite bytes_str.
  - cbn [result_of Output_Model.types]. rewrite Nat2N.id.
    assert (G : forall n i, i < n -> nth_error (repeat Output_Model.KB n) i = Some Output_Model.KB) by (induction n as [|n IH]; intros [|i] H; cbn; auto; try lia; apply IH; lia).
    now apply G.
  - rewrite Nat2N.id. unfold col. apply nth_error_nth'. lia.
  - assert (WO : Output_Model.word_of (world_of v) (col c row) = Some x).
    { cbn [world_of Output_Model.word_of]. unfold Whole_Thm.shows in S. rewrite S. reflexivity. }
    destruct D as [[D1 ->]|[[t Dt] D2]].
    + now apply Output_Spec.sh_word.
    + subst x. now apply (Output_Spec.sh_value _ _ t).
Qed.

(* ---- the result of a plan ---- *)
Section Shape.
Variable o : oracle.
Variable vocab : string -> option N.
Variable ix : index.
Variable sat : filt -> list (option N) -> bool.
Variable leaf : nat -> table -> Prop.
Variable kb : Plan_Spec.graph.
Variable U : list string.
Variable ts : list triple.
Variable fs : list filt.
Hypothesis Ix : index_of ix kb.
Hypothesis Or : oracle_ok o U.
Hypothesis Qu : query_ok U ts fs.
Lemma plan_shape t tab : planned o ts fs [] t -> tree_ok o t = true -> computes o vocab ix sat leaf t tab ->
  full (vars o t) (width_of t) /\ width (width_of t) tab /\ sorted_lex (sorted_of t) tab.
Proof using Ix Or Qu.
  intros E Ok D. pose proof (query_vars U ts fs Qu) as HV. destruct Ix as [Nk Hi]. destruct Or as (O1 & O2 & O3 & O4).
  destruct Qu as (Q1 & Q2 & Q3 & Q4).
  assert (Hall : forall v, In v U -> is_var v = true) by (intros v Hv; now apply Q2 in Hv).
  destruct (Plan_Proof7.plan_bag o vocab ix sat leaf kb U ts [] fs Q1 Hall Nk Hi O1 O2 O3 O4) with (t := t) (tab := tab) as (A & B & C & _); auto;
    try (now intros; cbn in *; contradiction).
  - intros t' v Ht Hv. apply HV. eauto.
  - intros [|i] j c d v H; discriminate.
  - intros f v Hf Hv. left. apply HV. eauto.
Qed.
End Shape.
