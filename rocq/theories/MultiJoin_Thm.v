(* C09, C10, C11, C41 and C43 (joins over several columns). *)
From Coq Require Import List NArith Arith Lia Sorted Permutation Bool.
From Verif Require Import Table_Spec Lex_Proof MultiJoin_Model MultiJoin_Proof MultiJoin_Proof2.
Import ListNotations.
Open Scope N_scope.

(* C09. `A OPTIONAL B` for sorted inputs of at most 32 columns: exactly the left outer join,
   in the order of the left rows, without undefined behaviour. *)
Theorem C09_optional_join : forall (wa wb : nat) (jcs : list (nat * nat)) (a b : table),
  (wa <= 32)%nat -> (wb <= 32)%nat -> join_columns_ok wa wb jcs -> width wa a -> width wb b ->
  sorted_lex (map fst jcs) a -> sorted_lex (map snd jcs) b ->
  optional_join wa wb a b false true jcs = Some (left_outer_join a b jcs (wb - length jcs)).
Proof.
  intros wa wb jcs a b H1 H2 H3 H4 H5 H6 H7. pose proof H3 as (Hne & Hn1 & Hn2 & _).
  exact (left_outer_join_spec wa wb jcs H1 H2 (join_columns_fst _ _ _ H3) (join_columns_snd _ _ _ H3)
    Hn1 Hn2 Hne a b (width_widths _ _ H4) (width_widths _ _ H5) H6 H7).
Qed.

(* The rows of the left outer join are what the English statement says. *)
Theorem C09_left_outer_join_rows : forall (jcs : list (nat * nat)) (n : nat) (a b : table) (r : row),
  In r (left_outer_join a b jcs n) <->
  (exists ra rb, In ra a /\ In rb b /\ cols (map fst jcs) ra = cols (map snd jcs) rb /\
                 r = ra ++ drop_cols (map snd jcs) rb) \/
  (exists ra, In ra a /\ (forall rb, In rb b -> cols (map fst jcs) ra <> cols (map snd jcs) rb) /\
              r = ra ++ repeat UNBOUND n).
Proof.
  intros jcs n a b r. unfold left_outer_join. rewrite in_flat_map. split.
  - intros (ra & Hra & H).
    assert (HF : forall rb, In rb (filter (agree jcs ra) b) <->
                 In rb b /\ cols (map fst jcs) ra = cols (map snd jcs) rb).
    { intros rb. now rewrite filter_In, agree_iff. }
    destruct (filter (agree jcs ra) b) as [|x l].
    + right. exists ra. destruct H as [<-|[]]. split; auto. split; auto.
      intros rb Hrb E. exact (proj2 (HF rb) (conj Hrb E)).
    + left. apply in_map_iff in H. destruct H as (rb & <- & Hrb). apply HF in Hrb.
      exists ra, rb. tauto.
  - intros [(ra & rb & Hra & Hrb & E & ->)|(ra & Hra & Hno & ->)]; exists ra; split; auto.
    + assert (HF : In rb (filter (agree jcs ra) b)) by now rewrite filter_In, agree_iff.
      destruct (filter (agree jcs ra) b) as [|x l]; [destruct HF|].
      apply in_map_iff. eauto.
    + rewrite filter_none_iff; [now left|]. intros rb Hrb. now apply agree_false, Hno.
Qed.

(* All four combinations of optional sides (the constructor of the operation may swap the
   sides, so that the left side can be the optional one). *)
Theorem C09_outer_join : forall (wa wb : nat) (jcs : list (nat * nat)) (aOpt bOpt : bool) (a b : table),
  (wa <= 32)%nat -> (wb <= 32)%nat -> join_columns_ok wa wb jcs -> width wa a -> width wb b ->
  sorted_lex (map fst jcs) a -> sorted_lex (map snd jcs) b ->
  exists t, optional_join wa wb a b aOpt bOpt jcs = Some t /\
    Permutation t
      ((if bOpt then left_outer_join a b jcs (wb - length jcs) else multi_join a b jcs)
       ++ (if aOpt then map (right_only_row wa jcs) (unmatched_right a b jcs) else [])).
Proof.
  intros wa wb jcs aOpt bOpt a b H1 H2 H3 H4 H5 H6 H7. pose proof H3 as (Hne & Hn1 & Hn2 & _).
  exact (outer_join_spec wa wb jcs H1 H2 (join_columns_fst _ _ _ H3) (join_columns_snd _ _ _ H3)
    Hn1 Hn2 Hne aOpt bOpt a b (width_widths _ _ H4) (width_widths _ _ H5) H6 H7).
Qed.

(* A row added for an unmatched right row has its join values and otherwise unbound values. *)
Theorem C09_right_only_row : forall (wa wb : nat) (jcs : list (nat * nat)) (rb : row),
  join_columns_ok wa wb jcs -> length rb = wb ->
  cols (map fst jcs) (right_only_row wa jcs rb) = cols (map snd jcs) rb.
Proof.
  intros wa wb jcs rb H Hl. pose proof H as (_ & Hn & _).
  exact (cols_right_only wa wb jcs rb Hn (join_columns_fst _ _ _ H) Hl).
Qed.

(* C43 for the optional join: resultSortedOn() reports the left join columns. *)
Theorem C43_optional_join_sorted : forall (wa wb : nat) (jcs : list (nat * nat)) (aOpt bOpt : bool) (a b t : table),
  (wa <= 32)%nat -> (wb <= 32)%nat -> join_columns_ok wa wb jcs -> width wa a -> width wb b ->
  sorted_lex (map fst jcs) a -> sorted_lex (map snd jcs) b ->
  optional_join wa wb a b aOpt bOpt jcs = Some t -> sorted_lex (map fst jcs) t.
Proof.
  intros wa wb jcs aOpt bOpt a b t H1 H2 H3 H4 H5 H6 H7. pose proof H3 as (Hne & Hn1 & Hn2 & _).
  exact (optional_join_sorted wa wb jcs aOpt bOpt a b t H1 H2 (join_columns_fst _ _ _ H3)
    (join_columns_snd _ _ _ H3) Hn1 Hn2 Hne (width_widths _ _ H4) (width_widths _ _ H5) H6 H7).
Qed.

(* More than 32 columns: shifting an int by the column index is undefined. *)
Theorem C09_wide_tables_refuted : exists (wa wb : nat) (jcs : list (nat * nat)) (a b : table),
  join_columns_ok wa wb jcs /\ width wa a /\ width wb b /\
  sorted_lex (map fst jcs) a /\ sorted_lex (map snd jcs) b /\
  optional_join wa wb a b false true jcs = None.
Proof.
  exists 1%nat, 33%nat, [(0%nat, 0%nat)], [[7]], [repeat 7 33].
  repeat split; try (repeat constructor; simpl; intuition lia); try discriminate.
Qed.

(* C10. *)
Theorem C10_multi_column_join : forall (wa wb : nat) (jcs : list (nat * nat)) (a b : table),
  (wb <= 32)%nat -> join_columns_ok wa wb jcs -> width wb b ->
  sorted_lex (map fst jcs) a -> sorted_lex (map snd jcs) b ->
  multi_column_join wb a b jcs = Some (multi_join a b jcs).
Proof.
  intros wa wb jcs a b H1 H2 H3 H4 H5. pose proof H2 as (Hne & _).
  exact (multi_column_join_spec wb jcs a b H1 (join_columns_snd _ _ _ H2) Hne (width_widths _ _ H3) H4 H5).
Qed.

Theorem C10_multi_join_rows : forall (jcs : list (nat * nat)) (a b : table) (r : row),
  In r (multi_join a b jcs) <->
  exists ra rb, In ra a /\ In rb b /\ cols (map fst jcs) ra = cols (map snd jcs) rb /\
                r = ra ++ drop_cols (map snd jcs) rb.
Proof.
  intros jcs a b r. unfold multi_join. rewrite in_flat_map. split.
  - intros (ra & Hra & H). apply in_map_iff in H. destruct H as (rb & <- & Hrb).
    rewrite filter_In, agree_iff in Hrb. exists ra, rb. tauto.
  - intros (ra & rb & Hra & Hrb & E & ->). exists ra. split; auto. apply in_map_iff.
    exists rb. split; auto. now rewrite filter_In, agree_iff.
Qed.

(* C43 for the multi-column join. *)
Theorem C43_multi_column_join_sorted : forall (wa wb : nat) (jcs : list (nat * nat)) (a b : table),
  join_columns_ok wa wb jcs -> width wa a -> sorted_lex (map fst jcs) a ->
  sorted_lex (map fst jcs) (multi_join a b jcs).
Proof.
  intros wa wb jcs a b H1 H2 H3.
  exact (multi_join_sorted wa jcs a b (join_columns_fst _ _ _ H1) (width_widths _ _ H2) H3).
Qed.

(* C11. MINUS; table_minus is a filter, hence order and multiplicity are kept. *)
Theorem C11_minus : forall (jcs : list (nat * nat)) (a b : table),
  jcs <> [] -> sorted_lex (map fst jcs) a -> sorted_lex (map snd jcs) b ->
  compute_minus a b jcs =
    Some (filter (fun ra => negb (existsb (fun rb => agree jcs ra rb) b)) a).
Proof. intros jcs a b Hne Ha Hb. exact (compute_minus_spec a b jcs Hne Ha Hb). Qed.

Theorem C11_minus_no_common_columns : forall a b : table, compute_minus a b [] = Some a.
Proof. intros [|ra a] [|rb b]; reflexivity. Qed.

Theorem C11_agree : forall (jcs : list (nat * nat)) (ra rb : row),
  agree jcs ra rb = true <-> forall p, In p jcs -> col (fst p) ra = col (snd p) rb.
Proof.
  intros jcs ra rb. unfold agree. rewrite forallb_forall.
  split; intros H p Hp; apply N.eqb_eq; auto.
Qed.

(* C43 for MINUS: the result is sorted by whatever the left input is sorted by. *)
Theorem C43_minus_sorted : forall (jcs : list (nat * nat)) (cs : list nat) (a b : table),
  sorted_lex cs a -> sorted_lex cs (table_minus a b jcs).
Proof.
  intros jcs cs a b H. exact (ksorted_sorted_lex _ _ (ksorted_filter _ _ _ (sorted_lex_ksorted _ _ H))).
Qed.

(* C41. Two-column join: the relation `rel` of width two is the right or the left side. *)
Theorem C41_two_column_join_right : forall (wl : nat) (l rel : table) (c1 c2 : nat),
  sorted_lex [c1; c2] l -> sorted_lex [0%nat; 1%nat] rel ->
  two_column_join wl 2 l rel c1 c2 0 1 =
    TcjTable (Some (filter (fun r => existsb (fun f => (col c1 r =? col 0 f) && (col c2 r =? col 1 f)) rel) l)).
Proof.
  intros wl l rel c1 c2 Hl Hr. unfold two_column_join. rewrite orb_true_r. simpl.
  rewrite engine_filter_spec by assumption. do 2 f_equal. apply filter_ext. intros r.
  induction rel as [|f rel IH]; simpl; auto. rewrite IH.
  - unfold agree. simpl. now rewrite andb_true_r.
  - now inversion Hr.
Qed.

Theorem C41_two_column_join_left : forall (wr : nat) (rel r : table) (c1 c2 : nat),
  (Nat.eqb wr 2 && Nat.eqb c1 0 && Nat.eqb c2 1 = false) ->
  sorted_lex [c1; c2] r -> sorted_lex [0%nat; 1%nat] rel ->
  two_column_join 2 wr rel r 0 1 c1 c2 =
    TcjTable (Some (filter (fun x => existsb (fun f => (col c1 x =? col 0 f) && (col c2 x =? col 1 f)) rel) r)).
Proof.
  intros wr rel r c1 c2 Hno Hl Hr. unfold two_column_join. rewrite Hno. simpl.
  rewrite engine_filter_spec by assumption. do 2 f_equal. apply filter_ext. intros x.
  induction rel as [|f rel IH]; simpl; auto. rewrite IH.
  - unfold agree. simpl. now rewrite andb_true_r.
  - now inversion Hr.
Qed.

(* If the relation has no duplicates, this is the join on both columns. *)
Theorem C41_filter_is_join : forall (l rel : table) (c1 c2 : nat),
  sorted_lex [c1; c2] l -> sorted_lex [0%nat; 1%nat] rel -> width 2 rel -> NoDup rel ->
  engine_filter l c1 c2 rel = Some (multi_join l rel [(c1, 0%nat); (c2, 1%nat)]).
Proof.
  intros l rel c1 c2 Hl Hr Hw Hnd. rewrite two_col_semi_is_join by assumption.
  exact (engine_filter_spec l c1 c2 rel Hl Hr).
Qed.

(* Without the sortedness on the second column rows are lost. The planner
   (QueryPlanner.cpp:2829-2831, 2844-2846) accepts inputs for which only the first sort column is known. *)
Theorem C41_first_column_only_refuted : exists l rel : table,
  sorted_lex [0%nat; 1%nat] l /\ sorted_lex [0%nat] rel /\ NoDup rel /\ width 2 rel /\
  engine_filter l 0 1 rel <> Some (multi_join l rel [(0%nat, 0%nat); (1%nat, 1%nat)]).
Proof.
  exists [[1; 5]; [1; 7]], [[1; 7]; [1; 5]].
  split; [|split; [|split; [|split]]]; try solve [vm_compute; discriminate];
    repeat constructor; simpl; intuition discriminate.
Qed.

(* With duplicates in the relation the multiplicity of the join is lost. *)
Theorem C41_duplicates_refuted : exists l rel : table,
  sorted_lex [0%nat; 1%nat] l /\ sorted_lex [0%nat; 1%nat] rel /\ width 2 rel /\
  engine_filter l 0 1 rel <> Some (multi_join l rel [(0%nat, 0%nat); (1%nat, 1%nat)]).
Proof.
  exists [[1; 5]], [[1; 5]; [1; 5]].
  split; [|split; [|split]]; try solve [vm_compute; discriminate];
    repeat constructor; simpl; intuition discriminate.
Qed.

(* ---- the hypotheses are satisfiable, the results non-trivial ---- *)
Definition exA : table := [[1; 10; 2]; [1; 11; 3]; [2; 12; 2]; [4; 13; 9]].
Definition exB : table := [[2; 1; 20]; [2; 1; 21]; [2; 2; 22]; [5; 3; 23]].
Definition exJcs : list (nat * nat) := [(0, 1); (2, 0)]%nat.

Example exB_sorted_note : sorted_lex [1; 0]%nat exB.
Proof. repeat constructor; unfold lex_le; simpl; discriminate. Qed.

Example optional_example :
  join_columns_ok 3 3 exJcs /\ width 3 exA /\ width 3 exB /\
  sorted_lex (map fst exJcs) exA /\ sorted_lex (map snd exJcs) exB /\
  optional_join 3 3 exA exB false true exJcs =
    Some [[1; 10; 2; 20]; [1; 10; 2; 21]; [1; 11; 3; UNBOUND]; [2; 12; 2; 22]; [4; 13; 9; UNBOUND]] /\
  optional_join 3 3 exA exB true false exJcs =
    Some [[1; 10; 2; 20]; [1; 10; 2; 21]; [2; 12; 2; 22]; [3; UNBOUND; 5; 23]] /\
  multi_column_join 3 exA exB exJcs = Some [[1; 10; 2; 20]; [1; 10; 2; 21]; [2; 12; 2; 22]] /\
  compute_minus exA exB exJcs = Some [[1; 11; 3]; [4; 13; 9]].
Proof.
  split; [|split; [|split; [|split; [|split]]]].
  - split; [discriminate|]. split; [|split].
    + repeat constructor; simpl; intuition discriminate.
    + repeat constructor; simpl; intuition discriminate.
    + repeat constructor.
  - repeat constructor.
  - repeat constructor.
  - repeat constructor; unfold lex_le; simpl; discriminate.
  - repeat constructor; unfold lex_le; simpl; discriminate.
  - vm_compute. repeat split; reflexivity.
Qed.

Example filter_example :
  sorted_lex [1; 2]%nat [[7; 1; 5]; [8; 1; 5]; [9; 1; 6]; [7; 2; 5]] /\
  sorted_lex [0; 1]%nat [[1; 4]; [1; 5]; [2; 5]] /\ NoDup [[1; 4]; [1; 5]; [2; 5]] /\
  engine_filter [[7; 1; 5]; [8; 1; 5]; [9; 1; 6]; [7; 2; 5]] 1 2 [[1; 4]; [1; 5]; [2; 5]] =
    Some [[7; 1; 5]; [8; 1; 5]; [7; 2; 5]].
Proof.
  split; [|split; [|split]].
  - repeat constructor; unfold lex_le; simpl; discriminate.
  - repeat constructor; unfold lex_le; simpl; discriminate.
  - repeat constructor; simpl; intuition discriminate.
  - reflexivity.
Qed.

Print Assumptions C09_optional_join.
Print Assumptions C09_left_outer_join_rows.
Print Assumptions C09_outer_join.
Print Assumptions C09_right_only_row.
Print Assumptions C43_optional_join_sorted.
Print Assumptions C09_wide_tables_refuted.
Print Assumptions C10_multi_column_join.
Print Assumptions C10_multi_join_rows.
Print Assumptions C43_multi_column_join_sorted.
Print Assumptions C11_minus.
Print Assumptions C11_minus_no_common_columns.
Print Assumptions C11_agree.
Print Assumptions C43_minus_sorted.
Print Assumptions C41_two_column_join_right.
Print Assumptions C41_two_column_join_left.
Print Assumptions C41_filter_is_join.
Print Assumptions C41_first_column_only_refuted.
Print Assumptions C41_duplicates_refuted.
