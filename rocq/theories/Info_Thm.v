(* Property C81: the runtime information. *)
From Coq Require Import ZArith String Bool List Lia Permutation Arith.
From Verif Require Import Table_Spec Ops_Model Vars_Model Plan_Model Plan_Proof2 Vars_Thm Info_Spec Info_Model Info_Proof.
Import ListNotations.
Local Open Scope Z_scope.

(* If every column of the result has one variable, the names are those of the columns. *)
Theorem C81_names m w : full m w -> exists names, setColumnNames m = Some names /\ names_columns (var_find m) w names.
Proof. apply names_full. Qed.

(* The operations give every column one variable if their inputs do (and the variables of a table of values, or the ends of
   a path, are different). *)
Theorem C81_operations ma mb wa wb : full ma wa -> full mb wb ->
  (forall lc rc, Permutation [(lc, rc)] (join_columns ma mb) -> full (join_vars ma mb wa rc) (wa + wb - 1)) /\
  (forall lc, Permutation [(lc, 0%nat)] (join_columns ma mb) -> full (join_vars_scan_right ma mb wa) (wa + wb - 1)) /\
  (forall rc, wa = 3%nat -> Permutation [(0%nat, rc)] (join_columns ma mb) -> full (join_vars_scan_left ma mb) (wa + wb - 1)) /\
  (forall j1 j2, Permutation [j1; j2] (join_columns ma mb) -> full (two_column_else ma mb wa (snd j1) (snd j2)) (wa + wb - 2)) /\
  (forall mb', Permutation mb' mb ->
     full (multi_column_vars ma mb' (join_columns ma mb)) (wa + wb - length (join_columns ma mb))) /\
  full (optional_vars ma mb wa (join_columns ma mb)) (wa + wb - length (join_columns ma mb)) /\
  full (union_vars ma mb) (length (union_vars ma mb)) /\
  (forall v, var_find ma v = None -> full (bind_vars ma v wa) (wa + 1)) /\
  (forall vs, NoDup vs -> full (values_vars [] 0 vs) (length vs)) /\
  (forall a b, a <> b -> full (path_vars a b) 2) /\
  (forall (left : bool) here there sc, var_find ma here = Some sc -> var_find ma there = None -> here <> there ->
     full (path_bind_vars (if left then path_vars here there else path_vars there here) ma sc) (wa + 1)).
Proof.
  intros Fa Fb. split; [intros lc rc; now apply join_full|]. split; [intros lc; now apply scan_right_full|].
  split; [intros rc W J; now apply (scan_left_full ma mb wa wb rc)|]. split; [intros j1 j2; now apply two_else_full|].
  split; [intros mb' P; apply (multi_full ma mb mb' wa wb); auto; apply Permutation_refl|].
  split; [now apply optional_full|].
  split; [unfold union_vars; apply union_full_gen; now rewrite (full_length _ _ Fa)|].
  split; [intros v; now apply add_full|]. split; [intros vs N; apply (values_full_gen vs [] 0); auto using empty_full|].
  split; [apply path_full|]. intros. now apply path_bound_full.
Qed.

(* The information after a computation by an operation without children in its information (the first one), or after the
   result was taken from the cache, whatever was stored before: names, width, size and description, the time, the children that were used for the computation. *)
Theorem C81_call o stored e i v : full (st_vars o) (st_width o) -> call o stored e = Some (i, v) ->
  match e with Computed _ _ _ _ => i_children stored = [] | Taken _ _ _ _ => True end ->
  names_columns (var_find (st_vars o)) (st_width o) (i_names i) /\ i_cols i = st_width o /\ i_descriptor i = st_descriptor o /\
  match e with
  | Computed added _ rows time =>
      i_rows i = rows /\ i_time i = time /\ i_cached i = false /\ i_children i = added /\ i_children v = added /\
      getOperationTime i = time - sum (map i_time added)
  | Taken w rows b time =>
      v = w /\ i_rows i = rows /\ i_time i = time /\ i_cached i = b /\ i_children i = i_children w /\ (b = true -> getOperationTime i = time)
  end.
Proof.
  intros F E N. destruct (names_full _ _ F) as (names & EN & NC).
  destruct e as [added details rows time|w rows b time]; cbn [call] in E.
  - destruct (createRuntimeInformation o _ rows false time) as [j|] eqn:C; [|discriminate]. cbn [option_map] in E. apply some_pair in E as [<- <-].
    apply create_ok in C as (A1 & A2 & A3 & A4 & A5 & A6 & A7 & _). rewrite A1 in EN. injection EN as <-.
    rewrite add_details_children, add_children_children in A7. rewrite N in A7; cbn [app] in A7.
    split; [exact NC|]. split; [exact A4|]. split; [exact A6|]. split; [exact A3|]. split; [exact A2|]. split; [exact A5|]. split; [exact A7|].
    split; [rewrite add_details_children, add_children_children, N; reflexivity|]. unfold getOperationTime, getChildrenTime. now rewrite A5, A2, A7.
  - destruct (createRuntimeInformation o _ rows b time) as [j|] eqn:C; [|discriminate]. cbn [option_map] in E. apply some_pair in E as [<- <-].
    apply create_ok in C as (A1 & A2 & A3 & A4 & A5 & A6 & A7 & _). rewrite A1 in EN. injection EN as <-.
    split; [exact NC|]. split; [exact A4|]. split; [exact A6|]. split; [reflexivity|]. split; [exact A3|]. split; [exact A2|]. split; [exact A5|]. split; [exact A7|].
    intros ->. unfold getOperationTime. now rewrite A5, A2.
Qed.

(* The operation times of all computations that were done for a result add up to its total time. *)
Theorem C81_times i : all_own (shown_times i) = i_time i.
Proof. apply all_own_total. Qed.

(* The operation time of a computation is not negative: its time in microseconds, d, contains those of its children; all
   times are rounded down to milliseconds. *)
Theorem C81_nonnegative o details added ds d rows i v :
  call o empty_info (Computed added details rows (d / 1000)) = Some (i, v) -> (forall x, In x ds -> 0 <= x) -> sum ds <= d ->
  map i_time added = map (fun x => x / 1000) ds -> 0 <= getOperationTime i.
Proof.
  intros E P S M. cbn [call] in E. destruct (createRuntimeInformation o _ rows false (d / 1000)) as [j|] eqn:C; [|discriminate].
  cbn [option_map] in E. apply some_pair in E as [<- <-]. apply create_ok in C as (A1 & A2 & A3 & A4 & A5 & A6 & A7 & _).
  rewrite add_details_children, add_children_children in A7. cbn [empty_info i_children app] in A7.
  unfold getOperationTime, getChildrenTime. rewrite A5, A2, A7, M. pose proof (sum_div ds P). pose proof (Z.div_le_mono (sum ds) d 1000). lia.
Qed.

(* A call without a variable for every column in the vector writes outside of it. *)
Theorem C81_names_bad m v c : In (v, c) m -> (length m <= c)%nat -> setColumnNames m = None.
Proof. intros H L. apply (write_names_bad m _ v c); auto. now rewrite repeat_length. Qed.

(* The names of the columns of VALUES (?x ?x) { … }, and of the path ?x p+ ?x, are written outside of the vector: there is
   one variable, and it is in column 1. *)
Theorem C81_names_refuted :
  (exists vs, setColumnNames (values_vars [] 0 vs) = None) /\ (exists a b, setColumnNames (path_vars a b) = None).
Proof. split; [exists ["?x"; "?x"]%string|exists "?x"%string, "?x"%string]; reflexivity. Qed.

Definition ex_static := Static [("?x", 0%nat); ("?y", 1%nat)]%string 2 "Join on ?x".
Definition ex_child (t : Z) := Info t 5 1 false "IndexScan" ["?x"]%string [("original_total_time", 0)]%string [].

(* The detail original_total_time, the time of the first computation of a cached result, is 0 whatever that time was, and
   original_operation_time is the negated time of the children: the cache gets the information before the time is
   measured. *)
Theorem C81_original_time_refuted :
  (forall o added details rows time rows' time' i v i' v',
     call o empty_info (Computed added details rows time) = Some (i, v) ->
     call o empty_info (Taken v rows' true time') = Some (i', v') ->
     detail i' "original_total_time" = Some 0 /\ detail i' "original_operation_time" = Some (- sum (map i_time added))) /\
  exists o added rows time i v i' v',
     call o empty_info (Computed added [] rows time) = Some (i, v) /\ call o empty_info (Taken v rows true 0) = Some (i', v') /\
     time = 100 /\ sum (map i_time added) = 70.
Proof.
  split.
  - intros o added details rows time rows' time' i v i' v' E E'. cbn [call] in *.
    destruct (createRuntimeInformation o _ rows false time) as [j|] eqn:C; [|discriminate]. cbn [option_map] in E. apply some_pair in E as [<- <-].
    destruct (createRuntimeInformation o _ rows' true time') as [k|] eqn:C'; [|discriminate]. cbn [option_map] in E'. apply some_pair in E' as [<- <-].
    apply create_ok in C' as (_ & _ & _ & _ & _ & _ & _ & D1 & D2 & _). rewrite D1, D2.
    assert (T : forall l i, i_time (add_details i l) = i_time i /\ i_cached (add_details i l) = i_cached i).
    { unfold add_details. induction l as [|p l IH]; intros i; cbn [fold_left]; auto. destruct (IH (addDetail i (fst p) (snd p))) as [-> ->].
      now destruct i. }
    unfold getOperationTime, getChildrenTime. rewrite (proj1 (T _ _)), (proj2 (T _ _)), add_details_children, add_children_children. auto.
  - exists ex_static, [ex_child 30; ex_child 40], 3%nat, 100. do 4 eexists. split; [reflexivity|]. split; [reflexivity|]. split; reflexivity.
Qed.

(* The details that an operation notes during its computation (empty sides of a join, the statistics of the pattern
   trick) are never shown. *)
Theorem C81_details_refuted : forall o stored e i v k, call o stored e = Some (i, v) ->
  k <> "original_total_time"%string -> k <> "original_operation_time"%string -> detail i k = None.
Proof.
  intros o stored e i v k E H1 H2. destruct e as [added details rows time|w rows b time]; cbn [call] in E.
  - destruct (createRuntimeInformation o _ rows false time) as [j|] eqn:C; [|discriminate]. cbn [option_map] in E. apply some_pair in E as [<- <-].
    apply create_ok in C as (_ & _ & _ & _ & _ & _ & _ & _ & _ & D). auto.
  - destruct (createRuntimeInformation o _ rows b time) as [j|] eqn:C; [|discriminate]. cbn [option_map] in E. apply some_pair in E as [<- <-].
    apply create_ok in C as (_ & _ & _ & _ & _ & _ & _ & _ & _ & D). auto.
Qed.

(* If a result is not kept in the cache and the same operation computes it again, all children are listed twice, and
   the operation time becomes negative. *)
Theorem C81_again_refuted :
  (forall o added details rows time details' added' rows' time' i v i' v',
     call o empty_info (Computed added details rows time) = Some (i, v) ->
     call o i (Computed added' details' rows' time') = Some (i', v') -> i_children i' = added ++ added') /\
  exists o e i v i' v', call o empty_info e = Some (i, v) /\ call o i e = Some (i', v') /\ getOperationTime i = 30 /\ getOperationTime i' = -40.
Proof.
  split.
  - intros o added details rows time details' added' rows' time' i v i' v' E E'. cbn [call] in *.
    destruct (createRuntimeInformation o _ rows false time) as [j|] eqn:C; [|discriminate]. cbn [option_map] in E. apply some_pair in E as [<- <-].
    destruct (createRuntimeInformation o _ rows' false time') as [k|] eqn:C'; [|discriminate]. cbn [option_map] in E'. apply some_pair in E' as [<- <-].
    apply create_ok in C as (_ & _ & _ & _ & _ & _ & A & _). apply create_ok in C' as (_ & _ & _ & _ & _ & _ & B & _).
    rewrite add_details_children, add_children_children in *. rewrite B, A. reflexivity.
  - exists ex_static, (Computed [ex_child 30; ex_child 40] [] 3 100). do 4 eexists. split; [reflexivity|]. split; [reflexivity|]. split; reflexivity.
Qed.

(* A result that another thread computes and this one waited for counts as not cached (ConcurrentCache.h:286-289): the
   shown operation time is the waiting time minus the times of the children in the other thread, which can be negative. *)
Theorem C81_waited_refuted : exists o v rows time i v', call o empty_info (Taken v rows false time) = Some (i, v') /\
  time = 10 /\ getOperationTime i = -60.
Proof.
  exists ex_static, (add_children empty_info [ex_child 30; ex_child 40]), 3%nat, 10. do 2 eexists. split; [reflexivity|]. split; reflexivity.
Qed.

Definition ex_ma : var_map := [("?y", 1%nat); ("?x", 0%nat)]%string.
Definition ex_mb : var_map := [("?z", 0%nat); ("?x", 1%nat)]%string.
Example C81_example :
  full ex_ma 2 /\ full ex_mb 2 /\ Permutation [(0, 1)]%nat (join_columns ex_ma ex_mb) /\
  setColumnNames (join_vars ex_ma ex_mb 2 1) = Some ["?x"; "?y"; "?z"]%string /\
  setColumnNames (optional_vars ex_ma ex_mb 2 (join_columns ex_ma ex_mb)) = Some ["?x"; "?y"; "?z"]%string /\
  setColumnNames (path_bind_vars (path_vars "?x" "?t") ex_ma 0) = Some ["?x"; "?t"; "?y"]%string /\
  exists i v, call (Static (join_vars ex_ma ex_mb 2 1) 3 "Join on ?x") empty_info
    (Computed [ex_child (30999 / 1000); ex_child (40999 / 1000)] [("Either side was empty", 1)]%string 7 (72000 / 1000)) = Some (i, v) /\
    getOperationTime i = 2 /\ all_own (shown_times i) = 72 /\ i_names i = ["?x"; "?y"; "?z"]%string /\ i_rows i = 7%nat.
Proof.
  assert (Fa : full ex_ma 2) by (apply desc_full; [|reflexivity]; repeat split; cbn; repeat constructor; cbn; intuition (try discriminate; lia)).
  assert (Fb : full ex_mb 2) by (apply desc_full; [|reflexivity]; repeat split; cbn; repeat constructor; cbn; intuition (try discriminate; lia)).
  split; [exact Fa|]. split; [exact Fb|]. split; [reflexivity|]. do 3 (split; [reflexivity|]). do 2 eexists. split; [vm_compute; reflexivity|].
  repeat split; vm_compute; reflexivity.
Qed.

Print Assumptions C81_names.
Print Assumptions C81_operations.
Print Assumptions C81_call.
Print Assumptions C81_times.
Print Assumptions C81_nonnegative.
Print Assumptions C81_names_bad.
Print Assumptions C81_names_refuted.
Print Assumptions C81_original_time_refuted.
Print Assumptions C81_details_refuted.
Print Assumptions C81_again_refuted.
Print Assumptions C81_waited_refuted.
Print Assumptions C81_example.
