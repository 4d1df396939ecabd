(* C14: GROUP BY; C49: HAVING; C43 for GROUP BY. *)
From Coq Require Import String List NArith ZArith Arith Bool Lia Sorted Permutation.
From Verif Require Import Table_Spec Std_Model Ops_Spec Filter_Model Ops_Model Float32 GroupBy_Spec
  GroupBy_Model Lex_Proof Ops_Proof GroupBy_Proof GroupBy_Proof2.
Import ListNotations.
Open Scope N_scope.

(* ================= C14 ================= *)

(* One row for every key occurring in the input, in increasing order of the keys, with the
   aggregates over exactly the rows having the key. The part missing from the full property
   is the hypothesis groupVars <> [] and what `supported` excludes; see the refutations. *)
Theorem C14_group_by_partial : forall (env : environment) (types : list result_type) (sub : var_map)
    (groupVars : list string) (aliases : list alias) (cs acs : list nat) (blank : nat -> row)
    (input : table),
  groupVars <> [] -> NoDup (groupVars ++ map al_out aliases) ->
  find_columns sub groupVars = Some cs -> find_columns sub (map al_in aliases) = Some acs ->
  (forall i, length (blank i) = (length groupVars + length aliases)%nat) ->
  sorted_lex cs input ->
  (forall k, (exists r, In r input /\ cols cs r = k) ->
     aliases_supported types sub aliases (group cs k input)) ->
  exists out vocab ks,
    group_by_result env types sub groupVars aliases blank input = Some (out, vocab) /\
    StronglySorted lex_lt ks /\ (forall k, In k ks <-> exists r, In r input /\ cols cs r = k) /\
    Forall2 (fun k r => group_row_ok env types sub (group_by_vars groupVars aliases) groupVars
               aliases vocab k (group cs k input) r) ks out.
Proof. exact group_by_result_ok. Qed.

(* The planner sorts the input as required. *)
Theorem C14_planned_sorted : forall (claimed cs acs : list nat) (sub mid : table),
  cs <> [] -> sorted_lex claimed sub -> presorted (group_by_plan claimed cs acs) sub mid ->
  sorted_lex cs mid /\ Permutation sub mid.
Proof. exact group_by_plan_sorted. Qed.

Definition no_env : environment := {| kb_number := fun _ => None; show := fun _ _ => "x"%string |}.

(* SELECT (COUNT(?x) AS ?n) without GROUP BY counts one row too many. *)
Theorem C14_no_grouping_count_refuted : exists (input out : table),
  (exists vocab, group_by_result no_env [KB] [("?x"%string, 0%nat)] []
     [{| al_type := COUNT; al_in := "?x"; al_out := "?n"; al_distinct := false; al_delim := "" |}]
     (fun _ => [0]) input = Some (out, vocab)) /\
  input = [[7]; [8]] /\ out = [[3]].
Proof. exists [[7]; [8]], [[3]]. split; auto. exists []. reflexivity. Qed.

(* All other aggregates read behind the end of the input. *)
Theorem C14_no_grouping_overrun_refuted : forall (env : environment) (types : list result_type)
    (a : aggregate) (aggs : list aggregate) (blank : nat -> row) (r : row) (rows : table),
  (a_type a <> COUNT \/ a_distinct a = true) ->
  do_group_by env types [] (a :: aggs) blank (r :: rows) = None.
Proof.
  intros env types a aggs blank r rows Ha. unfold do_group_by, add_group. cbn [process_aggregates].
  replace (process_group env types a 0 (length (r :: rows)) (r :: rows) []) with (@None (N * list string)); auto.
  unfold process_group, block. rewrite Nat.ltb_irrefl.
  destruct (a_type a), (a_distinct a); auto. destruct Ha; congruence.
Qed.

(* Without GROUP BY and with an empty input there must be one row with count 0. *)
Theorem C14_empty_input_refuted : forall env types aggs blank,
  do_group_by env types [] aggs blank [] = Some ([], []).
Proof. reflexivity. Qed.

(* AVG(DISTINCT ...) divides by the number of all values. *)
Theorem C14_avg_distinct_refuted : exists (a : aggregate) (input out : table),
  do_group_by no_env [KB; VERBATIM] [0%nat] [a] (fun _ => [0]) input = Some (out, []) /\
  map (cols [0%nat]) input = [[1]; [1]; [1]] /\
  ~ aggregate_ok no_env [] (a_type a) (a_distinct a) (a_delim a) VERBATIM
      (map (col 1) input) (col 0 (hd [] out)).
Proof.
  exists {| a_type := AVG; a_in := 1; a_out := 0; a_distinct := true; a_delim := "" |},
    [[1; 2]; [1; 2]; [1; 4]], [[1073741824]].
  split; [vm_compute; reflexivity|]. split; [reflexivity|]. vm_compute. discriminate.
Qed.

(* GROUP_CONCAT(DISTINCT ...) prints the delimiter behind the last value if the last row
   repeats a value. *)
Theorem C14_concat_distinct_refuted : exists (a : aggregate) (input out : table) (vocab : list string),
  do_group_by no_env [KB; KB] [0%nat] [a] (fun _ => [0]) input = Some (out, vocab) /\
  map (cols [0%nat]) input = [[1]; [1]] /\
  a_delim a = ","%string /\ uniq (map (col 1) input) = [5] /\ vocab = ["x,"%string].
Proof.
  exists {| a_type := GROUP_CONCAT; a_in := 1; a_out := 0; a_distinct := true; a_delim := "," |},
    [[1; 5]; [1; 5]], [[0]], ["x,"%string]. repeat split.
Qed.

(* The maximum of a group containing only -inf is reported as -3.4e38. *)
Theorem C14_max_infinity_refuted : exists (a : aggregate) (input out : table),
  do_group_by no_env [KB; FLOAT] [0%nat] [a] (fun _ => [0]) input = Some (out, []) /\
  a_type a = MAX /\ ~ is_greatest FLOAT (map (col 1) input) (col 0 (hd [] out)).
Proof.
  exists {| a_type := MAX; a_in := 1; a_out := 0; a_distinct := false; a_delim := "" |},
    [[1; 4286578688]], [[4286578687]].
  split; [reflexivity|]. split; [reflexivity|]. intros [(w & Hw & E) _].
  destruct Hw as [<-|[]]. vm_compute in E. discriminate.
Qed.

(* FIRST and LAST of a column that does not hold vocabulary ids are declared to be ids. *)
Theorem C14_first_type_refuted : exists (types : list result_type) (a : aggregate),
  a_type a = FIRST /\ group_by_type types a <> type_of types (a_in a).
Proof.
  exists [FLOAT], {| a_type := FIRST; a_in := 0; a_out := 0; a_distinct := false; a_delim := "" |}.
  split; [reflexivity|]. discriminate.
Qed.

(* All other column types are right: entries of the column are to be read with the type the
   aggregate produces. *)
Theorem C14_column_types_partial : forall (types : list result_type) (a : aggregate),
  a_type a <> FIRST -> a_type a <> LAST ->
  group_by_type types a =
  match a_type a with
  | COUNT => VERBATIM | SUM | AVG => FLOAT | GROUP_CONCAT => LOCAL_VOCAB
  | _ => type_of types (a_in a)
  end.
Proof. intros types a H1 H2. unfold group_by_type. destruct (a_type a); congruence. Qed.

(* Entries of LOCAL_VOCAB columns (results of an inner GROUP_CONCAT) are copied, but the
   strings they refer to are not. *)
Theorem C14_local_vocab_refuted : exists (input : table) (subvocab : list string) (out : table)
    (vocab : list string) (a : aggregate),
  do_group_by no_env [KB; LOCAL_VOCAB] [0%nat] [a] (fun _ => [0]) input = Some (out, vocab) /\
  a_type a = SAMPLE /\ group_by_type [KB; LOCAL_VOCAB] a = LOCAL_VOCAB /\
  nth_error subvocab (N.to_nat (col 1 (hd [] input))) = Some "abc"%string /\
  nth_error vocab (N.to_nat (col 0 (hd [] out))) = None.
Proof.
  exists [[1; 0]], ["abc"%string], [[0]], [],
    {| a_type := SAMPLE; a_in := 1; a_out := 0; a_distinct := false; a_delim := "" |}.
  repeat split.
Qed.

(* GROUP BY ?x ?x: the column number of ?x is not smaller than the number of columns. *)
Theorem C14_repeated_variable_refuted :
  group_by_vars ["?x"%string; "?x"%string] [] = [("?x"%string, 1%nat)] /\
  forall r rows, group_by_result no_env [KB] [("?x"%string, 0%nat)] ["?x"%string; "?x"%string] []
    (fun _ => [0]) ([r] :: rows) = None.
Proof.
  split; [reflexivity|]. intros r rows.
  assert (G : forall input s e st, add_group no_env [KB] [sample_of 0 1; sample_of 0 1] (fun _ => [0]) s e input st = None).
  { intros input s e [res vocab]. unfold add_group. cbn. destruct (block input s e); reflexivity. }
  assert (L : forall rows input pos bs cur st,
    group_loop no_env [KB] [sample_of 0 1; sample_of 0 1] (fun _ => [0]) input rows pos bs cur st = None).
  { induction rows0 as [|x rows0 IH]; intros input pos bs cur st; cbn [group_loop]; [apply G|].
    destruct (forallb _ cur); auto. now rewrite G. }
  exact (L rows ([r] :: rows) 1%nat 0%nat _ _).
Qed.

(* A non-trivial instance: two groups, several aggregates. *)
Example group_by_example :
  let env := {| kb_number := fun v => Some (float_of_N v); show := fun _ v => if v =? 5 then "five"%string else "other"%string |} in
  let types := [KB; VERBATIM; KB] in
  let sub := [("?y"%string, 1%nat); ("?x"%string, 0%nat); ("?z"%string, 2%nat)] in
  let al t d i o := {| al_type := t; al_in := i; al_out := o; al_distinct := d; al_delim := "; " |} in
  let aliases := [al COUNT true "?y" "?a"; al SUM false "?y" "?b"; al GROUP_CONCAT false "?z" "?c"; al MAX false "?y" "?d"; al AVG false "?y" "?e"]%string in
  let input := [[1; 10; 5]; [1; 10; 6]; [1; 4; 5]; [2; 7; 5]] in
  group_by_result env types sub ["?x"%string] aliases (fun _ => [9; 9; 9; 9; 9; 9]) input =
    Some ([[1; 2; 1103101952; 0; 10; 1090519040]; [2; 1; 1088421888; 1; 7; 1088421888]],
          ["five; other; five"%string; "five"%string]) /\
  find_columns sub ["?x"%string] = Some [0%nat] /\ sorted_lex [0%nat] input /\
  NoDup (["?x"%string] ++ map al_out aliases) /\
  (forall k, aliases_supported types sub aliases (group [0%nat] k input)).
Proof.
  split; [vm_compute; reflexivity|]. split; [reflexivity|]. split; [repeat constructor; discriminate|].
  split; [repeat constructor; simpl; intuition discriminate|].
  intros k. repeat constructor; try discriminate. cbn.
  repeat (match goal with |- context [if ?b then _ else _] => destruct b end); repeat constructor; reflexivity.
Qed.

(* ================= C43 ================= *)

(* GroupBy.cpp:79-87: the result is claimed to be sorted by the columns of the grouping
   variables. *)
Definition group_by_sorted_on (outv : var_map) (groupVars : list string) : list nat :=
  map (fun v => match var_find outv v with Some c => c | None => 0%nat end) groupVars.

Theorem C43_group_by_claim : forall (env : environment) (types : list result_type) (sub : var_map)
    (groupVars : list string) (aliases : list alias) (cs acs : list nat) (blank : nat -> row)
    (input out : table) (vocab : list string),
  groupVars <> [] -> NoDup (groupVars ++ map al_out aliases) ->
  find_columns sub groupVars = Some cs -> find_columns sub (map al_in aliases) = Some acs ->
  (forall i, length (blank i) = (length groupVars + length aliases)%nat) ->
  sorted_lex cs input ->
  (forall k, (exists r, In r input /\ cols cs r = k) ->
     aliases_supported types sub aliases (group cs k input)) ->
  group_by_result env types sub groupVars aliases blank input = Some (out, vocab) ->
  sorted_lex (group_by_sorted_on (group_by_vars groupVars aliases) groupVars) out.
Proof.
  intros env types sub groupVars aliases cs acs blank input out vocab Hne Hd Hc Ha Hb Hs Hsup E.
  destruct (group_by_result_ok env types sub groupVars aliases cs acs blank input Hne Hd Hc Ha Hb Hs Hsup)
    as (out' & vocab' & ks & E' & H1 & _ & H3).
  rewrite E in E'. injection E' as <- <-. unfold sorted_lex.
  apply (strongly_sorted_keys ks); auto.
  clear H1 E. induction H3 as [|k r ks out [Hk _] H3 IH]; constructor; [|exact IH].
  rewrite <- Hk. unfold cols, group_by_sorted_on. rewrite map_map. apply map_ext_in. intros v Hv.
    rewrite binding_find. apply In_nth_error in Hv. destruct Hv as (j & Hj).
    rewrite (group_by_vars_find groupVars aliases j v Hd); auto.
    rewrite nth_error_app1; auto. apply nth_error_Some. congruence.
Qed.

(* ================= C49 ================= *)

(* At most one condition: right. *)
Theorem C49_having_partial : forall (clauses : list (row -> bool)) (t : table),
  (length clauses <= 1)%nat ->
  run_plan (having_plan clauses) t = filter (fun r => forallb (fun f => f r) clauses) t.
Proof.
  intros [|f [|]] t H; simpl in *; try lia.
  - symmetry. induction t; simpl; congruence.
  - induction t as [|r t IH]; simpl; auto. rewrite andb_true_r, IH. reflexivity.
Qed.

(* In general only the last condition is applied. *)
Theorem C49_having_last_refuted : exists (clauses : list (row -> bool)) (t : table) (r : row) (f : row -> bool),
  In r (run_plan (having_plan clauses) t) /\ In f clauses /\ f r = false.
Proof.
  exists [(fun r => col 0 r <? 5); (fun r => 3 <? col 0 r)], [[1]; [4]; [7]], [7], (fun r => col 0 r <? 5).
  simpl. auto.
Qed.

Theorem C49_only_last : forall (clauses : list (row -> bool)) (f : row -> bool) (t : table),
  run_plan (having_plan (clauses ++ [f])) t = filter f t.
Proof. exact having_last. Qed.

Example having_example : run_plan (having_plan [fun r => 3 <? col 0 r]) [[1]; [4]; [7]] = [[4]; [7]].
Proof. reflexivity. Qed.

Print Assumptions C14_group_by_partial.
Print Assumptions C14_planned_sorted.
Print Assumptions C14_avg_distinct_refuted.
Print Assumptions C43_group_by_claim.
Print Assumptions C49_only_last.

Print Assumptions C14_no_grouping_count_refuted.
Print Assumptions C14_no_grouping_overrun_refuted.
Print Assumptions C14_empty_input_refuted.
Print Assumptions C14_concat_distinct_refuted.
Print Assumptions C14_max_infinity_refuted.
Print Assumptions C14_first_type_refuted.
Print Assumptions C14_column_types_partial.
Print Assumptions C14_local_vocab_refuted.
Print Assumptions C14_repeated_variable_refuted.
Print Assumptions C49_having_partial.
Print Assumptions C49_having_last_refuted.
