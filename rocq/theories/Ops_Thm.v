(* C12 UNION, C13 DISTINCT, C15 FILTER, C43 (claimed sort orders), C48 ORDER BY. *)
From Coq Require Import String List NArith ZArith Arith Bool Lia Sorted Permutation.
From Verif Require Import Table_Spec Std_Model Ops_Spec Ops_Model Ops_Proof Filter_Model Filter_Proof.
Import ListNotations.
Open Scope N_scope.

(* ================= C12 ================= *)

(* The rows of the union are the mapped left rows followed by the mapped right rows. *)
Theorem C12_union_rows : forall (os : list origin) (wl wr : nat) (a b : table),
  os <> [] -> N.of_nat (length os) <= 100000 ->
  origins_in fst wl os -> origins_in snd wr os -> width wl a -> width wr b ->
  compute_union os wl wr a b =
  Some (map (fun r => map (fun o => match fst o with Some c => col c r | None => UNBOUND end) os) a ++
        map (fun r => map (fun o => match snd o with Some c => col c r | None => UNBOUND end) os) b).
Proof. exact compute_union_spec. Qed.

(* In terms of variables: each variable has, row by row, the values it has in the left input
   and then those it has in the right input (unbound where it does not occur), if every
   column of the left input belongs to a variable. *)
Theorem C12_union_bindings : forall (left right : var_map) (wl wr : nat) (a b : table),
  columns_covered left -> NoDup (map fst right) ->
  Forall (fun c => (c < wl)%nat) (map snd left) -> Forall (fun c => (c < wr)%nat) (map snd right) ->
  width wl a -> width wr b ->
  union_vars left right <> [] -> N.of_nat (length (union_vars left right)) <= 100000 ->
  exists os res, union_origins left right = Some os /\
    compute_union os wl wr a b = Some res /\
    width (length (union_vars left right)) res /\
    length res = (length a + length b)%nat /\
    forall v, map (fun r => binding String.eqb (union_vars left right) r v) res =
              map (fun r => binding String.eqb left r v) a ++
              map (fun r => binding String.eqb right r v) b.
Proof. exact union_spec. Qed.

(* Types of columns that exist on the left are right ... *)
Theorem C12_column_types_partial : forall os types1 types2 i c d,
  nth_error os i = Some (Some c, d) ->
  nth_error (union_types os types1 types2) i = Some (type_of types1 c).
Proof.
  intros os types1 types2 i c d H. unfold union_types. now rewrite (map_nth_error _ _ _ H).
Qed.

(* ... but the type of a column that only exists on the right is taken from the left input
   (Union.cpp:143). *)
Theorem C12_column_types_refuted : exists os types1 types2 i c,
  nth_error os i = Some (None, Some c) /\
  nth_error (union_types os types1 types2) i <> Some (type_of types2 c).
Proof.
  exists [(Some 0%nat, None); (None, Some 0%nat)], [FLOAT], [KB], 1%nat, 0%nat.
  split; [reflexivity|discriminate].
Qed.

(* If a column of the left input belongs to no variable, the constructor writes behind the
   end of the vector of column origins. *)
Theorem C12_hidden_column_refuted : exists (left right : var_map) (wl : nat),
  NoDup (map fst left) /\ NoDup (map snd left) /\
  Forall (fun c => (c < wl)%nat) (map snd left) /\ union_origins left right = None.
Proof.
  exists [("?x"%string, 1%nat)], [("?x"%string, 0%nat)], 2%nat.
  split; [repeat constructor; simpl; tauto|]. split; [repeat constructor; simpl; tauto|].
  split; [repeat constructor; lia|]. reflexivity.
Qed.

(* A union without any variable divides by zero. *)
Theorem C12_no_columns_refuted : exists a b : table, width 0 a /\ width 0 b /\
  union_origins [] [] = Some [] /\ compute_union [] 0 0 a b = None.
Proof. exists [[]], [[]]. repeat split; repeat constructor. Qed.

Example union_example :
  let left := [("?x", 0); ("?y", 1)]%nat%string in
  let right := [("?z", 1); ("?y", 0)]%nat%string in
  columns_covered left /\
  union_origins left right = Some [(Some 0, None); (Some 1, Some 0); (None, Some 1)]%nat /\
  compute_union [(Some 0, None); (Some 1, Some 0); (None, Some 1)]%nat 2 2 [[1; 2]] [[3; 4]] =
  Some [[1; 2; UNBOUND]; [UNBOUND; 3; 4]].
Proof.
  repeat split; try reflexivity; try (repeat constructor; simpl; intuition (discriminate || lia)).
Qed.

(* ================= C13 ================= *)

(* Engine::distinct on a sorted input keeps exactly the first row for each key. *)
Theorem C13_distinct : forall (w : nat) (keep : list nat) (t : table),
  sorted_lex keep t -> (length keep <= w)%nat ->
  distinct_rows w keep t = Some (first_of_each keep [] t).
Proof. exact distinct_spec. Qed.

(* The DISTINCT operation as put into the plan: whatever the library sort returns, and
   provided the subresult is sorted as claimed, the result has no two rows agreeing on the
   selected columns, only rows of the input, and one row for each row of the input. *)
Theorem C13_planned_distinct : forall (w : nat) (claimed keep : list nat) (sub mid : table),
  sorted_lex claimed sub -> (length keep <= w)%nat ->
  presorted (distinct_plan claimed keep) sub mid ->
  exists out, distinct_rows w keep mid = Some out /\
    NoDup (map (cols keep) out) /\ (forall r, In r out -> In r sub) /\
    (forall r, In r sub -> exists s, In s out /\ cols keep s = cols keep r).
Proof. exact planned_distinct. Qed.

(* Without sorting duplicates survive. *)
Theorem C13_unsorted_refuted : exists (t out : table),
  distinct_rows 1 [0%nat] t = Some out /\ ~ NoDup (map (cols [0%nat]) out).
Proof.
  exists [[1]; [2]; [1]], [[1]; [2]; [1]]. split; [reflexivity|]. intros H.
  inversion H as [|? ? H1 _]; subst. apply H1. simpl. auto.
Qed.

Example distinct_example :
  let t := [[3; 1]; [1; 5]; [3; 2]; [1; 6]] in
  sorted_lex [] t /\ presorted (distinct_plan [] [0%nat]) t (sort_by (sort_less 0) t) /\
  distinct_rows 2 [0%nat] (sort_by (sort_less 0) t) = Some [[1; 5]; [3; 1]].
Proof.
  split; [repeat constructor; discriminate|]. split; [|reflexivity].
  apply sort_by_result, sort_less_swo.
Qed.

(* ================= C48 ================= *)

(* The comparators meet the requirement of std::sort. *)
Theorem C48_comparators : forall (c : nat) (key : list (nat * bool)),
  strict_weak_order (sort_less c) /\ strict_weak_order (order_by_less key).
Proof. intros c key. exact (conj (sort_less_swo c) (order_by_less_swo key)). Qed.

(* The result of ORDER BY is a rearrangement of the input in the requested order. *)
Theorem C48_order_by : forall (key : list (nat * bool)) (inp out : table),
  sort_result (order_by_less key) inp out -> Permutation inp out /\ ordered key out.
Proof. intros key inp out H. exact (conj (proj1 H) (order_by_ordered key inp out H)). Qed.

(* Sorting by one column (Sort.cpp). *)
Theorem C48_sort : forall (c : nat) (inp out : table),
  sort_result (sort_less c) inp out -> Permutation inp out /\ sorted_on c out.
Proof. intros c inp out H. exact (conj (proj1 H) (sort_sorted c inp out H)). Qed.

(* Columns of type FLOAT are ordered by their bits, not by value: 1.0 comes before -1.0. *)
Theorem C48_float_order_refuted : exists (inp out : table) (x y : Z),
  sort_result (order_by_less [(0%nat, false)]) inp out /\
  map (fun r => entry_value FLOAT (col 0 r)) out = [Some x; Some y] /\ (y < x)%Z.
Proof.
  exists [[3212836864]; [1065353216]], [[1065353216]; [3212836864]], 1065353216%Z, (-1065353216)%Z.
  split; [|split; [reflexivity|lia]]. split; [apply perm_swap|]. repeat constructor.
Qed.

Example order_by_example : exists out,
  sort_result (order_by_less [(1%nat, true); (0%nat, false)]) [[5; 1]; [4; 2]; [3; 2]] out /\
  out = [[3; 2]; [4; 2]; [5; 1]].
Proof.
  eexists. split; [apply sort_by_result, order_by_less_swo|]. reflexivity.
Qed.

(* ================= C43 ================= *)

Theorem C43_sort_claim : forall (c : nat) (inp out : table),
  sort_result (sort_less c) inp out -> sorted_lex (sort_sorted_on c) out.
Proof. exact sort_sorted_lex. Qed.

(* ORDER BY: the claim is true if all columns are ascending, and in general for the leading
   ascending columns. *)
Theorem C43_order_by_claim_partial : forall (cs : list nat) (key : list (nat * bool)) (inp out : table),
  sort_result (order_by_less (map (fun c => (c, false)) cs ++ key)) inp out -> sorted_lex cs out.
Proof. exact order_by_sorted_lex. Qed.

Theorem C43_order_by_all_ascending : forall (cs : list nat) (inp out : table),
  sort_result (order_by_less (map (fun c => (c, false)) cs)) inp out ->
  sorted_lex (order_by_sorted_on (map (fun c => (c, false)) cs)) out.
Proof.
  intros cs inp out H. replace (order_by_sorted_on _) with cs.
  - apply (order_by_sorted_lex cs [] inp out). now rewrite app_nil_r.
  - clear H. unfold order_by_sorted_on. induction cs as [|c cs IH]; simpl; [reflexivity|now rewrite <- IH].
Qed.

(* After a descending column the claim is false: ORDER BY DESC(?x) ?y claims to be sorted
   on ?y. *)
Theorem C43_order_by_descending_refuted : exists (key : list (nat * bool)) (inp out : table),
  sort_result (order_by_less key) inp out /\ ~ sorted_lex (order_by_sorted_on key) out.
Proof.
  exists [(0%nat, true); (1%nat, false)], [[2; 9]; [1; 3]], [[2; 9]; [1; 3]].
  split.
  - split; [apply Permutation_refl|]. repeat constructor.
  - intros H. apply Sorted_inv in H. destruct H as [_ H]. apply HdRel_inv in H.
    apply H. reflexivity.
Qed.

(* DISTINCT and FILTER claim the order of their input. *)
Theorem C43_distinct_filter_claim : forall (cs keep : list nat) (w : nat) (t out : table) (f : row -> bool),
  sorted_lex cs t ->
  sorted_lex cs (filter f t) /\
  (sorted_lex keep t -> (length keep <= w)%nat -> distinct_rows w keep t = Some out -> sorted_lex cs out).
Proof.
  intros cs keep w t out f Hs. split.
  - apply Lex_Proof.ksorted_sorted_lex, Lex_Proof.ksorted_filter, Lex_Proof.sorted_lex_ksorted, Hs.
  - intros Hk Hw. rewrite (distinct_spec w keep t Hk Hw). intros E. injection E as <-.
    apply Lex_Proof.ksorted_sorted_lex. apply Lex_Proof.sorted_lex_ksorted in Hs. clear Hk.
    generalize (@nil row). induction Hs as [|r t Hs IH Hf]; intros seen; simpl; [constructor|].
    destruct (existsb _ seen); auto. constructor; [apply IH|].
    apply Forall_forall. intros s Hin. rewrite Forall_forall in Hf. apply Hf.
    destruct (first_of_each_spec keep t (r :: seen)) as (_ & H2 & _). now apply H2.
Qed.

(* ================= C15 ================= *)

(* Comparison with a fixed value: the result consists of the rows satisfying the comparison,
   in order, with and without the binary search. For FLOAT columns this needs non-negative
   numbers stored with zero upper bytes. *)
Theorem C15_filter_fixed_partial : forall (t : result_type) (op : comparison_op) (lhs : nat)
    (rhs : N) (lhs_is_sorted : bool) (input : table),
  plain t rhs -> Forall (fun r => plain t (col lhs r)) input ->
  (lhs_is_sorted = true -> sorted_on lhs input) ->
  compute_filter_fixed t op lhs rhs lhs_is_sorted input = Some (filter_rows t op lhs rhs input).
Proof. exact filter_fixed_spec. Qed.

(* Order comparisons without binary search are right for all floats. *)
Theorem C15_filter_fixed_unsorted : forall (t : result_type) (op : comparison_op) (lhs : nat)
    (rhs : N) (input : table),
  op <> EQ -> op <> NE ->
  compute_filter_fixed t op lhs rhs false input = Some (filter_rows t op lhs rhs input).
Proof. exact filter_fixed_unsorted. Qed.

(* Comparison of two columns. *)
Theorem C15_filter_columns : forall (t : result_type) (op : comparison_op) (lhs rhs : nat) (input : table),
  compute_filter_dynamic t op lhs rhs input =
  filter (fun r => holds op (entry_value t (col lhs r)) (entry_value t (col rhs r))) input.
Proof. exact filter_dynamic_spec. Qed.

(* A sorted FLOAT column with a negative number: the binary search is wrong. 0.5 < 1.0 holds
   for -1.0 as well, but -1.0 (stored behind 2.0) is lost. *)
Theorem C15_float_binary_search_refuted : exists (rhs : N) (input : table),
  sorted_on 0 input /\
  compute_filter_fixed FLOAT LT 0 rhs true input <> Some (filter_rows FLOAT LT 0 rhs input).
Proof.
  exists 1065353216, [[1056964608]; [1073741824]; [3212836864]].
  split; [repeat constructor; discriminate|]. vm_compute. discriminate.
Qed.

(* Equality on FLOAT columns compares bits: -0.0 = 0.0 fails. *)
Theorem C15_float_equality_refuted : exists (rhs : N) (input : table),
  compute_filter_fixed FLOAT EQ 0 rhs false input <> Some (filter_rows FLOAT EQ 0 rhs input).
Proof. exists 0, [[2147483648]]. vm_compute. discriminate. Qed.

(* The four upper bytes of the right hand side of a FLOAT comparison are not initialised
   (Filter.cpp:636, 694-695), and the result of an equality test depends on them. *)
Theorem C15_float_uninitialised_refuted : exists (rhs rhs' : N) (input : table),
  entry_value FLOAT rhs = entry_value FLOAT rhs' /\
  compute_filter_fixed FLOAT EQ 0 rhs false input <> compute_filter_fixed FLOAT EQ 0 rhs' false input.
Proof.
  exists 1065353216, (1065353216 + 4294967296), [[1065353216]].
  split; [reflexivity|]. vm_compute. discriminate.
Qed.

(* Range filters (equality with a word). *)
Theorem C15_filter_range : forall (lhs : nat) (lo hi : N) (lhs_is_sorted : bool) (input : table),
  (lhs_is_sorted = true -> sorted_on lhs input) ->
  compute_filter_range false lhs lo hi lhs_is_sorted input =
  Some (filter (fun r => (lo <=? col lhs r) && (col lhs r <? hi)) input).
Proof. exact filter_range_spec. Qed.

(* The inverse range filter (inequality with a word) is right only without binary search:
   on a sorted column everything behind the range is lost (Filter.cpp:292). *)
Theorem C15_filter_range_inverse_partial : forall (lhs : nat) (lo hi : N) (input : table),
  compute_filter_range true lhs lo hi false input =
  Some (filter (fun r => negb ((lo <=? col lhs r) && (col lhs r <? hi))) input).
Proof.
  intros lhs lo hi input. exact (filter_range_inverse_spec lhs lo hi false input (fun H => match diff_false_true H with end)).
Qed.

Theorem C15_filter_range_inverse_refuted : exists (lhs : nat) (lo hi : N) (input : table),
  sorted_on lhs input /\
  compute_filter_range true lhs lo hi true input <> compute_filter_range true lhs lo hi false input.
Proof.
  exists 0%nat, 2, 3, [[1]; [2]; [3]]. split; [repeat constructor; discriminate|].
  vm_compute. discriminate.
Qed.

(* Prefix filters: a disjunction of id ranges on one or several columns; `sort` is any sort
   of ranges by their start. *)
Theorem C15_filter_prefix : forall (sort : list (N * N) -> list (N * N)) (lhs : nat) (range : N * N)
    (additional : list (nat * (N * N))) (sorted_by : list nat) (input : table),
  (forall l, sort_result by_first l (sort l)) ->
  (forall s rest, sorted_by = s :: rest -> sorted_on s input) ->
  compute_filter_prefix sort lhs range additional sorted_by input =
  Some (filter_ranges ((lhs, range) :: additional) input).
Proof. exact filter_prefix_spec. Qed.

(* Comparison of a column of entities with a word: the rows whose word satisfies the
   comparison. Missing: != on a sorted column and <=, > when already the first word of the
   vocabulary is larger, see the refutations. *)
Theorem C15_filter_word_partial : forall (W : Type) (lt : W -> W -> bool), strict_weak_order lt ->
  forall (words : list W) (w : W), StronglySorted (fun x y => lt y x = false) words ->
  forall (op : comparison_op) (lhs : nat) (lhs_is_sorted : bool) (input : table),
  (lhs_is_sorted = true -> sorted_on lhs input) ->
  Forall (fun r => col lhs r < N.of_nat (length words)) input ->
  (op = NE -> lhs_is_sorted = false) ->
  (op = LE \/ op = GT -> exists x, nth_error words 0 = Some x /\ lt w x = false) ->
  compute_filter_kb lt words op lhs w lhs_is_sorted input =
  Some (filter (fun r => match nth_error words (N.to_nat (col lhs r)) with
                         | Some x => word_holds lt op x w | None => false end) input).
Proof. exact filter_kb_spec. Qed.

(* A word smaller than all words of the vocabulary: <= keeps, and > loses, the first word. *)
Theorem C15_first_word_refuted : exists (words : list N) (w : N) (input : table),
  StronglySorted (fun x y => (y <? x) = false) words /\
  compute_filter_kb N.ltb words LE 0 w false input = Some [[0]] /\
  compute_filter_kb N.ltb words GT 0 w false input = Some [[1]] /\
  (forall r x, In r input -> nth_error words (N.to_nat (col 0 r)) = Some x -> w < x).
Proof.
  exists [5; 6], 1, [[0]; [1]]. split; [repeat constructor|]. split; [reflexivity|]. split; [reflexivity|].
  intros r x [<-|[<-|[]]] H; injection H as <-; reflexivity.
Qed.

(* != on a sorted column loses all rows with larger words. *)
Theorem C15_not_equal_refuted : exists (words : list N) (w : N) (input : table),
  sorted_on 0 input /\ StronglySorted (fun x y => (y <? x) = false) words /\
  compute_filter_kb N.ltb words NE 0 w true input = Some [[0]] /\
  compute_filter_kb N.ltb words NE 0 w false input = Some [[0]; [2]].
Proof.
  exists [5; 6; 7], 6, [[0]; [1]; [2]].
  split; [repeat constructor; discriminate|]. split; [repeat constructor|]. split; reflexivity.
Qed.

Lemma ltb_swo : strict_weak_order N.ltb.
Proof. constructor; intros; rewrite ?N.ltb_lt, ?N.ltb_ge in *; try apply N.ltb_irrefl; lia. Qed.

Example filter_word_example :
  let words := [3; 5; 8] in let input := [[0; 9]; [1; 7]; [1; 8]; [2; 2]] in
  strict_weak_order N.ltb /\ StronglySorted (fun x y => (y <? x) = false) words /\
  sorted_on 0 input /\ Forall (fun r => col 0 r < N.of_nat (length words)) input /\
  compute_filter_kb N.ltb words LE 0 5 true input = Some [[0; 9]; [1; 7]; [1; 8]].
Proof.
  split; [exact ltb_swo|]. split; [repeat constructor|]. split; [repeat constructor; discriminate|].
  split; [repeat constructor|]. reflexivity.
Qed.

Example filter_fixed_example :
  let input := [[1; 9]; [2; 7]; [2; 8]; [4; 2]] in
  sorted_on 0 input /\
  compute_filter_fixed VERBATIM EQ 0 2 true input = Some [[2; 7]; [2; 8]] /\
  compute_filter_fixed VERBATIM NE 0 2 true input = Some [[1; 9]; [4; 2]].
Proof. split; [repeat constructor; discriminate|]. split; reflexivity. Qed.

Lemma by_first_swo : strict_weak_order by_first.
Proof. constructor; unfold by_first; intros; rewrite ?N.ltb_lt, ?N.ltb_ge in *; try apply N.ltb_irrefl; lia. Qed.

Example filter_prefix_example :
  (forall l, sort_result by_first l (sort_by by_first l)) /\
  compute_filter_prefix (sort_by by_first) 0 (5, 7) [(0%nat, (1, 3)); (0%nat, (2, 6))] [0%nat]
    [[0]; [1]; [4]; [6]; [8]] = Some [[1]; [4]; [6]].
Proof. split; [intros l; apply sort_by_result, by_first_swo|]. reflexivity. Qed.

Print Assumptions C12_union_bindings.
Print Assumptions C13_planned_distinct.
Print Assumptions C48_order_by.
Print Assumptions C15_filter_word_partial.
Print Assumptions C15_filter_prefix.

Print Assumptions C12_union_rows.
Print Assumptions C12_column_types_partial.
Print Assumptions C12_column_types_refuted.
Print Assumptions C12_hidden_column_refuted.
Print Assumptions C12_no_columns_refuted.
Print Assumptions C13_distinct.
Print Assumptions C13_unsorted_refuted.
Print Assumptions C48_comparators.
Print Assumptions C48_sort.
Print Assumptions C48_float_order_refuted.
Print Assumptions C43_sort_claim.
Print Assumptions C43_order_by_claim_partial.
Print Assumptions C43_order_by_all_ascending.
Print Assumptions C43_order_by_descending_refuted.
Print Assumptions C43_distinct_filter_claim.
Print Assumptions C15_filter_fixed_partial.
Print Assumptions C15_filter_fixed_unsorted.
Print Assumptions C15_filter_columns.
Print Assumptions C15_float_binary_search_refuted.
Print Assumptions C15_float_equality_refuted.
Print Assumptions C15_float_uninitialised_refuted.
Print Assumptions C15_filter_range.
Print Assumptions C15_filter_range_inverse_partial.
Print Assumptions C15_filter_range_inverse_refuted.
Print Assumptions C15_first_word_refuted.
Print Assumptions C15_not_equal_refuted.
