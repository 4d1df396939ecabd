(* C75: GROUP BY, HAVING, DISTINCT and ORDER BY together. *)
From Coq Require Import String List NArith Arith Bool Lia Sorted Permutation.
From Verif Require Import Table_Spec Ops_Spec Filter_Model Ops_Model Ops_Proof Float32 GroupBy_Spec GroupBy_Model GroupBy_Thm.
From Verif Require Import Query_Spec Query_Model Query_Proof.
Import ListNotations.
Open Scope N_scope.

(* The aggregates of the query are computed correctly on every rearrangement of the input (see C14). *)
Definition aggregates_supported (types : list result_type) (q : query) (n : node) : Prop :=
  forall mid k, Permutation (n_rows n) mid -> (exists s, In s (map (value (n_vars n)) mid) /\ key_of (q_group q) s = k) ->
     Forall (fun al => supported (al_type al) (al_distinct al) (type_of_variable types (n_vars n) (al_in al))
       (map (fun s : sol => s (al_in al)) (members (q_group q) k (map (value (n_vars n)) mid)))) (q_aliases q).

(* The result is an answer to the query: for every result that the sorting may give.
   Missing: several HAVING conditions, aliases without GROUP BY, SCORE(...) of something without a score, aggregates that C14 excludes. *)
Theorem C75_query_partial : forall env types blank q n res,
  node_ok n -> run_query env types blank q n res ->
  (length (q_having q) <= 1)%nat -> (q_aliases q <> [] -> q_group q <> []) -> NoDup (q_group q ++ map al_out (q_aliases q)) ->
  (forall i, length (blank i) = (length (q_group q) + length (q_aliases q))%nat) -> aggregates_supported types q n ->
  (q_distinct q = true -> Forall (select_ok (n_vars res)) (q_select q)) ->
  exists vocab, answer env vocab (type_of_variable types (n_vars n)) q (sols n) (sols res).
Proof.
  intros env types blank q n res Ok (n1 & n2 & n3 & G & H & D & O) Lh Al Nd Bl Sup Sel.
  destruct (group_ok env types blank q Nd Bl Al n n1 Ok G Sup) as (Ok1 & vocab & G1 & G2).
  destruct (having_ok q n1 n2 Lh Ok1 H) as (Ok2 & H2 & V2).
  assert (V3 : n_vars n3 = n_vars n2) by (unfold distinct_step in D; destruct (q_distinct q); [destruct D as (mid & out & _ & _ & ->); reflexivity|now subst]).
  assert (V4 : n_vars res = n_vars n3).
  { unfold order_step in O. destruct (q_order q); [now subst|]. destruct O as (key & out & _ & _ & ->). reflexivity. }
  rewrite V4, V3 in Sel. destruct (distinct_ok q n2 n3 Ok2 Sel D) as (Ok3 & _ & D3).
  destruct (order_ok q n3 res Ok3 O) as (P4 & O4 & _ & _).
  exists vocab, (sols n1), (sols n3). split; [exact G1|]. split; [exact G2|]. rewrite <- H2. split; [exact D3|]. split; [exact P4|exact O4].
Qed.

(* The result may be used as input again, as for a subquery: what it claims about its order is true, unless
   an ascending variable follows a descending one. *)
Theorem C75_subquery_partial : forall env types blank q n res,
  node_ok n -> run_query env types blank q n res ->
  (length (q_having q) <= 1)%nat -> (q_aliases q <> [] -> q_group q <> []) -> NoDup (q_group q ++ map al_out (q_aliases q)) ->
  (forall i, length (blank i) = (length (q_group q) + length (q_aliases q))%nat) -> aggregates_supported types q n ->
  (q_distinct q = true -> Forall (select_ok (n_vars res)) (q_select q)) -> ascending_first (q_order q) = true ->
  node_ok res.
Proof.
  intros env types blank q n res Ok (n1 & n2 & n3 & G & H & D & O) Lh Al Nd Bl Sup Sel A.
  destruct (group_ok env types blank q Nd Bl Al n n1 Ok G Sup) as (Ok1 & vocab & G1 & G2).
  destruct (having_ok q n1 n2 Lh Ok1 H) as (Ok2 & H2 & V2).
  assert (V3 : n_vars n3 = n_vars n2) by (unfold distinct_step in D; destruct (q_distinct q); [destruct D as (mid & out & _ & _ & ->); reflexivity|now subst]).
  assert (V4 : n_vars res = n_vars n3).
  { unfold order_step in O. destruct (q_order q); [now subst|]. destruct O as (key & out & _ & _ & ->). reflexivity. }
  rewrite V4, V3 in Sel. destruct (distinct_ok q n2 n3 Ok2 Sel D) as (Ok3 & _ & D3).
  destruct (order_ok q n3 res Ok3 O) as (_ & _ & _ & C). auto.
Qed.

(* A plan always has a result: sorting never fails, and DISTINCT and ORDER BY work whenever the variables of ORDER BY exist. *)
Theorem C75_some_result : forall env types blank q n, node_ok n -> q_group q = [] -> q_aliases q = [] -> (length (q_having q) <= 1)%nat ->
  order_columns (n_vars n) (q_order q) <> None -> exists res, run_query env types blank q n res.
Proof.
  intros env types blank q n Ok Eg Ea Lh Oc.
  assert (P : forall p t, exists out, presorted p t out).
  { intros [|c|key] t; cbn [presorted]; [eauto| |]; eexists; apply sort_by_result; [apply sort_less_swo|apply order_by_less_swo]. }
  set (n2 := Node (n_vars n) (n_width n) (n_sorted n) (run_plan (having_plan (map (fun f r => f (value (n_vars n) r)) (q_having q))) (n_rows n))).
  assert (H2 : having_step q n n2) by reflexivity.
  destruct (having_ok q n n2 Lh Ok H2) as (Ok2 & _ & V2).
  assert (D : exists n3, distinct_step q n2 n3 /\ n_vars n3 = n_vars n).
  { unfold distinct_step. destruct (q_distinct q); [|exists n2; auto]. set (keep := keep_indices (n_vars n2) [] (q_select q)).
    destruct (P (distinct_plan (n_sorted n2) keep) (n_rows n2)) as (mid & Pm). destruct Ok2 as [Hs Hc].
    destruct (planned_distinct (n_width n2) _ keep _ mid Hs (keep_length n2 (q_select q) (conj Hs Hc)) Pm) as (out & R & _).
    eexists. split; [exists mid, out; split; [exact Pm|split; [exact R|reflexivity]]|reflexivity]. }
  destruct D as (n3 & D & V3).
  assert (O : exists res, order_step q n3 res).
  { unfold order_step. destruct (q_order q) as [|k ks] eqn:E; [eauto|]. rewrite <- E in *. rewrite V3.
    destruct (order_columns (n_vars n) (q_order q)) as [key|] eqn:F; [|congruence]. destruct (P (order_plan (n_sorted n3) key) (n_rows n3)) as (out & Po).
    eexists. exists key, out. split; [reflexivity|]. split; [exact Po|reflexivity]. }
  destruct O as (res & O). exists res, n, n2, n3. split; [|auto]. unfold group_step. now rewrite Eg, Ea.
Qed.

Definition no_blank (i : nat) : row := [0; 0].
Definition plain (sel : list string) (d : bool) (o : list (string * bool)) : query := Query sel d o [] [] [].

(* A subquery with ORDER BY DESC(?x) ?y claims to be sorted by ?y. The ORDER BY ?y of the outer query is left out and its result is not in order. *)
Theorem C75_nested_order_refuted : exists n sub res env types, node_ok n /\
  run_query env types no_blank (plain ["?x"; "?y"]%string false [("?x", true); ("?y", false)]%string) n sub /\
  run_query env types no_blank (plain ["?x"; "?y"]%string false [("?y"%string, false)]) sub res /\
  ~ in_order [("?y"%string, false)] (sols res).
Proof.
  set (t := [[2; 9]; [1; 3]]). set (m := [("?x"%string, 0%nat); ("?y"%string, 1%nat)]).
  exists (Node m 2 [] t), (Node m 2 [1%nat] t), (Node m 2 [1%nat] t), no_env, []. split; [|split; [|split]].
  - split; [repeat constructor; discriminate|]. apply columns_below. repeat constructor.
  - exists (Node m 2 [] t), (Node m 2 [] t), (Node m 2 [] t). split; [reflexivity|]. split; [reflexivity|]. split; [reflexivity|].
    exists [(0%nat, true); (1%nat, false)], t. split; [reflexivity|]. split; [|reflexivity]. split; [reflexivity|]. repeat constructor.
  - exists (Node m 2 [1%nat] t), (Node m 2 [1%nat] t), (Node m 2 [1%nat] t). split; [reflexivity|]. split; [reflexivity|]. split; [reflexivity|].
    exists [(1%nat, false)], t. split; [reflexivity|]. split; reflexivity.
  - intros H. inversion H as [|? ? _ F]; subst. inversion F as [|? ? F1 _]; subst. destruct F1 as [F1|[F1 _]]; vm_compute in F1; discriminate.
Qed.

(* For the same reason SELECT DISTINCT ?y on such a subquery keeps duplicates. *)
Theorem C75_nested_distinct_refuted : exists n sub res env types, node_ok n /\
  run_query env types no_blank (plain ["?x"; "?y"]%string false [("?x", true); ("?y", false)]%string) n sub /\
  run_query env types no_blank (plain ["?y"%string] true []) sub res /\
  ~ NoDup (map (shown ["?y"%string]) (sols res)).
Proof.
  set (t := [[3; 9]; [2; 3]; [1; 9]]). set (m := [("?x"%string, 0%nat); ("?y"%string, 1%nat)]).
  exists (Node m 2 [] t), (Node m 2 [1%nat] t), (Node m 2 [1%nat] t), no_env, []. split; [|split; [|split]].
  - split; [repeat constructor; discriminate|]. apply columns_below. repeat constructor.
  - exists (Node m 2 [] t), (Node m 2 [] t), (Node m 2 [] t). split; [reflexivity|]. split; [reflexivity|]. split; [reflexivity|].
    exists [(0%nat, true); (1%nat, false)], t. split; [reflexivity|]. split; [|reflexivity]. split; [reflexivity|]. repeat constructor.
  - exists (Node m 2 [1%nat] t), (Node m 2 [1%nat] t), (Node m 2 [1%nat] t). split; [reflexivity|]. split; [reflexivity|]. split; [|reflexivity].
    exists t, t. split; [reflexivity|]. split; reflexivity.
  - intros H. inversion H as [|? ? H1 _]; subst. apply H1. right. left. reflexivity.
Qed.

(* With two HAVING conditions the first one is ignored. *)
Theorem C75_two_conditions_refuted : exists q n res env types, node_ok n /\ q_group q = [] /\ q_aliases q = [] /\ length (q_having q) = 2%nat /\
  run_query env types no_blank q n res /\ forall vocab ty, ~ answer env vocab ty q (sols n) (sols res).
Proof.
  set (m := [("?x"%string, 0%nat)]). set (f1 := fun s : sol => s "?x"%string <? 5). set (f2 := fun s : sol => 3 <? s "?x"%string).
  exists (Query ["?x"%string] false [] [f1; f2] [] []), (Node m 1 [] [[7]]), (Node m 1 [] [[7]]), no_env, []. split; [|split; [reflexivity|split; [reflexivity|split; [reflexivity|split]]]].
  - split; [repeat constructor|]. apply columns_below. repeat constructor.
  - exists (Node m 1 [] [[7]]), (Node m 1 [] [[7]]), (Node m 1 [] [[7]]). repeat split.
  - intros vocab ty (g & d & _ & G & D & P & _). cbn [q_distinct q_having] in D.
    assert (Pg : Permutation [value m [7]] g) by (apply G; intros [H|H]; apply H; reflexivity). clear G.
    apply Permutation_length_1_inv in Pg. subst g. replace (holding [f1; f2] [value m [7]]) with (@nil sol) in D by reflexivity.
    apply Permutation_nil in D. subst d. apply Permutation_nil in P. discriminate P.
Qed.

(* SELECT DISTINCT SCORE(?t) where ?t has no score distinguishes by ?t, which is not shown. *)
Theorem C75_distinct_score_refuted : exists n res env types, node_ok n /\
  run_query env types no_blank (plain ["SCORE(?t)"%string] true []) n res /\ ~ NoDup (map (shown ["SCORE(?t)"%string]) (sols res)).
Proof.
  set (m := [("?t"%string, 0%nat)]). exists (Node m 1 [] [[1]; [2]]), (Node m 1 [0%nat] [[1]; [2]]), no_env, []. split; [|split].
  - split; [repeat constructor; discriminate|]. apply columns_below. repeat constructor.
  - exists (Node m 1 [] [[1]; [2]]), (Node m 1 [] [[1]; [2]]), (Node m 1 [0%nat] [[1]; [2]]). split; [reflexivity|]. split; [reflexivity|]. split; [|reflexivity].
    exists [[1]; [2]], [[1]; [2]]. split; [|split; reflexivity]. split; [reflexivity|]. repeat constructor.
  - intros H. inversion H as [|? ? H1 _]; subst. apply H1. left. reflexivity.
Qed.

(* An aggregate without GROUP BY over no solutions at all has no result. *)
Theorem C75_count_nothing_refuted : exists q n res env types, node_ok n /\ sols n = [] /\ q_group q = [] /\
  q_aliases q = [{| al_type := COUNT; al_in := "?x"; al_out := "?n"; al_distinct := false; al_delim := "" |}] /\
  run_query env types no_blank q n res /\ sols res = [].
Proof.
  set (m := [("?x"%string, 0%nat)]). set (a := {| al_type := COUNT; al_in := "?x"; al_out := "?n"; al_distinct := false; al_delim := "" |}).
  exists (Query ["?n"%string] false [] [] [] [a]), (Node m 1 [] []), (Node [("?n"%string, 0%nat)] 1 [] []), no_env, []. split; [|split; [reflexivity|split; [reflexivity|split; [reflexivity|split]]]].
  - split; [constructor|]. apply columns_below. repeat constructor.
  - exists (Node [("?n"%string, 0%nat)] 1 [] []), (Node [("?n"%string, 0%nat)] 1 [] []), (Node [("?n"%string, 0%nat)] 1 [] []). split; [|repeat split].
    exists [], [0%nat], [], [], []. repeat split.
  - reflexivity.
Qed.

(* Example: SELECT DISTINCT ?n ?x ... GROUP BY ?x HAVING (?n < 4) ORDER BY DESC(?n). *)
Definition demo_query : query := Query ["?n"; "?x"]%string true [("?n"%string, true)] [fun s => s "?n"%string <? 4] ["?x"%string]
  [{| al_type := COUNT; al_in := "?y"; al_out := "?n"; al_distinct := false; al_delim := "" |}].
Definition demo_node : node := Node [("?x"%string, 1%nat); ("?y"%string, 0%nat)] 2 [] [[5; 2]; [6; 1]; [7; 2]; [5; 3]; [5; 3]; [5; 3]; [5; 3]].
Definition demo_result : node := Node [("?x"%string, 0%nat); ("?n"%string, 1%nat)] 2 [] [[2; 2]; [1; 1]].
Ltac sorted_now := repeat constructor; vm_compute; congruence.
Example C75_example : node_ok demo_node /\ run_query no_env [] no_blank demo_query demo_node demo_result /\ aggregates_supported [] demo_query demo_node /\
  Forall (select_ok (n_vars demo_result)) (q_select demo_query) /\ NoDup (q_group demo_query ++ map al_out (q_aliases demo_query)) /\
  ascending_first (q_order demo_query) = true /\
  exists vocab, answer no_env vocab (type_of_variable [] (n_vars demo_node)) demo_query (sols demo_node) (sols demo_result).
Proof.
  assert (Ok : node_ok demo_node).
  { split; [sorted_now|]. apply columns_below. repeat constructor. }
  assert (Rn : run_query no_env [] no_blank demo_query demo_node demo_result).
  { exists (Node (group_by_vars ["?x"%string] (q_aliases demo_query)) 2 [0%nat] [[1; 1]; [2; 2]; [3; 4]]),
      (Node (group_by_vars ["?x"%string] (q_aliases demo_query)) 2 [0%nat] [[1; 1]; [2; 2]]),
      (Node (group_by_vars ["?x"%string] (q_aliases demo_query)) 2 [1%nat; 0%nat] [[1; 1]; [2; 2]]).
    split; [|split; [|split]].
    - exists [1%nat], [0%nat], (sort_by (order_by_less [(1%nat, false); (0%nat, false)]) (n_rows demo_node)), [[1; 1]; [2; 2]; [3; 4]], []. split; [reflexivity|]. split; [reflexivity|].
      split; [apply sort_by_result, order_by_less_swo|]. split; reflexivity.
    - reflexivity.
    - exists [[1; 1]; [2; 2]], [[1; 1]; [2; 2]]. split; [|split; reflexivity]. split; [reflexivity|]. sorted_now.
    - exists [(1%nat, true)], [[2; 2]; [1; 1]]. split; [reflexivity|]. split; [|reflexivity]. split; [apply perm_swap|]. sorted_now. }
  assert (Sp : aggregates_supported [] demo_query demo_node) by (intros mid k _ _; constructor; [exact I|constructor]).
  assert (Se : Forall (select_ok (n_vars demo_result)) (q_select demo_query)) by (repeat constructor; left; split; reflexivity).
  assert (Nd : NoDup (q_group demo_query ++ map al_out (q_aliases demo_query))) by (repeat constructor; cbn; intuition discriminate).
  split; [exact Ok|]. split; [exact Rn|]. split; [exact Sp|]. split; [exact Se|]. split; [exact Nd|]. split; [reflexivity|].
  apply (C75_query_partial no_env [] no_blank demo_query demo_node demo_result); auto; discriminate.
Qed.

Print Assumptions C75_query_partial.
Print Assumptions C75_subquery_partial.
Print Assumptions C75_some_result.
Print Assumptions C75_nested_order_refuted.
Print Assumptions C75_nested_distinct_refuted.
Print Assumptions C75_two_conditions_refuted.
Print Assumptions C75_distinct_score_refuted.
Print Assumptions C75_count_nothing_refuted.
