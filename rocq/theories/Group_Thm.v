(* Property theorems: planning of group graph patterns (C73). *)
From Coq Require Import String List NArith Arith Bool Lia Permutation.
From Verif Require Import Table_Spec Plan_Spec Plan_Model Plan_Proof1 Plan_Proof5 Group_Spec Group_Model Group_Proof Group_Proof2.
Import ListNotations.
Local Open Scope string_scope.
Local Open Scope list_scope.
Local Open Scope nat_scope.

(* The triple patterns are answered from the graph kb: the solutions below are the rows that C62 proves for a triple. *)
Theorem C73_triples : forall voc kb U s p o,
  NoDup U -> (forall v, In v U -> is_var v = true) -> (forall v, In v (pattern_vars is_var (s, p, o)) -> In v U) ->
  triple_bag U is_var voc kb (s, p, o) = tbag voc kb U (T s p o).
Proof. intros. now apply tbag_triple. Qed.

(* The plan of a group gives the solutions of the group, with their multiplicities. Missing (partial): groups outside
   `scope_group`, for which the statement is refuted below. *)
Theorem C73_group_partial : forall voc kb U sat refuses g s c,
  NoDup U -> scope_group U is_var g = Some s ->
  optimize U (triple_bag U is_var voc kb) sat refuses g = Val (Some c) ->
  Permutation (c_rows c) (eval_group U (triple_bag U is_var voc kb) sat g) /\
  forall v, In v (c_vars c) <-> In v (snd s).
Proof.
  intros voc kb U sat refuses g s c HU Es E.
  destruct (proj1 (proj2 (proj2 (planner_ok U (triple_bag U is_var voc kb) sat refuses HU (triple_bag_dom U HU voc kb)))) g s c Es E) as [V P].
  split; auto.
Qed.
(* The same for a query: after the projection to the selected variables. *)
Theorem C73_query_partial : forall voc kb U sat refuses select distinct offset limit g s c,
  NoDup U -> scope_group U is_var g = Some s ->
  create_tree U (triple_bag U is_var voc kb) sat refuses (Q select distinct offset limit g) = Val c ->
  Permutation (project U select (c_rows c)) (eval_query U (triple_bag U is_var voc kb) sat (Q select distinct 0 None g)).
Proof. intros voc kb U sat refuses sel d off lim g s c HU. apply query_ok; auto. apply triple_bag_dom; auto. Qed.

(* ---------- what the conditions exclude ---------- *)
Definition x_voc (t : string) : option N :=
  if String.eqb t "<p>" then Some 1%N else if String.eqb t "<q>" then Some 2%N else if String.eqb t "<r>" then Some 3%N
  else if String.eqb t "<a>" then Some 11%N else None.
Definition x_kb : graph := [(11, 1, 12); (11, 1, 13); (12, 2, 11); (13, 2, 14); (11, 3, 12)]%N.
Definition x_U : list string := ["?x"; "?y"; "?z"].
(* filter i: the first variable has value i *)
Definition x_sat (f : gfilter) (l : list (option N)) : bool :=
  match l with Some x :: _ => N.eqb x (N.of_nat (gf_id f)) | _ => false end.
Definition no_filters (es : elements) : group := G es [].
Definition one (t : pattern) : group := no_filters (Triples [t] ;; Nil).
Notation bag := (triple_bag x_U is_var x_voc x_kb).
Definition planned (g : group) : list mapping :=
  match optimize x_U bag x_sat (fun _ => false) g with Val (Some c) => c_rows c | _ => [] end.
Definition expected (g : group) : list mapping := eval_group x_U bag x_sat g.
Definition wrong (g : group) : Prop :=
  exists c, optimize x_U bag x_sat (fun _ => false) g = Val (Some c) /\ ~ Permutation (c_rows c) (expected g).
Lemma wrong_length g : (match optimize x_U bag x_sat (fun _ => false) g with
   | Val (Some c) => negb (Nat.eqb (length (c_rows c)) (length (expected g))) | _ => false end) = true -> wrong g.
Proof.
  unfold wrong. destruct (optimize _ _ _ _ g) as [[c|]| | |]; try discriminate. intros H. exists c. split; auto. intros P.
  apply Permutation_length in P. rewrite P, Nat.eqb_refl in H. discriminate.
Qed.

(* An OPTIONAL whose variables are all new is planned as a required pattern, also when it comes first: if it has no solutions, `{ OPTIONAL { A } B }` loses the solutions of B (QueryPlanner.cpp:215-229). *)
Theorem C73_optional_first_refuted : wrong (no_filters (Optional (one ("?x", "<none>", "?z")) ;; Triples [("?x", "<p>", "?y")] ;; Nil)).
Proof. apply wrong_length. vm_compute. reflexivity. Qed.
(* In a group that is nothing but a nested group with filters, `{ { A FILTER f } FILTER g }`, the outer filters are not applied: the plan of the nested group is taken over together with its mask of applied filters (QueryPlanner.cpp:424, 2189). *)
Theorem C73_nested_filter_refuted :
  wrong (G (Group (G (Triples [("?x", "<p>", "?y")] ;; Nil) [GF 11 ["?x"]]) ;; Nil) [GF 12 ["?y"]]).
Proof. apply wrong_length. vm_compute. reflexivity. Qed.
(* A filter inside OPTIONAL on a variable that occurs only outside of it is ignored (QueryPlanner.cpp:2192-2199). *)
Theorem C73_optional_filter_refuted :
  wrong (no_filters (Triples [("?x", "<r>", "?z")] ;; Optional (G (Triples [("?x", "<p>", "?y")] ;; Nil) [GF 99 ["?z"]]) ;; Nil)).
Proof. apply wrong_length. vm_compute. reflexivity. Qed.
(* A variable that an OPTIONAL leaves unbound is compared like a value in a later join: the solutions without a value for it are lost. *)
Theorem C73_unbound_join_refuted :
  wrong (no_filters (Triples [("?x", "<p>", "?y")] ;; Optional (one ("?y", "<none>", "?z")) ;; 
                     Triples [("?x", "<r>", "?z")] ;; Nil)).
Proof. apply wrong_length. vm_compute. reflexivity. Qed.
(* LIMIT and OFFSET of a subquery are ignored: the planner does not read them (QueryPlanner.cpp:37-104). *)
Theorem C73_subquery_limit_refuted :
  wrong (no_filters (Subquery (Q ["?x"; "?y"] false 0 (Some 1) (one ("?x", "<p>", "?y"))) ;; Nil)).
Proof. apply wrong_length. vm_compute. reflexivity. Qed.
(* A variable that a subquery does not select is visible outside: a variable of the same name in the outer pattern is joined with it (QueryPlanner.cpp:37-104 returns the tree with all variables). *)
Theorem C73_subquery_projection_refuted :
  wrong (no_filters (Subquery (Q ["?x"] false 0 None (one ("?x", "<p>", "?y"))) ;; Triples [("?x", "<r>", "?y")] ;; Nil)).
Proof. apply wrong_length. vm_compute. reflexivity. Qed.

(* ---------- examples ---------- *)
(* all elements together: a join, OPTIONAL with a filter, BIND, UNION, VALUES, MINUS, a DISTINCT subquery and a filter *)
Definition e_U : list string := ["?x"; "?y"; "?z"; "?b"; "?u"; "?v"].
Definition e_kb : graph := [(11, 1, 12); (11, 1, 13); (11, 1, 14); (12, 2, 21); (13, 2, 22); (14, 3, 21); (21, 4, 5); (22, 4, 6); (21, 5, 7)]%N.
Definition e_voc (t : string) : option N :=
  if String.eqb t "<p>" then Some 1%N else if String.eqb t "<q>" then Some 2%N else if String.eqb t "<r>" then Some 3%N
  else if String.eqb t "<s>" then Some 4%N else if String.eqb t "<t>" then Some 5%N else None.
Definition e_group : group :=
  G (Triples [("?x", "<p>", "?y")] ;;
     Optional (G (Triples [("?y", "<q>", "?z")] ;; Nil) [GF 21 ["?z"]]) ;;
     Bind "?b" ["?z"] (fun l => match l with [Some z] => z + 100 | _ => 0 end)%N ;;
     Union (one ("?y", "<q>", "?u")) (one ("?y", "<r>", "?u")) ;;
     Group (G (Triples [("?u", "<s>", "?v")] ;; Nil) [GF 5 ["?v"]]) ;;
     Inline ["?x"] [[Some 11; None; None; None; None; None]]%N ;;
     Subquery (Q ["?x"; "?y"] true 0 None (one ("?x", "<p>", "?y"))) ;;
     Minus (one ("?u", "<t>", "?y")) ;; Nil)
    [GF 12 ["?y"]].
Example C73_group_example : exists s c,
  NoDup e_U /\ scope_group e_U is_var e_group = Some s /\
  optimize e_U (triple_bag e_U is_var e_voc e_kb) x_sat (fun _ => false) e_group = Val (Some c) /\
  c_rows c = [[Some 11; Some 12; Some 21; Some 121; Some 21; Some 5]]%N.
Proof. eexists. eexists. split; [repeat constructor; cbn; intuition discriminate|]. split; [vm_compute; reflexivity|]. split; vm_compute; reflexivity. Qed.
Example C73_optional_example : exists s c,
  let g := no_filters (Triples [("?x", "<p>", "?y")] ;; Optional (one ("?y", "<q>", "?z")) ;; Nil) in
  scope_group e_U is_var g = Some s /\
  optimize e_U (triple_bag e_U is_var e_voc e_kb) x_sat (fun _ => false) g = Val (Some c) /\
  c_rows c = [[Some 11; Some 12; Some 21; None; None; None]; [Some 11; Some 13; Some 22; None; None; None]; [Some 11; Some 14; None; None; None; None]]%N.
Proof. eexists. eexists. split; [vm_compute; reflexivity|]. split; vm_compute; reflexivity. Qed.
Example C73_query_example : exists s c,
  let g := one ("?x", "<p>", "?y") in
  scope_group e_U is_var g = Some s /\
  create_tree e_U (triple_bag e_U is_var e_voc e_kb) x_sat (fun _ => false) (Q ["?x"] true 0 None g) = Val c /\
  project e_U ["?x"] (c_rows c) = [[Some 11; None; None; None; None; None]]%N.
Proof. eexists. eexists. split; [vm_compute; reflexivity|]. split; vm_compute; reflexivity. Qed.
Example C73_triples_example : NoDup e_U /\ (forall v, In v e_U -> is_var v = true) /\
  triple_bag e_U is_var e_voc e_kb ("?x", "<q>", "?y") =
    [[Some 12; Some 21; None; None; None; None]; [Some 13; Some 22; None; None; None; None]]%N.
Proof.
  split; [repeat constructor; cbn; intuition discriminate|]. split; [|reflexivity]. intros v H.
  repeat (destruct H as [<-|H]; [reflexivity|]). destruct H.
Qed.

Print Assumptions C73_triples.
Print Assumptions C73_group_partial.
Print Assumptions C73_query_partial.
Print Assumptions C73_optional_first_refuted.
Print Assumptions C73_nested_filter_refuted.
Print Assumptions C73_optional_filter_refuted.
Print Assumptions C73_unbound_join_refuted.
Print Assumptions C73_subquery_limit_refuted.
Print Assumptions C73_subquery_projection_refuted.
