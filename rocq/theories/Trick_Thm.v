(* Property theorems: the pattern trick (C74). *)
From Coq Require Import String List NArith Arith Bool Lia Permutation Sorted.
From Verif Require Import Table_Spec HasPred_Spec.
From Verif Require HasPred_Model Conv_Model Path_Proof2 Strings_Model Strings_Proof3.
From Verif Require Import Plan_Spec Plan_Model Group_Spec Group_Model Trick_Spec Trick_Model Trick_Proof3.
Import ListNotations.
Local Open Scope string_scope.
Local Open Scope list_scope.
Local Open Scope nat_scope.

(* Counting predicates with the patterns gives the counts of the query, when the subjects come from the rest of the query.
   Missing (partial): queries in which a subject occurs in several solutions of the rest, queries with several filters on
   the predicate or a HAVING clause, and queries outside the conditions; the statement is refuted for them below. *)
Theorem C74_counts_partial : forall voc kb ix U sat refuses order sort q es fs x o a q' s c,
  NoDup U -> (forall v, In v U -> is_var v = true) -> shows voc kb ix ->
  index_ok ix -> lists_distinct ix -> index_small ix -> (forall m, Permutation (order m) m) -> sorts sort ->
  q_where q = G es fs -> q_aliases q = [a] -> q_having q = [] -> is_var o = true ->
  checkUsePatternTrick q = Some ((x, HAS_PREDICATE, o), q') -> length (q_having q') <= 1 ->
  scope_group U is_var (q_where q') = Some s -> In x (fst s) -> In o U -> x <> o ->
  (forall es' fs', q_where q' = G es' fs' -> outside U is_var o es' = true /\ subject_first U is_var x es' ([], []) = true) ->
  NoDup (map (fun m => get U m x) (eval_group U (triple_bag U is_var voc kb) sat (q_where q'))) ->
  optimize U (triple_bag U is_var voc kb) sat refuses (q_where q') = Val (Some c) ->
  exists res, trick U (triple_bag U is_var voc kb) sat refuses voc ix order sort q = Some (Val res) /\
    counts_of U (eval_group U (triple_bag U is_var voc kb) sat (q_where q)) o (al_in a) res.
Proof.
  intros voc kb ix U sat refuses order sort q es fs x o a q' s c H1 H2 H3 H4 H5 H6 H7 H8.
  exact (counts_thm voc kb ix U sat refuses order sort H1 H2 H3 H4 H5 H6 H7 H8 q es fs x o a q' s c).
Qed.
(* The same when the query has nothing but the ql:has-predicate triple, with a variable for the subject. *)
Theorem C74_all_entities : forall voc kb ix U sat refuses order sort q es fs x o a q' es',
  NoDup U -> (forall v, In v U -> is_var v = true) -> shows voc kb ix ->
  index_ok ix -> lists_distinct ix -> (forall m, Permutation (order m) m) ->
  q_where q = G es fs -> q_aliases q = [a] -> q_having q = [] -> In x U -> In o U -> x <> o ->
  checkUsePatternTrick q = Some ((x, HAS_PREDICATE, o), q') -> length (q_having q') <= 1 ->
  q_where q' = G es' [] -> all_empty es' = true ->
  exists res, trick U (triple_bag U is_var voc kb) sat refuses voc ix order sort q = Some (Val res) /\
    counts_of U (eval_group U (triple_bag U is_var voc kb) sat (q_where q)) o (al_in a) res.
Proof.
  intros voc kb ix U sat refuses order sort q es fs x o a q' es' H1 H2 H3 H4 H5 H6.
  exact (all_thm voc kb ix U sat refuses order sort H1 H2 H3 H4 H5 H6 q es fs x o a q' es').
Qed.
(* The same for the predicates of one entity, known or unknown. *)
Theorem C74_entity : forall voc kb ix U sat refuses order sort q es fs x o a q' es',
  NoDup U -> (forall v, In v U -> is_var v = true) -> shows voc kb ix ->
  index_ok ix -> lists_distinct ix -> index_small ix -> (forall m, Permutation (order m) m) ->
  q_where q = G es fs -> q_aliases q = [a] -> q_having q = [] -> is_var x = false -> In o U -> al_in a = o ->
  checkUsePatternTrick q = Some ((x, HAS_PREDICATE, o), q') -> length (q_having q') <= 1 ->
  q_where q' = G es' [] -> all_empty es' = true ->
  exists res, trick U (triple_bag U is_var voc kb) sat refuses voc ix order sort q = Some (Val res) /\
    counts_of U (eval_group U (triple_bag U is_var voc kb) sat (q_where q)) o (al_in a) res.
Proof.
  intros voc kb ix U sat refuses order sort q es fs x o a q' es' H1 H2 H3 H4 H5 H6 H7.
  exact (entity_thm voc kb ix U sat refuses order sort H1 H2 H3 H4 H5 H6 H7 q es fs x o a q' es').
Qed.

(* The patterns are used only for queries with one group variable and, if anything is computed at all, a COUNT without DISTINCT. *)
Theorem C74_plain_count : forall q t q', checkUsePatternTrick q = Some (t, q') ->
  length (q_group q) = 1 /\ length (q_aliases q) <= 1 /\
  forall a, In a (q_aliases q) -> al_aggregate a = true /\ plain_count (al_function a).
Proof.
  intros q t q' H. unfold checkUsePatternTrick in H. destruct (q_where q) as [es fs].
  destruct (negb (Nat.eqb (length (q_group q)) 1) || (1 <? length (q_aliases q))) eqn:E1; [discriminate|].
  apply orb_false_iff in E1. destruct E1 as [E1 E2]. apply negb_false_iff, Nat.eqb_eq in E1. apply Nat.ltb_ge in E2.
  destruct (forallb counting (q_aliases q)) eqn:E3; [|discriminate]. split; auto. split; auto. intros a Ha.
  rewrite forallb_forall in E3. specialize (E3 a Ha). unfold counting in E3. cbv zeta in E3.
  apply andb_prop in E3. destruct E3 as [E3 E5]. apply andb_prop in E3. destruct E3 as [E3 E4]. split; auto. split.
  - apply Strings_Proof3.startsWith_iff in E5. exact E5.
  - intros [x [y Q]]. destruct (Strings_Model.find_str _ _) eqn:F in E4; [discriminate|].
    apply (Strings_Proof3.find_str_none _ _ F (length x)). exists x, y. split; auto.
Qed.

(* ---------- a small index ---------- *)
Definition x_ix : pattern_index := {| hasPattern := [0; 1; NO_PATTERN]; hasPredicate := [[]; []; [8]]; patterns := [[6; 7]; [7]] |}%N.
Definition x_kb : graph := [(0, 20, 6); (0, 20, 7); (1, 20, 7); (2, 20, 8); (0, 5, 30); (1, 5, 30); (1, 5, 31)]%N.
Definition x_voc (t : string) : option N :=
  if String.eqb t HAS_PREDICATE then Some 20%N else if String.eqb t "<p>" then Some 5%N else if String.eqb t "<c>" then Some 30%N
  else if String.eqb t "<a>" then Some 0%N else None.
Definition x_U : list string := ["?x"; "?p"; "?y"; "?z"].
(* filter i: the variable has value i *)
Definition x_sat (f : gfilter) (l : list (option N)) : bool := match l with Some x :: _ => N.eqb x (N.of_nat (gf_id f)) | _ => false end.
Definition x_order (m : HasPred_Model.counts) : HasPred_Model.counts := rev m.
(* insertion sort *)
Fixpoint insert (r : row) (t : table) : table :=
  match t with [] => [r] | r' :: t' => if N.leb (col 0 r) (col 0 r') then r :: t else r' :: insert r t' end.
Definition x_sort (t : table) : table := fold_right insert [] t.
Notation bag := (triple_bag x_U is_var x_voc x_kb).
Notation run := (trick x_U bag x_sat (fun _ => false) x_voc x_ix x_order x_sort).
Definition count_alias (v : string) : alias := Al true (Conv_Model.bytes "COUNT(?v)") v "?count".
Definition counting_query (v : string) (es : elements) (fs : list gfilter) : aquery :=
  AQ ["?p"] [count_alias v] ["?p"; "?count"] [] (G es fs).
Definition hp_triple : pattern := ("?x", HAS_PREDICATE, "?p").

Lemma x_shows : shows x_voc x_kb x_ix.
Proof.
  exists 20%N. split; [reflexivity|]. split; [repeat constructor; cbn; intuition congruence|]. intros i p.
  destruct (N.lt_ge_cases i 3) as [H|H].
  - assert (E0 : predicates_of x_ix 0 = [6; 7]%N) by reflexivity. assert (E1 : predicates_of x_ix 1 = [7]%N) by reflexivity.
    assert (E2 : predicates_of x_ix 2 = [8]%N) by reflexivity.
    assert (i = 0 \/ i = 1 \/ i = 2)%N as [Hi|[Hi|Hi]] by lia; subst i; rewrite ?E0, ?E1, ?E2; cbn; split; intros X;
      repeat (destruct X as [X|X]; [first [discriminate X|injection X as <-; tauto|subst p; tauto]|]); destruct X.
  - assert (E : predicates_of x_ix i = []).
    { unfold predicates_of. cbn [x_ix hasPattern hasPredicate]. assert (K : (3 <= N.to_nat i)%nat) by lia.
      destruct (nth_error [0%N; 1%N; NO_PATTERN] (N.to_nat i)) eqn:E.
      - assert (Z : N.to_nat i < length [0%N; 1%N; NO_PATTERN]) by (apply nth_error_Some; congruence). cbn in Z. lia.
      - apply nth_overflow. cbn. lia. }
    rewrite E. split; [|intros []]. cbn. intros X. repeat (destruct X as [X|X]; [injection X; intros; subst; lia|]). destruct X.
Qed.
Lemma x_ix_ok : index_ok x_ix /\ lists_distinct x_ix /\ index_small x_ix.
Proof.
  split; [|split].
  - unfold index_ok. cbn. repeat constructor; auto; right; reflexivity.
  - split; cbn; repeat constructor; cbn; intuition congruence.
  - split; cbn; intros H; discriminate H.
Qed.
Lemma x_order_ok m : Permutation (x_order m) m.
Proof. symmetry. apply Permutation_rev. Qed.
Lemma insert_perm r t : Permutation (insert r t) (r :: t).
Proof. induction t as [|r' t IH]; cbn; auto. destruct (N.leb (col 0 r) (col 0 r')); auto. rewrite IH. apply perm_swap. Qed.
Lemma insert_sorted r t : StronglySorted (fun a b => (col 0 a <= col 0 b)%N) t -> StronglySorted (fun a b => (col 0 a <= col 0 b)%N) (insert r t).
Proof.
  induction 1 as [|r' t Ht IH Hf]; cbn; [repeat constructor|]. destruct (N.leb_spec (col 0 r) (col 0 r')) as [H|H].
  - constructor; [now constructor|]. constructor; auto. eapply Forall_impl; [|exact Hf]. cbv beta. intros; lia.
  - constructor; auto. apply Forall_forall. intros y Hy. rewrite insert_perm in Hy. rewrite Forall_forall in Hf. destruct Hy as [<-|Hy]; [lia|auto].
Qed.
Lemma x_sort_ok : sorts x_sort.
Proof.
  intros t. split.
  - unfold x_sort. induction t as [|r t IH]; cbn; auto. rewrite insert_perm. auto.
  - apply Path_Proof2.strong_sorted_on. unfold x_sort. induction t as [|r t IH]; cbn; [constructor|]. now apply insert_sorted.
Qed.
Lemma x_U_ok : NoDup x_U /\ forall v, In v x_U -> is_var v = true.
Proof.
  split; [repeat constructor; cbn; intuition discriminate|]. intros v H. repeat (destruct H as [<-|H]; [reflexivity|]). destruct H.
Qed.

(* ---------- what the conditions exclude ---------- *)
Definition wrong (q : aquery) (v : string) : Prop :=
  exists res, run q = Some (Val res) /\ ~ counts_of x_U (eval_group x_U bag x_sat (q_where q)) "?p" v res.
Lemma wrong_missing q v p : (match run q with
   | Some (Val res) => let sols := eval_group x_U bag x_sat (q_where q) in
       negb (match group_rows x_U sols "?p" p with [] => true | _ => false end) &&
       negb (existsb (fun r => if list_eq_dec N.eq_dec r [p; N.of_nat (count_of x_U sols "?p" v p)] then true else false) res)
   | _ => false end) = true -> wrong q v.
Proof.
  unfold wrong. destruct (run q) as [[res| | |]|]; try discriminate. intros H. exists res. split; auto. intros (_ & _ & C).
  cbv zeta in H. apply andb_true_iff in H. destruct H as [H1 H2]. apply negb_true_iff in H1, H2.
  assert (X : In [p; N.of_nat (count_of x_U (eval_group x_U bag x_sat (q_where q)) "?p" v p)] res).
  { apply C. split; auto. intros E. rewrite E in H1. discriminate. }
  assert (Y : existsb (fun r => if list_eq_dec N.eq_dec r [p; N.of_nat (count_of x_U (eval_group x_U bag x_sat (q_where q)) "?p" v p)] then true else false) res = true).
  { apply existsb_exists. eexists. split; [exact X|]. destruct (list_eq_dec _ _ _); congruence. }
  congruence.
Qed.
Lemma wrong_extra q v p n : (match run q with
   | Some (Val res) => (match group_rows x_U (eval_group x_U bag x_sat (q_where q)) "?p" p with [] => true | _ => false end) &&
       existsb (fun r => if list_eq_dec N.eq_dec r [p; n] then true else false) res
   | _ => false end) = true -> wrong q v.
Proof.
  unfold wrong. destruct (run q) as [[res| | |]|]; try discriminate. intros H. exists res. split; auto. intros (_ & _ & C).
  apply andb_true_iff in H. destruct H as [H1 H2]. apply existsb_exists in H2. destruct H2 as (r & Hr & E). destruct (list_eq_dec N.eq_dec r [p; n]); [|discriminate].
  subst r. apply C in Hr. destruct Hr as [Hr _]. destruct (group_rows _ _ _ _); [auto|discriminate].
Qed.

(* COUNT without DISTINCT counts every subject once per predicate, however many solutions of the rest have it: for `?x <p> ?y . ?x ql:has-predicate ?p` the code counts 2 where the query has 3 solutions (QueryPlanner.cpp:458-467 turns down only DISTINCT; CountAvailablePredicates.cpp:228-294). *)
Theorem C74_multiplicity_refuted : wrong (counting_query "?x" (Triples [("?x", "<p>", "?y"); hp_triple] ;; Nil) []) "?x".
Proof. apply (wrong_missing _ _ 7%N). vm_compute. reflexivity. Qed.
(* VALUES for the predicate are ignored: the check does not look at VALUES at the top of the query, and ?p has values that VALUES does not list (QueryPlanner.cpp:547-590). *)
Theorem C74_values_refuted :
  wrong (counting_query "?x" (Triples [hp_triple] ;; Triples [("?x", "<p>", "<c>")] ;; Inline ["?p"] [[None; Some 6%N; None; None]] ;; Nil) []) "?x".
Proof. apply (wrong_extra _ _ 7%N 2%N). vm_compute. reflexivity. Qed.
(* MINUS with the predicate variable is not looked at either: `MINUS { ?x ql:has-predicate ?p FILTER(...) }` then removes all predicates of a subject, not just the one (QueryPlanner.cpp:547-590). *)
Theorem C74_minus_refuted :
  wrong (counting_query "?x" (Triples [("?x", "<p>", "<c>"); hp_triple] ;; Minus (G (Triples [hp_triple] ;; Nil) [GF 7 ["?p"]]) ;; Nil) []) "?x".
Proof. apply (wrong_missing _ _ 6%N). vm_compute. reflexivity. Qed.
(* When the triple was the only part before an OPTIONAL, the OPTIONAL becomes a required pattern: subjects without a match are not counted. *)
Theorem C74_optional_refuted :
  wrong (counting_query "?x" (Triples [hp_triple] ;; Optional (G (Triples [("?x", "<p>", "<c>")] ;; Nil) []) ;; Nil) []) "?x".
Proof. apply (wrong_missing _ _ 8%N). vm_compute. reflexivity. Qed.
(* Of several filters on the predicate only the last one is applied: they become HAVING clauses, and each is applied to the unfiltered result (QueryPlanner.cpp:976-986). *)
Theorem C74_two_filters_refuted :
  wrong (counting_query "?x" (Triples [("?x", "<p>", "<c>"); hp_triple] ;; Nil) [GF 6 ["?p"]; GF 7 ["?p"]]) "?x".
Proof. apply (wrong_extra _ _ 7%N 2%N). vm_compute. reflexivity. Qed.
(* `SELECT ?p WHERE { ?x <p> ?y . ?x ql:has-predicate ?p } GROUP BY ?p` has no alias: the code reads the first element of an empty vector, which is undefined (QueryPlanner.cpp:931). *)
Theorem C74_no_alias_refuted :
  run (AQ ["?p"] [] ["?p"] [] (G (Triples [("?x", "<p>", "?y"); hp_triple] ;; Nil) [])) = Some Undef.
Proof. vm_compute. reflexivity. Qed.
(* A query whose other parts do not contain the subject is refused, although it has solutions (QueryPlanner.cpp:900-910). *)
Theorem C74_unrelated_refuted :
  run (counting_query "?x" (Triples [hp_triple; ("?z", "<p>", "?y")] ;; Nil) []) = Some Throw /\
  eval_group x_U bag x_sat (G (Triples [hp_triple; ("?z", "<p>", "?y")] ;; Nil) []) <> [].
Proof. split; vm_compute; [reflexivity|discriminate]. Qed.

(* ---------- examples ---------- *)
(* the rest has a triple, an OPTIONAL and a MINUS; one filter on the predicate *)
Definition e_rest : elements :=
  Optional (G (Triples [("?x", "<none>", "?y")] ;; Nil) []) ;; Minus (G (Triples [("?x", HAS_PREDICATE, "?z")] ;; Nil) [GF 6 ["?z"]]) ;; Nil.
Definition e_query : aquery := counting_query "?x" (Triples [("?x", "<p>", "<c>"); hp_triple] ;; e_rest) [GF 7 ["?p"]].
Example C74_counts_example : exists q' s c,
  NoDup x_U /\ (forall v, In v x_U -> is_var v = true) /\ shows x_voc x_kb x_ix /\ index_ok x_ix /\ lists_distinct x_ix /\ index_small x_ix /\
  (forall m, Permutation (x_order m) m) /\ sorts x_sort /\
  checkUsePatternTrick e_query = Some (hp_triple, q') /\ length (q_having q') = 1 /\
  scope_group x_U is_var (q_where q') = Some s /\ In "?x" (fst s) /\
  (forall es' fs', q_where q' = G es' fs' -> outside x_U is_var "?p" es' = true /\ subject_first x_U is_var "?x" es' ([], []) = true) /\
  NoDup (map (fun m => get x_U m "?x") (eval_group x_U bag x_sat (q_where q'))) /\
  optimize x_U bag x_sat (fun _ => false) (q_where q') = Val (Some c) /\
  run e_query = Some (Val [[7; 1]])%N.
Proof.
  destruct x_U_ok as [U1 U2], x_ix_ok as (I1 & I2 & I3). eexists. eexists. eexists.
  split; [exact U1|]. split; [exact U2|]. split; [exact x_shows|]. split; [exact I1|]. split; [exact I2|]. split; [exact I3|].
  split; [exact x_order_ok|]. split; [exact x_sort_ok|]. split; [vm_compute; reflexivity|]. split; [reflexivity|].
  split; [vm_compute; reflexivity|]. split; [left; reflexivity|]. split; [intros es' fs' E; injection E as <- <-; split; vm_compute; reflexivity|].
  split; [vm_compute; repeat constructor; cbn; intuition congruence|]. split; vm_compute; reflexivity.
Qed.
Example C74_all_entities_example : exists q',
  checkUsePatternTrick (counting_query "?p" (Triples [hp_triple] ;; Nil) []) = Some (hp_triple, q') /\ q_having q' = [] /\
  q_where q' = G (Triples [] ;; Nil) [] /\
  run (counting_query "?p" (Triples [hp_triple] ;; Nil) []) = Some (Val [[6; 1]; [7; 2]; [8; 1]])%N.
Proof. eexists. split; [vm_compute; reflexivity|]. split; [reflexivity|]. split; [reflexivity|vm_compute; reflexivity]. Qed.
Example C74_entity_example : exists q',
  let q := counting_query "?p" (Triples [("<a>", HAS_PREDICATE, "?p")] ;; Nil) [] in
  checkUsePatternTrick q = Some (("<a>", HAS_PREDICATE, "?p"), q') /\ q_having q' = [] /\
  q_where q' = G (Triples [] ;; Nil) [] /\ run q = Some (Val [[7; 1]; [6; 1]])%N.
Proof. eexists. split; [vm_compute; reflexivity|]. split; [reflexivity|]. split; [reflexivity|vm_compute; reflexivity]. Qed.

Print Assumptions C74_counts_partial.
Print Assumptions C74_all_entities.
Print Assumptions C74_entity.
Print Assumptions C74_plain_count.
Print Assumptions C74_multiplicity_refuted.
Print Assumptions C74_values_refuted.
Print Assumptions C74_minus_refuted.
Print Assumptions C74_optional_refuted.
Print Assumptions C74_two_filters_refuted.
Print Assumptions C74_no_alias_refuted.
Print Assumptions C74_unrelated_refuted.
