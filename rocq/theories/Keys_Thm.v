(* C38: equal cache keys mean equal results. *)
From Coq Require Import Ascii String List NArith Bool Lia.
From Verif Require Import Conv_Model Table_Spec Keys_Model Keys_Spec Keys_Proof Keys_Proof3 Keys_Proof4 Keys_Proof5
  Keys_Proof6 Keys_Engine.
From Verif Require HasPred_Spec.
Import ListNotations.
Open Scope N_scope.

(* Operations with the same key compute the same result, whatever the operations compute, if the
   texts in them do not imitate the punctuation and what the keys leave out agrees. *)
Theorem C38_same_result : forall o1 o2, texts_ok o1 -> texts_ok o2 ->
  cache_key o1 = cache_key o2 -> hidden o1 = hidden o2 ->
  forall R (A : algebra R), eval A o1 = eval A o2.
Proof. intros o1 o2 H1 H2 HK HH R A. now apply (keys_alike o1 o2 H1 H2 HK). Qed.

(* Scans, joins, sorts, text operations, BIND, VALUES and predicate counts leave nothing out. *)
Theorem C38_complete : forall o1 o2, texts_ok o1 -> texts_ok o2 -> complete o1 -> complete o2 ->
  cache_key o1 = cache_key o2 ->
  forall R (A : algebra R), eval A o1 = eval A o2.
Proof.
  intros o1 o2 H1 H2 C1 C2 HK. destruct (keys_alike o1 o2 H1 H2 HK) as [S V].
  apply V. destruct complete_no_hidden as [C _]. now rewrite (C o1 C1), (C o2 C2).
Qed.

(* Every answer through the cache, for any history of requests and evictions, is the result of the
   operation itself, when this holds for the operations that occur. *)
Theorem C38_cached : forall R (A : algebra R) (es : list event),
  (forall q o, In q (requested es) -> In o (parts q) -> texts_ok o) ->
  (forall q1 q2 o1 o2, In q1 (requested es) -> In q2 (requested es) -> In o1 (parts q1) -> In o2 (parts q2) ->
     cache_key o1 = cache_key o2 -> hidden o1 = hidden o2) ->
  answers A [] es = map (eval A) (requested es).
Proof.
  intros R A es HT HH.
  apply (answers_ok A (fun o => exists q, In q (requested es) /\ In o (parts q))).
  - intros o1 o2 (q1 & Q1 & P1) (q2 & Q2 & P2) HK. apply C38_same_result; eauto.
  - constructor.
  - intros o Ho. apply Forall_forall. intros p Hp. eauto.
Qed.

(* Whatever the operations are: the cache never fails to answer, and a request right after another
   one for the same operation, without an eviction, gives the same answer. *)
Theorem C38_repeated : forall R (A : algebra R) c o,
  let (v, c') := getResult A c o in getResult A c' o = (v, c').
Proof.
  intros R A c o.
  assert (T : forall f, let (v, c') := through c o f in through c' o f = (v, c')).
  { intros f. unfold through. destruct (cache_find c (cache_key o)) as [v|] eqn:E; [now rewrite E|].
    destruct (f c) as [v c'] eqn:Ef. cbn [cache_find]. now rewrite text_eqb_refl. }
  assert (T' : forall f g, let (v, c') := through c o f in through c' o g = (v, c')).
  { intros f g. unfold through. destruct (cache_find c (cache_key o)) as [v|] eqn:E; [now rewrite E|].
    destruct (f c) as [v c'] eqn:Ef. cbn [cache_find]. now rewrite text_eqb_refl. }
  destruct o; cbn [getResult]; apply T'.
Qed.

(* The lookup of a whole tree (readFromCache) never finds anything: results are stored under the
   texts of operations. *)
Theorem C38_tree_lookup : forall R (c : cache R) t, tree_ok t ->
  (forall k v, In (k, v) c -> exists o, texts_ok o /\ k = cache_key o) ->
  readFromCache c t = None.
Proof.
  intros R c t Ht Hc. unfold readFromCache. destruct (cache_find c (treeString 0 t)) as [v|] eqn:E; [|reflexivity].
  apply cache_find_ok in E. apply Hc in E as (o & Ho & E). exfalso. revert E. now apply tree_text_no_key.
Qed.

(* ---- examples ---- *)

Definition w_p := bytes "<p>".
Definition w_q := bytes "<q>".
Definition v_x := bytes "?x".
Definition v_y := bytes "?y".
Definition v_a := bytes "?a".

Definition kb (ty : scan_type) (args : list text) : table :=
  match args with
  | [p] => if text_eqb p w_p then [[1; 2]; [1; 3]; [3; 1]] else if text_eqb p w_q then [[1; 2]; [2; 5]; [3; 9]] else []
  | [p; o] => if text_eqb p w_p && text_eqb o (bytes "<o>") then [[1]; [2]; [4]]
              else if text_eqb o (bytes "c") then [[4]] else [[2]; [4]]
  | _ => []
  end.
Definition ix : HasPred_Spec.pattern_index :=
  {| HasPred_Spec.hasPattern := []; HasPred_Spec.hasPredicate := [[]; [7]; [8]; [9; 7]]; HasPred_Spec.patterns := [] |}.
Definition vocabulary (w : text) : option N :=
  if text_eqb w ([34] ++ bytes "a" ++ [34]) then Some 10
  else if text_eqb w ([34] ++ bytes "b" ++ [34]) then Some 11
  else None.
Definition spelling (x : N) : text :=
  if x =? 2 then bytes "BANANA" else if x =? 3 then bytes "melon" else bytes "ignoring case a".
Definition E := engine kb ix vocabulary spelling.

Definition scan_p (m : vars) : tree := Tree (Scan PSO_FREE_S v_x w_p v_y) 2 m.
Definition scan_q (m : vars) : tree := Tree (Scan PSO_FREE_S v_x w_q v_y) 2 m.
Definition xy : vars := [(v_x, 0); (v_y, 1)].
Definition ax : vars := [(v_a, 0); (v_x, 1)].
Definition xa : vars := [(v_x, 0); (v_a, 1)].

Ltac check_texts :=
  repeat match goal with |- _ /\ _ => split | |- Forall _ [] => constructor | |- Forall _ (_ :: _) => constructor end;
  try exact I; try reflexivity; try discriminate;
  try (intros H; cbn in H; repeat (destruct H as [H|H]; [discriminate H|]); contradiction);
  try (intros (?r & H); discriminate H);
  try (split; [reflexivity|split; discriminate]).

(* A filter over a join with a renamed variable: same key, same result. *)
Definition query (a b c : text) : op :=
  Filter (Tree (Join (scan_p [(a, 0); (b, 1)]) (scan_q [(b, 0); (c, 1)]) 1 0) 3 [(a, 0); (b, 1); (v_x, 2)])
    v_x GT (bytes "<o>") false false [].
Example C38_same_result_example :
  texts_ok (query v_a v_y v_x) /\ texts_ok (query (bytes "?u") (bytes "?v") (bytes "?w")) /\
  query v_a v_y v_x <> query (bytes "?u") (bytes "?v") (bytes "?w") /\
  cache_key (query v_a v_y v_x) = cache_key (query (bytes "?u") (bytes "?v") (bytes "?w")) /\
  hidden (query v_a v_y v_x) = hidden (query (bytes "?u") (bytes "?v") (bytes "?w")).
Proof.
  split; [cbn; check_texts|]. split; [cbn; check_texts|]. split; [discriminate|].
  split; [vm_compute; reflexivity|]. vm_compute. reflexivity.
Qed.

Definition rename (m : vars) : op := Bind (Tree (Sort (scan_p m) 1) 2 m) (Rename v_x) v_y.
Example C38_complete_example :
  texts_ok (rename ax) /\ complete (rename ax) /\ cache_key (rename ax) = cache_key (rename ((v_a, 7) :: ax)) /\
  eval E (rename ax) = Some [[3; 1; 1]; [1; 2; 2]; [1; 3; 3]].
Proof.
  split; [cbn; check_texts|]. split; [exact I|].
  split; [vm_compute; reflexivity|]. vm_compute. reflexivity.
Qed.

Definition history : list event :=
  [Request (rename ax); Request (Sort (scan_p xy) 1); Evict (cache_key (Sort (scan_p xy) 1)); Request (Sort (scan_p xa) 1)].
Example C38_cached_example :
  (forall q o, In q (requested history) -> In o (parts q) -> texts_ok o) /\
  (forall q1 q2 o1 o2, In q1 (requested history) -> In q2 (requested history) -> In o1 (parts q1) -> In o2 (parts q2) ->
     cache_key o1 = cache_key o2 -> hidden o1 = hidden o2) /\
  map (@length (list N)) (map (fun r => match r with Some t => t | None => [] end) (answers E [] history)) = [3%nat; 3%nat; 3%nat].
Proof.
  split; [|split].
  - intros q o Hq Ho. cbn in Hq. destruct Hq as [<-|[<-|[<-|[]]]]; cbn in Ho;
      repeat (destruct Ho as [<-|Ho]; [cbn; check_texts|]); contradiction.
  - intros q1 q2 o1 o2 H1 H2 P1 P2 HK. cbn in H1, H2.
    destruct H1 as [<-|[<-|[<-|[]]]]; destruct H2 as [<-|[<-|[<-|[]]]]; cbn in P1, P2;
      repeat (destruct P1 as [<-|P1]; [repeat (destruct P2 as [<-|P2]; [first [reflexivity | vm_compute in HK; discriminate HK]|]); contradiction|]);
      contradiction.
  - vm_compute. reflexivity.
Qed.

Example C38_tree_lookup_example :
  let c := snd (getResult E [] (rename ax)) in
  length c = 3%nat /\ readFromCache c (scan_p ax) = None /\
  cache_find c (cache_key (tree_op (scan_p ax))) = Some (Some [[1; 2]; [1; 3]; [3; 1]]).
Proof. repeat (split; [vm_compute; reflexivity|]). vm_compute. reflexivity. Qed.

(* ---- keys that are too short ---- *)

Definition collision (o1 o2 : op) : Prop :=
  cache_key o1 = cache_key o2 /\ eval E o1 <> eval E o2 /\
  (* the second request gets the result of the first *)
  answers E [] [Request o1; Request o2] = [eval E o1; eval E o1].
Ltac collide := split; [vm_compute; reflexivity|]; split; [vm_compute; discriminate|]; vm_compute; reflexivity.

(* A filter names variables, the scan below it does not: FILTER(?x < ?a) after ?a <p> ?x and after
   ?x <p> ?a. *)
Theorem C38_filter_refuted :
  let o m := Filter (scan_p m) v_x LT v_a false false [] in
  texts_ok (o ax) /\ texts_ok (o xa) /\ collision (o ax) (o xa).
Proof. cbv zeta. split; [cbn; check_texts|]. split; [cbn; check_texts|]. collide. Qed.

(* The columns of a union: {?x <p> ?y} UNION {?x <q> ?y} and {?x <p> ?y} UNION {?y <q> ?x}. *)
Theorem C38_union_refuted :
  let o os := Union (scan_p xy) (scan_q xy) os in
  collision (o [(Some 0, Some 0); (Some 1, Some 1)]) (o [(Some 0, Some 1); (Some 1, Some 0)]).
Proof. collide. Qed.

(* Which side is optional: the constructor orders the sides by their texts. *)
Theorem C38_optional_refuted :
  let o b := Optional (scan_p xy) (scan_q xy) b (negb b) [(0, 0)] in collision (o false) (o true).
Proof. collide. Qed.

(* The matched columns of MINUS: ... MINUS {?x <q> ?y} and ... MINUS {?x <q> ?z}. *)
Theorem C38_minus_refuted :
  let o m := Minus (scan_p xy) (scan_q xy) m in collision (o [(0, 0); (1, 1)]) (o [(0, 0)]).
Proof. collide. Qed.

(* The columns of DISTINCT: SELECT DISTINCT ?x and SELECT DISTINCT ?x ?y. *)
Theorem C38_distinct_refuted :
  let o keep := Distinct (scan_p xy) keep in collision (o [0]) (o [0; 1]).
Proof. collide. Qed.

(* DISTINCT in an aggregate: COUNT(?c) and COUNT(DISTINCT ?c). *)
Theorem C38_group_distinct_refuted :
  let t := Tree (Bind (scan_p xy) (ConstInt 4) (bytes "?c")) 3 (xy ++ [(bytes "?c", 2)]) in
  let o d := GroupBy t [v_x] [mk_alias COUNT (bytes "?c") (bytes "?n") d (bytes " ")] in
  collision (o false) (o true).
Proof. collide. Qed.

(* The join column of the side of a transitive path. *)
Theorem C38_path_refuted :
  let o c := Path (scan_p xy) 0 1 None None 1 5 3 (Side (scan_q xy) c) NoSide in collision (o 0) (o 1).
Proof. collide. Qed.

(* The column of the subjects of ql:has-predicate. *)
Theorem C38_has_predicate_refuted :
  let o c := HasPredSub (scan_p xy) c in collision (o 0) (o 1).
Proof. collide. Qed.

(* Sort and ORDER BY on one column: ORDER BY orders ties by the first column. *)
Theorem C38_sort_refuted :
  let t := Tree (OrderBy (scan_p xy) [(0, true); (1, false)]) 2 xy in
  let u := Tree (Bind t (ConstInt 4) (bytes "?c")) 3 (xy ++ [(bytes "?c", 2)]) in
  texts_ok (Sort u 2) /\ texts_ok (OrderBy u [(2, false)]) /\ collision (Sort u 2) (OrderBy u [(2, false)]).
Proof. cbv zeta. split; [cbn; check_texts|]. split; [cbn; check_texts|]. collide. Qed.

(* A regular expression that imitates the flag. *)
Theorem C38_regex_flag_refuted :
  let o w b := Filter (scan_p xy) v_y REGEX w b false [] in
  collision (o (bytes "ignoring case a") false) (o (bytes "a") true).
Proof. collide. Qed.

(* A literal that imitates two rows of VALUES: the rows of one variable are not separated. *)
Theorem C38_values_refuted :
  let o rows := Values [v_x] rows in
  let lit s := [34] ++ s ++ [34] in
  collision (o [[lit (bytes "a")]; [lit (bytes "b")]])
            (o [[lit (bytes "a" ++ [34] ++ bytes ")(" ++ [34] ++ bytes "b")]]).
Proof. collide. Qed.

(* A literal with line breaks that imitates the middle of a join: from two literals, two joins. *)
Definition middle : text :=
  [34] ++ nl ++ bytes "  qet-width: 1 " ++ nl ++ bytes "} join-column: [0]" ++ nl ++ bytes "|X|" ++ nl ++ bytes "{" ++ nl ++
  bytes "  SCAN POS with P = " ++ [34] ++ bytes "<p>" ++ [34] ++ bytes ", O = " ++ [34].
Theorem C38_newline_refuted :
  let scan l := Tree (Scan POS_BOUND_O v_x w_p l) 1 [(v_x, 0)] in
  let o l1 l2 := Join (scan l1) (scan l2) 0 0 in
  collision (o (bytes "<o>") (bytes "b" ++ middle ++ bytes "c")) (o (bytes "<o>" ++ middle ++ bytes "b") (bytes "c")).
Proof. collide. Qed.

Print Assumptions C38_same_result.
Print Assumptions C38_complete.
Print Assumptions C38_cached.
Print Assumptions C38_repeated.
Print Assumptions C38_tree_lookup.
Print Assumptions C38_filter_refuted.
Print Assumptions C38_union_refuted.
Print Assumptions C38_optional_refuted.
Print Assumptions C38_minus_refuted.
Print Assumptions C38_distinct_refuted.
Print Assumptions C38_group_distinct_refuted.
Print Assumptions C38_path_refuted.
Print Assumptions C38_has_predicate_refuted.
Print Assumptions C38_sort_refuted.
Print Assumptions C38_regex_flag_refuted.
Print Assumptions C38_values_refuted.
Print Assumptions C38_newline_refuted.
