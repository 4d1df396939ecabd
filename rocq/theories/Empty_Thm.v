(* Property theorems: operations that are declared empty without being computed (C77), the choice of the word whose
   entity lists are read (C50). *)
From Coq Require Import String List NArith Arith Bool Lia Permutation.
From Verif Require Import Table_Spec Std_Model Ops_Spec Ops_Model Join_Model HasPred_Spec HasPred_Model GroupBy_Spec Plan_Model
  Fts_Spec Fts_Model Postings_Model TextIndex_Spec TextIndex_Model TextIndex_Thm
  TextOp_Model Empty_Spec Empty_Model Empty_Proof Empty_Proof2.
From Verif Require Bind_Model.
Import ListNotations.
Local Open Scope N_scope.

(* A tree whose root is declared empty gives no rows, whatever the operations in it are. *)
Theorem C77_known_empty : forall kb w cached t r,
  index_holds kb w -> sizes_right w -> cache_right w cached -> hash_order w [] = [] ->
  known_empty w cached t = true -> computes w t r -> r = [].
Proof. intros kb w cached t r H1 H2 H3 H4 K. exact (known_empty_right kb w cached H1 H2 H4 H3 t r K). Qed.

(* Execution with the cache and the shortcuts of the join gives the result that the tree has without them, and no other. *)
Theorem C77_execution : forall kb w cached t r,
  index_holds kb w -> sizes_right w -> cache_right w cached -> hash_order w [] = [] ->
  computes w t r -> runs w cached t r /\ forall r', runs w cached t r' -> r' = r.
Proof.
  intros kb w cached t r H1 H2 H3 H4 H. split; [now apply computes_runs|].
  intros r' R. exact (runs_computes kb w cached H1 H2 H4 H3 t r r' H R).
Qed.

(* The size estimate of an index scan is the number of its rows, except for the text predicate. *)
Theorem C77_scan_size : forall kb w o bound,
  index_holds kb w -> sizes_right w -> bound <> [] -> (o = PSO \/ o = POS -> bound <> [TEXT_PREDICATE]) ->
  scan_estimate w o bound = N.of_nat (length (scan_table (voc w) (ix w) o bound)).
Proof.
  intros kb w o bound H1 H2 H3 H4. apply (estimate_exact kb w H1 H2 o bound H3). intros P. apply H4. destruct o; auto; discriminate P.
Qed.
Theorem C77_full_scan_size : forall kb w o, index_holds kb w ->
  scan_estimate w o [] = N.of_nat (length (ix w o)).
Proof.
  intros kb w o [H1 H2]. cbn [scan_estimate]. rewrite H1. f_equal. rewrite (Permutation_length (H2 o)). symmetry. apply map_length.
Qed.

(* ---------- text ---------- *)
Section Index.
  Variables (bounds : list N) (cs : list context).
  Hypothesis C : corpus bounds cs.
  Hypothesis Apart : entities_apart bounds cs.
  Variables (nofs name file : list N) (m : text_meta).
  Hypothesis Nofs : numbers nofs.
  Hypothesis I : indexed bounds cs nofs name file m.
  Hypothesis Size : N.of_nat (length file) < 2 ^ 63.

  (* Whichever word is chosen for the entity lists, a search gives the entities of the contexts with all words. *)
  Theorem C50_search ws : ws <> [] ->
    Forall (fun x => match x with
                     | Found t => t <> Unknown /\ searchable bounds cs t /\ with_entities bounds cs t
                     | NoWord => True
                     | NoPrefix _ => False
                     end) ws ->
    (exists ps, entity_lists file m ws ps) /\
    forall ps, entity_lists file m ws ps -> ascending (map p_cid ps) /\
      Permutation (map fst ps)
        (map fst (flat_map entities_of (filter (fun c => forallb (fun x => match x with Found t => mentions t c | _ => false end) ws) cs))).
  Proof.
    intros Hn F. destruct (search_right bounds cs C Apart nofs name file m Nofs I Size ws Hn F) as [S1 S2].
    split; auto. intros ps H. destruct (S2 ps H) as [S3 S4]. split; auto. rewrite S4. unfold with_all. apply Permutation_refl'. do 2 f_equal.
    apply filter_ext. intros c. clear. induction ws as [|x ws IH]; auto. cbn [map forallb]. rewrite IH. f_equal. now destruct x.
  Qed.

  (* With a prefix no word begins with the text operation is known to be empty, but if another word follows, the search
     for the word with the shortest list throws. *)
  Theorem C77_unknown_prefix_refuted p x ws : p < 2 ^ 64 ->
    text_estimate m (NoPrefix p :: x :: ws) = Done 0 /\ suited_loop m 0 (NoPrefix p :: x :: ws) = Throw /\
    forall ps, ~ entity_lists file m (NoPrefix p :: x :: ws) ps.
  Proof.
    intros H. destruct (unknown_prefix bounds cs C Apart nofs name file m Nofs I Size p (x :: ws) H) as [H1 H2].
    assert (S : suited_loop m 0 (NoPrefix p :: x :: ws) = Throw) by (cbn [suited_loop]; now rewrite H1).
    split; auto. split; auto. intros ps [use [B _]]. unfold best_suited in B. rewrite S in B. exact B.
  Qed.
End Index.

(* ---------- examples ---------- *)
Local Open Scope string_scope.
Definition x_kb : list (N * N * N) := [(1, 2, 3); (4, 2, 5); (4, 6, 3)].
Definition x_voc (s : string) : option N :=
  if String.eqb s "<a>" then Some 1 else if String.eqb s "<p>" then Some 2 else if String.eqb s "<q>" then Some 6 else None.
Definition x_ix (o : order) : table := map (permuted o) x_kb.
Definition x_world (pinned : order -> list string -> option N) : world := {|
  voc := x_voc; ix := x_ix; num_triples := 3; pinned := pinned;
  env := {| kb_number := fun _ => None; show := fun _ _ => "" |};
  bind_world := {| Bind_Model.getId := fun _ => None; Bind_Model.word_of := fun _ => None; Bind_Model.word_float := fun _ => 0 |};
  values_id := fun _ => None; fuel := 0; iteration := fun l => l;
  patterns_of := {| hasPattern := []; hasPredicate := []; patterns := [] |}; hash_order := fun m => m;
  text_file := []; text_metadata := mk_text_meta [] [] [] [] [];
  chosen := fun o xs =>
    match o, xs with
    | IndexScan od bound, _ => scan_table x_voc x_ix od bound
    | Join lc rc, [a; b] => match join a lc b rc with Some r => r | None => [] end
    | Union os wl wr, [a; b] => match compute_union os wl wr a b with Some r => r | None => [] end
    | _, _ => []
    end |}.
Definition x_pinned (o : order) (bound : list string) : option N :=
  match o with PSO => if list_eq_dec string_dec bound ["<p>"; "<a>"] then Some 1 else None | _ => None end.
Definition x_w : world := x_world x_pinned.
Definition x_scan (p : string) : tree := Node (IndexScan PSO [p]) [].
Definition x_full : tree := Node (Join 0 0) [x_scan "<p>"; x_scan "<q>"].
Definition x_none : tree := Node (Join 0 0) [x_scan "<p>"; x_scan "<none>"].
Definition x_cached (t : tree) : option table :=
  match t with Node (IndexScan PSO [p]) [] => if string_dec p "<q>" then Some [[4; 3]] else None | _ => None end.
Lemma x_computes_scan p : computes x_w (x_scan p) (scan_table x_voc x_ix PSO [p]).
Proof. apply (Computed x_w (IndexScan PSO [p]) [] []); [constructor|split; [discriminate|reflexivity]]. Qed.
Example C77_world_example : index_holds x_kb x_w /\ sizes_right x_w /\ cache_right x_w x_cached /\ hash_order x_w [] = [].
Proof.
  split; [split; [reflexivity|intros o; apply Permutation_refl]|]. split; [|split; [|reflexivity]].
  - intros o bound n. cbn [pinned x_w x_world]. unfold x_pinned. destruct o; try discriminate.
    destruct (list_eq_dec string_dec bound ["<p>"; "<a>"]) as [->|]; [|discriminate]. intros H; injection H as <-. reflexivity.
  - intros [o ts] r. unfold x_cached. destruct o as [[] [|p [|? ?]]| | | | | | | | | | | | | | | | | | | | | | | | | | | ]; try discriminate.
    destruct ts; [|discriminate]. destruct (string_dec p "<q>") as [->|]; [|discriminate]. intros H; injection H as <-.
    exact (x_computes_scan "<q>").
Qed.
Example C77_known_empty_example : known_empty x_w x_cached x_none = true /\ computes x_w x_none [] /\
  known_empty x_w x_cached x_full = false /\ computes x_w x_full [[4; 5; 3]].
Proof.
  split; [reflexivity|]. split; [|split; [reflexivity|]].
  - apply (Computed x_w (Join 0 0) [x_scan "<p>"; x_scan "<none>"] [scan_table x_voc x_ix PSO ["<p>"]; scan_table x_voc x_ix PSO ["<none>"]]).
    + constructor; [apply x_computes_scan|constructor; [apply x_computes_scan|constructor]].
    + reflexivity.
  - apply (Computed x_w (Join 0 0) [x_scan "<p>"; x_scan "<q>"] [scan_table x_voc x_ix PSO ["<p>"]; scan_table x_voc x_ix PSO ["<q>"]]).
    + constructor; [apply x_computes_scan|constructor; [apply x_computes_scan|constructor]].
    + reflexivity.
Qed.

(* text operations that are known to be empty, and one that is not; the word whose entity lists are read; the word ids of
   the example end with 4 *)
Example C77_text_example :
  ex_search ex_bounds ex_contexts (fun _ m => text_estimate m [Found (Words 0 1); NoWord]) = Done 0 /\
  ex_search ex_bounds ex_contexts (fun _ m => text_estimate m [Found (Words 0 1); Found (Entity 12)]) = Done 1 /\
  ex_search ex_bounds ex_contexts (fun _ m => suited_loop m 0 [Found (Words 0 1); Found (Entity 12)]) = Done (inl [(0%nat, false, 3); (1%nat, true, 2)]) /\
  ex_search ex_bounds ex_contexts (fun _ m => suited_loop m 0 [Found (Words 0 1); NoWord; NoPrefix 3]) = Done (inr 1%nat) /\
  ex_search ex_bounds ex_contexts (fun _ m => suited_loop m 0 [Found (Words 0 1); NoPrefix 3]) = Throw.
Proof. vm_compute. repeat split; reflexivity. Qed.
Example C50_search_example : Forall (fun x => match x with
    | Found t => t <> Unknown /\ searchable ex_bounds ex_contexts t /\ with_entities ex_bounds ex_contexts t
    | NoWord => True
    | NoPrefix _ => False
    end) [Found (Words 0 1); Found (Entity 12)].
Proof.
  destruct ex_searchable as [H1 [H2 H3]]. constructor; [split; [discriminate|split; auto]|].
  constructor; [split; [discriminate|split; [auto|exact Logic.I]]|constructor].
Qed.

Print Assumptions C77_known_empty.
Print Assumptions C77_execution.
Print Assumptions C77_scan_size.
Print Assumptions C77_full_scan_size.
Print Assumptions C50_search.
Print Assumptions C77_unknown_prefix_refuted.
