(* Property theorems: the triple graph, the collapsed text cliques and the answer of their text operations (C78). *)
From Coq Require Import String Ascii List NArith Arith Bool Lia Permutation.
From Verif Require Import Table_Spec Plan_Spec Fts_Spec Fts_Model TextIndex_Spec TextIndex_Model Postings_Model TextOp_Spec TextOp_Model
  Empty_Model Clique_Spec Clique_Model Clique_Proof Clique_Proof2 Clique_Proof3 Clique_Proof4 Clique_Proof5 TextOp_Thm TextIndex_Thm.
From Verif Require Empty_Thm Plan_Model.
Import ListNotations.
Local Open Scope nat_scope.

(* The triple graph has a node for each triple and an edge between two triples exactly if they have a variable in common. *)
Theorem C78_graph : forall ts g, createTripleGraph ts = Some g ->
  length (adj g) = length ts /\
  (forall i t, nth_error ts i = Some t -> exists n, nth_error (nodes g) i = Some n /\ n_id n = i /\ n_triple n = t /\
     forall v, In v (n_vars n) <-> occurs v t) /\
  (forall i, length ts <= i -> nth_error (nodes g) i = None) /\
  forall i j t u, nth_error ts i = Some t -> nth_error ts j = Some u ->
    (In j (nth i (adj g) []) <-> i <> j /\ share [t] [u]).
Proof.
  intros ts g H. apply create_built in H. destruct H as (B1 & B2 & B3 & B4). split; auto. split; [|split].
  - intros i t Ht. exists (triple_node i t). rewrite B3, Ht. cbn [option_map triple_node n_id n_triple n_vars]. repeat split; auto;
      intros Q; rewrite ?insert_vars_in in *; cbn [In] in *; tauto.
  - intros i Hi. apply nth_error_None. lia.
  - intros i j t u Ht Hu. rewrite B4. split; intros [D H]; (split; [auto|]).
    + destruct H as (t' & u' & H1 & H2 & v & H3 & H4). exists v, t, u. assert (t' = t) by congruence. assert (u' = u) by congruence. subst. cbn. auto.
    + destruct H as (v & t' & u' & [<-|[]] & [<-|[]] & H3 & H4). exists t, u. eauto.
Qed.

(* Whatever the iteration order of the hash map, the collapsed graph partitions the triples: each node is a triple that is no
   text triple, or all text triples about a text record, with their constants as words. Edges are between nodes that
   have a variable in common, and only there. *)
Theorem C78_collapse : forall ts g order, createTripleGraph ts = Some g -> (forall l, Permutation l (order l)) -> Forall proper ts ->
  let G := collapseTextCliques order g in
  exists gs, Permutation (concat gs) ts /\ length gs = length (nodes G) /\ length gs = length (adj G) /\
    (forall k nd a, nth_error (nodes G) k = Some nd -> nth_error gs k = Some a ->
       n_id nd = k /\ ((exists t, a = [t] /\ single t nd) \/ a = about (n_cvar nd) ts /\ clique_of ts nd)) /\
    forall k j a b, nth_error gs k = Some a -> nth_error gs j = Some b -> (In j (nth k (adj G) []) <-> k <> j /\ share a b).
Proof.
  intros ts g order H P OK G. apply create_built in H. exists (groups ts (order (identifyTextCliques g))).
  destruct (collapse_lengths ts g H order (P _)) as [L1 L2]. split; [exact (groups_all ts g H _ (P _))|].
  unfold groups at 1 2. rewrite map_length. split; [now symmetry|]. split; [now symmetry|]. split.
  - intros k nd a. now apply (node_right ts g order H P OK).
  - intros k j a b Ha Hb. unfold G. rewrite (collapse_shares ts g H order (P _)). split; intros [D X]; (split; [auto|]).
    + destruct X as (a' & b' & X1 & X2 & X3). congruence.
    + eauto.
Qed.

(* The edges do not leave the graph. *)
Theorem C78_edges_inside : forall ts g order k j, createTripleGraph ts = Some g -> (forall l, Permutation l (order l)) ->
  let G := collapseTextCliques order g in In j (nth k (adj G) []) -> j < length (nodes G).
Proof.
  intros ts g order k j H P G Hj. apply create_built in H. apply (collapse_shares ts g H order (P _)) in Hj.
  destruct Hj as (_ & a & b & _ & Hb & _). destruct (collapse_lengths ts g H order (P _)) as [L1 _]. unfold G. rewrite L1.
  unfold groups in Hb. apply nth_error_lt in Hb. now rewrite map_length in Hb.
Qed.

Section Index.
  Variables (bounds : list N) (cs : list context).
  Hypothesis C : corpus bounds cs.
  Hypothesis Apart : entities_apart bounds cs.
  Variables (nofs name file : list N) (m : text_meta).
  Hypothesis Nofs : numbers nofs.
  Hypothesis I : indexed bounds cs nofs name file m.
  Hypothesis Size : (N.of_nat (length file) < 2 ^ 63)%N.

  (* The text operation of a clique with a word and an entity variable: the text index finds lists for its search terms. Each row
     of its result is a text record and entities that satisfy all triples of the clique. A text record and entities that
     satisfy them are a row, if for these entities there are not more such text records than the limit. `lk` is the
     look-up in the vocabulary, `wcs` is not used. *)
  Theorem C78_text_answer : forall ts nd lk limit,
    Forall proper ts -> clique_of ts nd ->
    let a := about (n_cvar nd) ts in
    let terms := concat (map words_of (constants a)) in
    let M w := as_term (lk w) in
    Forall (fun w => match lk w with
                     | Found t => t <> Unknown /\ searchable bounds cs t /\ with_entities bounds cs t
                     | NoWord => True
                     | NoPrefix _ => False
                     end) terms ->
    constants a <> [] -> (exists t, In t a /\ variable (snd t)) ->
    exists o, getTextLeafPlan limit nd = Some o /\ search_terms nd = Some terms /\
      (forall wcs, exists ps T, entity_lists file m (map lk terms) ps /\ text_result o wcs ps T) /\
      forall ps wcs T, entity_lists file m (map lk terms) ps -> text_result o wcs ps T ->
        (forall r, In r T -> exists x, In x cs /\ value_in (text_columns o) r (n_cvar nd) = Some (c_id x) /\
           forallb (holds M (value_in (text_columns o) r) x) a = true) /\
        (forall x (f : string -> N), In x cs -> forallb (holds M (fun v => Some (f v)) x) a = true ->
           length (filter (fun y => forallb (holds M (fun v => Some (f v)) y) a) cs) <= limit ->
           exists r, In r T /\ value_in (text_columns o) r (n_cvar nd) = Some (c_id x) /\
             forall t, In t a -> variable (snd t) -> value_in (text_columns o) r (snd t) = Some (f (snd t))).
  Proof.
    intros ts nd lk limit OK Q a terms M LK Hw He.
    destruct (plan_terms ts nd OK Q Hw limit) as (P1 & P2 & P3). exists (node_op nd limit). split; [exact P1|]. split; [exact P2|]. split.
    - intros wcs. destruct (lists_right bounds cs C Apart nofs name file m Nofs I Size ts nd OK Q lk LK Hw) as [[ps Hps] _].
      destruct (C76_some_result 0%N (node_op nd limit) wcs ps 1 [] 0 (op_vars ts nd OK Q He limit)) as [[T HT] _]. exists ps, T. auto.
    - intros ps wcs T Hps HT. split.
      + exact (answer_sound bounds cs C Apart nofs name file m Nofs I Size ts nd OK Q lk LK Hw He limit ps wcs T Hps HT).
      + exact (answer_complete bounds cs C Apart nofs name file m Nofs I Size ts nd OK Q lk LK Hw He limit ps wcs T Hps HT).
  Qed.
  (* A clique without entity variables: the rows are the text records with all words, each of them. Not covered: two search terms
     (C50_two_words_refuted). *)
  Theorem C78_words_answer : forall ts nd lk limit,
    Forall proper ts -> clique_of ts nd ->
    let a := about (n_cvar nd) ts in
    let terms := concat (map words_of (constants a)) in
    let M w := as_term (lk w) in
    Forall (fun w => searchable bounds cs (M w)) terms -> length terms <> 2 ->
    constants a <> [] -> (forall t, In t a -> ~ variable (snd t)) ->
    exists o wcs, getTextLeafPlan limit nd = Some o /\ search_terms nd = Some terms /\ getContextListForWords file m (map M terms) = Done wcs /\
      forall ps T, text_result o wcs ps T ->
        (forall r, In r T -> exists x s, In x cs /\ In (c_id x, s) wcs /\ value_in (text_columns o) r (n_cvar nd) = Some (c_id x) /\
           value_in (text_columns o) r (score_name (n_cvar nd)) = Some s /\ forallb (holds M (value_in (text_columns o) r) x) a = true) /\
        (forall x, In x cs -> forallb (holds M (fun _ => None) x) a = true ->
           exists r, In r T /\ value_in (text_columns o) r (n_cvar nd) = Some (c_id x)).
  Proof.
    intros ts nd lk limit OK Q a terms M Seek L Hw No.
    destruct (plan_terms ts nd OK Q Hw limit) as (P1 & P2 & P3).
    destruct (contexts_right bounds cs C Apart nofs name file m Nofs I Size ts nd OK Q lk Hw Seek L) as (wcs & W1 & W2).
    pose proof (op_no_vars ts nd OK Q No limit) as N0.
    exists (node_op nd limit), wcs. split; [exact P1|]. split; [exact P2|]. split; [exact W1|].
    intros ps T HT. unfold text_result in HT. rewrite N0 in HT. subst T. split.
    - intros r Hr. apply in_map_iff in Hr. destruct Hr as ([x s] & E & Hx). cbn [fst snd] in E.
      destruct (row_values ts nd OK Q limit r x s (eq_sym E) N0) as [V1 V2].
      assert (Hin : In x (map fst wcs)) by (apply in_map_iff; exists (x, s); auto). apply W2 in Hin. destruct Hin as (y & Y1 & <- & Y3).
      exists y, s. split; auto. split; auto. split; auto. split; auto. unfold M, a. rewrite (words_only ts nd OK Q lk No). exact Y3.
    - intros x Hx Hh. unfold M, a in Hh. rewrite (words_only ts nd OK Q lk No) in Hh.
      assert (Hin : In (c_id x) (map fst wcs)) by (apply W2; eauto). apply in_map_iff in Hin. destruct Hin as ([y s] & E & Hy). cbn [fst] in E.
      exists [y; s]. split; [apply in_map_iff; exists (y, s); auto|]. rewrite <- E. exact (proj1 (row_values ts nd OK Q limit [y; s] y s eq_refl N0)).
  Qed.
End Index.

(* ---------- examples ---------- *)
Local Open Scope string_scope.
Definition q_triples : list pattern :=
  [("?x", "<p>", "?y"); ("?t", contains_word, "ab cd"); ("?t", contains_entity, "?x"); ("?y", "<q>", "<a>"); ("?t", contains_entity, "<e>");
   ("?u", contains_entity, "?y"); ("?u", contains_word, "ab")].
Example C78_example : Forall proper q_triples /\
  option_map (fun g => let G := collapseTextCliques (@rev _) g in (adj G, map (fun n => (n_cvar n, n_words n, n_vars n)) (nodes G))) (createTripleGraph q_triples) =
  Some ([[2; 3]; [2]; [0; 1; 3]; [0; 2]],
    [("?u", "ab", ["?u"; "?y"]); ("?t", "ab cd <e>", ["?t"; "?x"]); ("", "", ["?x"; "?y"]); ("", "", ["?y"])]).
Proof.
  split; [|vm_compute; reflexivity]. repeat constructor; (discriminate || (eexists; reflexivity)).
Qed.
(* a clique of the index of TextIndex_Thm: <e> is the entity 12, ab* stands for the words 0 and 1 *)
Definition q_node : node := text_node 0 "?t" "ab* <e>" [("?t", contains_word, "ab*"); ("?t", contains_entity, "<e>"); ("?t", contains_entity, "?x")].
Definition q_clique : list pattern := [("?t", contains_word, "ab*"); ("?x", "<p>", "?y"); ("?t", contains_entity, "<e>"); ("?t", contains_entity, "?x")].
Definition q_lk (w : list N) : word := if list_eq_dec N.eq_dec w (chars "ab*") then Found (Words 0 1) else Found (Entity 12).
Example C78_text_answer_example : Forall proper q_clique /\ clique_of q_clique q_node /\
  constants (about "?t" q_clique) = ["ab*"; "<e>"] /\
  Forall (fun w => match q_lk w with
                     | Found t => t <> Unknown /\ searchable ex_bounds ex_contexts t /\ with_entities ex_bounds ex_contexts t
                     | NoWord => True
                     | NoPrefix _ => False
                     end) (concat (map words_of (constants (about "?t" q_clique)))) /\
  map (fun x => forallb (holds (fun w => as_term (q_lk w)) (fun _ => Some 10%N) x) (about "?t" q_clique)) ex_contexts = [true; false; false].
Proof.
  split; [repeat constructor; (discriminate || (eexists; reflexivity))|]. split; [|split; [reflexivity|split; [|vm_compute; reflexivity]]].
  - split; [discriminate|]. split; [reflexivity|]. split; [reflexivity|]. split.
    + cbn. repeat constructor; cbn; intuition discriminate.
    + intros v. change (n_vars q_node) with (fold_left insert_vars (about "?t" q_clique) (set_insert "?t" [])).
      rewrite insert_all_in, set_insert_in. cbn [In n_cvar q_node text_node]. tauto.
  - destruct ex_searchable as [H1 [H2 H3]]. change (concat (map words_of (constants (about "?t" q_clique)))) with [chars "ab*"; chars "<e>"].
    constructor; [|constructor; [|constructor]].
    + change (q_lk (chars "ab*")) with (Found (Words 0 1)). split; [discriminate|split; auto].
    + change (q_lk (chars "<e>")) with (Found (Entity 12)). split; [discriminate|split; auto]. exact Logic.I.
Qed.

(* the words 0 and 1, without entities *)
Definition w_node : node := text_node 0 "?t" "ab*" [("?t", contains_word, "ab*")].
Example C78_words_answer_example : clique_of [("?t", contains_word, "ab*")] w_node /\
  Forall (fun w => searchable ex_bounds ex_contexts (as_term (q_lk w))) (concat (map words_of (constants (about "?t" [("?t", contains_word, "ab*")])))) /\
  ex_search ex_bounds ex_contexts (fun f m => getContextListForWords f m [Words 0 1]) = Done [(1, 1); (1, 2); (6, 7); (6, 1)]%N.
Proof.
  split; [|split; [|exact ex_word]].
  - split; [discriminate|]. split; [reflexivity|]. split; [reflexivity|]. split; [cbn; repeat constructor; cbn; intuition discriminate|].
    intros v. change (about _ _) with [("?t", contains_word, "ab*")]. change (n_vars _) with (fold_left insert_vars [("?t", contains_word, "ab*")] (set_insert "?t" [])).
    rewrite insert_all_in, set_insert_in. cbn [In n_cvar w_node text_node]. tauto.
  - destruct ex_searchable as [H1 _]. constructor; [exact H1|constructor].
Qed.

(* ---------- what goes wrong ---------- *)
(* A clique whose triples have no constant, for example text records that contain two entities of a query, is refused (AD_CHECK). *)
Theorem C78_no_words_refuted : forall ts nd limit, clique_of ts nd -> constants (about (n_cvar nd) ts) = [] -> getTextLeafPlan limit nd = None.
Proof. intros ts nd limit (_ & Qw & _) E. unfold getTextLeafPlan. rewrite Qw, E. reflexivity. Qed.
Example C78_no_words_example : clique_of [("?t", contains_entity, "?x")] (text_node 0 "?t" "" [("?t", contains_entity, "?x")]).
Proof.
  split; [discriminate|]. split; [reflexivity|]. split; [reflexivity|]. split; [cbn; repeat constructor; cbn; intuition discriminate|].
  intros v. change (about _ _) with [("?t", contains_entity, "?x")]. change (n_vars _) with (fold_left insert_vars [("?t", contains_entity, "?x")] (set_insert "?t" [])).
  rewrite insert_all_in, set_insert_in. cbn [In n_cvar text_node]. tauto.
Qed.

(* Two spaces in a row give an empty search term, whose first and last character the search reads. *)
Theorem C78_two_spaces_refuted : exists ts nd terms, Forall proper ts /\ clique_of ts nd /\ search_terms nd = Some terms /\ In [] terms.
Proof.
  exists [("?t", contains_word, "ab  cd")], (text_node 0 "?t" "ab  cd" [("?t", contains_word, "ab  cd")]), [chars "ab"; []; chars "cd"].
  split; [repeat constructor; (discriminate || (eexists; reflexivity))|]. split; [|split; [vm_compute; reflexivity|cbn; auto]].
  split; [discriminate|]. split; [reflexivity|]. split; [reflexivity|]. split; [cbn; repeat constructor; cbn; intuition discriminate|].
  intros v. change (about _ _) with [("?t", contains_word, "ab  cd")]. change (n_vars _) with (fold_left insert_vars [("?t", contains_word, "ab  cd")] (set_insert "?t" [])).
  rewrite insert_all_in, set_insert_in. cbn [In n_cvar text_node]. tauto.
Qed.

(* If the text record is a constant, the text operation has a column for it as if it were a variable, and its text records are not restricted. *)
Theorem C78_constant_record_refuted : exists ts g nd o, createTripleGraph ts = Some g /\
  nth_error (nodes (collapseTextCliques (fun l => l) g)) 0 = Some nd /\ getTextLeafPlan 1 nd = Some o /\
  t_cvar o = "<record>" /\ In "<record>" (n_vars nd) /\ ~ variable "<record>" /\ In ("<record>", contains_word, "ab") ts.
Proof.
  exists [("<record>", contains_word, "ab"); ("<record>", contains_entity, "?x")]. eexists. eexists. eexists. split; [reflexivity|].
  split; [reflexivity|]. split; [reflexivity|]. split; [reflexivity|]. split; [cbn; auto|]. split; [intros [s H]; discriminate H|now left].
Qed.

(* The constant of a contains-entity triple is looked up as a word if it is no IRI: the triple then asks for a word. *)
Theorem C78_entity_word_refuted : exists nd nd', 
  option_map (fun g => nth_error (nodes (collapseTextCliques (fun l => l) g)) 0) (createTripleGraph [("?t", contains_entity, "berlin")]) = Some (Some nd) /\
  option_map (fun g => nth_error (nodes (collapseTextCliques (fun l => l) g)) 0) (createTripleGraph [("?t", contains_word, "berlin")]) = Some (Some nd') /\
  nd = nd'.
Proof. eexists. eexists. split; [reflexivity|]. split; reflexivity. Qed.

Print Assumptions C78_graph.
Print Assumptions C78_collapse.
Print Assumptions C78_edges_inside.
Print Assumptions C78_text_answer.
Print Assumptions C78_words_answer.
Print Assumptions C78_no_words_refuted.
Print Assumptions C78_two_spaces_refuted.
Print Assumptions C78_constant_record_refuted.
Print Assumptions C78_entity_word_refuted.
