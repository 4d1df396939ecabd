(* Property C86: the numbers that the planner is told about an index. *)
From Coq Require Import String List NArith Arith Bool Lia Permutation Sorted.
From Verif Require Strings_Model Conv_Model Vocab_Spec Perm_Model Perm_Spec Perm_Thm Perm_Proof3 Merge_Thm Merge_Spec Collate_Thm Collate_Model Ops_Proof Vocab_Model
  Std_Model Meta_Proof Perm_Proof2 IScan_Thm Whole_Proof2 Whole_Proof4 Whole_Proof5 Whole_Thm Card_Proof.
From Verif Require Import Table_Spec Ops_Spec Ops_Model Vars_Model Plan_Model Meta_Model Whole_Model IScan_Model Whole_Spec Card_Spec Card_Model.
Import ListNotations.
Local Open Scope nat_scope.

Lemma same_length {A} (l l' : list A) : NoDup l -> NoDup l' -> (forall a, In a l <-> In a l') -> length l = length l'.
Proof. intros H1 H2 H. apply Permutation_length, NoDup_Permutation; auto. Qed.
Lemma map_nodup {A B} (f : A -> B) l : (forall a b, In a l -> In b l -> f a = f b -> a = b) -> NoDup l -> NoDup (map f l).
Proof.
  intros H N. induction N as [|a l Ha N IH]; cbn; constructor.
  - intros X. apply in_map_iff in X as (b & E & Hb). apply Ha. rewrite <- (H b a); auto; [now right|now left].
  - apply IH. intros x y Hx Hy. apply H; now right.
Qed.

(* the triples whose first component, in the order of a permutation, is x *)
Definition starting (kb : list (N * N * N)) (ord : order) (x : N) : list (N * N * N) :=
  filter (fun t => N.eqb (fst (fst (Whole_Proof2.key ord t))) x) kb.
Lemma starting_nodup kb ord x : NoDup kb -> NoDup (starting kb ord x).
Proof. apply NoDup_filter. Qed.
Lemma row_key ord t : Plan_Proof5.perm_row ord t =
  [fst (fst (Whole_Proof2.key ord t)); snd (fst (Whole_Proof2.key ord t)); snd (Whole_Proof2.key ord t)].
Proof. destruct t as [[a b] c]. now destruct ord. Qed.
Lemma found_count kb ord x : NoDup kb -> length (Whole_Proof2.found kb ord [x]) = length (starting kb ord x).
Proof.
  intros ND. rewrite <- (map_length (fun t => skipn 1 (Plan_Proof5.perm_row ord t)) (starting kb ord x)). apply same_length.
  - assert (S := Whole_Proof2.found_strict kb ord [x] ND). induction S as [|a l S IH F]; constructor; auto. intros I.
    rewrite Forall_forall in F. exact (Lex_Proof.lex_lt_irrefl a (F a I)).
  - apply map_nodup; [|now apply starting_nodup]. intros a b Ha Hb E. apply filter_In in Ha as [_ Ha], Hb as [_ Hb]. apply N.eqb_eq in Ha, Hb.
    apply (Whole_Proof2.perm_inj ord). rewrite !row_key in *. cbn [skipn] in E. congruence.
  - intros r. rewrite Whole_Proof2.found_in, in_map_iff. split.
    + intros (t & Ht & E). exists t. split; [now rewrite E|]. apply filter_In. split; auto. rewrite row_key in E. apply N.eqb_eq. cbn in E. congruence.
    + intros (t & <- & Ht). apply filter_In in Ht as [Ht E]. apply N.eqb_eq in E. exists t. split; auto. rewrite row_key. cbn. congruence.
Qed.
Lemma relation_count T ord x : length (Perm_Spec.relation (Whole_Proof2.key ord) T x) = length (starting (nodup Perm_Thm.triple_dec T) ord x).
Proof.
  set (g := fun t => (snd (fst (Whole_Proof2.key ord t)), snd (Whole_Proof2.key ord t))).
  rewrite <- (map_length g (starting _ ord x)). apply same_length.
  - apply NoDup_nodup.
  - apply map_nodup; [|apply starting_nodup, NoDup_nodup]. intros a b Ha Hb E. apply filter_In in Ha as [_ Ha], Hb as [_ Hb]. apply N.eqb_eq in Ha, Hb.
    apply (Whole_Proof2.perm_inj ord). unfold g in E. rewrite !row_key. congruence.
  - intros p. unfold Perm_Spec.relation. fold g. rewrite nodup_In, !in_map_iff. split; intros (t & E & Ht); exists t; split; auto;
      apply filter_In in Ht as [Ht X]; apply filter_In; split; auto; [now apply nodup_In|now apply nodup_In in Ht].
Qed.
(* the permutation whose relations are counted *)
Definition counts (ord : order) : order := match ord with SPO | SOP => SPO | PSO | POS => PSO | OSP | OPS => OSP end.
Lemma starting_counts kb ord x : starting kb (counts ord) x = starting kb ord x.
Proof. unfold starting. apply filter_ext. intros [[a b] c]. now destruct ord. Qed.
Definition place (ord : order) : nat := match ord with SPO | SOP => 0 | PSO | POS => 1 | OSP | OPS => 2 end.

Lemma one_key x a : IScan_Thm.keys_of x = [a] -> a <> ""%string -> getResultWidth x = 2 /\
  (forall v ix, computeResult v ix x = bind (index_scan v ix (IScan_Thm.order_of (i_type x)) [a]) (fun t => Ok (ResultTable 2 [KB; KB] [0; 1] t))) /\
  (forall v ix pinned, computeSizeEstimate v ix pinned x =
    if (place (IScan_Thm.order_of (i_type x)) =? 1) && String.eqb a INTERNAL_TEXT_MATCH_PREDICATE then Ok TEXT_PREDICATE_CARDINALITY_ESTIMATE
    else relation_size v (files_of ix (counts (IScan_Thm.order_of (i_type x)))) a).
Proof.
  intros K NE. assert (NL : nonempty a = true) by (destruct a; [congruence|reflexivity]). destruct x as [ty s p o]. unfold computeResult, computeSizeEstimate, getResultWidth, sizeEstimate, relationCardinality. cbn [IScan_Thm.keys_of i_type i_subject i_predicate i_object] in *.
  destruct ty; try discriminate; injection K as ->; cbn [IScan_Thm.order_of counts place files_of Nat.eqb andb]; rewrite NL; repeat split; reflexivity.
Qed.
Definition place2 (ord : order) : nat := match ord with PSO | OSP => 0 | SPO | OPS => 1 | SOP | POS => 2 end.
Lemma two_keys x a b : IScan_Thm.keys_of x = [a; b] -> getResultWidth x = 1 /\
  (forall v ix, computeResult v ix x = bind (index_scan v ix (IScan_Thm.order_of (i_type x)) [a; b]) (fun t => Ok (ResultTable 1 [KB] [0] t))).
Proof.
  intros K. destruct x as [ty s p o]. unfold computeResult, getResultWidth. cbn [IScan_Thm.keys_of i_type i_subject i_predicate i_object] in *.
  destruct ty; try discriminate; injection K as -> ->; split; reflexivity.
Qed.

Section Counts.
Variable loc : Collate_Model.icu.
Variable numMaps : nat.
Variable linesPerPartial : N.
Variable bufferSize : nat.
Variable parts : list (list (nat * (list N * (list N * list N * list N)))).
Variables per thr : nat.
Variable logmult : N -> N -> N.
Variable sort2 : list (N * N) -> list (N * N).
Variable sort3 : (N * N * N -> N * N * N) -> list (N * N * N) -> list (N * N * N).
Variable prefixes : list (list N).
Variable ix : Perm_Model.index.
Variable v : vocabulary.
Hypothesis Hin : Merge_Thm.input_ok loc numMaps linesPerPartial parts.
Hypothesis Hmark : Whole_Proof5.marked (v_externalize v) parts.
Hypothesis Hpre : Forall Vocab_Spec.no_newline prefixes.
Hypothesis Hper : 0 < per.
Hypothesis Hlog : forall a b, (logmult a b < 256)%N.
Hypothesis Hsorts : Perm_Thm.sorts sort2 sort3.
Hypothesis Hbuilt : index_built loc numMaps linesPerPartial bufferSize parts per thr logmult sort2 sort3 prefixes ix v.
Hypothesis Honce : Whole_Proof5.once_on_disk (v_external v).
Hypothesis Hsize : (N.of_nat (length (v_words v) + length (Vocab_Model.ext_file (v_external v))) < 2 ^ 63)%N.
Hypothesis Hfew : (N.of_nat (length (Merge_Thm.all_triples parts)) < 2 ^ 40)%N.
Notation built := (Whole_Proof5.built_ok loc numMaps linesPerPartial bufferSize parts per thr logmult sort2 sort3 prefixes ix v Hin Hmark Hpre Hbuilt Honce Hsize Hfew).
Notation facts := (Whole_Proof5.facts_of parts).

(* the estimate of a scan with one key is the number of rows *)
Lemma estimate_rows ord a tab : index_scan v ix ord [a] = Ok tab -> relation_size v (files_of ix (counts ord)) a = Ok (N.of_nat (length tab)).
Proof using Hin Hmark Hpre Hper Hlog Hsorts Hbuilt Honce Hsize Hfew.
  intros E. destruct built as (disk & ids & WF & ND & F & OK & CI & _). cbn [index_scan] in E. unfold relation_size.
  destruct (id_of v a) as [[id|]| |] eqn:A; try discriminate; cbn [bind] in *; [|injection E as <-; reflexivity].
  assert (L : (id < N.of_nat (length (v_words v ++ disk)))%N).
  { apply (Whole_Proof4.id_low v disk WF) in A. unfold Whole_Proof4.low in A. lia. }
  rewrite (Whole_Proof2.scan_id_ok per thr logmult sort2 sort3 Hper Hlog Hsorts _ _ OK ix CI) in E by exact L. injection E as <-.
  rewrite found_count by apply NoDup_nodup. rewrite <- starting_counts, <- relation_count.
  destruct (Whole_Proof2.ordered ix _ (Perm_Thm.C25_statistics per thr logmult sort2 sort3 Hper Hlog Hsorts _ _ OK ix CI) (counts ord)) as (b & m & LP & S).
  rewrite LP. cbn [bind]. destruct (S id L) as [[R E]|(R & E & f & ob & G & NE & _)]; rewrite E; cbn [bind].
  - now rewrite R.
  - rewrite G. cbn [bind fst]. now rewrite NE.
Qed.

(* The size estimate of a scan with one constant is the number of rows of its result, and that is the number of facts of
   the input that have the constant in its place. *)
Theorem C86_one_key_partial pinned x a res : IScan_Thm.keys_of x = [a] -> a <> ""%string ->
  (place (IScan_Thm.order_of (i_type x)) = 1 -> a <> INTERNAL_TEXT_MATCH_PREDICATE) -> computeResult v ix x = Ok res ->
  computeSizeEstimate v ix pinned x = Ok (N.of_nat (length (r_data res))) /\
  length (r_data res) = number_with (place (IScan_Thm.order_of (i_type x))) (Conv_Model.bytes a) facts.
Proof using Hin Hmark Hpre Hper Hlog Hsorts Hbuilt Honce Hsize Hfew.
  intros K NE NT C. destruct (one_key x a K NE) as (_ & CR & CE). rewrite CR in C. rewrite CE. clear CR CE K. set (ord := IScan_Thm.order_of (i_type x)) in *.
  destruct (index_scan v ix ord [a]) as [tab| |] eqn:E; try discriminate. cbn [bind] in C. injection C as <-. cbn [r_data]. split.
  - destruct (Nat.eqb_spec (place ord) 1) as [P|P]; cbn [andb]; [destruct (String.eqb_spec a INTERNAL_TEXT_MATCH_PREDICATE); [elim NT; auto|]|]; now apply estimate_rows.
  - destruct (Whole_Thm.C79_scan loc numMaps linesPerPartial bufferSize parts per thr logmult sort2 sort3 prefixes ix v Hin Hmark Hpre Hper Hlog Hsorts Hbuilt
      Honce Hsize Hfew _ _ _ E) as (rows & ER & NR & IR).
    assert (length tab = length rows) as -> by (apply (f_equal (@length _)) in ER; now rewrite !map_length in ER).
    unfold number_with. set (sel := filter _ _). rewrite <- (map_length (fun f => skipn 1 (arranged (Whole_Thm.positions ord) f)) (nodup fact_dec sel)).
    assert (AR : forall f, arranged (Whole_Thm.positions ord) f = part (place ord) f :: skipn 1 (arranged (Whole_Thm.positions ord) f)).
    { intros [[s p] o]. now destruct ord. }
    assert (AI : forall f g, arranged (Whole_Thm.positions ord) f = arranged (Whole_Thm.positions ord) g -> f = g).
    { intros [[s p] o] [[s' p'] o']. destruct ord; cbn; congruence. }
    assert (SE : forall f, In f sel <-> In f facts /\ part (place ord) f = Conv_Model.bytes a).
    { intros f. unfold sel. rewrite filter_In. destruct (word_dec _ _); intuition discriminate. }
    apply same_length; [exact NR| |].
    + apply map_nodup; [|apply NoDup_nodup]. intros f g Hf Hg X. apply nodup_In, SE in Hf as [_ Hf]. apply nodup_In, SE in Hg as [_ Hg]. apply AI.
      rewrite (AR f), (AR g), Hf, Hg. now f_equal.
    + intros r. rewrite IR, in_map_iff. cbn [map app]. split.
      * intros (f & If & Ef). exists f. rewrite Ef. split; [reflexivity|]. apply nodup_In, SE. split; auto. rewrite AR in Ef. congruence.
      * intros (f & <- & Hf). apply nodup_In, SE in Hf as [If Hf]. exists f. split; auto. rewrite AR at 1. now rewrite Hf.
Qed.

(* The size estimate of a scan with two constants is the number of facts of the input that have both constants in their
   places, unless a size is pinned for the scan. *)
Theorem C86_two_keys_partial pinned x a b res : IScan_Thm.keys_of x = [a; b] -> pinned x = None -> computeResult v ix x = Ok res ->
  computeSizeEstimate v ix pinned x = Ok (N.of_nat (length (r_data res))) /\
  length (r_data res) = number_with_both (place (IScan_Thm.order_of (i_type x))) (Conv_Model.bytes a) (place2 (IScan_Thm.order_of (i_type x))) (Conv_Model.bytes b) facts.
Proof using Hin Hmark Hpre Hper Hlog Hsorts Hbuilt Honce Hsize Hfew.
  intros K PN C. destruct (two_keys x a b K) as (W & CR). unfold computeSizeEstimate. rewrite W, PN, C. cbn [Nat.eqb bind]. split; [reflexivity|].
  rewrite CR in C. clear CR W K. set (ord := IScan_Thm.order_of (i_type x)) in *.
  destruct (index_scan v ix ord [a; b]) as [tab| |] eqn:E; try discriminate. cbn [bind] in C. injection C as <-. cbn [r_data].
  destruct (Whole_Thm.C79_scan loc numMaps linesPerPartial bufferSize parts per thr logmult sort2 sort3 prefixes ix v Hin Hmark Hpre Hper Hlog Hsorts Hbuilt
      Honce Hsize Hfew _ _ _ E) as (rows & ER & NR & IR).
  assert (length tab = length rows) as -> by (apply (f_equal (@length _)) in ER; now rewrite !map_length in ER).
  unfold number_with_both. set (sel := filter _ _). rewrite <- (map_length (fun f => skipn 2 (arranged (Whole_Thm.positions ord) f)) (nodup fact_dec sel)).
  assert (AR : forall f, arranged (Whole_Thm.positions ord) f = part (place ord) f :: part (place2 ord) f :: skipn 2 (arranged (Whole_Thm.positions ord) f)).
  { intros [[s p] o]. now destruct ord. }
  assert (AI : forall f g, arranged (Whole_Thm.positions ord) f = arranged (Whole_Thm.positions ord) g -> f = g).
  { intros [[s p] o] [[s' p'] o']. destruct ord; cbn; congruence. }
  assert (SE : forall f, In f sel <-> In f facts /\ part (place ord) f = Conv_Model.bytes a /\ part (place2 ord) f = Conv_Model.bytes b).
  { intros f. unfold sel. rewrite filter_In, andb_true_iff. destruct (word_dec (part (place ord) f) _), (word_dec (part (place2 ord) f) _); intuition discriminate. }
  apply same_length; [exact NR| |].
  - apply map_nodup; [|apply NoDup_nodup]. intros f g Hf Hg X. apply nodup_In, SE in Hf as (_ & Hf & Hf'). apply nodup_In, SE in Hg as (_ & Hg & Hg'). apply AI.
    rewrite (AR f), (AR g), Hf, Hg, Hf', Hg'. now do 2 f_equal.
  - intros r. rewrite IR, in_map_iff. cbn [map app]. split.
    + intros (f & If & Ef). exists f. rewrite Ef. split; [reflexivity|]. apply nodup_In, SE. rewrite AR in Ef. split; auto. split; congruence.
    + intros (f & <- & Hf). apply nodup_In, SE in Hf as (If & Hf & Hf'). exists f. split; auto. rewrite AR at 1. now rewrite Hf, Hf'.
Qed.

(* ---- the full index ---- *)
Lemma counted_perms : exists ids (g : N -> word),
  (forall a b, In a (flat_map (fun t => [fst (fst t); snd (fst t); snd t]) ids) -> In b (flat_map (fun t => [fst (fst t); snd (fst t); snd t]) ids) -> g a = g b -> a = b) /\
  map (fun t => (g (fst (fst t)), g (snd (fst t)), g (snd t))) ids = facts /\ ids <> [] /\
  forall ord, exists m, Perm_Model.load_permutation (files_of ix ord) = Ok m /\
    i_elements m = N.of_nat (length (nodup Perm_Thm.triple_dec ids)) /\
    rmap_size (i_data m) = N.of_nat (length (nodup N.eq_dec (map (fun t => fst (fst (Whole_Proof2.key ord t))) ids))).
Proof using Hin Hmark Hpre Hper Hlog Hsorts Hbuilt Honce Hsize Hfew.
  destruct built as (disk & ids & WF & ND & F & OK & CI & _). exists ids, (Whole_Proof4.word_of v disk).
  assert (G : map (fun t => (Whole_Proof4.word_of v disk (fst (fst t)), Whole_Proof4.word_of v disk (snd (fst t)), Whole_Proof4.word_of v disk (snd t))) ids = facts /\
    forall a, In a (flat_map (fun t => [fst (fst t); snd (fst t); snd t]) ids) -> Whole_Proof4.low v disk a).
  { clear - F. induction F as [|[[a b] c] [[x y] z] l l' (S1 & S2 & S3) F [IH1 IH2]]; [split; [reflexivity|intros ? []]|]. cbn [fst snd] in *.
    apply Whole_Proof4.stands in S1 as [L1 <-]. apply Whole_Proof4.stands in S2 as [L2 <-]. apply Whole_Proof4.stands in S3 as [L3 <-]. split.
    - cbn [map fst snd]. now rewrite IH1.
    - intros u Hu. cbn [flat_map app fst snd In] in Hu. destruct Hu as [<-|[<-|[<-|Hu]]]; auto. }
  destruct G as [G1 G2]. split; [|split; [exact G1|split]].
  - intros a b Ha Hb E. apply (Whole_Proof4.word_inj v disk ND); auto.
  - intros ->. rewrite (Perm_Thm.C25_no_triples per thr logmult sort2 sort3 _ Hsorts) in CI. discriminate.
  - intros ord. destruct (Whole_Proof2.ordered ix _ (Card_Proof.index_counted per thr logmult sort2 sort3 Hper Hlog Hsorts _ _ OK ix CI) ord) as (_ & C).
    destruct (Whole_Proof2.ordered ix _ (Perm_Thm.C25_scan per thr logmult sort2 sort3 Hper Hlog Hsorts _ _ OK ix CI) ord) as (_ & m & L & _).
    exists m. split; [exact L|]. exact (C m L).
Qed.
Lemma counted_words : facts <> [] /\ forall ord, exists m, Perm_Model.load_permutation (files_of ix ord) = Ok m /\
    i_elements m = N.of_nat (number_of_facts facts) /\ rmap_size (i_data m) = N.of_nat (number_of_parts (place ord) facts).
Proof using Hin Hmark Hpre Hper Hlog Hsorts Hbuilt Honce Hsize Hfew.
  destruct counted_perms as (ids & g & Inj & <- & NE & C). split; [destruct ids; [congruence|discriminate]|].
  intros ord. destruct (C ord) as (m & L & E1 & E2). exists m. split; [exact L|]. rewrite E1, E2. clear L E1 E2 C m.
  assert (In3 : forall t x, In t ids -> x = fst (fst t) \/ x = snd (fst t) \/ x = snd t -> In x (flat_map (fun t => [fst (fst t); snd (fst t); snd t]) ids)).
  { intros t x Ht Hx. apply in_flat_map. exists t. split; auto. cbn. intuition. }
  unfold number_of_facts, number_of_parts. split; f_equal.
  - rewrite <- (map_length (fun t => (g (fst (fst t)), g (snd (fst t)), g (snd t))) (nodup _ ids)). apply same_length.
    + apply map_nodup; [|apply NoDup_nodup]. intros [[a b] c] [[a' b'] c'] Ha Hb E. apply nodup_In in Ha, Hb. cbn [fst snd] in E. injection E as X1 X2 X3.
      f_equal; [f_equal|]; (apply Inj; [eapply In3; [exact Ha|cbn; auto]|eapply In3; [exact Hb|cbn; auto]|assumption]).
    + apply NoDup_nodup.
    + intros f. rewrite nodup_In, !in_map_iff. split; intros (t & E & Ht); exists t; split; auto; now apply nodup_In in Ht || apply nodup_In.
  - rewrite map_map. set (h := fun t => fst (fst (Whole_Proof2.key ord t))).
    assert (P : forall t, part (place ord) (g (fst (fst t)), g (snd (fst t)), g (snd t)) = g (h t)).
    { intros [[a b] c]. now destruct ord. }
    assert (H3 : forall t, In t ids -> In (h t) (flat_map (fun t => [fst (fst t); snd (fst t); snd t]) ids)).
    { intros t Ht. eapply In3; [exact Ht|]. destruct t as [[a b] c]. destruct ord; cbn; auto. }
    rewrite (map_ext _ _ P). rewrite <- (map_length g (nodup _ _)). apply same_length.
    + apply map_nodup; [|apply NoDup_nodup]. intros a b Ha Hb E. apply nodup_In, in_map_iff in Ha as (t & <- & Ht). apply nodup_In, in_map_iff in Hb as (t' & <- & Ht').
      apply Inj; auto.
    + apply NoDup_nodup.
    + intros w. rewrite nodup_In, !in_map_iff. split.
      * intros (x & <- & Hx). apply nodup_In, in_map_iff in Hx as (t & <- & Ht). exists t. auto.
      * intros (t & <- & Ht). exists (h t). split; auto. apply nodup_In, in_map_iff. exists t. auto.
Qed.

(* The numbers of triples, subjects, predicates and objects of an index are those of the facts of the input. *)
Theorem C86_numbers : getNofTriples ix = Ok (N.of_nat (number_of_facts facts)) /\ getNofSubjects ix = Ok (N.of_nat (number_of_parts 0 facts)) /\
  getNofPredicates ix = Ok (N.of_nat (number_of_parts 1 facts)) /\ getNofObjects ix = Ok (N.of_nat (number_of_parts 2 facts)).
Proof using Hin Hmark Hpre Hper Hlog Hsorts Hbuilt Honce Hsize Hfew.
  destruct counted_words as [_ C]. unfold getNofTriples, getNofSubjects, getNofPredicates, getNofObjects, nof_distinct.
  destruct (C PSO) as (m1 & L1 & A1 & B1). destruct (C SPO) as (m2 & L2 & A2 & B2). destruct (C OSP) as (m3 & L3 & A3 & B3). cbn [files_of place] in *.
  rewrite L1, L2, L3. cbn [bind]. now rewrite A1, B1, B2, B3.
Qed.
(* The size estimate of a scan of the full index is the number of facts. *)
Theorem C86_full pinned x : getResultWidth x = 3 -> computeSizeEstimate v ix pinned x = Ok (N.of_nat (number_of_facts facts)).
Proof using Hin Hmark Hpre Hper Hlog Hsorts Hbuilt Honce Hsize Hfew.
  intros W. unfold computeSizeEstimate. rewrite W. cbn [Nat.eqb]. destruct C86_numbers as (E & _).
  unfold getResultWidth in W. destruct (i_type x); try discriminate; exact E.
Qed.
(* The multiplicities of a scan of the full index are the average numbers of facts for a subject, predicate or object,
   rounded down to an integer, in the order of the columns. *)
Theorem C86_full_multiplicities ord : full_multiplicities ix ord =
  Ok (map (fun i => (N.of_nat (number_of_facts facts) / N.of_nat (number_of_parts i facts))%N) (Whole_Thm.positions ord)).
Proof using Hin Hmark Hpre Hper Hlog Hsorts Hbuilt Honce Hsize Hfew.
  destruct C86_numbers as (E1 & E2 & E3 & E4). destruct counted_words as [NE _]. unfold full_multiplicities. rewrite E1, E2, E3, E4. cbn [bind].
  assert (P : forall i, (N.of_nat (number_of_parts i facts) =? 0)%N = false).
  { intros i. apply N.eqb_neq. unfold number_of_parts. destruct facts as [|f l]; [congruence|]. intros X.
    assert (I : In (part i f) (nodup word_dec (map (part i) (f :: l)))) by (apply nodup_In; now left).
    destruct (nodup word_dec _); [destruct I|cbn in X; lia]. }
  rewrite !P. cbn [orb]. destruct ord; reflexivity.
Qed.
End Counts.

Definition unpinned : index_scan_op -> option N := fun _ => None.
Definition e_free : index_scan_op := IScan PSO_FREE_S "?s" "<p>" "?o".
Definition e_bound : index_scan_op := IScan PSO_BOUND_S "<b>" "<p>" "?o".
Definition e_text : index_scan_op := IScan PSO_FREE_S "?s" INTERNAL_TEXT_MATCH_PREDICATE "?o".
Definition e_estimates (ix : Perm_Model.index) :=
  (computeSizeEstimate Whole_Thm.e_voc ix unpinned e_free, computeSizeEstimate Whole_Thm.e_voc ix unpinned e_bound,
   computeSizeEstimate Whole_Thm.e_voc ix unpinned (IScan FULL_INDEX_SCAN_SPO "?s" "?p" "?o"),
   (getNofSubjects ix, getNofPredicates ix, getNofObjects ix), full_multiplicities ix PSO,
   (computeSizeEstimate Whole_Thm.e_voc ix unpinned e_text, computeResult Whole_Thm.e_voc ix e_text)).
Lemma e_computed : match Perm_Model.create_index 2 3 Perm_Thm.ex_log (Ops_Proof.sort_by Perm_Model.pair_less) Perm_Thm.ex_sort3 7 Whole_Thm.e_ids with
  | Ok (Some r) => e_estimates r | _ => (UB, UB, UB, (UB, UB, UB), UB, (UB, UB)) end =
  (Ok 4%N, Ok 2%N, Ok 5%N, (Ok 3%N, Ok 2%N, Ok 3%N), Ok [2; 1; 1]%N, (Ok TEXT_PREDICATE_CARDINALITY_ESTIMATE, Ok (ResultTable 2 [KB; KB] [0; 1] []))).
Proof. vm_compute. reflexivity. Qed.

Lemma e_no_newline : Forall Vocab_Spec.no_newline [[60%N]].
Proof. constructor; [|constructor]. intros [H|[]]; discriminate. Qed.

(* The size estimate of a scan for the predicate of text matches is 1 000 000 000, although its result is empty. *)
Theorem C86_text_refuted : exists loc numMaps linesPerPartial bufferSize parts per thr logmult sort2 sort3 prefixes ix v x res,
  Merge_Thm.input_ok loc numMaps linesPerPartial parts /\ Whole_Proof5.marked (v_externalize v) parts /\ Forall Vocab_Spec.no_newline prefixes /\ 0 < per /\
  Perm_Thm.sorts sort2 sort3 /\ index_built loc numMaps linesPerPartial bufferSize parts per thr logmult sort2 sort3 prefixes ix v /\
  Whole_Proof5.once_on_disk (v_external v) /\ IScan_Thm.keys_of x = [INTERNAL_TEXT_MATCH_PREDICATE] /\
  computeResult v ix x = Ok res /\ r_data res = [] /\ computeSizeEstimate v ix unpinned x = Ok 1000000000%N.
Proof.
  destruct Whole_Thm.e_built as (ix & BI & CI). assert (Y := e_computed). rewrite CI in Y.
  exists Collate_Thm.example_icu, 4, 3%N, 10, Whole_Thm.e_parts, 2, 3, Perm_Thm.ex_log, (Ops_Proof.sort_by Perm_Model.pair_less), Perm_Thm.ex_sort3, [[60%N]], ix, Whole_Thm.e_voc,
    e_text, (ResultTable 2 [KB; KB] [0; 1] []).
  split; [apply Whole_Thm.e_input|]. split; [apply Whole_Thm.e_marked|]. split; [exact e_no_newline|]. split; [lia|].
  split; [apply Perm_Thm.ex_sorts|]. split; [exact BI|]. split; [apply Whole_Thm.e_once|]. split; [reflexivity|].
  apply (f_equal snd) in Y. split; [exact (f_equal snd Y)|]. split; [reflexivity|]. exact (f_equal fst Y).
Qed.
(* The multiplicities of a scan of the full index are divisions of integers: five facts with three subjects have
   multiplicity 1, so that the distinct subjects times the multiplicity are three and not five. *)
Theorem C86_average_refuted : exists loc numMaps linesPerPartial bufferSize parts per thr logmult sort2 sort3 prefixes ix v n s m rest,
  Merge_Thm.input_ok loc numMaps linesPerPartial parts /\ Whole_Proof5.marked (v_externalize v) parts /\ Forall Vocab_Spec.no_newline prefixes /\ 0 < per /\
  Perm_Thm.sorts sort2 sort3 /\ index_built loc numMaps linesPerPartial bufferSize parts per thr logmult sort2 sort3 prefixes ix v /\
  Whole_Proof5.once_on_disk (v_external v) /\ getNofTriples ix = Ok n /\ getNofSubjects ix = Ok s /\ full_multiplicities ix SPO = Ok (m :: rest) /\ (s * m <> n)%N.
Proof.
  destruct Whole_Thm.e_built as (ix & BI & CI).
  assert (Y : match Perm_Model.create_index 2 3 Perm_Thm.ex_log (Ops_Proof.sort_by Perm_Model.pair_less) Perm_Thm.ex_sort3 7 Whole_Thm.e_ids with
    | Ok (Some r) => (getNofTriples r, getNofSubjects r, full_multiplicities r SPO) | _ => (UB, UB, UB) end = (Ok 5%N, Ok 3%N, Ok [1; 2; 1]%N)) by (vm_compute; reflexivity).
  rewrite CI in Y.
  exists Collate_Thm.example_icu, 4, 3%N, 10, Whole_Thm.e_parts, 2, 3, Perm_Thm.ex_log, (Ops_Proof.sort_by Perm_Model.pair_less), Perm_Thm.ex_sort3, [[60%N]], ix, Whole_Thm.e_voc,
    5%N, 3%N, 1%N, [2; 1]%N.
  split; [apply Whole_Thm.e_input|]. split; [apply Whole_Thm.e_marked|]. split; [exact e_no_newline|]. split; [lia|].
  split; [apply Perm_Thm.ex_sorts|]. split; [exact BI|]. split; [apply Whole_Thm.e_once|].
  split; [exact (f_equal (fun z => fst (fst z)) Y)|]. split; [exact (f_equal (fun z => snd (fst z)) Y)|]. split; [exact (f_equal snd Y)|]. discriminate.
Qed.
(* an index of five facts meets the hypotheses: four of them have the predicate p, two of those the subject b *)
Example C86_example : exists ix,
  Merge_Thm.input_ok Collate_Thm.example_icu 4 3 Whole_Thm.e_parts /\ Whole_Proof5.marked (v_externalize Whole_Thm.e_voc) Whole_Thm.e_parts /\
  Perm_Thm.sorts (Ops_Proof.sort_by Perm_Model.pair_less) Perm_Thm.ex_sort3 /\
  index_built Collate_Thm.example_icu 4 3 10 Whole_Thm.e_parts 2 3 Perm_Thm.ex_log (Ops_Proof.sort_by Perm_Model.pair_less) Perm_Thm.ex_sort3 [[60%N]] ix Whole_Thm.e_voc /\
  Whole_Proof5.once_on_disk (v_external Whole_Thm.e_voc) /\
  e_estimates ix = (Ok 4%N, Ok 2%N, Ok 5%N, (Ok 3%N, Ok 2%N, Ok 3%N), Ok [2; 1; 1]%N, (Ok TEXT_PREDICATE_CARDINALITY_ESTIMATE, Ok (ResultTable 2 [KB; KB] [0; 1] []))) /\
  number_with 1 (Conv_Model.bytes "<p>") (Whole_Proof5.facts_of Whole_Thm.e_parts) = 4 /\
  number_with_both 1 (Conv_Model.bytes "<p>") 0 (Conv_Model.bytes "<b>") (Whole_Proof5.facts_of Whole_Thm.e_parts) = 2.
Proof.
  destruct Whole_Thm.e_built as (ix & BI & CI). assert (Y := e_computed). rewrite CI in Y. exists ix.
  split; [apply Whole_Thm.e_input|]. split; [apply Whole_Thm.e_marked|]. split; [apply Perm_Thm.ex_sorts|]. split; [exact BI|]. split; [apply Whole_Thm.e_once|].
  split; [exact Y|]. split; vm_compute; reflexivity.
Qed.
Print Assumptions C86_one_key_partial.
Print Assumptions C86_two_keys_partial.
Print Assumptions C86_numbers.
Print Assumptions C86_full.
Print Assumptions C86_full_multiplicities.
Print Assumptions C86_text_refuted.
Print Assumptions C86_average_refuted.
