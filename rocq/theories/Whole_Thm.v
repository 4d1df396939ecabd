(* Property C79: queries to an index that was built from triples. *)
From Coq Require Import String List NArith Arith Bool Lia Permutation Sorted.
From Verif Require Conv_Model Vocab_Spec Perm_Model Perm_Thm Merge_Thm Whole_Spec Collate_Thm Ops_Proof.
From Verif Require Import Table_Spec Vars_Model Collate_Model Collate_Spec Vocab_Model Vocab_Proof Vocab_Thm Merge_Spec Plan_Model Plan_Spec Plan_Proof3 Plan_Proof5 Plan_Exec Plan_Thm Meta_Model
  Whole_Model Whole_Proof2 Whole_Proof3 Whole_Proof4 Whole_Proof5.
Import ListNotations.
Local Open Scope nat_scope.

(* what is shown for an id *)
Definition shows (v : vocabulary) (i : N) : text := idToOptionalString (v_words v) (v_external v) i.
Definition positions (ord : order) : list nat :=
  match ord with
  | SPO => [0; 1; 2] | SOP => [0; 2; 1] | PSO => [1; 0; 2] | POS => [1; 2; 0] | OSP => [2; 0; 1] | OPS => [2; 1; 0]
  end.

Section Theorems.
Variable loc : icu.
Variable numMaps : nat.
Variable linesPerPartial : N.
Variable bufferSize : nat.
Variable parts : list (list (nat * (list N * (list N * list N * list N)))).
Variables per thr : nat.
Variable logmult : N -> N -> N.
Variable sort2 : list (N * N) -> list (N * N).
Variable sort3 : (N * N * N -> N * N * N) -> list (N * N * N) -> list (N * N * N).
Variable prefixes : list (list N).
Variable ix : Perm_Model.index.
Variable v : vocabulary.
Hypothesis Hin : Merge_Thm.input_ok loc numMaps linesPerPartial parts.
Hypothesis Hmark : marked (v_externalize v) parts.
Hypothesis Hpre : Forall Vocab_Spec.no_newline prefixes.
Hypothesis Hper : 0 < per.
Hypothesis Hlog : forall a b, (logmult a b < 256)%N.
Hypothesis Hsorts : Perm_Thm.sorts sort2 sort3.
Hypothesis Hbuilt : index_built loc numMaps linesPerPartial bufferSize parts per thr logmult sort2 sort3 prefixes ix v.
Hypothesis Honce : once_on_disk (v_external v).
Hypothesis Hsize : (N.of_nat (length (v_words v) + length (ext_file (v_external v))) < 2 ^ 63)%N.
Hypothesis Hfew : (N.of_nat (length (Merge_Thm.all_triples parts)) < 2 ^ 40)%N.
Notation built := (built_ok loc numMaps linesPerPartial bufferSize parts per thr logmult sort2 sort3 prefixes ix v Hin Hmark Hpre Hbuilt Honce Hsize Hfew).

(* A scan for one or two constants gives, as words, the rest of each triple of the input with these constants, once. *)
Theorem C79_scan ord bound tab : index_scan v ix ord bound = Ok tab ->
  exists rows, map (map (shows v)) tab = map (map Word) rows /\
    Whole_Spec.lists rows (fun r => exists f, In f (facts_of parts) /\ Whole_Spec.arranged (positions ord) f = map Conv_Model.bytes bound ++ r).
Proof using Hin Hmark Hpre Hper Hlog Hsorts Hbuilt Honce Hsize Hfew.
  intros E. destruct built as (disk & ids & WF & ND & F & OK & CI & _).
  assert (Hvoc : forall t id, id_of v t = Ok (Some id) -> (id < N.of_nat (length (v_words v ++ disk)))%N).
  { intros t id H. apply (id_low v disk WF) in H. unfold low in H. lia. }
  apply (index_scan_sound per thr logmult sort2 sort3 Hper Hlog Hsorts _ _ OK ix CI v Hvoc) in E. subst tab.
  set (kb := nodup Perm_Thm.triple_dec ids).
  assert (A : forall t, In t kb -> In (word_of v disk (fst (fst t)), word_of v disk (snd (fst t)), word_of v disk (snd t)) (facts_of parts) /\
    low v disk (fst (fst t)) /\ low v disk (snd (fst t)) /\ low v disk (snd t)).
  { intros [[a b] c] H. destruct (kb_fact v disk ids (facts_of parts) F a b c H) as (L1 & L2 & L3 & I). auto. }
  assert (G : forall t, map (word_of v disk) (perm_row ord t) =
    Whole_Spec.arranged (positions ord) (word_of v disk (fst (fst t)), word_of v disk (snd (fst t)), word_of v disk (snd t))).
  { intros [[a b] c]. destruct ord; reflexivity. }
  assert (SH : forall x, low v disk x -> shows v x = Word (word_of v disk x)).
  { intros x Hx. unfold low in Hx. unfold shows. rewrite (C30_word_of_id _ _ _ _ _ _ WF).
    - now rewrite (nth_error_nth' (v_words v ++ disk) [] Hx).
    - destruct WF as (_ & _ & _ & _ & _ & B & _). assert (LE := external_length disk). rewrite app_length in Hx. lia. }
  assert (LB : forall ids0, lookup_all (voc v) bound = Some ids0 -> map (word_of v disk) ids0 = map Conv_Model.bytes bound /\ Forall (low v disk) ids0).
  { clear - WF. induction bound as [|t bound IH]; cbn; intros ids0 E; [injection E as <-; easy|].
    destruct (voc v t) as [i|] eqn:V; [|discriminate]. destruct (lookup_all (voc v) bound) as [l|]; [|discriminate]. cbn in E. injection E as <-.
    destruct (IH l eq_refl) as [I1 I2]. apply (voc_word v disk WF) in V as [V1 V2]. cbn. split; [congruence|]. constructor; auto. }
  assert (LN : lookup_all (voc v) bound = None -> forall r f, In f (facts_of parts) -> Whole_Spec.arranged (positions ord) f <> map Conv_Model.bytes bound ++ r).
  { intros EN r [[x y] z] If AE.
    destruct (fact_kb v disk ids (facts_of parts) F x y z If) as (i & j & k & I & L1 & L2 & L3 & W1 & W2 & W3).
    assert (X : forall b ws, lookup_all (voc v) b = None -> Forall (low v disk) ws -> map (word_of v disk) ws <> map Conv_Model.bytes b ++ r).
    { clear - WF ND. induction b as [|t b IH]; intros [|u us] EN FW E; try discriminate. cbn in EN, E. inversion FW; subst.
      injection E as E1 E2. rewrite (word_voc v disk WF t u) in EN by auto. destruct (lookup_all (voc v) b) eqn:EB; [discriminate|]. eapply IH; eauto. }
    apply (X bound (perm_row ord (i, j, k)) EN).
    - destruct ord; repeat constructor; auto.
    - rewrite G. cbn [fst snd]. now rewrite W1, W2, W3. }
  unfold scan_table. destruct (lookup_all (voc v) bound) as [key0|] eqn:EB.
  2: { exists []. split; [reflexivity|]. split; [constructor|]. intros r. split; [easy|]. intros (f & If & AE). exact (LN eq_refl r f If AE). }
  destruct (LB key0 eq_refl) as [K1 K2]. change (map _ (filter _ _)) with (found kb ord key0).
  assert (LR : forall r, In r (found kb ord key0) -> Forall (low v disk) r).
  { intros r Hr. apply found_in in Hr as (t & Ht & E). apply A in Ht as (_ & L1 & L2 & L3).
    assert (X : Forall (low v disk) (perm_row ord t)) by (destruct t as [[a b] c]; destruct ord; repeat constructor; auto).
    rewrite E in X. now apply Forall_app in X. }
  exists (map (map (word_of v disk)) (found kb ord key0)). split; [|split].
  - rewrite map_map. apply map_ext_in. intros r Hr. rewrite map_map. apply map_ext_in. intros x Hx. apply SH.
    apply LR in Hr. rewrite Forall_forall in Hr. auto.
  - assert (NF : NoDup (found kb ord key0)).
    { assert (S := found_strict kb ord key0 (kb_nodup ids)). clear - S. induction S as [|a l S IH F]; constructor; auto. intros I.
      rewrite Forall_forall in F. exact (Lex_Proof.lex_lt_irrefl a (F a I)). }
    clear - NF LR ND. induction NF as [|a l Ha N IH]; cbn; constructor; [|apply IH; intros; apply LR; now right].
    intros X. apply in_map_iff in X as (b & E & Hb). apply Ha. replace a with b; auto.
    assert (LA : Forall (low v disk) a) by (apply LR; now left). assert (LBB : Forall (low v disk) b) by (apply LR; now right).
    clear - E LA LBB ND. revert b E LBB. induction LA as [|x a Lx La IH]; intros [|y b] E LBB; try discriminate; auto.
    cbn in E. injection E as E1 E2. inversion LBB; subst. f_equal; auto. apply (word_inj v disk ND); auto.
  - intros r. rewrite in_map_iff. split.
    + intros (x & <- & Hx). apply found_in in Hx as (t & Ht & E). destruct (A t Ht) as (I & _). eexists. split; [exact I|].
      now rewrite <- G, E, map_app, K1.
    + intros ([[x y] z] & If & AE). destruct (fact_kb v disk ids (facts_of parts) F x y z If) as (i & j & k & I & L1 & L2 & L3 & W1 & W2 & W3).
      assert (E : map (word_of v disk) (perm_row ord (i, j, k)) = map (word_of v disk) key0 ++ r).
      { rewrite G. cbn [fst snd]. rewrite W1, W2, W3, K1. exact AE. }
      assert (LP : Forall (low v disk) (perm_row ord (i, j, k))) by (destruct ord; repeat constructor; auto).
      assert (X : forall p q, Forall (low v disk) p -> Forall (low v disk) q -> map (word_of v disk) p = map (word_of v disk) q ++ r ->
        exists s, p = q ++ s /\ map (word_of v disk) s = r).
      { clear - ND. intros p q. revert p. induction q as [|a q IH]; intros p FP FQ E; [exists p; auto|]. destruct p as [|b p]; [discriminate|].
        cbn in E. injection E as E1 E2. inversion FP; inversion FQ; subst. destruct (IH p) as (s & -> & S2); auto. exists s. split; auto.
        cbn. f_equal. apply (word_inj v disk ND); auto. }
      destruct (X _ _ LP K2 E) as (s & S1 & S2). exists s. split; auto. apply found_in. exists (i, j, k). split; auto.
Qed.

(* Such a scan succeeds if each constant is a word of the input or no word to be stored on disk, and, if there are two
   constants that are both words of the input, they are together in a triple. *)
Definition word_of_input (w : list N) : Prop := exists y, In y (Merge_Thm.vocabulary_words parts) /\ w = shown y.
Theorem C79_scan_succeeds_partial ord bound : length bound = 1 \/ length bound = 2 ->
  (forall t, In t bound -> word_of_input (Conv_Model.bytes t) \/ v_externalize v (Conv_Model.bytes t) = false) ->
  (forall a b, bound = [a; b] -> word_of_input (Conv_Model.bytes a) -> word_of_input (Conv_Model.bytes b) ->
    exists f z, In f (facts_of parts) /\ Whole_Spec.arranged (positions ord) f = [Conv_Model.bytes a; Conv_Model.bytes b; z]) ->
  exists tab, index_scan v ix ord bound = Ok tab.
Proof using Hin Hmark Hpre Hper Hlog Hsorts Hbuilt Honce Hsize Hfew.
  intros LB WB TB. destruct built as (disk & ids & WF & ND & F & OK & CI & WO).
  assert (Hvoc : forall t id, id_of v t = Ok (Some id) -> (id < N.of_nat (length (v_words v ++ disk)))%N).
  { intros t id H. apply (id_low v disk WF) in H. unfold low in H. lia. }
  assert (DEF : forall t, In t bound -> id_of v t <> UB).
  { intros t Ht. unfold id_of. destruct (in_dec (list_eq_dec N.eq_dec) (Conv_Model.bytes t) (v_words v ++ disk)) as [I|I].
    - apply In_nth_error in I as (i & E). rewrite (C30_present _ _ _ _ _ _ _ WF E). discriminate.
    - destruct (WB t Ht) as [W|W]; [elim I; now apply WO|]. rewrite (C30_absent_partial _ _ _ _ _ _ WF I); [discriminate|now left]. }
  assert (IN : forall t id, id_of v t = Ok (Some id) -> word_of_input (Conv_Model.bytes t)).
  { intros t id H. apply (id_found v disk WF) in H. apply WO. eapply nth_error_In; eauto. }
  eexists. apply (index_scan_complete per thr logmult sort2 sort3 Hper Hlog Hsorts _ _ OK ix CI v Hvoc).
  destruct bound as [|a [|b [|]]]; cbn in LB; try lia; cbn [scan_fine]; [apply DEF; now left|].
  split; [apply DEF; now left|]. intros id1 E1. split; [apply DEF; cbn; auto|]. intros id2 E2.
  destruct (TB a b eq_refl (IN _ _ E1) (IN _ _ E2)) as ([[x y] z0] & z & If & AE).
  destruct (fact_kb v disk ids (facts_of parts) F x y z0 If) as (i & j & k & I & L1 & L2 & L3 & W1 & W2 & W3).
  apply (id_found v disk WF) in E1, E2.
  assert (H1 : forall u, low v disk u -> word_of v disk u = Conv_Model.bytes a -> u = id1).
  { intros u Lu Wu. apply (word_inj v disk ND); auto; [unfold low; apply nth_error_Some; congruence|].
    unfold word_of at 2. rewrite Wu. symmetry. now apply nth_error_nth. }
  assert (H2 : forall u, low v disk u -> word_of v disk u = Conv_Model.bytes b -> u = id2).
  { intros u Lu Wu. apply (word_inj v disk ND); auto; [unfold low; apply nth_error_Some; congruence|].
    unfold word_of at 2. rewrite Wu. symmetry. now apply nth_error_nth. }
  apply (good_key per thr ids ord id1 id2 (i, j, k)); [now apply nodup_In in I| |];
    destruct ord; cbn in AE; injection AE as A1 A2 A3; cbn; auto; (apply H1 + apply H2); auto; congruence.
Qed.

Variable o : oracle.
Variables (U : list string) (ts : list triple) (fs : list filt).
Variable sat : filt -> list (option N) -> bool.
Variable wsat : filt -> list (option (list N)) -> bool.
(* a filter decides about words *)
Hypothesis Hsat : forall f l ws, In f fs -> map (option_map (shows v)) l = map (option_map Word) ws -> sat f l = wsat f ws.
Hypothesis Hor : oracle_ok o U.
Hypothesis Hq : query_ok U ts fs.
Definition query_answer : list (list N) -> Prop :=
  Whole_Spec.answer is_var Conv_Model.bytes (facts_of parts) U (map (fun t => (t_s t, t_p t, t_o t)) ts) (map (fun f => (filter_vars f, wsat f)) fs).

Lemma whole t tab : planned o ts fs [] t -> tree_ok o t = true -> runs o v ix sat t tab ->
  exists sols, map (fun r => map (fun u => option_map (shows v) (value_of (vars o t) r u)) U) tab = map (map (fun w => Some (Word w))) sols /\
    Whole_Spec.lists sols query_answer.
Proof using Hin Hmark Hpre Hper Hlog Hsorts Hbuilt Honce Hsize Hfew Hsat Hor Hq.
  intros P T R. destruct built as (disk & ids & WF & ND & F & OK & CI & _).
  assert (Hvoc : forall t id, id_of v t = Ok (Some id) -> (id < N.of_nat (length (v_words v ++ disk)))%N).
  { intros t0 id H. apply (id_low v disk WF) in H. unfold low in H. lia. }
  destruct (runs_computes per thr logmult sort2 sort3 Hper Hlog Hsorts _ ids OK ix CI v Hvoc o sat (fun _ _ => False) t tab R) as [C _].
  assert (IX : index_of (ix_of (nodup Perm_Thm.triple_dec ids)) (nodup Perm_Thm.triple_dec ids)).
  { split; [apply NoDup_nodup|]. intros ord. apply ix_of_ok. }
  apply (plan_correct o (voc v) _ sat _ _ U ts fs IX Hor Hq t tab P T) in C.
  destruct (words_correct v disk WF ND ids (facts_of parts) F U ts fs sat wsat Hq) with (m := vars o t) (tab := tab) as (sols & E & N & H); auto.
  - intros f l Hf Hl. apply Hsat; auto. rewrite map_map. apply map_ext_in. intros [x|] Hx; [|reflexivity]. cbn. f_equal.
    apply Hl in Hx. unfold low in Hx. unfold shows. rewrite (C30_word_of_id _ _ _ _ _ _ WF).
    + now rewrite (nth_error_nth' (v_words v ++ disk) [] Hx).
    + destruct WF as (_ & _ & _ & _ & _ & B & _). assert (LE := external_length disk). rewrite app_length in Hx. lia.
  - exists sols. split; [exact E|]. split; [exact N|exact H].
Qed.

(* The rows of the result, as words, are the answers of the query over the triples of the input, each once: for every
   plan that the planner can choose, if the pattern has the shape of a tree. *)
Theorem C79_answers t tab : length U + length ts = 1 + list_sum (map (fun t => length (triple_vars t)) ts) ->
  plan_pattern o ts fs [] = Val t -> runs o v ix sat t tab ->
  exists sols, map (fun r => map (fun u => option_map (shows v) (value_of (vars o t) r u)) U) tab = map (map (fun w => Some (Word w))) sols /\
    Whole_Spec.lists sols query_answer.
Proof using Hin Hmark Hpre Hper Hlog Hsorts Hbuilt Honce Hsize Hfew Hsat Hor Hq.
  intros L P R. apply (Plan_Proof4.pattern_planned o fs) in P. apply whole; auto.
  exact (tree_pattern_ok o (fun _ => None) (ix_of []) sat (fun _ _ => False) [] U ts fs (ix_index [] eq_refl) Hor Hq t L P).
Qed.
(* Any pattern, if the chosen plan has no join on two or more columns with inputs sorted by other columns (tree_ok).
   Missing: that premise, see C62_two_column_refuted. *)
Theorem C79_answers_partial t tab : tree_ok o t = true -> plan_pattern o ts fs [] = Val t -> runs o v ix sat t tab ->
  exists sols, map (fun r => map (fun u => option_map (shows v) (value_of (vars o t) r u)) U) tab = map (map (fun w => Some (Word w))) sols /\
    Whole_Spec.lists sols query_answer.
Proof using Hin Hmark Hpre Hper Hlog Hsorts Hbuilt Honce Hsize Hfew Hsat Hor Hq.
  intros T P R. apply (Plan_Proof4.pattern_planned o fs) in P. now apply whole.
Qed.
End Theorems.
Print Assumptions C79_scan.
Print Assumptions C79_scan_succeeds_partial.
Print Assumptions C79_answers.
Print Assumptions C79_answers_partial.

(* ---------- an example: five triples in two parts, blocks of two left hand sides ---------- *)
Section Unique.
Variable A : Type.
Variable lt : A -> A -> bool.
Hypothesis irrefl : forall a, lt a a = false.
Hypothesis trans : forall a b c, lt a b = true -> lt b c = true -> lt a c = true.
Lemma sorted_unique (l : list A) : forall l', StronglySorted (fun a b => lt a b = true) l -> StronglySorted (fun a b => lt a b = true) l' ->
  (forall x, In x l <-> In x l') -> l = l'.
Proof.
  induction l as [|a l IH]; intros [|b l'] S S' H; auto.
  - destruct (H b) as [_ X]. destruct X. now left.
  - destruct (H a) as [X _]. destruct X. now left.
  - inversion S as [|? ? S1 S2]; subst. inversion S' as [|? ? S1' S2']; subst. rewrite Forall_forall in S2, S2'.
    assert (E : a = b).
    { destruct (H a) as [[X|X] _]; [now left|auto|]. destruct (H b) as [_ [Y|Y]]; [now left|auto|].
      exfalso. specialize (S2 b Y). specialize (S2' a X).
      pose proof (trans _ _ _ S2 S2') as Z. rewrite irrefl in Z. discriminate. }
    subst b. f_equal. apply IH; auto. intros r. specialize (H r). cbn in H. split; intros X.
    + destruct H as [[Y|Y] _]; auto. subst r. specialize (S2 a X). rewrite irrefl in S2. discriminate.
    + destruct H as [_ [Y|Y]]; auto. subst r. specialize (S2' a X). rewrite irrefl in S2'. discriminate.
Qed.
End Unique.
Lemma ids_unique words ids facts : NoDup words -> Forall2 (triple_stands_for words) ids facts -> forall ids', Forall2 (triple_stands_for words) ids' facts -> ids = ids'.
Proof.
  intros ND F. induction F as [|[[a b] c] [[x y] z] l l' (S1 & S2 & S3) F IH]; intros ids' F'; inversion F' as [|[[a' b'] c'] ? k ? (T1 & T2 & T3) F2]; subst; auto.
  f_equal; auto. cbn in *. unfold stands_for in *.
  assert (G : forall i j w, nth_error words (N.to_nat i) = Some w -> nth_error words (N.to_nat j) = Some w -> i = j).
  { intros i j w E1 E2. apply N2Nat.inj. apply (proj1 (NoDup_nth_error words) ND); [apply nth_error_Some; congruence|congruence]. }
  f_equal; [f_equal|]; eauto.
Qed.
Definition iri (c : N) : list N := [60; c; 62]%N.
Definition e_parts : list (list (nat * (list N * (list N * list N * list N)))) :=
  [[(1, ([], (iri 97, iri 112, iri 98))); (0, ([], (iri 98, iri 112, iri 98)))];
   [(3, ([], (iri 98, iri 112, iri 99))); (1, ([], (iri 100, iri 112, iri 99))); (1, ([], (iri 97, iri 113, iri 100)))]].
Definition e_words : list (list N) := [iri 97; iri 98; iri 99; iri 100; iri 112; iri 113; langtag_predicate].
Definition e_ids : list (N * N * N) := [(0, 4, 1); (1, 4, 1); (1, 4, 2); (3, 4, 2); (0, 5, 3)]%N.
Definition e_voc : vocabulary := V Collate_Thm.example_icu (fun _ => false) e_words (loaded []).
Notation e_sort2 := (Ops_Proof.sort_by Perm_Model.pair_less).

Lemma e_input : Merge_Thm.input_ok Collate_Thm.example_icu 4 3 e_parts.
Proof.
  split; [apply Collate_Thm.example_icu_ok|]. split; [lia|]. split; [lia|]. split; [lia|]. split; [discriminate|].
  split; [unfold e_parts; repeat constructor; cbn; lia|].
  split; [apply Merge_Thm.faithful_check; vm_compute; reflexivity|].
  split; [unfold e_parts, Merge_Thm.input_words, legal, first_byte; cbn [concat app flat_map words_of fst snd]; repeat constructor; try discriminate; cbn; lia|].
  split; [|reflexivity]. apply Forall_forall. intros x X. unfold Merge_Thm.vocabulary_words in X. cbn in X.
  repeat (destruct X as [<-|X]; [reflexivity|]). destruct X.
Qed.
Lemma e_nodup : NoDup e_words.
Proof. repeat constructor; cbn; intuition discriminate. Qed.
Lemma e_perm : Perm_Thm.input_ok 7 e_ids.
Proof.
  split; [reflexivity|]. split; [reflexivity|]. intros s p o H. cbn [e_ids In] in H.
  repeat (destruct H as [H|H]; [injection H as <- <- <-; repeat split; reflexivity|]). destruct H.
Qed.
Lemma e_built : exists ix,
  index_built Collate_Thm.example_icu 4 3 10 e_parts 2 3 Perm_Thm.ex_log e_sort2 Perm_Thm.ex_sort3 [[60%N]] ix e_voc /\
  Perm_Model.create_index 2 3 Perm_Thm.ex_log e_sort2 Perm_Thm.ex_sort3 7 e_ids = Ok (Some ix).
Proof.
  destruct (Merge_Thm.C32_no_failure _ _ _ 10 _ e_input) as (_ & _ & w & r & P).
  destruct (Merge_Thm.C32_first_pass _ _ _ _ _ _ _ e_input P) as (internal & ext & ids & -> & O1 & O2 & TO & SI & IO & NI & EE & WO & _ & F).
  assert (VW : forall x, In x (Merge_Thm.vocabulary_words e_parts) <-> In x e_words).
  { intros x. unfold Merge_Thm.vocabulary_words, e_words. cbn. tauto. }
  assert (LOW : forall x, In x e_words -> ~ external x).
  { intros x Hx. unfold external, first_byte. cbn in Hx. repeat (destruct Hx as [<-|Hx]; [cbn; lia|]). destruct Hx. }
  assert (ext = []) as ->.
  { destruct ext as [|x ext]; [reflexivity|]. exfalso. apply (LOW x); [apply VW, WO, in_app_iff; right; now left|]. apply EE. now left. }
  rewrite app_nil_r in *.
  assert (B := Merge_Proof5.before_order Collate_Thm.example_icu [] Collate_Thm.example_icu_ok (fun a b c v v' t H => match H with end)).
  assert (internal = e_words) as ->.
  { apply (sorted_unique _ (fun a b => before Collate_Thm.example_icu a b TOTAL)).
    - apply (wo_irrefl _ _ B).
    - apply (wo_trans _ _ B).
    - exact SI.
    - unfold e_words. repeat constructor; vm_compute; reflexivity.
    - intros x. now rewrite WO, VW. }
  assert (ids = e_ids) as ->.
  { apply (ids_unique e_words ids _ e_nodup F). unfold e_ids. cbn. repeat constructor. }
  destruct (Perm_Thm.C25_created 2 3 Perm_Thm.ex_log e_sort2 Perm_Thm.ex_sort3 (Nat.lt_0_succ 1) (fun a b => N.mod_lt _ 256 ltac:(discriminate))
    Perm_Thm.ex_sorts 7 e_ids e_perm ltac:(discriminate)) as [ix CI].
  exists ix. split; [|exact CI].
  exists w, e_ids, (prefix_map [[60%N]]), (Ops_Proof.sort_by longer (prefix_vec [[60%N]])), (prefix_map [[60%N]]), (Ops_Proof.sort_by longer (prefix_vec [[60%N]])).
  eexists. exists (external_file []). split; [exact P|]. split; [rewrite TO; exact CI|].
  split; [split; [reflexivity|apply Ops_Proof.sort_by_result, longer_order]|]. split; [split; [reflexivity|apply Ops_Proof.sort_by_result, longer_order]|].
  split; [rewrite O1; vm_compute; reflexivity|]. split; [vm_compute; reflexivity|]. split; [rewrite O2; vm_compute; reflexivity|].
  split; reflexivity.
Qed.
Lemma e_once : once_on_disk (v_external e_voc).
Proof.
  intros i j x H. exfalso. cbn [e_voc v_external] in H. destruct (C30_external_file [] ltac:(reflexivity)) as (e & E1 & _ & E3).
  rewrite init_ok in E1 by reflexivity. injection E1 as <-. rewrite E3 in H. destruct (N.to_nat i); discriminate.
Qed.
Lemma e_marked : marked (v_externalize e_voc) e_parts.
Proof.
  intros x Hx. right. split; [|reflexivity]. unfold Merge_Thm.vocabulary_words in Hx. cbn in Hx. unfold first_byte.
  repeat (destruct Hx as [<-|Hx]; [cbn; lia|]). destruct Hx.
Qed.

Lemma is_ub {A} (x : outcome A) : match x with UB => true | _ => false end = true -> x = UB.
Proof. destruct x; try discriminate. reflexivity. Qed.
(* C79 claims the answers of every query; looking up a subject and a predicate that are both in the vocabulary, but in no
   triple together, can read behind a block of the file, although the answer is known to be empty. *)
Theorem C79_absent_refuted : exists loc numMaps L B parts per thr logmult sort2 sort3 prefixes ix v,
  Merge_Thm.input_ok loc numMaps L parts /\ marked (v_externalize v) parts /\ Forall Vocab_Spec.no_newline prefixes /\ 0 < per /\
  (forall a b, logmult a b < 256)%N /\ Perm_Thm.sorts sort2 sort3 /\
  index_built loc numMaps L B parts per thr logmult sort2 sort3 prefixes ix v /\ once_on_disk (v_external v) /\
  (N.of_nat (length (v_words v) + length (ext_file (v_external v))) < 2 ^ 63)%N /\ (N.of_nat (length (Merge_Thm.all_triples parts)) < 2 ^ 40)%N /\
  index_scan v ix PSO ["<p>"; "<c>"]%string = UB.
Proof.
  destruct e_built as (ix & BI & CI).
  exists Collate_Thm.example_icu, 4, 3%N, 10, e_parts, 2, 3, Perm_Thm.ex_log, e_sort2, Perm_Thm.ex_sort3, [[60%N]], ix, e_voc.
  split; [apply e_input|]. split; [apply e_marked|]. split; [constructor; [intros [X|[]]; discriminate|constructor]|]. split; [lia|].
  split; [intros a b; apply N.mod_lt; discriminate|]. split; [apply Perm_Thm.ex_sorts|]. split; [exact BI|]. split; [apply e_once|].
  split; [reflexivity|]. split; [reflexivity|].
  assert (X : forall r, Perm_Model.create_index 2 3 Perm_Thm.ex_log e_sort2 Perm_Thm.ex_sort3 7 e_ids = Ok (Some r) -> index_scan e_voc r PSO ["<p>"; "<c>"]%string = UB).
  { assert (Y : match Perm_Model.create_index 2 3 Perm_Thm.ex_log e_sort2 Perm_Thm.ex_sort3 7 e_ids with
      | Ok (Some r) => match index_scan e_voc r PSO ["<p>"; "<c>"]%string with UB => true | _ => false end | _ => false end = true) by (vm_compute; reflexivity).
    intros r E. rewrite E in Y. exact (is_ub _ Y). }
  now apply X.
Qed.
Print Assumptions C79_absent_refuted.

(* the example for C79_scan and C79_answers: the pairs and the paths of length two of <p> *)
Definition e_U : list string := ["?x"; "?y"; "?z"]%string.
Definition e_ts : list triple := [T "?x" "<p>" "?y"; T "?y" "<p>" "?z"]%string.
Example C79_example : exists ix t tab,
  Merge_Thm.input_ok Collate_Thm.example_icu 4 3 e_parts /\ marked (v_externalize e_voc) e_parts /\ Perm_Thm.sorts e_sort2 Perm_Thm.ex_sort3 /\
  index_built Collate_Thm.example_icu 4 3 10 e_parts 2 3 Perm_Thm.ex_log e_sort2 Perm_Thm.ex_sort3 [[60%N]] ix e_voc /\
  once_on_disk (v_external e_voc) /\ oracle_ok x_o e_U /\ query_ok e_U e_ts [] /\
  length e_U + length e_ts = 1 + list_sum (map (fun t => length (triple_vars t)) e_ts) /\
  plan_pattern x_o e_ts [] [] = Val t /\ runs x_o e_voc ix (fun _ _ => true) t tab /\
  map (fun r => map (fun u => option_map (shows e_voc) (value_of (vars x_o t) r u)) e_U) tab =
    map (map (fun c => Some (Word (iri c)))) [[97; 98; 98]; [97; 98; 99]; [98; 98; 98]; [98; 98; 99]]%N /\
  index_scan e_voc ix POS ["<p>"; "<c>"]%string = Ok [[1]; [3]]%N /\
  (exists f z, In f (facts_of e_parts) /\ Whole_Spec.arranged (positions POS) f = [Conv_Model.bytes "<p>"; Conv_Model.bytes "<c>"; z]).
Proof.
  destruct e_built as (ix & BI & CI). exists ix.
  set (t := JoinT (Scan POS ["<p>"%string] ["?y"%string; "?x"%string]) (Scan PSO ["<p>"%string] ["?y"%string; "?z"%string]) 0 0 : tree).
  set (tab := [[1; 0; 1]; [1; 0; 2]; [1; 1; 1]; [1; 1; 2]]%N).
  assert (E1 : plan_pattern x_o e_ts [] [] = Val t) by (vm_compute; reflexivity).
  assert (E2 : exec x_o (voc e_voc) (ix_of (nodup Perm_Thm.triple_dec e_ids)) (fun _ _ => true) t = Some tab) by (vm_compute; reflexivity).
  assert (E3 : map (fun r => map (fun u => option_map (shows e_voc) (value_of (vars x_o t) r u)) e_U) tab =
    map (map (fun c => Some (Word (iri c)))) [[97; 98; 98]; [97; 98; 99]; [98; 98; 98]; [98; 98; 99]]%N) by (vm_compute; reflexivity).
  assert (Y : match Perm_Model.create_index 2 3 Perm_Thm.ex_log e_sort2 Perm_Thm.ex_sort3 7 e_ids with
      | Ok (Some r) => index_scan e_voc r POS ["<p>"; "<c>"]%string | _ => UB end = Ok [[1]; [3]]%N) by (vm_compute; reflexivity).
  assert (VO : forall t0 id, id_of e_voc t0 = Ok (Some id) -> (id < N.of_nat 7)%N).
  { intros t0 id H. assert (WF : well_formed (v_loc e_voc) (v_externalize e_voc) (v_words e_voc) [] (v_external e_voc)).
    { split; [apply Collate_Thm.example_icu_ok|]. split; [|split; [constructor|]].
      - cbn [v_words v_loc e_voc]. unfold e_words. repeat constructor; apply Collate_Proof.compare_precedes; vm_compute; reflexivity.
      - split; [apply Forall_forall; reflexivity|]. split; [constructor|]. split; [reflexivity|]. apply init_ok. reflexivity. }
    apply (id_low e_voc [] WF) in H. unfold low in H. cbn [e_voc v_words app e_words length] in H. lia. }
  destruct (computes_runs 2 3 Perm_Thm.ex_log e_sort2 Perm_Thm.ex_sort3 (Nat.lt_0_succ 1) (fun a b => N.mod_lt _ 256 ltac:(discriminate))
    Perm_Thm.ex_sorts 7 e_ids e_perm ix CI e_voc VO x_o (fun _ _ => true) (fun _ _ => False) t tab) as [R _].
  { now apply exec_computes. }
  { assert (IP : id_of e_voc "<p>"%string <> UB) by (assert (Z : id_of e_voc "<p>"%string = Ok (Some 4%N)) by (vm_compute; reflexivity); rewrite Z; discriminate).
    split; exact IP. }
  { split; exact I. }
  exists t, tab. split; [apply e_input|]. split; [apply e_marked|]. split; [apply Perm_Thm.ex_sorts|]. split; [exact BI|]. split; [apply e_once|].
  split. { apply ex_oracle. intros v H. cbn in H. destruct H as [<-|[<-|[<-|[]]]]; split; discriminate. }
  split; [apply qcheck_ok; vm_compute; reflexivity|]. split; [vm_compute; reflexivity|]. split; [exact E1|]. split; [exact R|]. split; [exact E3|].
  split; [rewrite CI in Y; exact Y|]. exists (iri 98, iri 112, iri 99), (iri 98). split; [cbn; auto|reflexivity].
Qed.
