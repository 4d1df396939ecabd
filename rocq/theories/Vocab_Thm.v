(* Claims C29 and C30. *)
From Coq Require Import List NArith Arith Bool Lia Sorted Permutation ZifyN ZifyNat ZifyBool.
From Verif Require Import Bytes Table_Spec Ops_Spec Ops_Proof Strings_Model Strings_Spec Strings_Proof
  Collate_Model Collate_Spec Collate_Proof Collate_Thm Vocab_Model Vocab_Spec Vocab_Proof.
Import ListNotations.
Open Scope N_scope.

(* ---- C29: compression ---- *)
(* Any list of prefixes, however the prefixes of equal length are ordered. *)
Theorem C29_compress prefixes map vec w : initializePrefixes prefixes map vec ->
  expandPrefix map (compressPrefix vec w) = Some w.
Proof. apply expand_compress. Qed.
Print Assumptions C29_compress.
(* A longest prefix is replaced, i.e. no other prefix gives a shorter compressed word. *)
Theorem C29_longest prefixes map vec w : initializePrefixes prefixes map vec ->
  (compressPrefix vec w = NO_PREFIX_CHAR :: w /\
    forall p, In p (firstn NUM_COMPRESSION_PREFIXES prefixes) -> ~ exists s, w = p ++ s) \/
  exists c p s, In p prefixes /\ w = p ++ s /\ compressPrefix vec w = c :: s /\
    forall p' s', In p' (firstn NUM_COMPRESSION_PREFIXES prefixes) -> w = p' ++ s' -> (length s <= length s')%nat.
Proof.
  intros I. assert (CI : forall l i p, In p l -> exists c, In (c, p) (codes i l)).
  { induction l as [|q l IH]; intros i p; [intros []|]. intros [->|H]; [exists i; now left|].
    destruct (IH (i + 1) p H) as [c C]. exists c. now right. }
  destruct (compress_longest prefixes map vec w I) as [[-> H]|(c & p & H1 & -> & H2 & H3)].
  - left. split; [reflexivity|]. intros p P E. destruct (CI _ MIN_COMPRESSION_PREFIX p P) as [c C].
    specialize (H c p C). apply Strings_Proof3.startsWith_iff in E. congruence.
  - right. apply Strings_Proof3.startsWith_iff in H2 as [s ->]. exists c, p, s.
    split.
    { unfold prefix_vec in H1. apply codes_nth in H1 as (k & K1 & _ & <-). assert (X := nth_In (firstn NUM_COMPRESSION_PREFIXES prefixes) [] K1).
      rewrite <- (firstn_skipn NUM_COMPRESSION_PREFIXES prefixes) at 2. apply in_or_app. now left. }
    split; [reflexivity|]. rewrite skipn_len. split; [reflexivity|].
    intros p' s' P E. destruct (CI _ MIN_COMPRESSION_PREFIX p' P) as [c' C].
    assert (L : (length p' <= length p)%nat) by (apply (H3 c' p' C); apply Strings_Proof3.startsWith_iff; now exists s').
    apply (f_equal (@length N)) in E. rewrite !app_length in E. lia.
Qed.
Print Assumptions C29_longest.
Lemma longer_order : strict_weak_order longer.
Proof.
  unfold longer. split; intros; rewrite ?Nat.ltb_lt, ?Nat.ltb_ge in *; try lia.
Qed.
(* 130 prefixes, some overlapping: the longest of the first 126 is used *)
Definition example_prefixes : list (list N) := [[60]; [60; 97; 98]; [60; 97]] ++ repeat [120] 123 ++ [[60; 97; 98; 99]] ++ repeat [121] 3.
Example C29_example : exists map vec, initializePrefixes example_prefixes map vec /\
  compressPrefix vec [60; 97; 98; 99; 62] = [130; 99; 62] /\ compressPrefix vec [121] = [255; 121] /\
  expandPrefix map [130; 99; 62] = Some [60; 97; 98; 99; 62].
Proof.
  exists (prefix_map example_prefixes), (sort_by longer (prefix_vec example_prefixes)). split.
  - split; [reflexivity|]. apply sort_by_result. apply longer_order.
  - vm_compute. auto.
Qed.

(* The vocabulary after the index was built and loaded again. *)
Theorem C29_reloaded words prefixes map2 vec1 vec2 r : Forall no_newline prefixes ->
  rebuilt words prefixes map2 vec1 vec2 r ->
  exists stored, r = Val stored /\ length stored = length words /\
    forall i w, nth_error words i = Some w -> at_word map2 stored i = Some w.
Proof.
  intros F ([map1 I1] & I2 & ->). unfold prefix_file in I2. rewrite (lines_flat prefixes F) in I2.
  assert (map1 = map2) as -> by (destruct I1 as [-> _], I2 as [-> _]; reflexivity).
  unfold readFromFile. rewrite (compressed_lines prefixes map2 vec1) by auto.
  rewrite (read_words_ok prefixes map2 vec1 vec2) by auto. eexists. split; [reflexivity|].
  split; [apply map_length|]. intros i w E. unfold at_word. rewrite nth_error_map, E. cbn [option_map].
  now apply (expand_compress prefixes).
Qed.
Print Assumptions C29_reloaded.
(* every list of words and prefixes can be stored and loaded *)
Theorem C29_reload_exists words prefixes : exists map2 vec1 vec2 r, rebuilt words prefixes map2 vec1 vec2 r.
Proof.
  do 4 eexists. split; [eexists; split; [reflexivity | apply sort_by_result; apply longer_order]|].
  split; [split; [reflexivity | apply sort_by_result; apply longer_order]|reflexivity].
Qed.
Print Assumptions C29_reload_exists.
Definition example_words : list (list N) := [[]; [34; 10; 92; 34]; [60; 97; 98; 99; 62]; [60; 97; 98; 100; 62]].
Example C29_reload_example :
  let vec := sort_by longer (prefix_vec [[60; 97; 98]; []]) in
  rebuilt example_words [[60; 97; 98]; []] (prefix_map [[60; 97; 98]; []]) vec vec
    (Val [[130]; [130; 34; 10; 92; 34]; [129; 99; 62]; [129; 100; 62]]) /\ Forall no_newline [[60; 97; 98]; []].
Proof.
  cbv zeta. split; [|repeat constructor; unfold no_newline; cbn; intuition discriminate].
  split; [eexists; split; [reflexivity | apply sort_by_result; apply longer_order]|].
  split; [split; [reflexivity | apply sort_by_result; apply longer_order]|]. vm_compute. reflexivity.
Qed.
(* Words added later, e.g. by push_back, are compressed alike. *)
Theorem C29_push_back prefixes map vec words w : initializePrefixes prefixes map vec ->
  at_word map (push_back vec words w) (length words) = Some w /\
  forall i, (i < length words)%nat -> at_word map (push_back vec words w) i = at_word map words i.
Proof.
  intros I. unfold at_word, push_back. split.
  - rewrite nth_error_app2, Nat.sub_diag by lia. cbn [nth_error]. now apply (expand_compress prefixes).
  - intros i H. now rewrite nth_error_app1.
Qed.
Print Assumptions C29_push_back.
(* The text vocabulary, which is not compressed *)
Theorem C29_text_vocabulary words : Forall no_newline words -> last words [1] <> [] ->
  readFromFile_text (writeToFile words) = words.
Proof.
  intros F L. unfold readFromFile_text, writeToFile. rewrite join_glue.
  destruct words as [|p ps] using rev_ind; [reflexivity|]. clear IHps. rewrite last_last in L.
  apply Forall_app in F as [F1 F2]. inversion F2 as [|x l N _ X]; subst. destruct ps as [|q ps].
  - cbn [app glue]. apply (lines_glue [] p); auto.
  - rewrite glue_last. apply lines_glue; auto.
Qed.
Print Assumptions C29_text_vocabulary.
Theorem C29_text_empty_word_refuted : exists words, Forall no_newline words /\ readFromFile_text (writeToFile words) <> words.
Proof.
  exists [[97]; []]. split; [repeat constructor; unfold no_newline; cbn; intuition discriminate|]. vm_compute. discriminate.
Qed.
Print Assumptions C29_text_empty_word_refuted.

(* ---- C30: ids of words ---- *)
(* The file of external words holds the words. *)
Theorem C30_external_file ws : N.of_nat (length (concat ws)) < 2 ^ 64 ->
  exists e, initFromFile (external_file ws) = Some e /\ ext_size e = N.of_nat (length ws) /\
    forall i, ext_at e i = nth_error ws (N.to_nat i).
Proof.
  intros T. exists (loaded ws). split; [now apply init_ok|]. split; [reflexivity|]. intros i.
  rewrite <- (N2Nat.id i) at 1. now apply ext_at_ok.
Qed.
Print Assumptions C30_external_file.
Example C30_external_example : exists e, initFromFile (external_file [[97; 98]; []; [99]]) = Some e /\ ext_size e = 3 /\
  ext_at e 0 = Some [97; 98] /\ ext_at e 1 = Some [] /\ ext_at e 2 = Some [99] /\ ext_at e 3 = None.
Proof. eexists. split; [vm_compute; reflexivity|]. vm_compute. auto. Qed.
(* It is built from a text file with one escaped word per line. *)
Theorem C30_external_text ws : buildFromTextFile (vocabulary_file ws) = Val (external_file ws).
Proof. unfold buildFromTextFile. now rewrite vocabulary_lines, unescape_all_ok. Qed.
Print Assumptions C30_external_text.

(* Internal words come first; which words are external is decided by the word. *)
Definition well_formed (loc : icu) (externalize : list N -> bool) (words ws : list (list N)) (e : external) : Prop :=
  icu_ok loc /\ vocabulary_sorted loc words /\ vocabulary_sorted loc ws /\
  Forall (fun w => externalize w = false) words /\ Forall (fun w => externalize w = true) ws /\
  N.of_nat (length words + length (external_file ws)) < 2 ^ 63 /\ initFromFile (external_file ws) = Some e.
Lemma wf_loaded loc externalize words ws e : well_formed loc externalize words ws e ->
  e = loaded ws /\ total ws < 2 ^ 64 /\ N.of_nat (length ws) < 2 ^ 63 /\ N.of_nat (length (external_file ws)) < 2 ^ 63 /\
  StronglySorted (fun a b => compare loc a b TOTAL = Lt) ws.
Proof.
  intros (K & S1 & S2 & F1 & F2 & B & I). assert (L := external_length ws).
  assert (T : total ws < 2 ^ 64) by (unfold total; lia). rewrite init_ok in I by auto. injection I as <-.
  split; [reflexivity|]. split; [exact T|]. split; [lia|]. split; [lia|].
  clear - S2. induction S2 as [|a l S IH F]; constructor; auto. eapply Forall_impl; [|exact F]. intros b. apply compare_precedes.
Qed.
Lemma internal_present loc words i : icu_ok loc -> vocabulary_sorted loc words -> (i < length words)%nat ->
  vocab_lower_bound words (fun w => before loc w (word_at words i) TOTAL) = Some i.
Proof.
  intros K S I. destruct (C52_bounds loc words (word_at words i) TOTAL K S) as (lb & ub & -> & _ & [LU U] & H).
  f_equal. destruct (pre_compare loc TOTAL K) as (R & A & _).
  destruct (lt_eq_lt_dec lb i) as [[X|X]|X]; auto; exfalso.
  - destruct (H lb) as [H1 _]; [lia|]. assert (lb < lb)%nat; [|lia]. apply H1. apply compare_precedes.
    now apply (strongly_nth _ [] words S).
  - destruct (H i) as [H1 _]; [lia|]. apply (proj1 H1) in X. rewrite R in X. discriminate.
Qed.
Theorem C30_present loc externalize words ws e i w : well_formed loc externalize words ws e ->
  nth_error (words ++ ws) i = Some w -> getId loc externalize words e w = Found (N.of_nat i).
Proof.
  intros W E. destruct (wf_loaded _ _ _ _ _ W) as (-> & T & L & LF & SW). destruct W as (K & S1 & S2 & F1 & F2 & B & _).
  unfold getId. destruct (lt_dec i (length words)) as [H|H].
  - rewrite nth_error_app1 in E by auto. assert (X := E). apply nth_error_In in X. rewrite Forall_forall in F1. rewrite (F1 w X).
    assert (word_at words i = w) as <- by (unfold word_at; now apply nth_error_nth). rewrite internal_present by auto.
    destruct (Nat.ltb_spec i (length words)); [|lia].
    destruct (list_eq_dec N.eq_dec (word_at words i) (word_at words i)); [reflexivity|contradiction].
  - rewrite nth_error_app2 in E by lia. assert (X := E). apply nth_error_In in X. rewrite Forall_forall in F2. rewrite (F2 w X).
    assert (IL : (i - length words < length ws)%nat) by (apply nth_error_Some; congruence).
    rewrite <- (nth_error_nth _ _ [] E). rewrite ext_getId_present; auto; [|now apply pre_compare]. f_equal. lia.
Qed.
Print Assumptions C30_present.
Theorem C30_found loc externalize words ws e w id : well_formed loc externalize words ws e ->
  getId loc externalize words e w = Found id -> nth_error (words ++ ws) (N.to_nat id) = Some w.
Proof.
  intros W. destruct (wf_loaded _ _ _ _ _ W) as (-> & T & L & LF & SW). unfold getId. destruct (externalize w).
  - destruct (ext_getId _ (loaded ws) w) as [j| |] eqn:E; try discriminate. intros X. injection X as <-.
    apply ext_getId_found in E; auto. rewrite nth_error_app2 by lia. rewrite <- E. f_equal. lia.
  - destruct (vocab_lower_bound words _) as [j|]; [|discriminate].
    destruct (Nat.ltb_spec j (length words)) as [H|H]; [|discriminate]. cbn [andb].
    destruct (list_eq_dec N.eq_dec (word_at words j) w) as [<-|]; [|discriminate]. intros X. injection X as <-.
    rewrite Nat2N.id, nth_error_app1 by auto. unfold word_at. now apply nth_error_nth'.
Qed.
Print Assumptions C30_found.
(* A word that does not exist is not found; but the search does not end well if the word is external,
   in front of all external words, and their number is unlucky. *)
Theorem C30_absent_partial loc externalize words ws e w : well_formed loc externalize words ws e -> ~ In w (words ++ ws) ->
  externalize w = false \/ ws = [] \/ (exists v, In v ws /\ ~ precedes loc w v) \/ ~ unlucky (N.of_nat (length ws)) ->
  getId loc externalize words e w = NotFound.
Proof.
  intros W A C. assert (FD := C30_found loc externalize words ws e w). assert (W' := W).
  destruct (wf_loaded _ _ _ _ _ W) as (-> & T & L & LF & SW). destruct W as (K & S1 & S2 & F1 & F2 & B & _).
  destruct (getId loc externalize words (loaded ws) w) as [id| |] eqn:E; auto.
  - exfalso. apply A. specialize (FD id W' eq_refl). now apply nth_error_In in FD.
  - exfalso. unfold getId in E. destruct (externalize w) eqn:EX.
    + destruct (ext_getId _ (loaded ws) w) as [j| |] eqn:EG; try discriminate. clear E.
      assert (AW : ~ In w ws) by (intros X; apply A; apply in_or_app; now right).
      assert (P := pre_compare loc TOTAL K).
      destruct ws as [|v0 ws'] eqn:EW; [|rewrite <- EW in *].
      { rewrite ext_getId_absent in EG; auto; discriminate. }
      destruct (compare loc (nth 0 ws []) w TOTAL) eqn:C0.
      1,2: rewrite ext_getId_absent in EG; auto; [discriminate|right; congruence].
      assert (G : forall i, (i < length ws)%nat -> compare loc (nth i ws []) w TOTAL = Gt).
      { intros i I. destruct i as [|i]; auto. destruct P as (R & AS & TR). rewrite (AS w). 
        assert (X : compare loc w (nth (S i) ws []) TOTAL = Lt); [|now rewrite X].
        apply (pre_lt_trans (fun a b => compare loc a b TOTAL) _ (nth 0 ws [])); [split; auto| |].
        - rewrite (AS (nth 0 ws []) w), C0. reflexivity.
        - assert (Y := strongly_nth (fun a b => compare loc a b TOTAL = Lt) [] ws SW 0%nat (S i)). rewrite Y by lia. discriminate. }
      destruct (ext_getId_front _ P ws T L w G LF) as [_ NF].
      destruct C as [C|[C|[(v & V & C)|C]]]; [congruence | congruence | | specialize (NF C); congruence].
      apply C. apply compare_precedes. apply (In_nth _ _ []) in V as (i & I & <-). destruct P as (R & AS & TR).
      rewrite (AS (nth i ws []) w), (G i I). reflexivity.
    + destruct (C52_bounds loc words w TOTAL K S1) as (lb & ub & LB & _). rewrite LB in E.
      destruct (Nat.ltb lb (length words) && _); discriminate.
Qed.
Print Assumptions C30_absent_partial.
Theorem C30_front_refuted loc externalize words ws e w : well_formed loc externalize words ws e -> externalize w = true ->
  (forall v, In v ws -> precedes loc w v) -> unlucky (N.of_nat (length ws)) ->
  ~ In w (words ++ ws) /\ getId loc externalize words e w = Broken.
Proof.
  intros W EX F U. assert (W' := W). destruct (wf_loaded _ _ _ _ _ W) as (-> & T & L & LF & SW).
  destruct W as (K & S1 & S2 & F1 & F2 & B & _). assert (P := pre_compare loc TOTAL K). assert (P' := P). destruct P' as (R & AS & TR). split.
  - intros I. apply in_app_iff in I as [I|I].
    + rewrite Forall_forall in F1. specialize (F1 w I). congruence.
    + specialize (F w I). apply compare_precedes in F. rewrite R in F. discriminate.
  - unfold getId. rewrite EX. destruct (ext_getId_front _ P ws T L w) with (2 := LF) as [FR _].
    + intros i I. rewrite (AS w). assert (X := F _ (nth_In ws [] I)). apply compare_precedes in X. now rewrite X.
    + now rewrite (FR U).
Qed.
Print Assumptions C30_front_refuted.
(* numbers of external words for which that happens *)
Example unlucky_sizes : unlucky 1 /\ unlucky 4 /\ unlucky 5 /\ unlucky 10 /\ unlucky 12 /\ unlucky 22 /\ ~ unlucky 0 /\ ~ unlucky 2 /\ ~ unlucky 3.
Proof.
  assert (U1 := unlucky_one).
  assert (U4 : unlucky 4) by (constructor; [reflexivity|exact U1]). assert (U5 : unlucky 5) by (constructor; [reflexivity|exact U1]).
  assert (N0 : ~ unlucky 0) by (intros H; inversion H; lia).
  split; [exact U1|]. split; [exact U4|]. split; [exact U5|].
  split; [constructor; [reflexivity|exact U4]|]. split; [constructor; [reflexivity|exact U5]|].
  split; [constructor; [reflexivity|constructor; [reflexivity|exact U4]]|]. split; [exact N0|].
  split; intros H; inversion H as [|n L U E]; [apply N0; exact U | apply N0; exact U].
Qed.

(* ids to words: the words in order, and nothing else *)
Theorem C30_word_of_id loc externalize words ws e id : well_formed loc externalize words ws e -> id < 2 ^ 64 ->
  idToOptionalString words e id =
    match nth_error (words ++ ws) (N.to_nat id) with
    | Some w => Word w
    | None => if id =? ID_NO_VALUE then NoValue else CheckFails
    end.
Proof.
  intros W ID. destruct (wf_loaded _ _ _ _ _ W) as (-> & T & L & LF & SW). destruct W as (K & S1 & S2 & F1 & F2 & B & _).
  assert (LE := external_length ws). unfold idToOptionalString.
  destruct (N.ltb_spec id (N.of_nat (length words))) as [H|H].
  - rewrite nth_error_app1 by lia. rewrite (nth_error_nth' words []) by lia. reflexivity.
  - rewrite nth_error_app2 by lia. destruct (N.eqb_spec id ID_NO_VALUE) as [->|NE].
    + unfold ID_NO_VALUE in *. destruct (nth_error ws (N.to_nat (2 ^ 64 - 3) - length words)) eqn:E; [|reflexivity].
      assert (X : (N.to_nat (2 ^ 64 - 3) - length words < length ws)%nat) by (apply nth_error_Some; congruence). lia.
    + change (ext_size (loaded ws)) with (N.of_nat (length ws)).
      destruct (N.ltb_spec (id - N.of_nat (length words)) (N.of_nat (length ws))) as [X|X].
      * replace (id - N.of_nat (length words)) with (N.of_nat (N.to_nat id - length words)) by lia. rewrite ext_at_ok by auto.
        rewrite (nth_error_nth' ws []) by lia. reflexivity.
      * replace (nth_error ws (N.to_nat id - length words)) with (@None (list N)); [reflexivity|]. symmetry. apply nth_error_None. lia.
Qed.
Print Assumptions C30_word_of_id.
(* both directions are inverse to each other *)
Theorem C30_inverse loc externalize words ws e id w : well_formed loc externalize words ws e -> id < 2 ^ 64 ->
  (idToOptionalString words e id = Word w <-> getId loc externalize words e w = Found id).
Proof.
  intros W ID. rewrite (C30_word_of_id loc externalize words ws) by auto. split.
  - destruct (nth_error (words ++ ws) (N.to_nat id)) as [v|] eqn:E; [|destruct (id =? ID_NO_VALUE); discriminate].
    intros X. injection X as ->. rewrite (C30_present loc externalize words ws e (N.to_nat id) w W E). f_equal. lia.
  - intros X. now rewrite (C30_found loc externalize words ws e w id W X).
Qed.
Print Assumptions C30_inverse.

(* a vocabulary with three internal and two external words; external are literals with the language "de" *)
Definition internal_example : list (list N) := [[34; 97; 34]; [34; 97; 34; 64; 101; 110]; [60; 98; 62]].
Definition external_example : list (list N) := [[34; 97; 34; 64; 100; 101]; [34; 98; 34; 64; 100; 101]].
Definition externalize_example := shouldBeExternalized 1024 [[60; 120]] [[101; 110]].
Lemma sorted_dec loc ws : (forall i, (S i < length ws)%nat -> compare loc (nth i ws []) (nth (S i) ws []) TOTAL = Lt) -> icu_ok loc ->
  vocabulary_sorted loc ws.
Proof.
  intros H K. assert (P := pre_compare loc TOTAL K). unfold vocabulary_sorted.
  assert (S : StronglySorted (fun a b => compare loc a b TOTAL = Lt) ws).
  { apply Sorted_StronglySorted.
    - intros a b c H1 H2. apply (pre_lt_trans (fun a b => compare loc a b TOTAL) a b c); auto. congruence.
    - induction ws as [|a ws IH]; constructor.
      + apply IH. intros i I. apply (H (Datatypes.S i)). cbn; lia.
      + destruct ws as [|b ws]; constructor. apply (H 0%nat). cbn; lia. }
  clear - S. induction S as [|a l S IH F]; constructor; auto. eapply Forall_impl; [|exact F]. intros b. apply compare_precedes.
Qed.
Example well_formed_example : exists e, well_formed example_icu externalize_example internal_example external_example e /\
  getId example_icu externalize_example internal_example e [34; 97; 34; 64; 101; 110] = Found 1 /\
  getId example_icu externalize_example internal_example e [34; 98; 34; 64; 100; 101] = Found 4 /\
  getId example_icu externalize_example internal_example e [60; 120; 62] = NotFound.
Proof.
  exists (loaded external_example). split.
  - split; [exact example_icu_ok|]. split; [|split; [|split; [|split; [|split]]]].
    + apply sorted_dec; [|exact example_icu_ok]. intros [|[|i]] I; [vm_compute; reflexivity|vm_compute; reflexivity|cbn in I; lia].
    + apply sorted_dec; [|exact example_icu_ok]. intros [|i] I; [vm_compute; reflexivity|cbn in I; lia].
    + repeat constructor; vm_compute; reflexivity.
    + repeat constructor; vm_compute; reflexivity.
    + vm_compute. reflexivity.
    + vm_compute. reflexivity.
  - vm_compute. auto.
Qed.
Example C30_front_example : exists e, well_formed example_icu externalize_example [] [[34; 98; 34; 64; 100; 101]] e /\
  unlucky (N.of_nat (length [[34; 98; 34; 64; 100; 101]])) /\
  getId example_icu externalize_example [] e [34; 97; 34; 64; 100; 101] = Broken.
Proof.
  exists (loaded [[34; 98; 34; 64; 100; 101]]). split; [|split; [constructor|vm_compute; reflexivity]].
  split; [exact example_icu_ok|]. split; [constructor|]. split; [|split; [|split; [|split]]].
  - repeat constructor.
  - constructor.
  - repeat constructor; vm_compute; reflexivity.
  - vm_compute. reflexivity.
  - vm_compute. reflexivity.
Qed.
(* Without external words (Index.cpp:1409 keeps all words internal), words that would be external are
   stored with the others but searched for in the empty external vocabulary. *)
Theorem C30_not_on_disk_refuted loc externalize words w : In w words -> externalize w = true ->
  getId loc externalize words (Ext [] 0 0) w = NotFound.
Proof. intros I E. unfold getId. rewrite E. reflexivity. Qed.
Print Assumptions C30_not_on_disk_refuted.
Example C30_not_on_disk_example : let w := [34; 97; 34; 64; 100; 101] in
  externalize_example w = true /\ vocabulary_sorted example_icu [w] /\
  getId example_icu (fun _ => false) [w] (Ext [] 0 0) w = Found 0.
Proof. cbv zeta. split; [vm_compute; reflexivity|]. split; [repeat constructor|vm_compute; reflexivity]. Qed.
