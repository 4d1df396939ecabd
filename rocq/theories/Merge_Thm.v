(* Properties C31: merging partial vocabularies, and C32: the first pass of the index build. *)
From Coq Require Import List NArith Arith Bool Lia Sorted Permutation ZifyN ZifyNat ZifyBool.
From Verif Require Import ListAux Bytes Table_Spec Lex_Proof Std_Model Ops_Spec Ops_Proof Strings_Model Collate_Model Collate_Spec Collate_Proof Collate_Thm
  Vocab_Model Vocab_Spec Vocab_Proof Vocab_Thm Merge_Model Merge_Spec Merge_Proof Merge_Proof2 Merge_Proof3 Merge_Proof4 Merge_Proof5 Merge_Proof6 Merge_Proof7.
Import ListNotations.
Open Scope N_scope.

(* ---- C31 ---- *)
(* partial vocabularies: words in order, with ids *)
Definition all_words (fs : list (list (list N * N))) : list (list N) := map fst (concat fs).
Definition partial_vocabularies (lt : list N -> list N -> bool) (fs : list (list (list N * N))) : Prop :=
  word_order lt (all_words fs) /\
  Forall (fun es => in_order lt (map fst es)) fs /\
  Forall (Forall (fun e => N.of_nat (length (fst e)) < 2 ^ 64 /\ snd e < 2 ^ 64)) fs /\
  Forall legal (all_words fs) /\
  N.of_nat (length (all_words fs)) < 2 ^ 64.
(* the words and the ids that come out *)
Definition merge_result (lt : list N -> list N -> bool) (fs : list (list (list N * N))) (internal ext : list (list N)) (w : writer) : Prop :=
  outfile w = vocabulary_file internal /\ outfile_ext w = vocabulary_file (map shown ext) /\
  total w = N.of_nat (length (internal ++ ext)) /\
  (forall v, In v internal -> ~ external v) /\ (forall v, In v ext -> external v) /\
  (forall v, In v (internal ++ ext) <-> In v (all_words fs)) /\
  length (id_vecs w) = length fs /\
  (forall f es, nth_error fs f = Some es -> exists vec, nth_error (id_vecs w) f = Some vec /\
    Forall2 (fun e p => fst p = snd e /\ stands_for (internal ++ ext) (snd p) (fst e)) es vec) /\
  (forall i v, nth_error (internal ++ ext) i = Some v ->
    (first_byte v = 64 <-> fst (lang_bounds w) <= N.of_nat i < snd (lang_bounds w))).
Theorem C31_merge lt B fs r : partial_vocabularies lt fs -> mergeVocabulary lt B (map partial_file fs) r ->
  exists w internal ext, r = Ok w /\ merge_result lt fs internal ext w /\
    strictly_in_order lt internal /\ in_order lt (internal ++ ext) /\
    Permutation ext (filter is_external (all_words fs)).
Proof.
  intros (WO & FS & FT & LG & SZ) M. destruct (merge_ok lt fs WO FS FT LG SZ B r M) as (w & internal & ext & -> & [a b c d e f g h i j k l]).
  exists w, internal, ext. split; [reflexivity|]. split; [|split; [exact e|split; [exact f|exact i]]].
  unfold merge_result. destruct g as [g1 g2]. repeat (split; [assumption|]). exact l.
Qed.
Print Assumptions C31_merge.
Theorem C31_merge_exists lt B fs : partial_vocabularies lt fs -> exists w, mergeVocabulary lt B (map partial_file fs) (Ok w).
Proof.
  intros (WO & FS & FT & LG & SZ). destruct (merge_exists lt fs WO FT B) as [r M].
  destruct (merge_ok lt fs WO FS FT LG SZ B r M) as (w & internal & ext & -> & _). now exists w.
Qed.
Print Assumptions C31_merge_exists.

(* If no externalized word occurs twice, every word has one id, and the ids are in the order of the
   words. *)
Lemma strict_of lt ws l : word_order lt ws -> incl l ws -> NoDup l -> in_order lt l -> strictly_in_order lt l.
Proof.
  intros W I ND S. unfold in_order, strictly_in_order in *. induction S as [|a l S IH F]; [constructor|]. inversion ND as [|? ? NI ND']; subst.
  constructor; [apply IH; auto; intros x X; apply I; now right|].
  rewrite Forall_forall in *. intros b IB. destruct (lt a b) eqn:E; [reflexivity|]. exfalso. apply NI.
  rewrite (wo_total _ _ W a b); auto; apply I; [now left | now right].
Qed.
Lemma nodup_of lt ws l : word_order lt ws -> strictly_in_order lt l -> NoDup l.
Proof.
  intros W S. unfold strictly_in_order in S. induction S as [|a l S IH F]; constructor; auto. intros I. rewrite Forall_forall in F. specialize (F a I).
  rewrite (wo_irrefl _ _ W) in F. discriminate.
Qed.
Theorem C31_sorted_partial lt B fs r : partial_vocabularies lt fs -> NoDup (filter is_external (all_words fs)) ->
  mergeVocabulary lt B (map partial_file fs) r ->
  exists w internal ext, r = Ok w /\ merge_result lt fs internal ext w /\
    NoDup (internal ++ ext) /\ strictly_in_order lt (internal ++ ext).
Proof.
  intros P ND M. pose proof P as (WO & _). destruct (C31_merge lt B fs r P M) as (w & internal & ext & E & R & S1 & S2 & PE).
  exists w, internal, ext. split; [exact E|]. split; [exact R|].
  assert (N2 : NoDup (internal ++ ext)).
  { destruct R as (_ & _ & _ & K1 & K2 & _). apply NoDup_app_intro.
    - eapply nodup_of; eassumption.
    - eapply Permutation_NoDup; [apply Permutation_sym, PE | exact ND].
    - intros x X Y. exact (K1 x X (K2 x Y)). }
  split; [exact N2|]. eapply strict_of; eauto. intros v V. destruct R as (_ & _ & _ & _ & _ & K & _). now apply K.
Qed.
Print Assumptions C31_sorted_partial.
(* missing: an externalized word in two partial vocabularies is written twice, with two ids *)
Definition example_twice : list (list (list N * N)) := [[([127; 97], 0)]; [([127; 97], 0)]].

(* The order by bytes, used for the words from which prefixes are computed, is such an order. *)
Definition byte_order (a b : list N) : bool := less (lex_cmp a b).
Theorem C31_byte_order ws : word_order byte_order ws.
Proof.
  unfold byte_order. constructor.
  - intros a. now rewrite lex_cmp_refl.
  - intros a b c H1 H2. apply less_iff in H1, H2. apply less_iff. eapply lex_lt_trans; eassumption.
  - intros a b _ _ H1 H2. apply lex_cmp_eq. destruct (lex_cmp a b) eqn:E; [reflexivity|discriminate|]. rewrite lex_cmp_antisym, E in H2. discriminate.
  - intros [|a x] [|b y] H; cbn in H; try lia; [reflexivity|]. cbn [lex_cmp]. apply N.compare_lt_iff in H. now rewrite H.
Qed.
Print Assumptions C31_byte_order.
(* So is the order of the vocabulary, on words that the locale distinguishes. *)
Theorem C31_vocabulary_order loc ws : icu_ok loc -> faithful loc ws -> word_order (fun a b => before loc a b TOTAL) ws.
Proof. apply before_order. Qed.
Print Assumptions C31_vocabulary_order.

Ltac no_queue := try reflexivity; match goal with H : ?q ++ _ :: _ = [] |- _ => destruct q; discriminate end.
Ltac decide_list := repeat constructor; try discriminate; try (cbn; lia); try reflexivity.
Definition example_parts : list (list (list N * N)) :=
  [[([60; 97], 0); ([60; 98], 1); ([127; 97], 2)]; []; [([60; 98], 0); ([64; 101], 1); ([128; 98], 2)]].
Lemma example_parts_ok : partial_vocabularies byte_order example_parts.
Proof. split; [apply C31_byte_order|]. unfold example_parts, all_words, in_order, legal, first_byte. cbn [map concat app fst snd length hd]. decide_list. Qed.
Example C31_example : exists w, mergeVocabulary byte_order 2 (map partial_file example_parts) (Ok w) /\
  outfile w = vocabulary_file [[60; 97]; [60; 98]; [64; 101]] /\ outfile_ext w = vocabulary_file [[34; 97]; [60; 98]] /\
  id_vecs w = [[(0, 0); (1, 1); (2, 3)]; []; [(0, 1); (1, 2); (2, 4)]] /\ lang_bounds w = (2, 3) /\
  partial_vocabularies byte_order example_parts /\ NoDup (filter is_external (all_words example_parts)).
Proof.
  eexists. split.
  - unfold mergeVocabulary. change (open_files 0 (map partial_file example_parts)) with
      (Some ([Queued [60; 97] 0 0; Queued [60; 98] 2 0], [partial_file [([60; 98], 1); ([127; 97], 2)]; []; partial_file [([64; 101], 1); ([128; 98], 2)]])).
    eexists. split.
    + eapply (run_next _ [] (Queued [60; 97] 0 0)); [intros q Q; cbn in Q; intuition (subst; reflexivity) | reflexivity | vm_compute; reflexivity|].
      cbn [app file_id set_nth].
      eapply (run_next _ [] (Queued [60; 98] 2 0)); [intros q Q; cbn in Q; intuition (subst; reflexivity) | reflexivity | vm_compute; reflexivity|].
      cbn [app file_id set_nth].
      eapply (run_next _ [] (Queued [60; 98] 0 1)); [intros q Q; cbn in Q; intuition (subst; reflexivity) | reflexivity | vm_compute; reflexivity|].
      cbn [app file_id set_nth].
      eapply (run_next _ [] (Queued [64; 101] 2 1)); [intros q Q; cbn in Q; intuition (subst; reflexivity) | reflexivity | vm_compute; reflexivity|].
      cbn [app file_id set_nth].
      eapply (run_last _ [] (Queued [127; 97] 0 2)); [intros q Q; cbn in Q; intuition (subst; reflexivity) | reflexivity | vm_compute; reflexivity|].
      cbn [app file_id set_nth].
      eapply (run_last _ [] (Queued [128; 98] 2 2)); [intros q Q; cbn in Q; intuition (subst; reflexivity) | reflexivity | vm_compute; reflexivity|].
      cbn [app file_id set_nth]. apply run_end.
    + vm_compute. reflexivity.
  - split; [vm_compute; reflexivity|]. split; [vm_compute; reflexivity|]. split; [vm_compute; reflexivity|]. split; [vm_compute; reflexivity|].
    split; [apply example_parts_ok|]. vm_compute. repeat constructor; cbn; intuition discriminate.
Qed.

(* An externalized word that occurs in two partial vocabularies: the last written word is the one
   without the mark, so the second occurrence is taken for a new word. For every order and every
   batch size. *)
Theorem C31_external_refuted lt B w : word_order lt (all_words example_twice) ->
  mergeVocabulary lt B (map partial_file example_twice) (Ok w) ->
  partial_vocabularies lt example_twice /\
  total w = 2 /\ outfile_ext w = vocabulary_file [[34; 97]; [34; 97]] /\
  exists i j, i <> j /\ (id_vecs w = [[(0, i)]; [(0, j)]]).
Proof.
  intros WO M.
  assert (P : partial_vocabularies lt example_twice).
  { split; [exact WO|]. unfold example_twice, all_words, in_order, legal, first_byte. cbn [map concat app fst snd length hd]. decide_list. }
  split; [exact P|].
  unfold mergeVocabulary in M. change (open_files 0 (map partial_file example_twice)) with
    (Some ([Queued [127; 97] 0 0; Queued [127; 97] 1 0], [@nil N; []])) in M.
  destruct M as (out & R & E).
  assert (O : out = Some [Queued [127; 97] 0 0; Queued [127; 97] 1 0] \/ out = Some [Queued [127; 97] 1 0; Queued [127; 97] 0 0]).
  { inversion R as [|q1 top q2 files f out1 _ N1 E1 R1 Q1|q1 top q2 files f v id rest out1 _ N1 E1 R1 Q1|q1 top q2 files f _ N1 E1 Q1]; subst.
    - destruct q1 as [|x q1]; cbn in Q1; injection Q1 as -> Q1; [|destruct q1 as [|y q1]; cbn in Q1; injection Q1 as -> Q1; [|destruct q1; discriminate]]; subst.
      + left. inversion R1 as [|q3 top q4 files f2 out2 _ N2 E2 R2 Q2|q3 top q4 files f2 v id rest out2 _ N2 E2 R2 Q2|q3 top q4 files f2 _ N2 E2 Q2]; subst;
          (destruct q3 as [|x q3]; cbn in Q2; injection Q2 as -> Q2; [subst|destruct q3; discriminate]).
        * inversion R2; subst; no_queue.
        * cbn in N2. injection N2 as <-. discriminate.
        * cbn in N2. injection N2 as <-. discriminate.
      + right. cbn [app] in R1. inversion R1 as [|q3 top q4 files f2 out2 _ N2 E2 R2 Q2|q3 top q4 files f2 v id rest out2 _ N2 E2 R2 Q2|q3 top q4 files f2 _ N2 E2 Q2]; subst;
          (destruct q3 as [|y q3]; cbn in Q2; injection Q2 as -> Q2; [subst|destruct q3; discriminate]).
        * inversion R2; subst; no_queue.
        * cbn in N2. injection N2 as <-. discriminate.
        * cbn in N2. injection N2 as <-. discriminate.
    - destruct q1 as [|x q1]; cbn in Q1; injection Q1 as -> Q1; [|destruct q1 as [|y q1]; cbn in Q1; injection Q1 as -> Q1; [|destruct q1; discriminate]]; subst;
        cbn in N1; injection N1 as <-; discriminate.
    - destruct q1 as [|x q1]; cbn in Q1; injection Q1 as -> Q1; [|destruct q1 as [|y q1]; cbn in Q1; injection Q1 as -> Q1; [|destruct q1; discriminate]]; subst;
        cbn in N1; injection N1 as <-; discriminate. }
  assert (G : forall a b, [a; b] = [Queued [127; 97] 0 0; Queued [127; 97] 1 0] \/ [a; b] = [Queued [127; 97] 1 0; Queued [127; 97] 0 0] ->
    write_batches B (new_writer 2) [] [a; b] = Ok (Writer [34; 97] 2 [] (vocabulary_file [[34; 97]; [34; 97]])
      (if Nat.eqb (file_id a) 0 then [[(0, 0)]; [(0, 1)]] else [[(0, 1)]; [(0, 0)]]) false (0, 0) [])).
  { intros a b AB. assert (C5 : forall n : nat, (n = 0 \/ n = 1 \/ n = 2 \/ 3 <= n)%nat) by (intros; lia).
    cbn [write_batches app length].
    destruct AB as [AB|AB]; injection AB as -> ->; destruct (Nat.leb_spec B 1), (Nat.leb_spec B 2); try lia;
      try (destruct B as [|[|[|B]]]; try lia; vm_compute; reflexivity);
      (destruct (C5 (B / 5)%nat) as [X|[X|[X|X]]]; [rewrite X; vm_compute; reflexivity..|]);
      (destruct (B / 5)%nat as [|[|[|n]]]; try lia; vm_compute; reflexivity). }
  rewrite map_length in E. cbn [length example_twice] in E.
  destruct O as [-> | ->]; rewrite G in E by auto; injection E as ->; cbn [total outfile_ext id_vecs file_id Nat.eqb];
    (split; [reflexivity|]; split; [reflexivity|]); [exists 0, 1 | exists 1, 0]; (split; [discriminate|reflexivity]).
Qed.
Print Assumptions C31_external_refuted.
Example C31_external_example : exists w, mergeVocabulary byte_order 10 (map partial_file example_twice) (Ok w) /\
  word_order byte_order (all_words example_twice).
Proof.
  assert (P : partial_vocabularies byte_order example_twice).
  { split; [apply C31_byte_order|]. unfold example_twice, all_words, in_order, legal, first_byte. cbn [map concat app fst snd length hd]. decide_list. }
  destruct (C31_merge_exists byte_order 10 _ P) as [w M]. exists w. split; [exact M | apply C31_byte_order].
Qed.

(* The empty word equals the initial last word; it gets an id that does not exist. *)
Theorem C31_empty_word_refuted lt B r : mergeVocabulary lt B (map partial_file [[([], 0)]]) r ->
  exists w, r = Ok w /\ total w = 0 /\ outfile w = [] /\ id_vecs w = [[(0, 2 ^ 64 - 1)]].
Proof.
  unfold mergeVocabulary. change (open_files 0 (map partial_file [[([], 0)]])) with (Some ([Queued [] 0 0], [@nil N])).
  intros (out & R & ->).
  assert (O : out = Some [Queued [] 0 0]).
  { inversion R as [|q1 top q2 files f out1 _ N1 E1 R1 Q1|q1 top q2 files f v id rest out1 _ N1 E1 R1 Q1|q1 top q2 files f _ N1 E1 Q1]; subst;
      (destruct q1 as [|x q1]; cbn in Q1; injection Q1 as -> Q1; [subst|destruct q1; discriminate]).
    - inversion R1; subst; no_queue.
    - cbn in N1. injection N1 as <-. discriminate.
    - cbn in N1. injection N1 as <-. discriminate. }
  subst out. exists (Writer [] 0 [] [] [[(0, 2 ^ 64 - 1)]] false (0, 0) []). split; [|auto]. cbn [write_batches app length map].
  assert (G : write_words (B / 5) (new_writer 1) [Queued [] 0 0] = Ok (Writer [] 0 [] [] [[(0, 2 ^ 64 - 1)]] false (0, 0) [])).
  { destruct (B / 5)%nat as [|[|n]]; vm_compute; reflexivity. }
  destruct (Nat.leb B 1); rewrite G; reflexivity.
Qed.
Print Assumptions C31_empty_word_refuted.
Example C31_empty_word_example : mergeVocabulary byte_order 10 (map partial_file [[([], 0)]])
  (write_batches 10 (new_writer 1) [] [Queued [] 0 0]).
Proof.
  unfold mergeVocabulary. change (open_files 0 (map partial_file [[([], 0)]])) with (Some ([Queued [] 0 0], [@nil N])).
  exists (Some [Queued [] 0 0]). split; [|reflexivity].
  apply (run_last byte_order [] (Queued [] 0 0) [] [@nil N] [] (Some [])); [intros q [<-|[]]; reflexivity | reflexivity | reflexivity | apply run_end].
Qed.

(* Other first bytes are not accepted. *)
Theorem C31_illegal bufSize st q : 128 < first_byte (value q) -> value q <> last_written st -> write_word bufSize st q = CheckFailed.
Proof.
  intros H N. unfold write_word. destruct (word_eqb (value q) (last_written st)) eqn:E; [apply word_eqb_eq in E; contradiction|].
  unfold word_kind. destruct (value q) as [|c r]; [cbn in H; lia|]. unfold first_byte in H. cbn [hd] in H. cbn [lex_cmp].
  assert (C : c ?= 127 = Gt) by (apply N.compare_gt_iff; lia). rewrite C. cbn [less].
  replace (c =? 127) with false by lia. replace (c =? 128) with false by lia. reflexivity.
Qed.
Print Assumptions C31_illegal.
Example C31_illegal_example : write_word 5 (new_writer 1) (Queued [195; 132] 0 0) = CheckFailed.
Proof. reflexivity. Qed.

(* The parts are sorted by sort keys; words that are identical for the locale may come in any order.
   The merge compares their bytes. Then a word can get two ids. *)
Theorem C31_tied_refuted :
  let composed := [60; 195; 169] in let decomposed := [60; 101; 204; 129] in
  let part1 := [(composed, 0); (decomposed, 1)] in let part2 := [(decomposed, 0)] in
  icu_ok example_icu /\ sort_result (identicalPred example_icu) part1 part1 /\ sort_result (identicalPred example_icu) part2 part2 /\
  exists w, mergeVocabulary (fun a b => before example_icu a b TOTAL) 10 (map partial_file [part1; part2]) (Ok w) /\
    id_vecs w = [[(0, 1); (1, 2)]; [(0, 0)]].
Proof.
  cbv zeta. split; [apply example_icu_ok|]. split; [split; [reflexivity | repeat constructor]|]. split; [split; [reflexivity | repeat constructor]|].
  eexists. split; [|vm_compute; reflexivity || idtac].
  - unfold mergeVocabulary. change (open_files 0 (map partial_file [[([60; 195; 169], 0); ([60; 101; 204; 129], 1)]; [([60; 101; 204; 129], 0)]])) with
      (Some ([Queued [60; 195; 169] 0 0; Queued [60; 101; 204; 129] 1 0], [partial_file [([60; 101; 204; 129], 1)]; []])).
    eexists. split.
    + eapply (run_last _ [Queued [60; 195; 169] 0 0] (Queued [60; 101; 204; 129] 1 0)); [intros q Q; cbn in Q; intuition (subst; vm_compute; reflexivity) | reflexivity | vm_compute; reflexivity|].
      cbn [app].
      eapply (run_next _ [] (Queued [60; 195; 169] 0 0)); [intros q Q; cbn in Q; intuition (subst; vm_compute; reflexivity) | reflexivity | vm_compute; reflexivity|].
      cbn [app file_id set_nth].
      eapply (run_last _ [] (Queued [60; 101; 204; 129] 0 1)); [intros q Q; cbn in Q; intuition (subst; vm_compute; reflexivity) | reflexivity | vm_compute; reflexivity|].
      cbn [app]. apply run_end.
    + vm_compute. reflexivity.
  - vm_compute. reflexivity.
Qed.
Print Assumptions C31_tied_refuted.

(* ---- C32 ---- *)
(* The words of the input; each triple comes with the number of the map it is processed with, and
   the language tag of its object. *)
Definition input_words (parts : list (list (nat * (list N * (list N * list N * list N))))) : list (list N) :=
  flat_map (fun x => words_of (snd (snd x))) (concat parts).
Definition all_triples (parts : list (list (nat * (list N * (list N * list N * list N))))) : list (list N * list N * list N) :=
  flat_map with_language (map snd (concat parts)).
Definition vocabulary_words (parts : list (list (nat * (list N * (list N * list N * list N))))) : list (list N) :=
  langtag_predicate :: flat_map words_of (all_triples parts).
Definition input_ok (loc : icu) (numMaps : nat) (linesPerPartial : N) (parts : list (list (nat * (list N * (list N * list N * list N))))) : Prop :=
  icu_ok loc /\ (0 < numMaps)%nat /\ 0 < linesPerPartial /\ N.of_nat numMaps * 100 * linesPerPartial <= 2 ^ 64 /\ parts <> [] /\
  Forall (fun lts => N.of_nat (length lts) <= linesPerPartial /\ Forall (fun x => (fst x < numMaps)%nat) lts) parts /\
  faithful loc (vocabulary_words parts) /\ Forall legal (input_words parts) /\
  Forall (fun w => N.of_nat (length w) < 2 ^ 64) (vocabulary_words parts) /\
  N.of_nat (length parts * numMaps + 6 * length (concat parts)) < 2 ^ 64.
Lemma all_legal parts : Forall legal (input_words parts) -> Forall legal (stored_words parts).
Proof.
  intros H. unfold stored_words. constructor; [split; [discriminate | unfold first_byte; cbn; lia]|]. unfold input_words in H. rewrite Forall_forall in *.
  intros w W. apply in_flat_map in W as (t & T & W). apply in_flat_map in T as (x & X & T). apply in_map_iff in X as (y & <- & Y).
  assert (H' : forall v, In v (words_of (snd (snd y))) -> legal v) by (intros v V; apply H, in_flat_map; eauto).
  destruct y as [j [tag [[s p] o]]]. cbn [snd] in *. unfold with_language in T. destruct tag as [|c tag].
  - destruct T as [<-|[]]. auto.
  - assert (L1 : legal (language_predicate p (c :: tag))) by (split; [discriminate | unfold first_byte; cbn; lia]).
    assert (L2 : legal langtag_predicate) by (split; [discriminate | unfold first_byte; cbn; lia]).
    assert (L3 : legal (language_entity (c :: tag))) by (split; [discriminate | unfold first_byte; cbn; lia]).
    unfold words_of in *. cbn [fst snd In] in *. destruct T as [<-|[<-|[<-|[]]]]; cbn [fst snd] in W;
      destruct W as [<-|[<-|[<-|[]]]]; auto.
Qed.
(* The ids of the stored triples stand for the words of the triples; the vocabulary consists of
   exactly these words. *)
Theorem C32_first_pass loc numMaps L B parts w ts : input_ok loc numMaps L parts -> first_pass loc numMaps L B parts w ts ->
  exists internal ext ts', ts = Ok ts' /\
    outfile w = vocabulary_file internal /\ outfile_ext w = vocabulary_file (map shown ext) /\
    total w = N.of_nat (length (internal ++ ext)) /\
    strictly_in_order (fun a b => before loc a b TOTAL) internal /\ in_order (fun a b => before loc a b TOTAL) (internal ++ ext) /\
    (forall v, In v internal -> ~ external v) /\ (forall v, In v ext -> external v) /\
    (forall v, In v (internal ++ ext) <-> In v (vocabulary_words parts)) /\
    (forall i v, nth_error (internal ++ ext) i = Some v ->
      (first_byte v = 64 <-> fst (lang_bounds w) <= N.of_nat i < snd (lang_bounds w))) /\
    Forall2 (triple_stands_for (internal ++ ext)) ts' (all_triples parts).
Proof.
  intros (OK & NP & LP & RG & NE & SM & FW & LG & LEN & SZ) (rs & PR & M & ->). apply all_legal in LG.
  assert (WO := rs_wo loc OK numMaps L NP LP RG parts SM FW LG rs PR).
  assert (FS := rs_order loc OK numMaps L NP LP RG parts SM FW LG rs PR).
  assert (FT := rs_fits loc OK numMaps L NP LP RG parts SM FW LG LEN SZ rs PR).
  assert (LL := rs_legal loc OK numMaps L NP LP RG parts SM FW LG rs PR).
  assert (S2 := rs_size loc OK numMaps L NP LP RG parts SM FW LG SZ rs PR).
  rewrite <- map_map in M.
  destruct (merge_ok _ _ WO FS FT LL S2 B _ M) as (w' & internal & ext & E & MM). injection E as <-.
  destruct (rs_convert loc OK numMaps L NP LP RG parts SM FW LG rs PR internal ext w MM) as (ts' & E & T).
  exists internal, ext, ts'. destruct MM as [a b c d e f [g1 g2] h i j k l].
  split; [exact E|]. repeat (split; [assumption|]). split; [|split; [exact l | exact T]].
  intros v. rewrite h. split.
  - apply (words_incl loc OK numMaps L NP LP RG parts SM FW LG rs PR).
  - apply (words_back loc OK numMaps L NP LP RG parts SM FW LG LEN SZ rs PR v NE).
Qed.
Print Assumptions C32_first_pass.
(* No check fails on the way. *)
Theorem C32_no_failure loc numMaps L B parts : input_ok loc numMaps L parts ->
  (forall lts r, In lts parts -> part_result loc numMaps L lts r -> exists els ts, r = Ok (els, ts)) /\
  (forall rs r, parts_result loc numMaps L parts rs ->
    mergeVocabulary (fun a b => before loc a b TOTAL) B (map (fun r => partial_file (fst r)) rs) r -> exists w, r = Ok w) /\
  exists w ts, first_pass loc numMaps L B parts w ts.
Proof.
  intros (OK & NP & LP & RG & NE & SM & FW & LG & LEN & SZ). apply all_legal in LG. split; [|split].
  - intros lts r I P. rewrite Forall_forall in SM. destruct (SM lts I) as [S1 S2].
    destruct (part_ok loc OK numMaps L NP LP RG (stored_words parts) FW (stored_ne parts LG) lts r S1 S2) as (els & ts & E & _); [|exact P|now exists els, ts].
    eapply stored_incl; [|exact I]. intros x X. exact X.
  - intros rs r PR M. rewrite <- map_map in M.
    destruct (merge_ok _ _ (rs_wo loc OK numMaps L NP LP RG parts SM FW LG rs PR) (rs_order loc OK numMaps L NP LP RG parts SM FW LG rs PR)
      (rs_fits loc OK numMaps L NP LP RG parts SM FW LG LEN SZ rs PR) (rs_legal loc OK numMaps L NP LP RG parts SM FW LG rs PR)
      (rs_size loc OK numMaps L NP LP RG parts SM FW LG SZ rs PR) B _ M) as (w' & _ & _ & E & _). now exists w'.
  - destruct (parts_exist loc OK numMaps L NP LP RG parts SM FW LG parts (fun x X => X)) as [rs PR].
    destruct (merge_exists _ _ (rs_wo loc OK numMaps L NP LP RG parts SM FW LG rs PR) (rs_fits loc OK numMaps L NP LP RG parts SM FW LG LEN SZ rs PR) B) as [r M].
    destruct (merge_ok _ _ (rs_wo loc OK numMaps L NP LP RG parts SM FW LG rs PR) (rs_order loc OK numMaps L NP LP RG parts SM FW LG rs PR)
      (rs_fits loc OK numMaps L NP LP RG parts SM FW LG LEN SZ rs PR) (rs_legal loc OK numMaps L NP LP RG parts SM FW LG rs PR)
      (rs_size loc OK numMaps L NP LP RG parts SM FW LG SZ rs PR) B _ M) as (w & _ & _ & -> & _).
    exists w. eexists. exists rs. split; [exact PR|]. split; [rewrite <- map_map; exact M | reflexivity].
Qed.
Print Assumptions C32_no_failure.

(* With the vocabulary loaded again, the ids of a stored triple give back its words. *)
Lemma shown_id voc internal ext e id w : voc = internal ++ ext -> initFromFile (external_file (map shown ext)) = Some e ->
  N.of_nat (length (external_file (map shown ext))) < 2 ^ 64 -> N.of_nat (length voc) <= ID_NO_VALUE ->
  (forall v, In v internal -> ~ external v) -> stands_for voc id w -> idToOptionalString internal e id = Word (shown w).
Proof.
  intros -> I LT LN K S. assert (LE := external_length (map shown ext)). assert (T : Vocab_Proof.total (map shown ext) < 2 ^ 64) by (unfold Vocab_Proof.total; lia).
  rewrite init_ok in I by exact T. injection I as <-. unfold stands_for in S. unfold idToOptionalString.
  assert (IL : (N.to_nat id < length (internal ++ ext))%nat) by (apply nth_error_Some; congruence). rewrite app_length in *.
  destruct (N.ltb_spec id (N.of_nat (length internal))) as [H|H].
  - rewrite nth_error_app1 in S by lia. unfold word_at. rewrite (nth_error_nth _ _ _ S). f_equal.
    apply nth_error_In in S. specialize (K w S). unfold external, first_byte in K. destruct w as [|c r]; [reflexivity|]. cbn [hd] in K. cbn [shown].
    replace (c =? 127) with false by lia. replace (c =? 128) with false by lia. reflexivity.
  - replace (id =? ID_NO_VALUE) with false by (symmetry; apply N.eqb_neq; lia). rewrite nth_error_app2 in S by lia.
    cbn [ext_size loaded]. rewrite map_length. replace (id - N.of_nat (length internal) <? N.of_nat (length ext)) with true by (symmetry; apply N.ltb_lt; lia).
    replace (id - N.of_nat (length internal)) with (N.of_nat (N.to_nat id - length internal)) by lia.
    rewrite ext_at_ok by exact T. rewrite nth_error_map, S. reflexivity.
Qed.
Theorem C32_round_trip loc numMaps L B parts w ts f e : input_ok loc numMaps L parts -> first_pass loc numMaps L B parts w ts ->
  buildFromTextFile (outfile_ext w) = Val f -> initFromFile f = Some e -> N.of_nat (length f) < 2 ^ 64 -> total w <= ID_NO_VALUE ->
  exists internal ts', outfile w = vocabulary_file internal /\ ts = Ok ts' /\
    Forall2 (fun ids t => idToOptionalString internal e (fst (fst ids)) = Word (shown (fst (fst t))) /\
                          idToOptionalString internal e (snd (fst ids)) = Word (shown (snd (fst t))) /\
                          idToOptionalString internal e (snd ids) = Word (shown (snd t))) ts' (all_triples parts).
Proof.
  intros OK FP BF IF LF LT. destruct (C32_first_pass _ _ _ _ _ _ _ OK FP) as (internal & ext & ts' & E & O1 & O2 & T & _ & _ & K1 & _ & _ & _ & F).
  exists internal, ts'. split; [exact O1|]. split; [exact E|]. rewrite O2, C30_external_text in BF. injection BF as <-.
  rewrite T in LT. clear - F IF LF LT K1. induction F as [|ids t ts' ts (A & B & C) F IH]; constructor; auto.
  repeat split; eapply shown_id; eauto.
Qed.
Print Assumptions C32_round_trip.
(* The words in memory are the compressed lines of the first file. *)
Theorem C32_internal_words internal prefixes map2 vec1 vec2 r : Forall no_newline prefixes ->
  rebuilt internal prefixes map2 vec1 vec2 r ->
  exists stored, r = Val stored /\ forall id, id < N.of_nat (length internal) -> at_word map2 stored (N.to_nat id) = Some (word_at internal (N.to_nat id)).
Proof.
  intros F R. destruct (C29_reloaded _ _ _ _ _ _ F R) as (stored & -> & L & A). exists stored. split; [reflexivity|]. intros id H.
  apply A. unfold word_at. apply nth_error_nth'. lia.
Qed.
Print Assumptions C32_internal_words.

(* What a triple of the input is turned into before *)
Theorem C32_representation normalize is_value convert_value externalize s p o tag s' p' o' :
  tripleToInternalRepresentation normalize is_value convert_value externalize (s, p, o) = Ok (tag, (s', p', o')) ->
  (forall x, In x [s; p; o] -> first_byte (normalize x) < 127) ->
  shown s' = normalize s /\ shown p' = normalize p /\
  (is_value (normalize o) = true -> o' = convert_value (normalize o) /\ tag = []) /\
  (is_value (normalize o) = false -> shown o' = normalize o /\ (externalize (normalize o) = true <-> external o') /\
    tag = if isLiteral (normalize o) then getLanguage (normalize o) else []).
Proof.
  intros H FB.
  assert (G : forall x y, In x [s; p; o] -> internal_word externalize (normalize x) = Ok y -> shown y = normalize x /\ (externalize (normalize x) = true <-> external y)).
  { intros x y X Y. specialize (FB x X). unfold internal_word in Y. unfold external, first_byte in *. destruct (externalize (normalize x)).
    - destruct (normalize x) as [|c r]; [discriminate|]. destruct (N.eqb_spec c 34) as [->|]; [injection Y as <-; cbn; split; [reflexivity | intuition lia]|].
      destruct (N.eqb_spec c 60) as [->|]; [injection Y as <-; cbn; split; [reflexivity | intuition lia]|discriminate].
    - injection Y as <-. destruct (normalize x) as [|c r]; [split; [reflexivity | cbn; intuition (try discriminate; try lia)]|]. cbn [hd] in *. cbn [shown].
      replace (c =? 127) with false by lia. replace (c =? 128) with false by lia. split; [reflexivity | intuition (try discriminate; try lia)]. }
  unfold tripleToInternalRepresentation in H.
  destruct (internal_word externalize (normalize s)) as [a| |] eqn:A; try discriminate. cbn [bind] in H.
  destruct (internal_word externalize (normalize p)) as [b| |] eqn:B; try discriminate. cbn [bind] in H.
  apply G in A; [|now left]. apply G in B; [|right; now left].
  destruct (is_value (normalize o)).
  - injection H as <- <- <- <-. repeat split; try apply A; try apply B; auto; discriminate.
  - destruct (internal_word externalize (normalize o)) as [c| |] eqn:C; try discriminate. cbn [bind] in H. apply G in C; [|right; right; now left].
    injection H as <- <- <- <-. split; [apply A|]. split; [apply B|]. split; [discriminate|]. intros _. split; [apply C|]. split; [apply C | reflexivity].
Qed.
Print Assumptions C32_representation.
Example C32_representation_example :
  tripleToInternalRepresentation (fun w => w) (fun _ => false) (fun w => w) isLiteral ([60; 97; 62], [60; 112; 62], [34; 120; 34; 64; 101; 110]) =
  Ok ([101; 110], ([60; 97; 62], [60; 112; 62], [127; 120; 34; 64; 101; 110])).
Proof. reflexivity. Qed.

(* The tag of a literal *)
Lemma find_none_app c (a : list N) : ~ In c a -> forall b, find_char (N.eqb c) (a ++ c :: b) = Some (length a).
Proof.
  induction a as [|x a IH]; intros NI b; cbn [app length find_char].
  - now rewrite N.eqb_refl.
  - cbn [In] in NI. replace (c =? x) with false by (symmetry; apply N.eqb_neq; intros ->; tauto). rewrite IH by tauto. reflexivity.
Qed.
Lemma rfind_last c a b : ~ In c b -> rfind c (a ++ c :: b) = Some (length a).
Proof.
  intros NI. unfold rfind. rewrite rev_app_distr. cbn [rev]. rewrite <- app_assoc. cbn [app]. rewrite find_none_app by (rewrite <- in_rev; exact NI).
  cbn [option_map]. rewrite rev_length, app_length. cbn [length]. f_equal. lia.
Qed.
Theorem C32_language_tag v tag : ~ In 64 tag -> ~ In 34 tag -> getLanguage (34 :: v ++ [34; 64] ++ tag) = tag.
Proof.
  intros N1 N2. unfold getLanguage.
  replace (34 :: v ++ [34; 64] ++ tag) with ((34 :: v ++ [34]) ++ 64 :: tag) by (cbn; now rewrite <- app_assoc).
  rewrite rfind_last by exact N1.
  replace ((34 :: v ++ [34]) ++ 64 :: tag) with ((34 :: v) ++ 34 :: 64 :: tag) at 1 by (cbn; now rewrite <- app_assoc).
  rewrite rfind_last by (cbn; intros [H|H]; [discriminate|contradiction]).
  cbn [length]. rewrite app_length. cbn [length]. destruct (Nat.ltb_spec (S (length v)) (S (length v + 1))); [|lia].
  replace (S (length v + 1) + 1)%nat with (length ((34 :: v ++ [34]) ++ [64])) by (rewrite app_length; cbn [length]; rewrite app_length; cbn; lia).
  replace ((34 :: v ++ [34]) ++ 64 :: tag) with (((34 :: v ++ [34]) ++ [64]) ++ tag) by (now rewrite <- app_assoc). apply skipn_exact. reflexivity.
Qed.
Print Assumptions C32_language_tag.
Example C32_language_tag_example : getLanguage [34; 64; 34; 64; 101; 110] = [101; 110].
Proof. reflexivity. Qed.
(* The predicate of a language is built from the marked predicate if this is externalized; a query
   builds it from the predicate itself (ParsedQuery.cpp:386) and does not find it. *)
Theorem C32_language_refuted normalize is_value convert_value externalize s p r o tag s' p' o' :
  tripleToInternalRepresentation normalize is_value convert_value externalize (s, p, o) = Ok (tag, (s', p', o')) ->
  normalize p = 60 :: r -> externalize (60 :: r) = true -> tag <> [] ->
  nth_error (with_language (tag, (s', p', o'))) 1 = Some (s', language_predicate (128 :: r) tag, o') /\
  language_predicate (128 :: r) tag <> language_predicate (normalize p) tag.
Proof.
  intros H P X T. unfold tripleToInternalRepresentation in H.
  destruct (internal_word externalize (normalize s)) as [a| |]; try discriminate. cbn [bind] in H. rewrite P in H.
  unfold internal_word at 1 in H. rewrite X in H. cbn [N.eqb bind] in H. change (60 =? 34) with false in H. change (60 =? 60) with true in H. cbn [bind] in H.
  assert (E : p' = 128 :: r).
  { destruct (is_value (normalize o)); [now injection H|]. destruct (internal_word externalize (normalize o)); try discriminate. cbn [bind] in H. now injection H. }
  subst p'. split; [destruct tag; [contradiction|reflexivity]|]. rewrite P. unfold language_predicate. intros Y. injection Y as Y. apply app_inv_head in Y. discriminate.
Qed.
Print Assumptions C32_language_refuted.
(* an example for the first pass: two parts, a literal with a language, an externalized word *)
Lemma faithful_check loc ws :
  forallb (fun a => forallb (fun b => word_eqb a b || negb (let x := extractComparable a in let y := extractComparable b in
    (first_char x =? first_char y) && word_eqb (langtag x) (langtag y) && match icu_compare loc Identical (inner x) (inner y) with Eq => true | _ => false end)) ws) ws = true ->
  faithful loc ws.
Proof.
  intros H a b c v v' t A B PA PB E. rewrite forallb_forall in H. specialize (H a A). rewrite forallb_forall in H. specialize (H b B).
  apply orb_true_iff in H as [H|H]; [now apply word_eqb_eq|]. exfalso. apply parts_split in PA, PB. cbv zeta in H. rewrite PA, PB in H.
  cbn [first_char inner langtag] in H. rewrite N.eqb_refl, E in H. replace (word_eqb t t) with true in H by (symmetry; now apply word_eqb_eq). discriminate.
Qed.
Definition ex_parts : list (list (nat * (list N * (list N * list N * list N)))) :=
  [[(1%nat, ([101; 110], ([60; 97; 62], [60; 112; 62], [127; 120; 34; 64; 101; 110])))];
   [(0%nat, ([], ([60; 98; 62], [60; 112; 62], [60; 97; 62]))); (1%nat, ([], ([60; 97; 62], [60; 112; 62], [34; 120; 34])))]].
Example C32_example : input_ok example_icu 4 2 ex_parts /\ length (all_triples ex_parts) = 5%nat /\
  exists w ts, first_pass example_icu 4 2 10 ex_parts w ts.
Proof.
  assert (I : input_ok example_icu 4 2 ex_parts).
  { split; [apply example_icu_ok|]. split; [lia|]. split; [lia|]. split; [lia|]. split; [discriminate|].
    split; [unfold ex_parts; repeat constructor; cbn; lia|].
    split; [apply faithful_check; vm_compute; reflexivity|].
    split; [unfold ex_parts, input_words, legal, first_byte; cbn [concat app flat_map words_of fst snd]; repeat constructor; try discriminate; cbn; lia|].
    split; [|reflexivity]. apply Forall_forall. intros x X. unfold vocabulary_words in X. cbn in X.
    repeat (destruct X as [<-|X]; [reflexivity|]). destruct X. }
  split; [exact I|]. split; [reflexivity|]. exact (proj2 (proj2 (C32_no_failure _ _ _ 10 _ I))).
Qed.
