(* Property C84: scans for ql:has-predicate. *)
From Coq Require Import Ascii String List NArith Arith Bool Lia Permutation Sorted.
From Verif Require Conv_Model Vocab_Proof Vocab_Spec Vocab_Model Vocab_Thm Merge_Spec Perm_Model Perm_Thm Merge_Thm Whole_Spec Collate_Thm Collate_Model Ops_Proof
  Path_Proof2 HasPred_Spec HasPred_Model HasPred_Proof Patterns_Model Patterns_Thm HasScan_Spec Merge_Model
  Whole_Proof2 Whole_Proof4 Whole_Proof5 Whole_Thm.
From Verif Require Import Table_Spec Ops_Spec Ops_Model Vars_Model Meta_Model Plan_Model Whole_Model IScan_Model HasScan_Model.
Import ListNotations.
Local Open Scope nat_scope.

(* ---- columns ---- *)
Lemma find_single u c : var_find (var_insert [] u c) u = Some c.
Proof. unfold var_insert. change (var_find [] u) with (@None nat). unfold var_find. cbn [find app fst snd]. now rewrite String.eqb_refl. Qed.
Lemma find_other u u' c m : u' <> u -> var_find (var_insert m u c) u' = var_find m u'.
Proof.
  intros N. unfold var_insert. destruct (var_find m u); [reflexivity|]. unfold var_find. clear - N. induction m as [|[k d] m IH]; cbn [app find fst snd].
  - destruct (String.eqb_spec u u'); [congruence|reflexivity].
  - destruct (String.eqb k u'); [reflexivity|exact IH].
Qed.
Lemma find_new u c m : var_find m u = None -> var_find (var_insert m u c) u = Some c.
Proof.
  intros E. unfold var_insert. rewrite E. revert E. unfold var_find. induction m as [|[k d] m IH]; cbn [app find fst snd]; intros E.
  - now rewrite String.eqb_refl.
  - destruct (String.eqb k u); [discriminate|now apply IH].
Qed.
(* two different variables *)
Lemma seed_cases t x : has_seed t = Val x -> is_var (t_p t) = false -> NoDup (filter is_var [t_s t; t_o t]) ->
  (is_var (t_s t) = true /\ is_var (t_o t) = false /\ x = FREE_S (t_s t) (t_o t)) \/
  (is_var (t_s t) = false /\ is_var (t_o t) = true /\ x = FREE_O (t_s t) (t_o t)) \/
  (is_var (t_s t) = true /\ is_var (t_o t) = true /\ t_s t <> t_o t /\ x = FULL_SCAN (t_s t) (t_o t)).
Proof.
  destruct t as [s p o]. unfold has_seed, triple_vars. cbn [t_s t_p t_o filter]. intros E P ND. rewrite P in E.
  destruct (is_var s), (is_var o); rewrite nodup_fixed_point in E by exact ND; cbn [length] in E; try discriminate; injection E as <-; auto.
  right. right. repeat split. intros ->. inversion ND as [|? ? N _]; subst. apply N. now left.
Qed.

(* ---- a list of pairs is longer than no list of its keys ---- *)
Lemma choose {A B} (P : A -> B -> Prop) (l : list A) : (forall a, In a l -> exists b, P a b) -> exists bs, Forall2 P l bs.
Proof.
  induction l as [|a l IH]; intros H; [exists []; constructor|].
  destruct (H a) as (b & Hb); [now left|]. destruct IH as (bs & F); [intros x Hx; apply H; now right|]. exists (b :: bs). now constructor.
Qed.
Lemma forall2_in_l {A B} (P : A -> B -> Prop) l l' : Forall2 P l l' -> forall b, In b l' -> exists a, In a l /\ P a b.
Proof. induction 1 as [|a b l l' H F IH]; intros x []; [subst; exists a; cbn; auto|]. destruct (IH x H0) as (a' & ? & ?). exists a'. cbn; auto. Qed.
Lemma forall2_len {A B} (P : A -> B -> Prop) l l' : Forall2 P l l' -> length l = length l'.
Proof. induction 1; cbn; auto. Qed.

Section Scans.
Variable loc : Collate_Model.icu.
Variable numMaps : nat.
Variable linesPerPartial : N.
Variable bufferSize : nat.
Variable parts : list (list (nat * (list N * (list N * list N * list N)))).
Variables per thr : nat.
Variable logmult : N -> N -> N.
Variable sort2 : list (N * N) -> list (N * N).
Variable sort3 : (N * N * N -> N * N * N) -> list (N * N * N) -> list (N * N * N).
Variable prefixes : list (list N).
Variable ix : Perm_Model.index.
Variable v : vocabulary.
Variable w : Merge_Model.writer.
Variable ids : list (N * N * N).
Hypothesis Hin : Merge_Thm.input_ok loc numMaps linesPerPartial parts.
Hypothesis Hmark : Whole_Proof5.marked (v_externalize v) parts.
Hypothesis Hpre : Forall Vocab_Spec.no_newline prefixes.
Hypothesis Hbuilt : Whole_Proof5.built_with loc numMaps linesPerPartial bufferSize parts per thr logmult sort2 sort3 prefixes ix v w ids.
Hypothesis Honce : Whole_Proof5.once_on_disk (v_external v).
Hypothesis Hsize : (N.of_nat (length (v_words v) + length (Vocab_Model.ext_file (v_external v))) < 2 ^ 63)%N.
Hypothesis Hfew : (N.of_nat (length (Merge_Thm.all_triples parts)) < 2 ^ 40)%N.
Variable maxNum : nat.
Variables order sort : Patterns_Model.pattern_counts -> Patterns_Model.pattern_counts.
Variable pix : HasPred_Spec.pattern_index.
Hypothesis Hpat : patterns_built w ids maxNum order sort pix.
Hypothesis H32 : (N.of_nat maxNum < 2 ^ 32)%N.
Hypothesis Horder : forall m, Permutation (order m) m.
Hypothesis Hsort : Patterns_Thm.std_sort sort.
Notation facts := (Whole_Proof5.facts_of parts).
(* fewer words than the limit differ in their predicates *)
Hypothesis Hroom : forall xs, (forall x y, In x xs -> In y xs -> (forall p, HasScan_Spec.has facts x p <-> HasScan_Spec.has facts y p) -> x = y) ->
  NoDup xs -> length xs < maxNum.

Lemma core : exists disk, Vocab_Thm.well_formed (v_loc v) (v_externalize v) (v_words v) disk (v_external v) /\ NoDup (v_words v ++ disk) /\
  (forall x, In x (v_words v ++ disk) <-> exists y, In y (Merge_Thm.vocabulary_words parts) /\ x = Merge_Spec.shown y) /\
  HasPred_Spec.index_ok pix /\ HasPred_Spec.lists_distinct pix /\ HasPred_Spec.hasPredicate pix = [] /\
  (forall e, StronglySorted N.lt (HasPred_Spec.predicates_of pix e)) /\
  (forall e p, In p (HasPred_Spec.predicates_of pix e) <->
    Whole_Proof4.low v disk e /\ Whole_Proof4.low v disk p /\ HasScan_Spec.has facts (Whole_Proof4.word_of v disk e) (Whole_Proof4.word_of v disk p)) /\
  (forall x y, HasScan_Spec.has facts x y -> exists i j, In j (HasPred_Spec.predicates_of pix i) /\ Whole_Proof4.word_of v disk i = x /\ Whole_Proof4.word_of v disk j = y).
Proof using Hin Hmark Hpre Hbuilt Honce Hsize Hfew Hpat H32 Horder Hsort Hroom.
  destruct (Whole_Proof5.built_with_ok loc numMaps linesPerPartial bufferSize parts per thr logmult sort2 sort3 prefixes ix v Hin Hmark Hpre Honce Hsize Hfew w ids Hbuilt)
    as (disk & WF & ND & F & OK & _ & WO & LB).
  destruct Hpat as (ts & NT & IT & ST & CP).
  set (lo := fst (Merge_Model.lang_bounds w)) in *. set (hi := snd (Merge_Model.lang_bounds w)) in *.
  set (wd := Whole_Proof4.word_of v disk).
  assert (KF : forall i j k, In (i, j, k) ts -> Whole_Proof4.low v disk i /\ Whole_Proof4.low v disk j /\ Whole_Proof4.low v disk k /\ In (wd i, wd j, wd k) facts).
  { intros i j k H. apply IT in H. apply (Whole_Proof4.kb_fact v disk ids facts F). now apply nodup_In. }
  assert (AT : forall p, Whole_Proof4.low v disk p -> (hd 0%N (wd p) = 64%N <-> (lo <= p < hi)%N)).
  { intros p Hp. unfold Whole_Proof4.low in Hp. rewrite <- (N2Nat.id p) at 2 3. apply LB. unfold wd, Whole_Proof4.word_of. now apply nth_error_nth'. }
  assert (SH : forall e p, Patterns_Thm.subject_has lo hi ts e p <->
    Whole_Proof4.low v disk e /\ Whole_Proof4.low v disk p /\ HasScan_Spec.has facts (wd e) (wd p)).
  { intros e p. split.
    - intros [(o & Ho) NB]. destruct (KF _ _ _ Ho) as (L1 & L2 & _ & I). split; [exact L1|]. split; [exact L2|]. split; [eauto|]. now rewrite AT.
    - intros (L1 & L2 & (z & I) & NB). destruct (Whole_Proof4.fact_kb v disk ids facts F _ _ _ I) as (i & j & k & K & M1 & M2 & _ & E1 & E2 & _).
      apply (Whole_Proof4.word_inj v disk ND) in E1; auto. apply (Whole_Proof4.word_inj v disk ND) in E2; auto. subst i j.
      split; [exists k; apply IT; now apply nodup_In in K|]. now rewrite <- AT. }
  assert (RM : forall ls, (forall l, In l ls -> exists e, Patterns_Thm.predicate_list lo hi ts e l) -> NoDup ls -> length ls < maxNum).
  { intros ls HL NL. destruct (choose _ ls HL) as (es & FE).
    assert (LE : Forall (Whole_Proof4.low v disk) es).
    { apply Forall_forall. intros e He. destruct (forall2_in_l _ _ _ FE e He) as (l & _ & _ & (p & o & I) & _). now apply KF in I. }
    assert (UL : forall l l' e e', Patterns_Thm.predicate_list lo hi ts e l -> Patterns_Thm.predicate_list lo hi ts e' l' ->
      (forall p, HasScan_Spec.has facts (wd e) p <-> HasScan_Spec.has facts (wd e') p) -> l = l').
    { intros l l' e e' (S1 & (p1 & o1 & I1) & E1) (S2 & (p2 & o2 & I2) & E2) Q. apply KF in I1 as (L1 & _). apply KF in I2 as (L2 & _).
      apply (Whole_Thm.sorted_unique _ N.ltb).
      - intros a. lia.
      - intros a b c. rewrite !N.ltb_lt. lia.
      - clear - S1. induction S1 as [|a l S IH F]; constructor; auto. eapply Forall_impl; [|exact F]. cbn. intros b. lia.
      - clear - S2. induction S2 as [|a l S IH F]; constructor; auto. eapply Forall_impl; [|exact F]. cbn. intros b. lia.
      - intros p. rewrite E1, E2, !SH, Q. tauto. }
    rewrite (forall2_len _ _ _ FE), <- (map_length wd es). apply Hroom.
    - intros x y Hx Hy Q. apply in_map_iff in Hx as (e & <- & He). apply in_map_iff in Hy as (e' & <- & He').
      f_equal. clear Hroom HL LE. revert NL e e' He He' Q. induction FE as [|l e0 ls es P FE IH]; intros NL e e' He He' Q; [destruct He|].
      inversion NL as [|? ? N1 N2]; subst. destruct He as [<-|He], He' as [<-|He'].
      + reflexivity.
      + exfalso. destruct (forall2_in_l _ _ _ FE e' He') as (l' & Hl' & P'). rewrite (UL _ _ _ _ P P' Q) in N1. auto.
      + exfalso. destruct (forall2_in_l _ _ _ FE e He) as (l' & Hl' & P'). rewrite <- (UL _ _ _ _ P' P Q) in N1. auto.
      + now apply IH.
    - assert (NE : NoDup es).
      { clear - FE NL UL. induction FE as [|l e ls es P FE IH]; constructor; inversion NL as [|? ? N1 N2]; subst.
        - intros He. destruct (forall2_in_l _ _ _ FE e He) as (l' & Hl' & P'). apply N1. rewrite (UL _ _ _ _ P P'); [exact Hl'|tauto].
        - now apply IH. }
      clear - NE LE ND. induction NE as [|e es H N IH]; cbn [map]; constructor; inversion LE; subst; auto.
      intros I. apply in_map_iff in I as (e' & E & I). apply (Whole_Proof4.word_inj v disk ND) in E; [congruence| |assumption].
      rewrite Forall_forall in H3. auto. }
  assert (SS : Patterns_Thm.sorted_spo ts).
  { clear - ST. unfold Patterns_Thm.sorted_spo. induction ST as [|a l S IH F]; constructor; auto. eapply Forall_impl; [|exact F].
    intros b. destruct a as [[a1 a2] a3], b as [[b1 b2] b3]. cbn. lia. }
  destruct (Patterns_Thm.C28_exact lo hi maxNum order sort ts SS H32 Horder Hsort RM) as (pix' & E & IO & LD & HP & H).
  rewrite CP in E. injection E as <-. exists disk.
  split; [exact WF|]. split; [exact ND|]. split; [exact WO|]. split; [exact IO|]. split; [exact LD|]. split; [exact HP|].
  split; [intros e; apply H|]. split; [intros e p; rewrite (proj2 (H e) p); apply SH|].
  intros x y Q. assert (Q' := Q). destruct Q' as [(z & I) _].
  destruct (Whole_Proof4.fact_kb v disk ids facts F _ _ _ I) as (i & j & k & K & M1 & M2 & _ & <- & <- & _). exists i, j. split; [|split; reflexivity].
  apply H, SH. auto.
Qed.

(* ---- rows as words ---- *)
Lemma shown_rows disk (P : list (list N) -> Prop) tab : 
  Vocab_Thm.well_formed (v_loc v) (v_externalize v) (v_words v) disk (v_external v) -> NoDup (v_words v ++ disk) ->
  NoDup tab -> (forall r, In r tab -> Forall (Whole_Proof4.low v disk) r) ->
  (forall r, P r <-> exists r0, r = map (Whole_Proof4.word_of v disk) r0 /\ In r0 tab) ->
  exists rows, map (map (Whole_Thm.shows v)) tab = map (map Vocab_Model.Word) rows /\ Whole_Spec.lists rows P.
Proof using.
  clear. intros WF ND NT LR H.
  assert (SH : forall x, Whole_Proof4.low v disk x -> Whole_Thm.shows v x = Vocab_Model.Word (Whole_Proof4.word_of v disk x)).
  { intros x Hx. unfold Whole_Proof4.low in Hx. unfold Whole_Thm.shows. rewrite (Vocab_Thm.C30_word_of_id _ _ _ _ _ _ WF).
    - now rewrite (nth_error_nth' (v_words v ++ disk) [] Hx).
    - destruct WF as (_ & _ & _ & _ & _ & B & _). assert (LE := Vocab_Proof.external_length disk). rewrite app_length in Hx. lia. }
  exists (map (map (Whole_Proof4.word_of v disk)) tab). split; [|split].
  - rewrite map_map. apply map_ext_in. intros r Hr. rewrite map_map. apply map_ext_in. intros x Hx. apply SH.
    apply LR in Hr. rewrite Forall_forall in Hr. auto.
  - clear H SH. induction NT as [|a l Ha N IH]; cbn; constructor; [|apply IH; intros; apply LR; now right].
    intros I. apply in_map_iff in I as (b & E & I). apply Ha. replace a with b; [exact I|].
    assert (La := LR a ltac:(now left)). assert (Lb := LR b ltac:(now right)). clear - E La Lb ND. revert b E Lb.
    induction La as [|x a Hx La IH]; intros [|y b] E Lb; try discriminate; [reflexivity|]. cbn [map] in E. injection E as E1 E2. inversion Lb; subst.
    f_equal; [|now apply IH]. eapply (Whole_Proof4.word_inj v disk ND); eauto.
  - intros r. rewrite H, in_map_iff. split; intros (r0 & A & B); exists r0; auto.
Qed.
Lemma word_eq disk t id : Vocab_Thm.well_formed (v_loc v) (v_externalize v) (v_words v) disk (v_external v) ->
  id_of v t = Ok (Some id) -> Whole_Proof4.low v disk id /\ Whole_Proof4.word_of v disk id = Conv_Model.bytes t.
Proof using.
  clear. intros WF E. split; [eapply Whole_Proof4.id_low; eauto|]. apply (Whole_Proof4.id_found v disk WF) in E. unfold Whole_Proof4.word_of. now apply nth_error_nth.
Qed.

(* words of the input *)
Definition word_of_input (x : list N) : Prop := exists y, In y (Merge_Thm.vocabulary_words parts) /\ x = Merge_Spec.shown y.

(* The result of the scan for `s ql:has-predicate o`: it is as wide, typed and sorted as the operation says, its rows are,
   as words, the ones that have the predicate, each once, and the word for a variable is in the column of the variable. *)
Theorem C84_scan t x input res : has_seed t = Val x -> is_var (t_p t) = false -> NoDup (filter is_var [t_s t; t_o t]) ->
  has_result v pix x input = Ok res ->
  r_cols res = has_width x /\ r_types res = repeat KB (r_cols res) /\ r_sortedBy res = has_sorted x /\ width (r_cols res) (r_data res) /\
  (forall c, In c (has_sorted x) -> sorted_on c (r_data res)) /\
  exists rows, map (map (Whole_Thm.shows v)) (r_data res) = map (map Vocab_Model.Word) rows /\
    Whole_Spec.lists rows (HasScan_Spec.has_row is_var Conv_Model.bytes facts (var_find (has_columns x)) (t_s t) (t_o t)).
Proof using Hin Hmark Hpre Hbuilt Honce Hsize Hfew Hpat H32 Horder Hsort Hroom.
  intros ES VP NV ER. destruct core as (disk & WF & ND & _ & IO & LD & _ & SO & PI & PW).
  destruct (seed_cases t x ES VP NV) as [(V1 & V2 & ->)|[(V1 & V2 & ->)|(V1 & V2 & NE & ->)]]; cbn [has_result] in ER.
  - destruct (id_of v (t_o t)) as [[p|]| |] eqn:EI; cbn [Meta_Model.bind] in ER; try discriminate.
    destruct (HasPred_Proof.free_s_correct pix p IO) as (tab & ET & IT & NT). rewrite ET in ER. cbn [of_loop] in ER. injection ER as <-.
    cbn [r_cols r_types r_sortedBy r_data has_width has_sorted]. destruct (word_eq disk _ _ WF EI) as [LP WP].
    do 3 (split; [reflexivity|]). split; [|split; [intros c []|]].
    { apply Forall_forall. intros r Hr. apply IT in Hr as (e & -> & _). reflexivity. }
    apply (shown_rows disk); auto.
    + intros r Hr. apply IT in Hr as (e & -> & Hp). apply PI in Hp as (Le & _). constructor; auto.
    + intros r. unfold HasScan_Spec.has_row. cbn [filter]. rewrite V1, V2. cbn [length]. split.
      * intros (x & y & Hxy & L & H). destruct (PW _ _ Hxy) as (i & j & Ij & <- & <-).
        assert (A := H (t_s t) _ (or_introl eq_refl)). rewrite V1 in A. destruct A as (c & Ec & En). cbn [has_columns] in Ec. rewrite find_single in Ec. injection Ec as <-.
        assert (B := H (t_o t) _ (or_intror (or_introl eq_refl))). rewrite V2 in B.
        exists [i]. destruct r as [|r0 [|]]; try discriminate. cbn in En. injection En as ->. split; [reflexivity|]. apply IT. exists i. split; [reflexivity|].
        replace p with j; [exact Ij|]. apply (Whole_Proof4.word_inj v disk ND); auto; [now apply PI in Ij|congruence].
      * intros (r0 & -> & Hr). apply IT in Hr as (e & -> & Hp). apply PI in Hp as (Le & _ & Hh). exists (Whole_Proof4.word_of v disk e), (Whole_Proof4.word_of v disk p).
        split; [exact Hh|]. split; [reflexivity|]. intros u wd [H|[H|[]]]; injection H as <- <-.
        -- rewrite V1. exists 0. cbn [has_columns]. rewrite find_single. split; reflexivity.
        -- rewrite V2. congruence.
  - destruct (id_of v (t_s t)) as [[e|]| |] eqn:EI; cbn [Meta_Model.bind] in ER; try discriminate.
    rewrite (HasPred_Proof.free_o_correct pix e IO) in ER. cbn [of_loop] in ER. injection ER as <-.
    cbn [r_cols r_types r_sortedBy r_data has_width has_sorted]. destruct (word_eq disk _ _ WF EI) as [LE WE].
    do 3 (split; [reflexivity|]). split; [|split; [intros c [<-|[]]|]].
    { apply Forall_forall. intros r Hr. apply in_map_iff in Hr as (p & <- & _). reflexivity. }
    { apply Path_Proof2.strong_sorted_on. clear - SO. induction (SO e) as [|x l Hl IH Hx]; cbn [map]; constructor; auto. rewrite Forall_forall in *.
      intros r Hr. apply in_map_iff in Hr as (y & <- & Hy). specialize (Hx y Hy). cbn. lia. }
    apply (shown_rows disk); auto.
    + apply FinFun.Injective_map_NoDup; [intros a b E; congruence|]. clear - SO. induction (SO e) as [|x l Hl IH Hx]; constructor; auto.
      intros I. rewrite Forall_forall in Hx. specialize (Hx x I). lia.
    + intros r Hr. apply in_map_iff in Hr as (p & <- & Hp). apply PI in Hp as (_ & Lp & _). constructor; auto.
    + intros r. unfold HasScan_Spec.has_row. cbn [filter]. rewrite V1, V2. cbn [length]. split.
      * intros (x & y & Hxy & L & H). destruct (PW _ _ Hxy) as (i & j & Ij & <- & <-).
        assert (A := H (t_o t) _ (or_intror (or_introl eq_refl))). rewrite V2 in A. destruct A as (c & Ec & En). cbn [has_columns] in Ec. rewrite find_single in Ec. injection Ec as <-.
        assert (B := H (t_s t) _ (or_introl eq_refl)). rewrite V1 in B.
        exists [j]. destruct r as [|r0 [|]]; try discriminate. cbn in En. injection En as ->. split; [reflexivity|]. apply in_map_iff. exists j. split; [reflexivity|].
        replace e with i; [exact Ij|]. apply (Whole_Proof4.word_inj v disk ND); auto; [now apply PI in Ij|congruence].
      * intros (r0 & -> & Hr). apply in_map_iff in Hr as (p & <- & Hp). apply PI in Hp as (_ & Lp & Hh). exists (Whole_Proof4.word_of v disk e), (Whole_Proof4.word_of v disk p).
        split; [exact Hh|]. split; [reflexivity|]. intros u wd [H|[H|[]]]; injection H as <- <-.
        -- rewrite V1. congruence.
        -- rewrite V2. exists 0. cbn [has_columns]. rewrite find_single. split; reflexivity.
  - destruct (HasPred_Proof.full_scan_correct pix IO) as (tab & ET & IT & NT & ST). rewrite ET in ER. cbn [of_loop] in ER. injection ER as <-.
    cbn [r_cols r_types r_sortedBy r_data has_width has_sorted].
    do 3 (split; [reflexivity|]). split; [|split; [intros c [<-|[]]; exact ST|]].
    { apply Forall_forall. intros r Hr. apply IT in Hr as (e & p & -> & _). reflexivity. }
    assert (F1 : var_find (has_columns (FULL_SCAN (t_s t) (t_o t))) (t_s t) = Some 0).
    { cbn [has_columns]. rewrite find_other by exact NE. apply find_single. }
    assert (F2 : var_find (has_columns (FULL_SCAN (t_s t) (t_o t))) (t_o t) = Some 1).
    { cbn [has_columns]. apply find_new. rewrite find_other by congruence. reflexivity. }
    apply (shown_rows disk); auto.
    + intros r Hr. apply IT in Hr as (e & p & -> & Hp). apply PI in Hp as (Le & Lp & _). repeat constructor; auto.
    + intros r. unfold HasScan_Spec.has_row. cbn [filter]. rewrite V1, V2. cbn [length]. split.
      * intros (x & y & Hxy & L & H). destruct (PW _ _ Hxy) as (i & j & Ij & <- & <-).
        assert (A := H (t_s t) _ (or_introl eq_refl)). rewrite V1 in A. destruct A as (c & Ec & En). rewrite F1 in Ec. injection Ec as <-.
        assert (B := H (t_o t) _ (or_intror (or_introl eq_refl))). rewrite V2 in B. destruct B as (c & Ec & Em). rewrite F2 in Ec. injection Ec as <-.
        exists [i; j]. destruct r as [|r0 [|r1 [|]]]; try discriminate. cbn in En, Em. injection En as ->. injection Em as ->. split; [reflexivity|].
        apply IT. exists i, j. auto.
      * intros (r0 & -> & Hr). apply IT in Hr as (e & p & -> & Hp). apply PI in Hp as (Le & Lp & Hh). exists (Whole_Proof4.word_of v disk e), (Whole_Proof4.word_of v disk p).
        split; [exact Hh|]. split; [reflexivity|]. intros u wd [H|[H|[]]]; injection H as <- <-.
        -- rewrite V1. exists 0. split; [exact F1|reflexivity].
        -- rewrite V2. exists 1. split; [exact F2|reflexivity].
Qed.

(* The scan has a result if the constant of the triple is a word of the input. *)
Theorem C84_scan_succeeds t x input : has_seed t = Val x -> is_var (t_p t) = false -> NoDup (filter is_var [t_s t; t_o t]) ->
  (forall u, In u [t_s t; t_o t] -> is_var u = false -> word_of_input (Conv_Model.bytes u)) -> exists res, has_result v pix x input = Ok res.
Proof using Hin Hmark Hpre Hbuilt Honce Hsize Hfew Hpat H32 Horder Hsort Hroom.
  intros ES VP NV WI. destruct core as (disk & WF & ND & WO & IO & _).
  assert (G : forall u, word_of_input (Conv_Model.bytes u) -> exists id, id_of v u = Ok (Some id)).
  { intros u Hu. apply WO, In_nth_error in Hu as (i & Ei). exists (N.of_nat i). apply (Whole_Proof4.id_found v disk WF). now rewrite Nat2N.id. }
  destruct (seed_cases t x ES VP NV) as [(V1 & V2 & ->)|[(V1 & V2 & ->)|(V1 & V2 & NE & ->)]]; cbn [has_result].
  - destruct (G (t_o t)) as (p & ->); [apply WI; cbn; auto|]. cbn [Meta_Model.bind]. destruct (HasPred_Proof.free_s_correct pix p IO) as (tab & -> & _).
    eexists. reflexivity.
  - destruct (G (t_s t)) as (e & ->); [apply WI; cbn; auto|]. cbn [Meta_Model.bind]. rewrite (HasPred_Proof.free_o_correct pix e IO).
    eexists. reflexivity.
  - destruct (HasPred_Proof.full_scan_correct pix IO) as (tab & -> & _). eexists. reflexivity.
Qed.

(* A scan with a subtree, in place of a join with the scan of all predicates: if the input is sorted on the column of the
   join and all its entities have a predicate, the rows are those of the join, and the columns those of both operands. *)
Theorem C84_subquery_partial s o (m : var_map) wd srt types c input : s <> o -> width wd input -> c < wd -> sorted_on c input ->
  (forall r, In r input -> exists p, In p (HasPred_Spec.predicates_of pix (col c r))) ->
  exists full res, has_result v pix (FULL_SCAN s o) [] = Ok full /\ has_result v pix (SUBQUERY_S m wd srt types c o) input = Ok res /\
    r_cols res = wd + 1 /\ r_types res = types ++ [KB] /\ r_sortedBy res = srt /\ width (r_cols res) (r_data res) /\
    Permutation (r_data res) (relational_join input c (r_data full) 0) /\
    (forall u i, var_find m u = Some i -> var_find (has_columns (SUBQUERY_S m wd srt types c o)) u = Some i) /\
    (var_find m o = None -> var_find (has_columns (SUBQUERY_S m wd srt types c o)) o = Some wd).
Proof using Hin Hmark Hpre Hbuilt Honce Hsize Hfew Hpat H32 Horder Hsort Hroom.
  intros NE WD LC SI HP. destruct core as (disk & WF & ND & _ & IO & LD & HE & SO & PI & PW).
  destruct (HasPred_Proof.full_scan_correct pix IO) as (tab & ET & IT & NT & _). specialize (NT LD).
  exists (ResultTable 2 [KB; KB] [0] tab), (ResultTable (wd + 1) (types ++ [KB]) srt
    (flat_map (fun r => map (fun p => r ++ [p]) (HasPred_Spec.predicates_of pix (col c r))) input)).
  split; [cbn [has_result]; now rewrite ET|]. split.
  { cbn [has_result]. rewrite HasPred_Proof.subquery_correct; auto. intros r Hr [_ H] E. destruct (HP r Hr) as (p & Hp).
    unfold HasPred_Spec.predicates_of in Hp.
    destruct (nth_error (HasPred_Spec.hasPattern pix) (N.to_nat (col c r))) as [k|] eqn:EN.
    - rewrite (nth_error_nth _ _ _ EN) in E. subst k. rewrite N.eqb_refl, HE in Hp. destruct (N.to_nat (col c r)); destruct Hp.
    - apply nth_error_None in EN. lia. }
  cbn [r_cols r_types r_sortedBy r_data]. do 3 (split; [reflexivity|]). split; [|split; [|split]].
  - apply Forall_forall. intros r Hr. apply in_flat_map in Hr as (r0 & H0 & Hr). apply in_map_iff in Hr as (p & <- & _). rewrite app_length. cbn.
    unfold width in WD. rewrite Forall_forall in WD. now rewrite WD.
  - unfold relational_join. clear HP SI WD. induction input as [|r input IH]; [reflexivity|]. cbn [flat_map]. apply Permutation_app; [|exact IH]. clear IH.
    apply NoDup_Permutation.
    + apply FinFun.Injective_map_NoDup; [intros a b E; apply app_inv_head in E; congruence|]. clear - SO. induction (SO (col c r)) as [|x l Hl IH Hx]; constructor; auto.
      intros I. rewrite Forall_forall in Hx. specialize (Hx x I). lia.
    + clear LC. assert (NF := NoDup_filter (fun rb => (col c r =? col 0 rb)%N) NT).
      assert (FI : forall rb, In rb (filter (fun rb => (col c r =? col 0 rb)%N) tab) -> exists p, rb = [col c r; p]).
      { intros rb Hr. apply filter_In in Hr as [Hr E]. apply IT in Hr as (e & p & -> & _). cbn in E. exists p. f_equal. lia. }
      induction NF as [|rb l Hn N IH]; cbn [map]; constructor; [|apply IH; intros; apply FI; now right].
      intros I. apply in_map_iff in I as (rb' & E & I). apply Hn. replace rb with rb'; [exact I|].
      destruct (FI rb ltac:(now left)) as (p & ->). destruct (FI rb' ltac:(now right)) as (p' & ->).
      apply app_inv_head in E. cbn in E. congruence.
    + intros x. rewrite !in_map_iff. split.
      * intros (p & <- & Hp). exists [col c r; p]. split; [reflexivity|]. apply filter_In. split; [apply IT; eauto|]. cbn. lia.
      * intros (rb & <- & Hr). apply filter_In in Hr as [Hr E]. apply IT in Hr as (e & p & -> & Hp). apply N.eqb_eq in E. change (col 0 [e; p]) with e in E.
        exists p. split; [reflexivity|]. now rewrite E.
  - intros u i E. cbn [has_columns]. destruct (string_dec u o) as [->|N]; [unfold var_insert; now rewrite E|now rewrite find_other].
  - intros E. cbn [has_columns has_width]. rewrite Nat.add_sub. now apply find_new.
Qed.
End Scans.

(* A join is replaced only if it is one on the subject of a scan of all predicates; then the new scan has the other operand
   as subtree, the column of the other operand that is joined, and the object of the scan. *)
Theorem C84_replace a b j x : replace_join a b j = Some x -> exists s o,
  (o_scan a = Some (FULL_SCAN s o) /\ fst j = 0 /\ x = SUBQUERY_S (o_vars b) (o_width b) (o_sorted b) (o_types b) (snd j) o) \/
  (o_scan b = Some (FULL_SCAN s o) /\ snd j = 0 /\ x = SUBQUERY_S (o_vars a) (o_width a) (o_sorted a) (o_types a) (fst j) o).
Proof.
  unfold replace_join. intros E. destruct (o_scan a) as [xa|] eqn:EA, (fst j) as [|ja] eqn:FJ.
  - destruct xa; try discriminate. injection E as <-. exists subject, object. auto.
  - destruct (o_scan b) as [xb|] eqn:EB; [|discriminate]. destruct xb; try discriminate. destruct (snd j) eqn:SJ; [|discriminate].
    injection E as <-. exists subject, object. auto.
  - destruct (o_scan b) as [xb|] eqn:EB; [|discriminate]. destruct xb; try discriminate. destruct (snd j) eqn:SJ; [|discriminate].
    injection E as <-. exists subject, object. auto.
  - destruct (o_scan b) as [xb|] eqn:EB; [|discriminate]. destruct xb; try discriminate. destruct (snd j) eqn:SJ; [|discriminate].
    injection E as <-. exists subject, object. auto.
Qed.
Print Assumptions C84_scan.
Print Assumptions C84_scan_succeeds.
Print Assumptions C84_subquery_partial.
Print Assumptions C84_replace.

(* ---- an example: the index of Whole_Thm with its patterns ---- *)
Lemma add_same lo hi pat p : ~ (lo <= p < hi)%N -> Patterns_Model.add_predicate lo hi pat p = Patterns_Model.add_predicate 0 0 pat p.
Proof.
  intros H. unfold Patterns_Model.add_predicate. replace ((p <? lo) || (hi <=? p))%N with true by lia. replace ((p <? 0) || (0 <=? p))%N with true by lia. reflexivity.
Qed.
Lemma create_same lo hi maxNum order sort ts : Forall (fun t => ~ (lo <= snd (fst t) < hi)%N) ts ->
  Patterns_Model.create_patterns lo hi maxNum order sort ts = Patterns_Model.create_patterns 0 0 maxNum order sort ts.
Proof.
  intros F. assert (A : forall s pat m, Patterns_Model.first_pass lo hi s pat m ts = Patterns_Model.first_pass 0 0 s pat m ts).
  { induction F as [|t ts H F IH]; intros s pat m; [reflexivity|]. cbn [Patterns_Model.first_pass]. unfold Patterns_Model.pred. rewrite !(add_same lo hi) by exact H.
    now rewrite !IH. }
  assert (B : forall pats s pat a, Patterns_Model.second_pass lo hi pats s pat a ts = Patterns_Model.second_pass 0 0 pats s pat a ts).
  { clear A. induction F as [|t ts H F IH]; intros pats s pat m; [reflexivity|]. cbn [Patterns_Model.second_pass]. unfold Patterns_Model.pred. rewrite !(add_same lo hi) by exact H.
    now rewrite !IH. }
  unfold Patterns_Model.create_patterns, Patterns_Model.find_patterns. destruct ts as [|t ts']; [reflexivity|]. rewrite A.
  destruct (Patterns_Model.select _ _ _ _); [|reflexivity]. now rewrite B.
Qed.
Definition e_spo : list (N * N * N) := [(0, 4, 1); (0, 5, 3); (1, 4, 1); (1, 4, 2); (3, 4, 2)]%N.
Definition e_pix : HasPred_Spec.pattern_index :=
  {| HasPred_Spec.hasPattern := [1; 0; HasPred_Spec.NO_PATTERN; 0]%N; HasPred_Spec.hasPredicate := []; HasPred_Spec.patterns := [[4]; [4; 5]]%N |}.
Notation e_sortp := (Ops_Proof.sort_by Patterns_Model.more_frequent).
Notation e_sort2 := (Ops_Proof.sort_by Perm_Model.pair_less).
Notation e_facts := (Whole_Proof5.facts_of Whole_Thm.e_parts).
(* what the theorems assume *)
Definition e_setting (ix : Perm_Model.index) (w : Merge_Model.writer) : Prop :=
  Merge_Thm.input_ok Collate_Thm.example_icu 4 3 Whole_Thm.e_parts /\ Whole_Proof5.marked (v_externalize Whole_Thm.e_voc) Whole_Thm.e_parts /\
  Forall Vocab_Spec.no_newline [[60%N]] /\
  Whole_Proof5.built_with Collate_Thm.example_icu 4 3 10 Whole_Thm.e_parts 2 3 Perm_Thm.ex_log e_sort2 Perm_Thm.ex_sort3 [[60%N]] ix Whole_Thm.e_voc w Whole_Thm.e_ids /\
  Whole_Proof5.once_on_disk (v_external Whole_Thm.e_voc) /\
  (N.of_nat (length (v_words Whole_Thm.e_voc) + length (Vocab_Model.ext_file (v_external Whole_Thm.e_voc))) < 2 ^ 63)%N /\
  (N.of_nat (length (Merge_Thm.all_triples Whole_Thm.e_parts)) < 2 ^ 40)%N /\
  patterns_built w Whole_Thm.e_ids 100 (@rev _) e_sortp e_pix /\ (N.of_nat 100 < 2 ^ 32)%N /\ (forall m : Patterns_Model.pattern_counts, Permutation (rev m) m) /\
  Patterns_Thm.std_sort e_sortp /\
  (forall xs, (forall x y, In x xs -> In y xs -> (forall p, HasScan_Spec.has e_facts x p <-> HasScan_Spec.has e_facts y p) -> x = y) -> NoDup xs -> length xs < 100).
Lemma e_room xs : (forall x y, In x xs -> In y xs -> (forall p, HasScan_Spec.has e_facts x p <-> HasScan_Spec.has e_facts y p) -> x = y) -> NoDup xs -> length xs < 100.
Proof.
  intros H ND. set (subjects := [Whole_Thm.iri 97; Whole_Thm.iri 98; Whole_Thm.iri 100]).
  assert (S : forall x p, HasScan_Spec.has e_facts x p -> In x subjects).
  { intros x p [(z & I) _]. unfold Whole_Proof5.facts_of in I. cbn in I. unfold subjects.
    repeat (destruct I as [I|I]; [injection I as <- <- <-; cbn; auto|]). destruct I. }
  set (dec := list_eq_dec N.eq_dec). set (f := fun x => if in_dec dec x subjects then x else []).
  assert (NF : NoDup (map f xs)).
  { clear - H ND S. induction ND as [|x xs Hx N IH]; cbn [map]; constructor; [|apply IH; intros; apply H; auto; now right].
    intros I. apply in_map_iff in I as (y & E & Hy). apply Hx. replace x with y; [exact Hy|]. unfold f in E.
    destruct (in_dec dec y subjects) as [I1|I1], (in_dec dec x subjects) as [I2|I2]; [exact E| | |].
    - subst y. exfalso. cbn in I1. destruct I1 as [I1|[I1|[I1|[]]]]; discriminate.
    - subst x. exfalso. cbn in I2. destruct I2 as [I2|[I2|[I2|[]]]]; discriminate.
    - apply H; [now right|now left|]. intros p. split; intros Q; apply S in Q; contradiction. }
  assert (LI := NoDup_incl_length NF (l' := [] :: subjects)). rewrite map_length in LI.
  enough (length xs <= 4) by lia. apply LI. intros x Hx. apply in_map_iff in Hx as (y & <- & _). unfold f. destruct (in_dec dec y subjects); [now right|now left].
Qed.
Lemma e_exists : exists ix w, e_setting ix w.
Proof.
  destruct Whole_Thm.e_built as (ix & (w & ids & BW) & CI).
  assert (HN : Forall Vocab_Spec.no_newline [[60%N]]) by (constructor; [intros [X|[]]; discriminate|constructor]).
  assert (Z1 : (N.of_nat (length (v_words Whole_Thm.e_voc) + length (Vocab_Model.ext_file (v_external Whole_Thm.e_voc))) < 2 ^ 63)%N) by reflexivity.
  assert (Z2 : (N.of_nat (length (Merge_Thm.all_triples Whole_Thm.e_parts)) < 2 ^ 40)%N) by reflexivity.
  destruct (Whole_Proof5.built_with_ok _ _ _ _ _ _ _ _ _ _ _ _ _ Whole_Thm.e_input Whole_Thm.e_marked HN Whole_Thm.e_once Z1 Z2 w ids BW)
    as (disk & WF & ND & F & _ & _ & _ & LB).
  assert (ids = Whole_Thm.e_ids) as ->.
  { apply (Whole_Thm.ids_unique _ ids _ ND F). unfold Whole_Thm.e_ids. cbn. repeat constructor. }
  exists ix, w. split; [apply Whole_Thm.e_input|]. split; [apply Whole_Thm.e_marked|]. split; [exact HN|]. split; [exact BW|].
  split; [apply Whole_Thm.e_once|]. split; [exact Z1|]. split; [exact Z2|]. split.
  2: { split; [reflexivity|]. split; [intros m; symmetry; apply Permutation_rev|]. split; [apply Patterns_Thm.std_sort_exists|apply e_room]. }
  exists e_spo. split; [|split; [|split]].
  - unfold e_spo. repeat constructor; cbn; intros X; repeat (destruct X as [X|X]; [discriminate|]); exact X.
  - intros t. unfold e_spo, Whole_Thm.e_ids. cbn [In]. tauto.
  - unfold e_spo. repeat constructor; cbn; lia.
  - assert (P4 := LB 4 _ eq_refl). assert (P5 := LB 5 _ eq_refl). cbn in P4, P5.
    rewrite create_same; [vm_compute; reflexivity|].
    assert (N4 : ~ (fst (Merge_Model.lang_bounds w) <= 4 < snd (Merge_Model.lang_bounds w))%N) by (intros X; apply P4 in X; discriminate).
    assert (N5 : ~ (fst (Merge_Model.lang_bounds w) <= 5 < snd (Merge_Model.lang_bounds w))%N) by (intros X; apply P5 in X; discriminate).
    unfold e_spo. repeat constructor; cbn [fst snd]; assumption.
Qed.
(* the predicates of <a>, what has <q>, what has which predicate, and the join of rows for <a> and <d> with this *)
Example C84_example : (exists ix w, e_setting ix w) /\
  has_seed (T "<a>" "ql:has-predicate" "?p") = Val (FREE_O "<a>" "?p") /\ has_seed (T "?x" "ql:has-predicate" "<q>") = Val (FREE_S "?x" "<q>") /\
  has_seed (T "?x" "ql:has-predicate" "?p") = Val (FULL_SCAN "?x" "?p") /\
  has_result Whole_Thm.e_voc e_pix (FREE_O "<a>" "?p") [] = Ok (ResultTable 1 [KB] [0] [[4]; [5]]%N) /\
  has_result Whole_Thm.e_voc e_pix (FREE_S "?x" "<q>") [] = Ok (ResultTable 1 [KB] [] [[0]]%N) /\
  has_result Whole_Thm.e_voc e_pix (FULL_SCAN "?x" "?p") [] = Ok (ResultTable 2 [KB; KB] [0] [[0; 4]; [0; 5]; [1; 4]; [3; 4]]%N) /\
  (let a := Operand (Some (FULL_SCAN "?x" "?p")) (has_columns (FULL_SCAN "?x" "?p")) 2 [0] [KB; KB] in
   let b := Operand None [("?y"%string, 0); ("?x"%string, 1)] 2 [1] [KB; KB] in
   let x := SUBQUERY_S [("?y"%string, 0); ("?x"%string, 1)] 2 [1] [KB; KB] 1 "?p" in
   replace_join a b (0, 1) = Some x /\ replace_join b a (1, 0) = Some x /\
   has_result Whole_Thm.e_voc e_pix x [[2; 0]; [1; 3]]%N = Ok (ResultTable 3 [KB; KB; KB] [1] [[2; 0; 4]; [2; 0; 5]; [1; 3; 4]]%N)).
Proof. split; [apply e_exists|]. repeat split; vm_compute; reflexivity. Qed.

(* C84 claims a result for every triple; if the predicate or the subject is no word of the input, the scan throws an
   exception, although the result is known to be empty. *)
Theorem C84_unknown_refuted : exists ix w, e_setting ix w /\
  has_result Whole_Thm.e_voc e_pix (FREE_S "?x" "<z>") [] = Meta_Model.Throw /\ has_result Whole_Thm.e_voc e_pix (FREE_O "<z>" "?x") [] = Meta_Model.Throw /\
  forall x, ~ HasScan_Spec.has e_facts x (Conv_Model.bytes "<z>") /\ ~ HasScan_Spec.has e_facts (Conv_Model.bytes "<z>") x.
Proof.
  destruct e_exists as (ix & w & E). exists ix, w. split; [exact E|]. split; [vm_compute; reflexivity|]. split; [vm_compute; reflexivity|].
  intros x. split; intros [(z & I) _]; unfold Whole_Proof5.facts_of in I; cbn in I; repeat (destruct I as [I|I]; [discriminate|]); exact I.
Qed.
Print Assumptions C84_unknown_refuted.
(* C84 needs different variables: for `?x ql:has-predicate ?x` the planner makes a scan for the subjects with the
   predicate `?x`, which throws an exception (there is a TODO in the code). *)
Theorem C84_same_variable_refuted : exists ix w, e_setting ix w /\
  has_seed (T "?x" "ql:has-predicate" "?x") = Val (FREE_S "?x" "?x") /\ has_result Whole_Thm.e_voc e_pix (FREE_S "?x" "?x") [] = Meta_Model.Throw.
Proof. destruct e_exists as (ix & w & E). exists ix, w. split; [exact E|]. split; vm_compute; reflexivity. Qed.
Print Assumptions C84_same_variable_refuted.
(* A scan with a subtree stops at the first entity without a pattern, such as `<c>`, which is no subject: the rows behind
   it, here that of `<d>`, are missing in the result, but not in the join that the scan replaces. *)
Theorem C84_subquery_gap_refuted : exists ix w input full res r, e_setting ix w /\ sorted_on 0 input /\ width 1 input /\
  has_result Whole_Thm.e_voc e_pix (FULL_SCAN "?x" "?p") [] = Ok full /\
  has_result Whole_Thm.e_voc e_pix (SUBQUERY_S [("?x"%string, 0)] 1 [0] [KB] 0 "?p") input = Ok res /\
  In r (relational_join input 0 (r_data full) 0) /\ ~ In r (r_data res).
Proof.
  destruct e_exists as (ix & w & E). exists ix, w, [[1]; [2]; [3]]%N, (ResultTable 2 [KB; KB] [0] [[0; 4]; [0; 5]; [1; 4]; [3; 4]]%N),
    (ResultTable 2 [KB; KB] [0] [[1; 4]]%N), [3; 4]%N. split; [exact E|].
  split; [repeat constructor; vm_compute; discriminate|]. split; [repeat constructor|]. split; [vm_compute; reflexivity|]. split; [vm_compute; reflexivity|].
  split; [vm_compute; auto|]. cbn. intros [X|[]]; discriminate.
Qed.
Print Assumptions C84_subquery_gap_refuted.
