(* What an index is built from, and what the server gets. *)
From Coq Require Import List NArith Arith Bool Lia Sorted Permutation ZifyN ZifyNat ZifyBool.
From Verif Require Perm_Model Perm_Thm Meta_Model.
From Verif Require Import ListAux Bytes Strings_Model Strings_Spec Collate_Model Collate_Spec Collate_Proof
  Vocab_Model Vocab_Spec Vocab_Proof Vocab_Thm Merge_Model Merge_Spec Merge_Proof5 Merge_Thm Whole_Model.
Import ListNotations.
Open Scope N_scope.

(* Words to be stored on disk have the mark of externalized literals, others have no mark (tripleToInternalRepresentation;
   no entity is externalized). *)
Definition marked (externalize : list N -> bool) (parts : list (list (nat * (list N * (list N * list N * list N))))) : Prop :=
  forall x, In x (vocabulary_words parts) ->
    (first_byte x = 127 /\ externalize (shown x) = true) \/ (first_byte x < 127 /\ externalize x = false).
(* the triples without the marks *)
Definition shown_triple (t : list N * list N * list N) : list N * list N * list N :=
  let '(s, p, o) := t in (shown s, shown p, shown o).
Definition facts_of (parts : list (list (nat * (list N * (list N * list N * list N))))) : list (list N * list N * list N) :=
  map shown_triple (all_triples parts).
(* no word is on disk twice *)
Definition once_on_disk (e : Vocab_Model.external) : Prop :=
  forall i j x, ext_at e i = Some x -> ext_at e j = Some x -> i = j.

Lemma low_shown w : first_byte w < 127 -> shown w = w.
Proof. unfold first_byte, shown. destruct w as [|c r]; [reflexivity|]. cbn. intros H. destruct (N.eqb_spec c 127); [lia|]. destruct (N.eqb_spec c 128); [lia|reflexivity]. Qed.
Lemma compare_shown loc a b l : first_byte a = 127 -> first_byte b = 127 -> compare loc (shown a) (shown b) l = compare loc a b l.
Proof.
  unfold first_byte, shown. destruct a as [|c a]; [discriminate|]. destruct b as [|d b]; [discriminate|]. cbn [hd]. intros -> ->.
  change (127 =? 127) with true. cbv iota. unfold compare, extractComparable.
  assert (E1 : forall r, startsWith (34 :: r) [34] || startsWith (34 :: r) [127] = true) by (intros [|]; reflexivity).
  assert (E2 : forall r, startsWith (127 :: r) [34] || startsWith (127 :: r) [127] = true) by (intros [|]; reflexivity).
  rewrite !E1, !E2. cbn [skipn].
  destruct (findLiteralEnd a [34]) as [[e|]|]; destruct (findLiteralEnd b [34]) as [[e'|]|]; unfold compare_split; cbn [first_char inner langtag];
    rewrite !N.compare_refl; reflexivity.
Qed.
Lemma shown_inj a b : first_byte a = 127 -> first_byte b = 127 -> shown a = shown b -> a = b.
Proof.
  unfold first_byte, shown. destruct a as [|c a]; [discriminate|]. destruct b as [|d b]; [discriminate|]. cbn [hd]. intros -> ->.
  change (127 =? 127) with true. cbv iota. congruence.
Qed.
Lemma map_some_inj {A} : forall l l' : list A, map Some l = map Some l' -> l = l'.
Proof. induction l as [|x l IH]; intros [|y l'] E; try discriminate; auto. cbn in E. injection E as <- E. f_equal. now apply IH. Qed.
Lemma nth_shown internal ext i w : (forall x, In x internal -> first_byte x < 127) -> nth_error (internal ++ ext) i = Some w ->
  nth_error (internal ++ map shown ext) i = Some (shown w).
Proof.
  intros H E. destruct (lt_dec i (length internal)) as [L|L].
  - rewrite nth_error_app1 in * by auto. rewrite low_shown; auto. apply H. eapply nth_error_In; eauto.
  - rewrite nth_error_app2 in * by lia. now rewrite nth_error_map, E.
Qed.

Lemma Nat2N_le a b : (a <= b)%nat -> N.of_nat a <= N.of_nat b.
Proof. lia. Qed.

Section Built.
Variable loc : icu.
Variable numMaps : nat.
Variable L : N.
Variable B : nat.
Variable parts : list (list (nat * (list N * (list N * list N * list N)))).
Variables per thr : nat.
Variable logmult : N -> N -> N.
Variable sort2 : list (N * N) -> list (N * N).
Variable sort3 : (N * N * N -> N * N * N) -> list (N * N * N) -> list (N * N * N).
Variable prefixes : list (list N).
Variable ix : Perm_Model.index.
Variable v : vocabulary.
Hypothesis Hin : input_ok loc numMaps L parts.
Hypothesis Hmark : marked (v_externalize v) parts.
Hypothesis Hpre : Forall no_newline prefixes.
Hypothesis Hbuilt : index_built loc numMaps L B parts per thr logmult sort2 sort3 prefixes ix v.
(* the body of index_built *)
Definition built_with (w : writer) (ids : list (N * N * N)) : Prop := exists map1 vec1 map2 vec2 stored f,
    first_pass loc numMaps L B parts w (Merge_Model.Ok ids) /\
    Perm_Model.create_index per thr logmult sort2 sort3 (N.to_nat (total w)) ids = Meta_Model.Ok (Some ix) /\
    initializePrefixes prefixes map1 vec1 /\ initializePrefixes (lines (prefix_file prefixes)) map2 vec2 /\
    readFromFile map2 vec2 (prefixCompressFile vec1 (outfile w)) = Strings_Model.Val stored /\
    map (expandPrefix map2) stored = map Some (v_words v) /\
    buildFromTextFile (outfile_ext w) = Strings_Model.Val f /\ initFromFile f = Some (v_external v) /\
    v_loc v = loc.
Hypothesis Honce : once_on_disk (v_external v).
Hypothesis Hsize : N.of_nat (length (v_words v) + length (ext_file (v_external v))) < 2 ^ 63.
Hypothesis Hfew : N.of_nat (length (all_triples parts)) < 2 ^ 40.

Lemma built_with_ok w ids : built_with w ids -> exists disk,
  well_formed (v_loc v) (v_externalize v) (v_words v) disk (v_external v) /\ NoDup (v_words v ++ disk) /\
  Forall2 (triple_stands_for (v_words v ++ disk)) ids (facts_of parts) /\
  Perm_Thm.input_ok (length (v_words v ++ disk)) ids /\
  Perm_Model.create_index per thr logmult sort2 sort3 (length (v_words v ++ disk)) ids = Meta_Model.Ok (Some ix) /\
  (forall x, In x (v_words v ++ disk) <-> exists y, In y (vocabulary_words parts) /\ x = shown y) /\
  (forall i x, nth_error (v_words v ++ disk) i = Some x -> (first_byte x = 64 <-> fst (lang_bounds w) <= N.of_nat i < snd (lang_bounds w))).
Proof using Hin Hmark Hpre Honce Hsize Hfew.
  intros (map1 & vec1 & map2 & vec2 & stored & f & P & CI & I1 & I2 & RD & EX & TX & IN & EL).
  destruct (C32_first_pass _ _ _ _ _ _ _ Hin P) as (internal & ext & ts' & E & O1 & O2 & TO & SI & IO & NI & EE & WO & LB & F).
  injection E as <-.
  assert (V : v_words v = internal).
  { assert (R : rebuilt internal prefixes map2 vec1 vec2 (Val stored)).
    { split; [now exists map1|]. split; [exact I2|]. now rewrite <- O1, RD. }
    destruct (C29_reloaded _ _ _ _ _ _ Hpre R) as (st & Es & Ls & At). injection Es as <-.
    apply map_some_inj. rewrite <- EX. apply (nth_ext _ _ None None).
    - now rewrite !map_length.
    - intros n Hn. rewrite map_length in Hn. destruct (nth_error internal n) as [x|] eqn:En.
      2: { apply nth_error_None in En. lia. }
      specialize (At n x En). unfold at_word in At. destruct (nth_error stored n) as [y|] eqn:Ey; [|discriminate].
      rewrite (nth_error_nth (map Some internal) n None (x := Some x)) by (now rewrite nth_error_map, En).
      rewrite (nth_error_nth (map (expandPrefix map2) stored) n None (x := expandPrefix map2 y)) by (now rewrite nth_error_map, Ey). exact At. }
  assert (FB : forall x, In x internal -> first_byte x < 127) by (intros x Hx; specialize (NI x Hx); unfold external in NI; lia).
  assert (FE : forall x, In x ext -> first_byte x = 127 /\ v_externalize v (shown x) = true).
  { intros x Hx. destruct (Hmark x) as [A|[A _]]; [apply WO, in_app_iff; auto|exact A|]. specialize (EE x Hx). unfold external in EE. lia. }
  assert (FI : forall x, In x internal -> v_externalize v x = false).
  { intros x Hx. destruct (Hmark x) as [[A _]|[_ A]]; [apply WO, in_app_iff; auto| |exact A]. specialize (FB x Hx). lia. }
  rewrite O2, C30_external_text in TX. injection TX as <-.
  assert (EF : ext_file (v_external v) = external_file (map shown ext)).
  { clear - IN. revert IN. generalize (external_file (map shown ext)). intros l. unfold initFromFile. intros IN.
    repeat match type of IN with context [match ?x with _ => _ end] => destruct x; try discriminate end; injection IN as <-; reflexivity. }
  assert (LEN := external_length (map shown ext)). rewrite EF in Hsize. rewrite V in *. rewrite map_length in LEN.
  assert (T64 : N.of_nat (length (concat (map shown ext))) < 2 ^ 64) by lia.
  assert (ND : NoDup (map shown ext)).
  { destruct (C30_external_file (map shown ext) T64) as (e' & E1 & E2 & E3). assert (e' = v_external v) by congruence. subst e'.
    apply NoDup_nth_error. intros i j Hi Eq. apply Nat2N.inj.
    destruct (nth_error (map shown ext) i) as [x|] eqn:Ex; [|apply nth_error_None in Ex; lia].
    apply (Honce _ _ x); rewrite E3, Nat2N.id; congruence. }
  assert (NE : NoDup ext) by (apply (NoDup_map_inv shown); exact ND).
  destruct Hin as (OK & _ & _ & _ & _ & _ & FW & _).
  assert (W : word_order (fun a b => before loc a b TOTAL) (vocabulary_words parts)) by now apply before_order.
  assert (SE : strictly_in_order (fun a b => before loc a b TOTAL) ext).
  { apply (strict_of _ (vocabulary_words parts)); auto.
    - intros x Hx. apply WO, in_app_iff. auto.
    - clear - IO. induction internal as [|a l IH]; [exact IO|]. apply IH. inversion IO; auto. }
  assert (NDI : NoDup internal) by (eapply nodup_of; eauto).
  assert (ND2 : NoDup (internal ++ map shown ext)).
  { clear - NDI ND FI FE. induction NDI as [|a l Ha N IH]; [exact ND|]. cbn. constructor.
    - intros X. apply in_app_iff in X as [X|X]; [auto|]. apply in_map_iff in X as (y & E & Hy). specialize (FI a (or_introl eq_refl)).
      destruct (FE y Hy) as [_ G]. congruence.
    - apply IH. intros x Hx. apply FI. now right. }
  exists (map shown ext). split; [|split; [exact ND2|]].
  { rewrite EL. split; [exact OK|]. split; [|split; [|split; [|split; [|split]]]].
    - clear - SI. induction SI as [|a l S IH F]; constructor; auto. eapply Forall_impl; [|exact F]. intros b H. apply compare_precedes.
      unfold before, less in H. destruct (compare loc a b TOTAL); congruence.
    - assert (FE' : forall x, In x ext -> first_byte x = 127) by (intros x Hx; now apply FE). clear - SE FE'.
      induction SE as [|a l S IH F]; cbn; constructor; [apply IH; intros; apply FE'; now right|].
      apply Forall_forall. intros y Hy. apply in_map_iff in Hy as (b & <- & Hb). rewrite Forall_forall in F. specialize (F b Hb).
      apply compare_precedes. rewrite compare_shown; [|apply FE'; now left|apply FE'; now right].
      unfold before, less in F. destruct (compare loc a b TOTAL); congruence.
    - now apply Forall_forall.
    - apply Forall_forall. intros y Hy. apply in_map_iff in Hy as (b & <- & Hb). now apply FE.
    - exact Hsize.
    - exact IN. }
  assert (F2 : Forall2 (triple_stands_for (internal ++ map shown ext)) ids (facts_of parts)).
  { unfold facts_of. clear - F FB. induction F as [|[[a b] c] [[s p] o] l l' (S1 & S2 & S3) F IH]; cbn; constructor; auto.
    cbn in S1, S2, S3. unfold triple_stands_for, stands_for in *. cbn. auto using nth_shown. }
  assert (LT : length (internal ++ map shown ext) = N.to_nat (total w)) by (rewrite TO, !app_length, map_length; lia).
  split; [exact F2|]. split; [|split; [|split]].
  - split; [rewrite app_length, map_length; unfold Meta_Model.MAX64; lia|]. split.
    + pose proof (NoDup_incl_length (NoDup_nodup Perm_Thm.triple_dec ids) (fun x => proj1 (nodup_In Perm_Thm.triple_dec ids x))) as X.
      assert (LL : length ids = length (all_triples parts)).
      { unfold facts_of in F2. rewrite <- (map_length shown_triple). clear - F2. induction F2; cbn; congruence. }
      unfold Merge_Model.triple in *. rewrite LL in X. apply N.le_lt_trans with (2 := Hfew). apply Nat2N_le. exact X.
    + clear - F2. intros s p o H. induction F2 as [|[[a b] c] [[x y] z] l l' (S1 & S2 & S3) F IH]; [easy|]. destruct H as [E|H]; auto.
      injection E as -> -> ->. cbn in S1, S2, S3. unfold stands_for in *.
      assert (G : forall i u, nth_error (internal ++ map shown ext) (N.to_nat i) = Some u -> i < N.of_nat (length (internal ++ map shown ext))).
      { intros i u E. assert (N.to_nat i < length (internal ++ map shown ext))%nat by (apply nth_error_Some; congruence). lia. }
      split; [exact (G _ _ S1)|]. split; [exact (G _ _ S2)|exact (G _ _ S3)].
  - rewrite LT. exact CI.
  - intros x. split.
    + intros Hx. apply in_app_iff in Hx as [Hx|Hx].
      * exists x. split; [apply WO, in_app_iff; auto|]. symmetry. apply low_shown. auto.
      * apply in_map_iff in Hx as (y & <- & Hy). exists y. split; auto. apply WO, in_app_iff. auto.
    + intros (y & Hy & ->). apply WO, in_app_iff in Hy as [Hy|Hy]; apply in_app_iff.
      * left. rewrite low_shown; auto.
      * right. now apply in_map.
  - clear - LB FB FE. intros i x Ex. destruct (lt_dec i (length internal)) as [Li|Li].
    + apply LB. rewrite nth_error_app1 in * by auto. exact Ex.
    + rewrite nth_error_app2 in Ex by lia. rewrite nth_error_map in Ex. destruct (nth_error ext (i - length internal)) as [y|] eqn:Ey; [|discriminate].
      injection Ex as <-. rewrite <- (LB i y) by (rewrite nth_error_app2 by lia; exact Ey).
      destruct (FE y (nth_error_In _ _ Ey)) as [G _]. unfold first_byte, shown in *. destruct y as [|c y]; [discriminate|]. cbn [hd] in *. subst c.
      change (127 =? 127) with true. cbv iota. cbn [hd]. lia.
Qed.
Lemma built_ok : exists disk ids,
  well_formed (v_loc v) (v_externalize v) (v_words v) disk (v_external v) /\ NoDup (v_words v ++ disk) /\
  Forall2 (triple_stands_for (v_words v ++ disk)) ids (facts_of parts) /\
  Perm_Thm.input_ok (length (v_words v ++ disk)) ids /\
  Perm_Model.create_index per thr logmult sort2 sort3 (length (v_words v ++ disk)) ids = Meta_Model.Ok (Some ix) /\
  (forall x, In x (v_words v ++ disk) <-> exists y, In y (vocabulary_words parts) /\ x = shown y).
Proof using Hin Hmark Hpre Hbuilt Honce Hsize Hfew.
  destruct Hbuilt as (w & ids & H). destruct (built_with_ok w ids H) as (disk & A & B1 & C & D & E & F & _). exists disk, ids. auto 6.
Qed.
End Built.
