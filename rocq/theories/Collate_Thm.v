(* Property C52: the order of the vocabulary. Part of C30: words of the text index. *)
From Coq Require Import List NArith Arith Bool Lia Sorted ZifyN ZifyNat ZifyBool.
From Verif Require Import Table_Spec Lex_Proof Ops_Spec Std_Model Std_Proof Strings_Model Strings_Spec Strings_Proof Strings_Proof3 Strings_Proof4
  Collate_Model Collate_Spec Collate_Proof.
Import ListNotations.
Open Scope N_scope.

(* ---- an example of a locale: letter case and an accent count after the letters; the two
   encodings of an accented letter are identical ---- *)
Fixpoint nfd (s : list N) : list N :=
  match s with
  | c :: ((d :: s'') as s') => if (c =? 195) && (d =? 169) then 101 :: 204 :: 129 :: nfd s'' else c :: nfd s'
  | _ => s
  end.
Fixpoint letters (s : list N) : list N :=
  match s with
  | c :: s' =>
      match s' with
      | d :: s'' => if (c =? 204) && (d =? 129) then letters s'' else tolower c + 2 :: letters s'
      | [] => [tolower c + 2]
      end
  | [] => []
  end.
Definition example_key (st : strength) (s : list N) : list N :=
  match st with
  | Primary => letters (nfd s)
  | _ => letters (nfd s) ++ 1 :: map (fun c => c + 2) (nfd s)
  end.
Definition example_icu : icu :=
  Icu (fun st a b => lex_cmp (example_key st a) (example_key st b)) example_key.
Lemma letters_2 s : Forall (fun c => 2 <= c) (letters s).
Proof.
  enough (H : forall n s, (length s <= n)%nat -> Forall (fun c => 2 <= c) (letters s)) by (apply (H (length s)); lia).
  clear s. induction n as [|n IH]; intros [|c s] L; cbn [length] in L; try constructor; try lia.
  cbn [letters]. destruct s as [|d s]; [constructor; [lia|constructor]|].
  destruct ((c =? 204) && (d =? 129)).
  - apply IH. cbn in L. lia.
  - constructor; [lia|]. apply IH. lia.
Qed.
Lemma lex_prefix_lt x : forall y u v, Forall (fun c => 2 <= c) x -> Forall (fun c => 2 <= c) y -> lex_cmp x y = Lt ->
  lex_cmp (x ++ 1 :: u) (y ++ 1 :: v) = Lt.
Proof.
  induction x as [|a x IH]; intros [|b y] u v X Y H; try discriminate; cbn [app lex_cmp] in *.
  - inversion Y; subst. destruct (N.compare_spec 1 b); auto; lia.
  - inversion X; inversion Y; subst. destruct (a ?= b); auto.
Qed.
Lemma example_icu_ok : icu_ok example_icu.
Proof.
  constructor.
  - reflexivity.
  - intros s a. cbn [icu_key example_icu]. assert (L := letters_2 (nfd a)). rewrite Forall_forall in L.
    unfold example_key. destruct s; rewrite ?in_app_iff; cbn [In]; intros H.
    all: try (apply L in H; lia).
    all: destruct H as [H|[H|H]]; [apply L in H; lia | lia | apply in_map_iff in H as (x & H & _); lia].
  - intros s t a b R H. cbn [icu_compare example_icu] in *. unfold example_key in *.
    destruct s, t; cbn in R; try lia; auto; apply lex_prefix_lt; auto using letters_2.
Qed.

(* ---- the order of words ---- *)
(* At every level the comparison is a total preorder, so it can be used for sorting and searching. *)
Theorem C52_preorder loc l : icu_ok loc -> preorder_compare (fun a b => compare loc a b l).
Proof. intros K. apply pre_spec. now apply pre_compare. Qed.
Print Assumptions C52_preorder.
Theorem C52_sortable loc l : icu_ok loc -> strict_weak_order (fun a b => before loc a b l).
Proof.
  intros K. pose proof (pre_compare loc l K) as P. pose proof P as (R & S & T). unfold before. constructor.
  - intros x. now rewrite R.
  - intros x y z H1 H2. apply less_iff in H1, H2. apply less_iff.
    apply (pre_lt_trans (fun a b => compare loc a b l) x y z P); auto. congruence.
  - intros x y z H1 H2. destruct (less (compare loc x z l)) eqn:E; auto. apply less_iff in E. exfalso.
    assert (H : compare loc y z l = Lt).
    { apply (pre_below (fun a b => compare loc a b l) y x z P); auto. rewrite S. intros G.
      destruct (compare loc x y l); cbn in G; try discriminate. }
    rewrite H in H2. discriminate.
Qed.
Print Assumptions C52_sortable.

(* At the level TOTAL, words come in the order of their first characters, values, language tags
   and bytes. *)
Theorem C52_total_order loc a b : icu_ok loc ->
  compare loc a b TOTAL = Lt <-> precedes loc a b.
Proof. intros K. apply compare_precedes. Qed.
Print Assumptions C52_total_order.
(* Two words of which the literals have an end compare equal only if they are the same. *)
Theorem C52_equal loc a b : icu_ok loc -> closed a -> closed b ->
  (compare loc a b TOTAL = Eq <-> a = b).
Proof.
  intros K A B. rewrite compare_total_eq by auto. split; [now apply split_inj | now intros ->].
Qed.
Print Assumptions C52_equal.
(* A finer level keeps the order of a coarser one: a vocabulary that is sorted at the level TOTAL
   is sorted at every level. *)
Theorem C52_levels loc l a b : icu_ok loc -> compare loc a b TOTAL = Lt -> compare loc a b l <> Gt.
Proof. apply compare_coarser. Qed.
Print Assumptions C52_levels.
(* The partial vocabularies are sorted by sort keys, the merger compares words: both agree except
   that the keys do not distinguish values that are identical for ICU. *)
Theorem C52_sort_keys loc a b : icu_ok loc ->
  let key w := extractAndTransformComparable loc w IDENTICAL in
  (before_transformed (key a) (key b) TOTAL = true -> compare loc a b TOTAL = Lt) /\
  (compare_split strcmp (key a) (key b) TOTAL = Eq <->
   first_char (extractComparable a) = first_char (extractComparable b) /\
   icu_compare loc Identical (inner (extractComparable a)) (inner (extractComparable b)) = Eq /\
   langtag (extractComparable a) = langtag (extractComparable b)).
Proof.
  intros K key. unfold key, before_transformed, extractAndTransformComparable, transform, compare, compare_split.
  cbn [first_char inner langtag is_total]. rewrite strcmp_keys by auto. unfold locale_compare. cbn [collator].
  set (sa := extractComparable a). set (sb := extractComparable b).
  assert (G : lex_cmp (getSortKey loc (inner sa) IDENTICAL) (getSortKey loc (inner sb) IDENTICAL) =
              icu_compare loc Identical (inner sa) (inner sb)).
  { unfold getSortKey. cbn [is_total collator]. rewrite !app_nil_r. symmetry. apply (ok_keys loc K). }
  rewrite G. split.
  - intros H. apply less_iff in H. apply or_else_lt in H as [H|[H H']]; [apply or_else_lt; auto|]. rewrite H. cbn [or_else].
    apply or_else_lt in H' as [H'|[H' H2]]; [apply or_else_lt; auto|]. rewrite H'. cbn [or_else].
    apply or_else_lt in H2 as [H2|[H2 H3]]; [apply or_else_lt; auto|]. congruence.
  - rewrite !or_else_eq, N.compare_eq_iff, lex_cmp_eq. tauto.
Qed.
Print Assumptions C52_sort_keys.

Example order_example :
  let a := [34; 97; 34] in let b := [34; 65; 34; 64; 101; 110] in let c := [34; 98; 34] in
  icu_ok example_icu /\ closed a /\ closed b /\ compare example_icu b a TOTAL = Lt /\
  compare example_icu a b PRIMARY = Eq /\ compare example_icu b c PRIMARY = Lt /\ compare example_icu a [60; 97; 62] TOTAL = Lt.
Proof.
  cbv zeta. split; [apply example_icu_ok|].
  split; [|split; [|repeat split; vm_compute; reflexivity]].
  - intros c r E _. injection E as <- <-. exists 1%nat. exists [97], 0%nat, []. repeat split; auto.
    + right. exists 97. split; [discriminate|]. now exists [].
    + now exists 0%nat.
  - intros c r E _. injection E as <- <-. exists 1%nat. exists [65], 0%nat, [64; 101; 110]. repeat split; auto.
    + right. exists 65. split; [discriminate|]. now exists [].
    + now exists 0%nat.
Qed.

(* The literals with the contents a\ and a\" are stored as "a\" and "a\"": the comparator takes the
   end of the first for an escaped quotation mark, and compares them equal. *)
Theorem C52_different_literals_refuted : exists a b,
  a = [34] ++ [97; 92] ++ [34] /\ b = [34] ++ [97; 92; 34] ++ [34] /\ a <> b /\
  (forall s, normalizeRDFLiteral ([34; 97; 92; 92; 34]) = Val s -> s = a) /\
  (forall s, normalizeRDFLiteral ([34; 97; 92; 92; 92; 34; 34]) = Val s -> s = b) /\
  forall loc, icu_ok loc -> compare loc a b TOTAL = Eq.
Proof.
  exists [34; 97; 92; 34], [34; 97; 92; 34; 34]. split; [reflexivity|]. split; [reflexivity|]. split; [discriminate|].
  split; [vm_compute; intros s H; now injection H|]. split; [vm_compute; intros s H; now injection H|].
  intros loc K. apply compare_total_eq; auto.
Qed.
Print Assumptions C52_different_literals_refuted.
(* SimpleStringComparator returns 1 or 0 for different words that the locale calls identical: both
   "greater" and "equal" for the same two words. *)
Theorem C52_simple_total_refuted loc a b : icu_ok loc -> icu_compare loc Identical a b = Eq -> lex_cmp a b = Lt ->
  simple_compare loc a b TOTAL = Gt /\ simple_compare loc b a TOTAL = Eq.
Proof.
  intros K E L. unfold simple_compare, locale_compare. cbn [collator is_total].
  destruct (pre_icu loc Identical K) as (_ & S & _). rewrite (S a b), E, L. cbn [CompOpp less].
  split; auto. rewrite (lex_cmp_antisym a b), L. reflexivity.
Qed.
Print Assumptions C52_simple_total_refuted.
Example simple_total_example :
  let a := [101; 204; 129] in let b := [195; 169] in
  icu_compare example_icu Identical a b = Eq /\ lex_cmp a b = Lt.
Proof. split; vm_compute; reflexivity. Qed.

(* ---- searches ---- *)
Lemma sorted_level loc words l i j : icu_ok loc -> vocabulary_sorted loc words -> (i < j < length words)%nat ->
  compare loc (word_at words i) (word_at words j) l <> Gt.
Proof.
  intros K S H. apply compare_coarser; auto. apply compare_precedes. now apply (strongly_nth _ [] words S).
Qed.
(* lower_bound and upper_bound at any level *)
Theorem C52_bounds loc words v l : icu_ok loc -> vocabulary_sorted loc words ->
  exists lb ub, vocab_lower_bound words (fun w => before loc w v l) = Some lb /\
    vocab_upper_bound words (fun w => before loc v w l) = Some ub /\ (lb <= ub <= length words)%nat /\
    forall i, (i < length words)%nat ->
      ((i < lb)%nat <-> compare loc (word_at words i) v l = Lt) /\
      ((i < ub)%nat <-> compare loc (word_at words i) v l <> Gt).
Proof.
  intros K S. pose proof (pre_compare loc l K) as P. pose proof P as (R & A & T).
  destruct (lower_bound_words words (fun w => before loc w v l)) as (lb & L & L1 & L2).
  { intros i j H B. apply less_iff in B. apply less_iff.
    apply (pre_below (fun a b => compare loc a b l) _ (word_at words j)); auto. now apply sorted_level. }
  destruct (lower_bound_words words (fun w => negb (before loc v w l))) as (ub & U & U1 & U2).
  { intros i j H B. unfold before in *. apply negb_true_iff in B. apply negb_true_iff.
    destruct (less (compare loc v (word_at words i) l)) eqn:E; auto. apply less_iff in E. exfalso.
    assert (X : compare loc v (word_at words j) l = Lt).
    { apply (pre_lt_trans (fun a b => compare loc a b l) v (word_at words i)); auto. now apply sorted_level. }
    rewrite X in B. discriminate. }
  assert (N : forall i, (i < length words)%nat -> ((i < ub)%nat <-> compare loc (word_at words i) v l <> Gt)).
  { intros i I. rewrite (U2 i I), negb_true_iff. unfold before. rewrite (A (word_at words i) v).
    destruct (compare loc (word_at words i) v l); cbn; intuition congruence. }
  exists lb, ub. split; [exact L|]. split; [exact U|]. split.
  - split; auto. destruct (le_lt_dec lb ub) as [|H]; auto. exfalso.
    assert (H1 : (ub < length words)%nat) by lia. assert (H2 := proj1 (L2 ub H1) H). apply less_iff in H2.
    apply (Nat.lt_irrefl ub). apply N; auto. congruence.
  - intros i I. split; [|now apply N]. rewrite (L2 i I). apply less_iff.
Qed.
Print Assumptions C52_bounds.
(* the ids for comparisons: "less than" in all cases, "at most" if there is such a word *)
Theorem C52_value_ids_partial loc words v l : icu_ok loc -> vocabulary_sorted loc words ->
  exists lt le, getValueIdForLT words (fun w => before loc w v l) = Some lt /\
    getValueIdForLE words (fun w => before loc v w l) = Some le /\
    (forall i, (i < length words)%nat -> ((i < lt)%nat <-> compare loc (word_at words i) v l = Lt)) /\
    ((exists i, (i < length words)%nat /\ compare loc (word_at words i) v l <> Gt) ->
     forall i, (i < length words)%nat -> ((i <= le)%nat <-> compare loc (word_at words i) v l <> Gt)).
Proof.
  intros K S. destruct (C52_bounds loc words v l K S) as (lb & ub & L & U & B & H).
  exists lb, (if Nat.ltb 0 ub then ub - 1 else ub)%nat. split; [exact L|].
  split; [unfold getValueIdForLE; now rewrite U|]. split; [intros i I; now apply H|].
  intros (j & J & C) i I. apply (H j J) in C. destruct (Nat.ltb_spec 0 ub); [|lia].
  rewrite <- (proj2 (H i I)). lia.
Qed.
Print Assumptions C52_value_ids_partial.
(* missing: without such a word, the id is 0 and "at most 0" holds for the first word *)
Theorem C52_at_most_refuted : exists words v,
  vocabulary_sorted example_icu words /\ words <> [] /\
  (forall i, (i < length words)%nat -> compare example_icu (word_at words i) v PRIMARY = Gt) /\
  getValueIdForLE words (fun w => before example_icu v w PRIMARY) = Some 0%nat.
Proof.
  exists [[34; 98; 34]], [34; 97; 34]. split; [repeat constructor|]. split; [discriminate|]. split.
  - intros [|i] H; [vm_compute; reflexivity | cbn in H; lia].
  - vm_compute. reflexivity.
Qed.
Print Assumptions C52_at_most_refuted.

(* ---- prefixes ---- *)
Lemma lower_bound_loop_ext fuel f g : (forall i, f i = g i) -> forall first len,
  lower_bound_loop fuel f first len = lower_bound_loop fuel g first len.
Proof.
  intros E. induction fuel as [|fuel IH]; intros first len; [reflexivity|]. cbn [lower_bound_loop].
  destruct len as [|len]; [reflexivity|]. rewrite E. destruct (g _); apply IH.
Qed.
Lemma lex_between f x : forall w, (lex_cmp w (f ++ [x]) <> Lt /\ lex_cmp w (f ++ [x + 1]) = Lt) <->
  exists s, w = (f ++ [x]) ++ s.
Proof.
  induction f as [|a f IH]; intros w.
  - cbn [app]. destruct w as [|b w]; cbn [lex_cmp].
    + split; [intros [H _]; congruence | intros [s S]; discriminate].
    + destruct (N.compare_spec b x), (N.compare_spec b (x + 1)); try lia.
      * split; [intros _; exists w; now subst | intros _; split; auto]. destruct w; discriminate.
      * split; [intros [H1 _]; congruence | intros [s S]; injection S as -> _; lia].
      * split; [intros [_ H1]; destruct w; discriminate | intros [s S]; injection S as -> _; lia].
      * split; [intros [_ H1]; destruct w; discriminate | intros [s S]; injection S as -> _; lia].
  - destruct w as [|b w]; cbn [app lex_cmp].
    + split; [intros [H _]; congruence | intros [s S]; discriminate].
    + destruct (N.compare_spec b a) as [->|H|H].
      * rewrite IH. cbn [app]. split; intros [s S]; exists s; [now f_equal | now injection S].
      * split; [intros [H1 _]; congruence | intros [s S]; injection S as -> _; lia].
      * split; [intros [_ H1]; discriminate | intros [s S]; injection S as -> _; lia].
Qed.
Lemma bigger_key_eq f x : x < 255 -> bigger_key (f ++ [x]) = Some (f ++ [x + 1]).
Proof.
  intros H. unfold bigger_key. rewrite rev_app_distr. cbn [rev app].
  destruct (N.ltb_spec x 255); [|lia]. cbn [rev]. now rewrite rev_involutive.
Qed.
Lemma compare_primary loc a b : icu_ok loc -> compare loc a b PRIMARY =
  or_else (first_char (extractComparable a) ?= first_char (extractComparable b))
    (lex_cmp (icu_key loc Primary (inner (extractComparable a))) (icu_key loc Primary (inner (extractComparable b)))).
Proof.
  intros K. unfold compare, compare_split, locale_compare. cbn [is_total collator].
  rewrite (ok_keys loc K). destruct (lex_cmp (icu_key loc Primary (inner (extractComparable a))) _); reflexivity.
Qed.
Lemma below_primary loc a c k t : icu_ok loc -> ~ In 0 k -> below_split loc a (Split c k t) PRIMARY =
  less (or_else (first_char (extractComparable a) ?= c) (lex_cmp (icu_key loc Primary (inner (extractComparable a))) k)).
Proof.
  intros K Z. unfold below_split, before_transformed, compare_split, extractAndTransformComparable, transform.
  cbn [is_total first_char inner langtag]. unfold strcmp. rewrite (c_str_id k Z), c_str_id by now apply key_nonzero.
  unfold getSortKey. cbn [is_total collator]. rewrite app_nil_r.
  f_equal. f_equal. now destruct (lex_cmp _ k).
Qed.
(* The range of a prefix is the range of the words with the same first character whose value
   starts with the prefix, for the primary sort keys. *)
Theorem C52_prefix_range_partial loc words prefix c v t key last : icu_ok loc -> vocabulary_sorted loc words ->
  prefix <> [] -> parts prefix c v t -> icu_key loc Primary v = key ++ [last] -> last < 255 ->
  exists lb ub, prefix_range words loc prefix = Some (lb, ub) /\ (lb <= ub <= length words)%nat /\
  forall i, (i < length words)%nat -> ((lb <= i < ub)%nat <->
    exists v' t' rest, parts (word_at words i) c v' t' /\ icu_key loc Primary v' = icu_key loc Primary v ++ rest).
Proof.
  intros K S NE P KEY LT. assert (SP := parts_split _ _ _ _ P).
  pose proof (pre_compare loc PRIMARY K) as PC.
  destruct (C52_bounds loc words prefix PRIMARY K S) as (lb & ub0 & L & _ & B & H).
  assert (Z : ~ In 0 (key ++ [last + 1])).
  { intros I. apply in_app_iff in I as [I|[I|[]]]; [|lia]. apply (ok_nonzero loc K Primary v). rewrite KEY.
    apply in_app_iff. now left. }
  set (T := Split c (key ++ [last + 1]) t).
  assert (BT : bigger_split loc prefix = Some T).
  { unfold bigger_split, extractAndTransformComparable, transform. rewrite SP. cbn [first_char inner langtag].
    unfold getSortKey. cbn [is_total collator]. rewrite app_nil_r, KEY, bigger_key_eq by auto. reflexivity. }
  destruct (lower_bound_words words (fun w => below_split loc w T PRIMARY)) as (ub & U & U1 & U2).
  { intros i j I. unfold T. rewrite !below_primary by auto. rewrite !less_iff.
    pose proof (sorted_level loc words PRIMARY i j K S I) as G. rewrite (compare_primary loc _ _ K) in G.
    intros X. pose (f := fun x y : N * list N => or_else (fst x ?= fst y) (lex_cmp (snd x) (snd y))).
    assert (PF : pre f).
    { unfold f. apply pre_or_else; [apply (pre_image fst); apply pre_n | apply (pre_image snd); apply pre_lex]. }
    pose (g := fun w => (first_char (extractComparable w), icu_key loc Primary (inner (extractComparable w)))).
    exact (pre_below f (g (word_at words i)) (g (word_at words j)) (c, key ++ [last + 1]) PF G X). }
  exists lb, ub.
  assert (W : forall i, (i < length words)%nat -> ((lb <= i < ub)%nat <->
    exists v' t' rest, parts (word_at words i) c v' t' /\ icu_key loc Primary v' = icu_key loc Primary v ++ rest)).
  { intros i I. assert (X : (lb <= i)%nat <-> ~ (i < lb)%nat) by lia. rewrite X, (proj1 (H i I)), (U2 i I). unfold T.
    rewrite below_primary by auto. rewrite (compare_primary loc _ _ K), SP, less_iff. cbn [first_char inner].
    set (w := extractComparable (word_at words i)). split.
    - intros [H1 H2]. exists (inner w), (langtag w). destruct (N.compare_spec (first_char w) c) as [E|E|E]; cbn [or_else] in *; try congruence.
      destruct (proj1 (lex_between key last (icu_key loc Primary (inner w)))) as [s Q]; [rewrite KEY in H1; auto|].
      exists s. rewrite KEY. split; auto. unfold w in *. rewrite <- E. apply split_parts.
    - intros (v' & t' & rest & PW & Q). apply parts_split in PW. unfold w. rewrite PW. cbn [first_char inner].
      rewrite N.compare_refl. cbn [or_else]. rewrite KEY in *. apply lex_between. eauto. }
  split; [|split]; auto.
  - unfold prefix_range. destruct prefix; [congruence|]. rewrite L, BT, U. reflexivity.
  - split; auto. destruct (le_lt_dec lb ub) as [|G]; auto. exfalso.
    assert (I : (ub < length words)%nat) by lia. assert (X := proj1 (proj1 (H ub I)) G).
    apply (Nat.lt_irrefl ub). apply U2; auto. unfold T. rewrite below_primary by auto. apply less_iff.
    rewrite (compare_primary loc _ _ K), SP in X. cbn [first_char inner] in X.
    apply or_else_lt in X as [X|[X Y]]; [apply or_else_lt; auto|]. rewrite X. cbn [or_else].
    apply (lex_lt_trans _ (icu_key loc Primary v)); [exact Y|]. rewrite KEY. unfold lex_lt. clear.
    induction key as [|a key IH]; cbn [app lex_cmp]; [|now rewrite N.compare_refl].
    destruct (N.compare_spec last (last + 1)); auto; lia.
Qed.
Print Assumptions C52_prefix_range_partial.
(* the empty prefix *)
Theorem C52_prefix_empty loc words : prefix_range words loc [] = Some (0%nat, length words).
Proof. reflexivity. Qed.
Print Assumptions C52_prefix_empty.
Example prefix_range_example :
  let words := [[34; 97; 34]; [34; 65; 98; 34]; [34; 98; 34]; [60; 97; 62]] in
  vocabulary_sorted example_icu words /\ prefix_range words example_icu [34; 97] = Some (0, 2)%nat /\
  parts [34; 97] 34 [97] [] /\ icu_key example_icu Primary [97] = [] ++ [99].
Proof.
  cbv zeta. split; [|split; [vm_compute; reflexivity|split; [|reflexivity]]].
  - repeat constructor; apply compare_precedes; vm_compute; reflexivity.
  - change (parts (34 :: [97]) 34 [97] []). pose proof (split_parts [34; 97]) as P. exact P.
Qed.
(* missing: a prefix without primary weights, like the start of a literal: the last byte of an
   empty key is read. *)
Theorem C52_prefix_weightless_refuted loc words prefix c v t : icu_ok loc -> prefix <> [] -> parts prefix c v t ->
  icu_key loc Primary v = [] -> prefix_range words loc prefix = None.
Proof.
  intros K NE P KEY. unfold prefix_range. destruct prefix; [congruence|]. apply parts_split in P.
  assert (bigger_split loc (n :: prefix) = None).
  { unfold bigger_split, extractAndTransformComparable, transform. rewrite P. cbn [first_char inner langtag].
    unfold getSortKey. cbn [is_total collator]. now rewrite app_nil_r, KEY. }
  rewrite H. now destruct (vocab_lower_bound words _).
Qed.
Print Assumptions C52_prefix_weightless_refuted.
Example prefix_weightless_example : prefix_range [[34; 97; 34]] example_icu [34] = None /\
  icu_key example_icu Primary [] = [] /\ parts [34] 34 [] [].
Proof.
  split; [vm_compute; reflexivity|]. split; [reflexivity|]. pose proof (split_parts [34]) as P. exact P.
Qed.
(* missing: a key that ends with the greatest byte. A zero byte is appended, which the comparison
   of the keys ignores: the range is empty, even if the prefix is a word. *)
Theorem C52_prefix_last_byte_refuted loc words prefix c v t key : icu_ok loc -> vocabulary_sorted loc words ->
  prefix <> [] -> parts prefix c v t -> icu_key loc Primary v = key ++ [255] ->
  exists lb, prefix_range words loc prefix = Some (lb, lb).
Proof.
  intros K S NE P KEY. assert (SP := parts_split _ _ _ _ P).
  destruct (C52_bounds loc words prefix PRIMARY K S) as (lb & ub0 & L & _ & B & H).
  exists lb. unfold prefix_range. destruct prefix as [|p prefix]; [congruence|]. rewrite L.
  assert (BT : bigger_split loc (p :: prefix) = Some (Split c ((key ++ [255]) ++ [0]) t)).
  { unfold bigger_split, extractAndTransformComparable, transform. rewrite SP. cbn [first_char inner langtag].
    unfold getSortKey. cbn [is_total collator]. rewrite app_nil_r, KEY. unfold bigger_key. rewrite rev_app_distr.
    reflexivity. }
  rewrite BT. unfold vocab_lower_bound in *.
  replace (Std_Model.lower_bound (fun i => below_split loc (word_at words i) (Split c ((key ++ [255]) ++ [0]) t) PRIMARY) 0 (length words))
    with (Some lb); [reflexivity|]. rewrite <- L. unfold Std_Model.lower_bound.
  destruct (Nat.leb_spec 0 (length words)); [|lia]. f_equal. 
  assert (E : forall w, before loc w (p :: prefix) PRIMARY = below_split loc w (Split c ((key ++ [255]) ++ [0]) t) PRIMARY).
  { intros w. unfold below_split, before_transformed, before, extractAndTransformComparable, transform. f_equal.
    rewrite (compare_primary loc _ _ K), SP. unfold compare_split. cbn [is_total first_char inner langtag].
    unfold strcmp. rewrite c_str_id by now apply key_nonzero. unfold getSortKey. cbn [is_total collator].
    rewrite app_nil_r. f_equal. rewrite KEY.
    replace (c_str ((key ++ [255]) ++ [0])) with (key ++ [255]).
    - now destruct (lex_cmp _ _).
    - assert (Z : ~ In 0 (key ++ [255])) by (rewrite <- KEY; apply (ok_nonzero loc K)).
      revert Z. generalize (key ++ [255]). induction l as [|x l IH]; intros Z; [reflexivity|].
      unfold c_str. cbn [app take_while]. destruct (N.eqb_spec x 0) as [->|]; [exfalso; apply Z; now left|].
      cbn [negb]. f_equal. apply IH. intros I. apply Z. now right. }
  apply lower_bound_loop_ext. intros i. apply E.
Qed.
Print Assumptions C52_prefix_last_byte_refuted.

(* ---- the vocabulary of the text index ---- *)
(* A word is found exactly if it exists, unless words of the vocabulary are equal for the locale
   at the level at which they are sorted. *)
Theorem C30_text_words_partial loc words w : icu_ok loc -> locale_sorted loc Quaternary words -> NoDup words ->
  (forall a b, In a words -> In b words -> icu_compare loc Quaternary a b = Eq -> a = b) ->
  exists r, simple_get_id words loc w = Some r /\
  forall i, r = Some i <-> nth_error words i = Some w.
Proof.
  intros K S ND D. pose proof (pre_icu loc Quaternary K) as PQ. pose proof (pre_icu loc Identical K) as PI.
  assert (M : forall i j, (i < j < length words)%nat -> icu_compare loc Identical (word_at words i) (word_at words j) = Lt).
  { intros i j H. apply (ok_finer loc K Quaternary); [cbn; lia|].
    pose proof (strongly_nth _ [] words S i j H) as Q. cbn beta in Q. fold (word_at words i) (word_at words j) in Q.
    destruct PQ as (R & A & T). destruct (icu_compare loc Quaternary (word_at words i) (word_at words j)) eqn:E; auto; exfalso.
    - apply D in E; [|apply nth_In; lia..]. 
      rewrite NoDup_nth in ND. specialize (ND i j ltac:(lia) ltac:(lia) E). lia.
    - apply Q. now rewrite A, E. }
  assert (SL : forall a, less (simple_compare loc a w TOTAL) = true <-> icu_compare loc Identical a w = Lt).
  { intros a. unfold simple_compare, locale_compare. cbn [collator is_total].
    destruct (icu_compare loc Identical a w); try apply less_iff.
    destruct (less (lex_cmp a w)); cbn; split; discriminate. }
  destruct (lower_bound_words words (fun a => less (simple_compare loc a w TOTAL))) as (r & L & R1 & R2).
  { intros i j H B. apply SL in B. apply SL.
    apply (pre_below _ _ (word_at words j)); auto. rewrite (M i j H). discriminate. }
  unfold simple_get_id. rewrite L. eexists. split; [reflexivity|]. intros i. split.
  - destruct (Nat.ltb_spec r (length words)); [|discriminate]. cbn [andb].
    destruct (list_eq_dec N.eq_dec (word_at words r) w) as [E|]; [|discriminate].
    intros H1. injection H1 as <-. rewrite <- E. now apply nth_error_nth'.
  - intros H. assert (I : (i < length words)%nat) by (apply nth_error_Some; congruence).
    assert (E : word_at words i = w) by (now apply nth_error_nth).
    assert (X : r = i).
    { destruct (lt_eq_lt_dec r i) as [[Q|Q]|Q]; auto; exfalso.
      - assert (Y : (r < length words)%nat) by lia. apply (Nat.lt_irrefl r). apply R2; auto. apply SL. rewrite <- E. apply M. lia.
      - apply (R2 i I) in Q. apply SL in Q. rewrite E in Q. destruct PI as (RR & _). rewrite RR in Q. discriminate. }
    subst r. destruct (Nat.ltb_spec i (length words)); [|lia]. rewrite E.
    destruct (list_eq_dec N.eq_dec w w); [reflexivity|congruence].
Qed.
Print Assumptions C30_text_words_partial.
Example text_words_example :
  let words := [[97]; [65; 98]; [195; 169]] in
  locale_sorted example_icu Quaternary words /\ NoDup words /\
  (forall a b, In a words -> In b words -> icu_compare example_icu Quaternary a b = Eq -> a = b) /\
  simple_get_id words example_icu [195; 169] = Some (Some 2%nat) /\ simple_get_id words example_icu [65] = Some None.
Proof.
  cbv zeta. split; [repeat constructor; vm_compute; discriminate|]. split; [|split].
  - repeat constructor; cbn; intuition discriminate.
  - intros a b A B. cbn [In] in A, B. destruct A as [<-|[<-|[<-|[]]]], B as [<-|[<-|[<-|[]]]]; vm_compute; intuition discriminate.
  - split; vm_compute; reflexivity.
Qed.
(* missing: a word of the vocabulary that comes after one that is identical for the locale, like
   the other encoding of an accented letter, is not found. *)
Theorem C30_text_word_refuted : exists words w,
  locale_sorted example_icu Quaternary words /\ NoDup words /\ In w words /\
  simple_get_id words example_icu w = Some None.
Proof.
  exists [[195; 169]; [101; 204; 129]], [101; 204; 129].
  split; [repeat constructor; vm_compute; discriminate|].
  split; [repeat constructor; cbn; intuition discriminate|]. split; [cbn; auto|]. vm_compute. reflexivity.
Qed.
Print Assumptions C30_text_word_refuted.
(* words with a given start: the inclusive range *)
Theorem C52_text_prefix_partial loc words p key last : icu_ok loc -> locale_sorted loc Quaternary words ->
  p <> [] -> icu_key loc Primary p = key ++ [last] -> last < 255 ->
  exists r, getIdRangeForFullTextPrefix words loc (p ++ [42]) = Some r /\
  forall i, (i < length words)%nat ->
    ((exists lo hi, r = Some (lo, hi) /\ (lo <= i <= hi)%nat) <->
     exists rest, icu_key loc Primary (word_at words i) = icu_key loc Primary p ++ rest).
Proof.
  intros K S NE KEY LT. pose proof (pre_icu loc Primary K) as PP.
  assert (M : forall i j, (i < j < length words)%nat -> icu_compare loc Primary (word_at words i) (word_at words j) <> Gt).
  { intros i j H G. pose proof (strongly_nth _ [] words S i j H) as Q. cbn beta in Q. fold (word_at words i) (word_at words j) in Q.
    apply Q. apply (ok_finer loc K Primary); [cbn; lia|]. destruct PP as (R & A & T). now rewrite A, G. }
  assert (Z : ~ In 0 (key ++ [last + 1])).
  { intros I. apply in_app_iff in I as [I|[I|[]]]; [|lia]. apply (ok_nonzero loc K Primary p). rewrite KEY.
    apply in_app_iff. now left. }
  assert (C1 : forall a, less (simple_compare loc a p PRIMARY) = true <-> lex_cmp (icu_key loc Primary a) (key ++ [last]) = Lt).
  { intros a. unfold simple_compare, locale_compare. cbn [collator is_total]. rewrite (ok_keys loc K), KEY.
    rewrite less_iff. now destruct (lex_cmp _ _). }
  assert (C2 : forall a, simple_below_key loc a (key ++ [last + 1]) = true <-> lex_cmp (icu_key loc Primary a) (key ++ [last + 1]) = Lt).
  { intros a. unfold simple_below_key, strcmp. rewrite (c_str_id _ Z), c_str_id by now apply key_nonzero.
    unfold getSortKey. cbn [is_total collator]. now rewrite app_nil_r, less_iff. }
  assert (MK : forall i j k, (i < j < length words)%nat -> lex_cmp (icu_key loc Primary (word_at words j)) k = Lt ->
    lex_cmp (icu_key loc Primary (word_at words i)) k = Lt).
  { intros i j k H B. apply (pre_below lex_cmp _ (icu_key loc Primary (word_at words j))); [apply pre_lex| |exact B].
    rewrite <- (ok_keys loc K). now apply M. }
  destruct (lower_bound_words words (fun a => less (simple_compare loc a p PRIMARY))) as (lb & L & L1 & L2).
  { intros i j H B. apply C1 in B. apply C1. now apply (MK i j). }
  destruct (lower_bound_words words (fun a => simple_below_key loc a (key ++ [last + 1]))) as (ub & U & U1 & U2).
  { intros i j H B. apply C2 in B. apply C2. now apply (MK i j). }
  assert (W : forall i, (i < length words)%nat -> ((lb <= i < ub)%nat <->
    exists rest, icu_key loc Primary (word_at words i) = icu_key loc Primary p ++ rest)).
  { intros i I. assert (X : (lb <= i)%nat <-> ~ (i < lb)%nat) by lia. rewrite X, (L2 i I), (U2 i I), C1, C2, KEY.
    apply lex_between. }
  unfold getIdRangeForFullTextPrefix.
  assert (EW : endsWith (p ++ [42]) [42] = true) by (apply endsWith_iff; now exists p).
  rewrite EW, removelast_last. unfold simple_prefix_range. destruct p as [|c p]; [congruence|]. rewrite L.
  assert (SB : simple_bigger loc (c :: p) = Some (key ++ [last + 1])).
  { unfold simple_bigger, getSortKey. cbn [is_total collator]. rewrite app_nil_r, KEY. now apply bigger_key_eq. }
  rewrite SB, U. cbn [option_map].
  destruct (Nat.ltb_spec lb ub).
  - destruct (Nat.ltb_spec lb (length words)); [|lia]. destruct (Nat.ltb_spec (ub - 1) (length words)); [|lia].
    cbn [andb]. eexists. split; [reflexivity|]. intros i I. rewrite <- (W i I). split.
    + intros (lo & hi & E & H3). injection E as <- <-. lia.
    + intros H3. exists lb, (ub - 1)%nat. split; [reflexivity|lia].
  - eexists. split; [reflexivity|]. intros i I. rewrite <- (W i I). split; [intros (lo & hi & E & _); discriminate | lia].
Qed.
Print Assumptions C52_text_prefix_partial.
Example text_prefix_example :
  let words := [[97]; [65; 98]; [98]; [195; 169]] in
  locale_sorted example_icu Quaternary words /\
  getIdRangeForFullTextPrefix words example_icu ([97] ++ [42]) = Some (Some (0, 1)%nat) /\
  icu_key example_icu Primary [97] = [] ++ [99].
Proof.
  cbv zeta. split; [repeat constructor; vm_compute; discriminate|]. split; vm_compute; reflexivity.
Qed.
