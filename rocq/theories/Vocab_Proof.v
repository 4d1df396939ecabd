From Coq Require Import List NArith Arith Bool Lia Sorted Permutation ZifyN ZifyNat ZifyBool.
From Verif Require Import Bytes Table_Spec Ops_Spec Ops_Proof Lex_Proof Strings_Model Strings_Spec Strings_Proof Strings_Proof3 Strings_Thm
  Collate_Model Collate_Spec Collate_Proof Collate_Thm Vocab_Model Vocab_Spec.
Import ListNotations.
Open Scope N_scope.

(* ---- lines ---- *)
Lemma lines_loop_line l : no_newline l -> forall acc rest, lines_loop acc (l ++ 10 :: rest) = (acc ++ l) :: lines_loop [] rest.
Proof.
  unfold no_newline. induction l as [|c l IH]; intros N acc rest; cbn [app lines_loop].
  - rewrite N.eqb_refl. now rewrite app_nil_r.
  - destruct (N.eqb_spec c 10) as [->|H]; [exfalso; apply N; now left|]. rewrite IH by (intros X; apply N; now right).
    now rewrite <- app_assoc.
Qed.
Lemma lines_flat ls : Forall no_newline ls -> lines (flat_map (fun l => l ++ [10]) ls) = ls.
Proof.
  unfold lines. induction 1 as [|l ls H F IH]; [reflexivity|]. cbn [flat_map]. rewrite <- app_assoc. cbn [app].
  rewrite lines_loop_line by auto. cbn [app]. now rewrite IH.
Qed.
Lemma lines_loop_end l acc : no_newline l -> lines_loop acc l = match acc ++ l with [] => [] | r => [r] end.
Proof.
  unfold no_newline. revert acc; induction l as [|c l IH]; intros acc N; cbn [lines_loop].
  - rewrite app_nil_r. now destruct acc.
  - destruct (N.eqb_spec c 10) as [->|H]; [exfalso; apply N; now left|]. rewrite IH by (intros X; apply N; now right).
    now rewrite <- app_assoc.
Qed.
Lemma lines_glue ls l : Forall no_newline ls -> no_newline l -> l <> [] ->
  lines (flat_map (fun l => l ++ [10]) ls ++ l) = ls ++ [l].
Proof.
  intros F N NE. unfold lines. induction F as [|x ls H F IH]; cbn [flat_map app].
  - rewrite lines_loop_end by auto. cbn [app]. destruct l; [contradiction|reflexivity].
  - rewrite <- !app_assoc. cbn [app]. rewrite lines_loop_line by auto. cbn [app]. now rewrite IH.
Qed.
Lemma glue_last p ps l : glue [10] ((p :: ps) ++ [l]) = flat_map (fun l => l ++ [10]) (p :: ps) ++ l.
Proof.
  revert p. induction ps as [|q ps IH]; intros p.
  - cbn. now rewrite <- !app_assoc.
  - cbn [app] in *. change (glue [10] (p :: q :: ps ++ [l])) with (p ++ [10] ++ glue [10] (q :: ps ++ [l])). rewrite IH.
    cbn [flat_map]. now rewrite <- !app_assoc.
Qed.

(* ---- compression ---- *)
Lemma codes_nth ps : forall i c p, In (c, p) (codes i ps) -> exists k, (k < length ps)%nat /\ c = i + N.of_nat k /\ nth k ps [] = p.
Proof.
  induction ps as [|q ps IH]; intros i c p; cbn [codes]; [intros []|]. intros [E|H].
  - injection E as <- <-. exists 0%nat. cbn. split; [lia|]. split; [lia|reflexivity].
  - destruct (IH _ _ _ H) as (k & K1 & -> & K2). exists (S k). cbn [length nth]. split; [lia|]. split; [lia|exact K2].
Qed.
Lemma vec_code prefixes map vec c p : initializePrefixes prefixes map vec -> In (c, p) vec ->
  MIN_COMPRESSION_PREFIX <= c /\ (N.to_nat (c - MIN_COMPRESSION_PREFIX) < NUM_COMPRESSION_PREFIXES)%nat /\
  nth (N.to_nat (c - MIN_COMPRESSION_PREFIX)) map [] = p.
Proof.
  intros [-> [PM _]] H. apply (Permutation_in _ (Permutation_sym PM)) in H. unfold prefix_vec in H.
  apply codes_nth in H as (k & K1 & -> & K2). rewrite firstn_length in K1.
  replace (N.to_nat (MIN_COMPRESSION_PREFIX + N.of_nat k - MIN_COMPRESSION_PREFIX)) with k by lia.
  split; [lia|]. split; [lia|]. unfold prefix_map. rewrite app_nth1 by (rewrite firstn_length; lia). exact K2.
Qed.
Lemma expand_compress prefixes map vec w : initializePrefixes prefixes map vec ->
  expandPrefix map (compressPrefix vec w) = Some w.
Proof.
  intros I. assert (V := fun c p => vec_code prefixes map vec c p I). clear I.
  induction vec as [|[c t] vec IH]; cbn [compressPrefix].
  - reflexivity.
  - destruct (startsWith w t) eqn:E; [|apply IH; intros; apply V; now right].
    destruct (V c t (or_introl eq_refl)) as (V1 & V2 & V3). cbn [expandPrefix].
    apply startsWith_iff in E as [s ->]. rewrite skipn_len.
    replace (_ && _) with true by lia. now rewrite V3.
Qed.
Lemma skipn_in {A} n (l : list A) x : In x (skipn n l) -> In x l.
Proof. revert l; induction n as [|n IH]; intros [|y l]; cbn [skipn]; auto. intros H. right. now apply IH. Qed.
Lemma compress_newline prefixes map vec w : initializePrefixes prefixes map vec -> no_newline w -> no_newline (compressPrefix vec w).
Proof.
  intros I. assert (V := fun c p => vec_code prefixes map vec c p I). clear I. unfold no_newline. intros N.
  induction vec as [|[c t] vec IH]; cbn [compressPrefix].
  - intros [X|X]; [discriminate|auto].
  - destruct (startsWith w t) eqn:E; [|apply IH; intros; apply V; now right].
    destruct (V c t (or_introl eq_refl)) as (V1 & _). unfold MIN_COMPRESSION_PREFIX in V1.
    intros [X|X]; [lia|]. apply N. now apply skipn_in in X.
Qed.
(* the code of a longest matching prefix is used *)
Lemma compress_longest prefixes map vec w : initializePrefixes prefixes map vec ->
  (compressPrefix vec w = NO_PREFIX_CHAR :: w /\ forall c p, In (c, p) (prefix_vec prefixes) -> startsWith w p = false) \/
  exists c p, In (c, p) (prefix_vec prefixes) /\ compressPrefix vec w = c :: skipn (length p) w /\ startsWith w p = true /\
    forall c' p', In (c', p') (prefix_vec prefixes) -> startsWith w p' = true -> (length p' <= length p)%nat.
Proof.
  intros [_ [PM S]].
  assert (H : (compressPrefix vec w = NO_PREFIX_CHAR :: w /\ forall c p, In (c, p) vec -> startsWith w p = false) \/
    exists c p, In (c, p) vec /\ compressPrefix vec w = c :: skipn (length p) w /\ startsWith w p = true /\
    forall c' p', In (c', p') vec -> startsWith w p' = true -> (length p' <= length p)%nat).
  { clear PM. induction S as [|[c t] vec S IH F]; cbn [compressPrefix]; [left; split; [reflexivity | intros c p []]|].
    destruct (startsWith w t) eqn:E.
    - right. exists c, t. split; [now left|]. split; [reflexivity|]. split; [exact E|].
      intros c' p' [X|X] _; [injection X as <- <-; lia|]. rewrite Forall_forall in F. specialize (F _ X).
      unfold longer in F. cbn [snd] in F. apply Nat.ltb_ge in F. exact F.
    - destruct IH as [[-> I]|(d & p & I1 & -> & I2 & I3)].
      + left. split; [reflexivity|]. intros c' p' [X|X]; [now injection X as <- <-|]. now apply (I c').
      + right. exists d, p. split; [now right|]. split; [reflexivity|]. split; [exact I2|].
        intros c' p' [X|X] Y; [injection X as <- <-; congruence|]. now apply (I3 c'). }
  destruct H as [[-> I]|(d & p & I1 & -> & I2 & I3)].
  - left. split; [reflexivity|]. intros c p X. apply (I c). now apply (Permutation_in _ PM).
  - right. exists d, p. split; [now apply (Permutation_in _ (Permutation_sym PM))|]. split; [reflexivity|]. split; [exact I2|].
    intros c' p' X. apply (I3 c'). now apply (Permutation_in _ PM).
Qed.

Definition esc (w : list N) : list N := match escapeNewlinesAndBackslashes w with Some e => e | None => [] end.
Lemma esc_ok w : escapeNewlinesAndBackslashes w = Some (esc w) /\ no_newline (esc w) /\ unescapeNewlinesAndBackslashes (esc w) = Val w.
Proof. unfold esc. destruct (C33_escape w) as (e & -> & H1 & H2). auto. Qed.
Lemma vocabulary_file_eq words : vocabulary_file words = flat_map (fun l => l ++ [10]) (map esc words).
Proof.
  unfold vocabulary_file. induction words as [|w words IH]; [reflexivity|]. cbn [flat_map map]. rewrite IH.
  unfold escaped_line. now rewrite (proj1 (esc_ok w)).
Qed.
Lemma vocabulary_lines words : lines (vocabulary_file words) = map esc words.
Proof.
  rewrite vocabulary_file_eq. apply lines_flat. apply Forall_forall. intros x X. apply in_map_iff in X as (w & <- & W). apply esc_ok.
Qed.
Lemma compressed_lines prefixes map1 vec words : initializePrefixes prefixes map1 vec ->
  lines (prefixCompressFile vec (vocabulary_file words)) = map (fun w => compressPrefix vec (esc w)) words.
Proof.
  intros I. unfold prefixCompressFile. rewrite vocabulary_lines.
  rewrite <- (map_map esc (compressPrefix vec)). rewrite <- (lines_flat (map (compressPrefix vec) (map esc words))) at 1.
  - f_equal. rewrite (flat_map_concat_map _ (map (compressPrefix vec) _)), map_map, <- flat_map_concat_map. reflexivity.
  - apply Forall_forall. intros x X. apply in_map_iff in X as (y & <- & Y). apply in_map_iff in Y as (w & <- & W).
    apply (compress_newline prefixes map1); auto. apply esc_ok.
Qed.
Lemma read_words_ok prefixes map1 vec1 vec2 words : initializePrefixes prefixes map1 vec1 -> 
  read_words map1 vec2 (map (fun w => compressPrefix vec1 (esc w)) words) = Val (map (compressPrefix vec2) words).
Proof.
  intros I. induction words as [|w words IH]; [reflexivity|]. cbn [map read_words].
  rewrite (expand_compress prefixes map1 vec1) by auto. rewrite (proj2 (proj2 (esc_ok w))), IH. reflexivity.
Qed.

(* ---- the file of external words ---- *)
Definition total (ws : list (list N)) : N := N.of_nat (length (concat ws)).
Lemma offsets_length ws : forall from, length (offsets from ws) = S (length ws).
Proof. induction ws as [|w ws IH]; intros from; cbn [offsets length]; auto. Qed.
Lemma offsets_split a b : forall from, offsets from (a ++ b) =
  firstn (length a) (offsets from (a ++ b)) ++ offsets (from + total a) b.
Proof.
  induction a as [|w a IH]; intros from; cbn [app length offsets firstn].
  - f_equal. unfold total. cbn. lia.
  - f_equal. rewrite IH at 1. f_equal. f_equal. unfold total. cbn [concat]. rewrite app_length. lia.
Qed.
Lemma offsets_bound ws : forall from o, In o (offsets from ws) -> from <= o <= from + total ws.
Proof.
  induction ws as [|w ws IH]; intros from o; cbn [offsets].
  - intros [<-|[]]. unfold total. cbn. lia.
  - unfold total in *. cbn [concat]. rewrite app_length. intros [<-|H]; [lia|]. apply IH in H. lia.
Qed.
Lemma pow8 : 256 ^ N.of_nat 8 = 2 ^ 64. Proof. reflexivity. Qed.
Lemma offsets_fit ws from : from + total ws < 2 ^ 64 -> Forall (fun v => v < 256 ^ N.of_nat 8) (offsets from ws).
Proof. intros H. rewrite pow8. apply Forall_forall. intros o O. apply offsets_bound in O. lia. Qed.
Lemma external_length ws : length (external_file ws) = (length (concat ws) + 8 * S (length ws))%nat.
Proof. unfold external_file. now rewrite app_length, words_length, offsets_length. Qed.
Definition loaded (ws : list (list N)) : external := Ext (external_file ws) (total ws) (N.of_nat (length ws)).
Lemma init_ok ws : total ws < 2 ^ 64 -> initFromFile (external_file ws) = Some (loaded ws).
Proof.
  intros T. assert (L := external_length ws). unfold initFromFile.
  destruct (external_file ws) as [|x f] eqn:E; [cbn [length] in L; lia|]. rewrite <- E in *.
  destruct (Nat.ltb_spec (length (external_file ws)) 8); [lia|].
  assert (W : load_word (external_file ws) (length (external_file ws) - 8) 8 = Some (total ws)).
  { assert (O := offsets_split ws [] 0). rewrite app_nil_r in O. cbn [offsets] in O.
    apply (load_word_at _ _ _ _ (concat ws ++ words 8 (firstn (length ws) (offsets 0 ws))) []).
    - unfold external_file. rewrite O at 1. rewrite words_app. unfold words at 2. cbn [flat_map]. rewrite !app_nil_r.
      now rewrite <- app_assoc.
    - rewrite L, app_length, words_length, firstn_length, offsets_length. lia.
    - rewrite pow8. exact T. }
  rewrite W. rewrite L. destruct (N.leb_spec (total ws) (N.of_nat (length (concat ws) + 8 * S (length ws) - 8))) as [H1|H1];
    [|unfold total in H1; lia].
  unfold loaded. f_equal. f_equal. unfold total. 
  replace (N.of_nat (length (concat ws) + 8 * S (length ws) - 8) - N.of_nat (length (concat ws))) with (N.of_nat (length ws) * 8) by lia.
  apply N.div_mul. lia.
Qed.
Lemma ext_at_ok ws i : total ws < 2 ^ 64 -> ext_at (loaded ws) (N.of_nat i) = nth_error ws i.
Proof.
  intros T. assert (L := external_length ws). unfold ext_at, loaded. cbn [startOfOffsets ext_file]. rewrite L.
  destruct (nth_error ws i) as [w|] eqn:E.
  - apply nth_error_split in E as (a & b & -> & <-). set (ws := a ++ w :: b) in *.
    assert (LW : length ws = (length a + S (length b))%nat) by (unfold ws; now rewrite app_length).
    destruct (N.leb_spec (total ws + N.of_nat (length a) * 8 + 16) (N.of_nat (length (concat ws) + 8 * S (length ws)))) as [H|H];
      [|unfold total in H; lia].
    assert (O := offsets_split a (w :: b) 0). fold ws in O. cbn [offsets] in O.
    assert (OB : exists rest, offsets (0 + total a + N.of_nat (length w)) b = (total a + N.of_nat (length w)) :: rest).
    { destruct b; cbn [offsets]; eexists; f_equal; lia. }
    destruct OB as [rest OB]. rewrite OB in O.
    assert (TW : total ws = total a + N.of_nat (length w) + total b).
    { unfold total, ws. rewrite concat_app. cbn [concat]. rewrite !app_length. lia. }
    assert (LD : load_words (external_file ws) (N.to_nat (total ws + N.of_nat (length a) * 8)) 8 2 =
      Some [total a; total a + N.of_nat (length w)]).
    { apply (load_words_at 8 [total a; total a + N.of_nat (length w)] _ _ (concat ws ++ words 8 (firstn (length a) (offsets 0 ws))) (words 8 rest)).
      - unfold external_file. rewrite O at 1. rewrite words_app.
        change (0 + total a :: total a + N.of_nat (length w) :: rest) with ([total a; total a + N.of_nat (length w)] ++ rest).
        rewrite words_app. now rewrite <- !app_assoc.
      - rewrite app_length, words_length, firstn_length, offsets_length. unfold total. lia.
      - rewrite pow8. constructor; [lia|]. constructor; [lia|constructor]. }
    rewrite LD. destruct (N.leb_spec (total a) (total a + N.of_nat (length w))) as [X|X]; [|lia].
    destruct (N.leb_spec (total a + N.of_nat (length w)) (N.of_nat (length (concat ws) + 8 * S (length ws)))) as [Y|Y];
      [|unfold total in *; lia].
    cbn [andb]. apply (load_at' _ _ _ (concat a) w (concat b ++ words 8 (offsets 0 ws))).
    + unfold external_file, ws. rewrite concat_app. cbn [concat]. now rewrite <- !app_assoc.
    + unfold total. lia.
    + lia.
  - apply nth_error_None in E. destruct (N.leb_spec (total ws + N.of_nat i * 8 + 16) (N.of_nat (length (concat ws) + 8 * S (length ws)))) as [H|H];
      [unfold total in H; lia|reflexivity].
Qed.
Lemma unescape_all_ok ws : unescape_all (map esc ws) = Val ws.
Proof.
  induction ws as [|w ws IH]; [reflexivity|]. cbn [map unescape_all]. now rewrite (proj2 (proj2 (esc_ok w))), IH.
Qed.

(* ---- the search in the external words ---- *)
Section Search.
  Variable cmp : list N -> list N -> comparison.
  Hypothesis PC : pre cmp.
  Variable ws : list (list N).
  Hypothesis SORT : StronglySorted (fun a b => cmp a b = Lt) ws.
  Hypothesis FIT : total ws < 2 ^ 64.
  Hypothesis FEW : N.of_nat (length ws) < 2 ^ 63.

  Lemma ext_nth j : (j < length ws)%nat -> ext_at (loaded ws) (N.of_nat j) = Some (nth j ws []).
  Proof. intros H. rewrite ext_at_ok by auto. now apply nth_error_nth'. Qed.
  Lemma order i j : (i < j < length ws)%nat -> cmp (nth i ws []) (nth j ws []) = Lt.
  Proof. intros H. now apply (strongly_nth (fun a b => cmp a b = Lt) [] ws SORT). Qed.
  Lemma mid_ok lower upper : lower < upper -> upper <= N.of_nat (length ws) ->
    exists m, wrap64 (lower + upper) / 2 = N.of_nat m /\ lower <= N.of_nat m < upper /\ (m < length ws)%nat.
  Proof.
    intros L U. unfold wrap64. rewrite N.mod_small by lia. exists (N.to_nat ((lower + upper) / 2)). rewrite N2Nat.id.
    assert (H : lower <= (lower + upper) / 2 < upper).
    { split; [apply N.div_le_lower_bound; lia | apply N.div_lt_upper_bound; lia]. }
    split; [reflexivity|]. split; [exact H|lia].
  Qed.
  Lemma search_present i : (i < length ws)%nat -> forall fuel lower upper, lower <= N.of_nat i <= upper ->
    upper <= N.of_nat (length ws) -> upper - lower <= N.of_nat fuel ->
    binarySearch cmp fuel (loaded ws) (nth i ws []) lower upper = At (N.of_nat i).
  Proof.
    intros I. destruct PC as (R & A & T). induction fuel as [|fuel IH]; intros lower upper B U F; cbn [binarySearch].
    - destruct (N.ltb_spec lower upper); [lia|]. f_equal. lia.
    - destruct (N.ltb_spec lower upper) as [L|L]; [|f_equal; lia].
      destruct (mid_ok lower upper L U) as (m & -> & M & ML). rewrite ext_nth by auto.
      destruct (lt_eq_lt_dec m i) as [[H|H]|H].
      + rewrite (order m i) by lia. apply IH; lia.
      + subst m. rewrite R. reflexivity.
      + rewrite (A (nth i ws []) (nth m ws [])), (order i m) by lia. cbn [CompOpp].
        assert (W : wrap64 (N.of_nat m + 2 ^ 64 - 1) = N.of_nat m - 1).
        { unfold wrap64. replace (N.of_nat m + 2 ^ 64 - 1) with (N.of_nat m - 1 + 1 * 2 ^ 64) by lia.
          rewrite N.mod_add by lia. apply N.mod_small. lia. }
        rewrite W. apply IH; lia.
  Qed.
  (* something not in front of all words *)
  Lemma search_absent word : ws = [] \/ cmp (nth 0 ws []) word <> Gt -> forall fuel lower upper,
    upper <= N.of_nat (length ws) -> upper - lower <= N.of_nat fuel ->
    exists i, binarySearch cmp fuel (loaded ws) word lower upper = At i.
  Proof.
    intros Z. induction fuel as [|fuel IH]; intros lower upper U F; cbn [binarySearch].
    - destruct (N.ltb_spec lower upper); [lia|]. eauto.
    - destruct (N.ltb_spec lower upper) as [L|L]; [|eauto].
      destruct (mid_ok lower upper L U) as (m & -> & M & ML). rewrite ext_nth by auto.
      destruct (cmp (nth m ws []) word) eqn:C; [eauto| |].
      + apply IH; lia.
      + destruct m as [|m].
        * exfalso. destruct Z as [->|Z]; [cbn in ML; lia|contradiction].
        * assert (W : wrap64 (N.of_nat (S m) + 2 ^ 64 - 1) = N.of_nat m).
          { unfold wrap64. replace (N.of_nat (S m) + 2 ^ 64 - 1) with (N.of_nat m + 1 * 2 ^ 64) by lia.
            rewrite N.mod_add by lia. apply N.mod_small. lia. }
          rewrite W. apply IH; lia.
  Qed.
  (* something in front of all words *)
  Lemma search_front word : (forall i, (i < length ws)%nat -> cmp (nth i ws []) word = Gt) ->
    N.of_nat (length (external_file ws)) < 2 ^ 63 ->
    forall fuel upper, upper <= N.of_nat (length ws) -> upper < N.of_nat fuel ->
    (unlucky upper -> binarySearch cmp fuel (loaded ws) word 0 upper = Outside) /\
    (~ unlucky upper -> binarySearch cmp fuel (loaded ws) word 0 upper = At 0).
  Proof.
    intros G FF. induction fuel as [|fuel IH]; intros upper U F; [lia|]. cbn [binarySearch].
    destruct (N.ltb_spec 0 upper) as [L|L].
    - destruct (mid_ok 0 upper L U) as (m & E & M & ML). rewrite E, ext_nth, G by auto.
      rewrite N.add_0_l in E. unfold wrap64 in E at 1. rewrite N.mod_small in E by lia.
      destruct m as [|m].
      + assert (upper = 1) as ->.
        { assert (H := N.div_mod upper 2). assert (H1 := N.mod_lt upper 2). lia. }
        split; [intros _|intros X; exfalso; apply X; constructor].
        change (wrap64 (N.of_nat 0 + 2 ^ 64 - 1)) with (2 ^ 64 - 1).
        destruct fuel as [|fuel]; [lia|]. cbn [binarySearch]. change (0 <? 2 ^ 64 - 1) with true. cbn [N.ltb].
        change (wrap64 (0 + (2 ^ 64 - 1)) / 2) with (2 ^ 63 - 1). unfold ext_at. cbn [ext_file startOfOffsets loaded].
        destruct (N.leb_spec (total ws + (2 ^ 63 - 1) * 8 + 16) (N.of_nat (length (external_file ws)))); [lia|]. reflexivity.
      + assert (W : wrap64 (N.of_nat (S m) + 2 ^ 64 - 1) = N.of_nat m).
        { unfold wrap64. replace (N.of_nat (S m) + 2 ^ 64 - 1) with (N.of_nat m + 1 * 2 ^ 64) by lia.
          rewrite N.mod_add by lia. apply N.mod_small. lia. }
        rewrite W. assert (EM : N.of_nat m = upper / 2 - 1) by lia. destruct (IH (N.of_nat m)) as [I1 I2]; [lia|lia|].
        assert (1 < upper). { assert (H := N.div_mod upper 2). assert (H1 := N.mod_lt upper 2). lia. }
        split; intros X.
        * apply I1. inversion X; subst; [lia|]. now rewrite EM.
        * apply I2. intros Y. apply X. constructor; auto. now rewrite <- EM.
    - split; intros X; [inversion X; lia|reflexivity].
  Qed.

  Lemma ext_getId_present i : (i < length ws)%nat -> ext_getId cmp (loaded ws) (nth i ws []) = Found (N.of_nat i).
  Proof.
    intros I. unfold ext_getId, binarySearchInVocab. change (ext_size (loaded ws)) with (N.of_nat (length ws)); change (ext_file (loaded ws)) with (external_file ws).
    assert (L := external_length ws).
    rewrite (search_present i I (S (length (external_file ws))) 0 (N.of_nat (length ws))) by lia.
    destruct (N.ltb_spec (N.of_nat i) (N.of_nat (length ws))); [|lia]. rewrite ext_nth by auto.
    destruct (list_eq_dec N.eq_dec (nth i ws []) (nth i ws [])); congruence.
  Qed.
  Lemma ext_getId_found word id : ext_getId cmp (loaded ws) word = Found id -> nth_error ws (N.to_nat id) = Some word.
  Proof.
    unfold ext_getId. destruct (binarySearchInVocab cmp (loaded ws) word) as [j| |]; try discriminate.
    change (ext_size (loaded ws)) with (N.of_nat (length ws)); change (ext_file (loaded ws)) with (external_file ws). destruct (N.ltb_spec j (N.of_nat (length ws))); [|discriminate].
    replace j with (N.of_nat (N.to_nat j)) at 1 by lia. rewrite ext_at_ok by auto.
    destruct (nth_error ws (N.to_nat j)) as [w|] eqn:E; [|discriminate].
    destruct (list_eq_dec N.eq_dec w word) as [->|]; [|discriminate]. intros X. injection X as <-. exact E.
  Qed.
  Lemma ext_getId_absent word : ~ In word ws -> ws = [] \/ cmp (nth 0 ws []) word <> Gt -> ext_getId cmp (loaded ws) word = NotFound.
  Proof.
    intros A Z. destruct (ext_getId cmp (loaded ws) word) as [id| |] eqn:E; auto.
    - apply ext_getId_found, nth_error_In in E. contradiction.
    - exfalso. unfold ext_getId, binarySearchInVocab in E. change (ext_size (loaded ws)) with (N.of_nat (length ws)) in E; change (ext_file (loaded ws)) with (external_file ws) in E. assert (L := external_length ws).
      destruct (search_absent word Z (S (length (external_file ws))) 0 (N.of_nat (length ws))) as [i X]; [lia|lia|]. rewrite X in E.
      destruct (N.ltb_spec i (N.of_nat (length ws))) as [I|I]; [|discriminate].
      replace i with (N.of_nat (N.to_nat i)) in E by lia. rewrite ext_nth in E by lia.
      destruct (list_eq_dec N.eq_dec (nth (N.to_nat i) ws []) word); discriminate.
  Qed.
  Lemma ext_getId_front word : (forall i, (i < length ws)%nat -> cmp (nth i ws []) word = Gt) ->
    N.of_nat (length (external_file ws)) < 2 ^ 63 ->
    (unlucky (N.of_nat (length ws)) -> ext_getId cmp (loaded ws) word = Broken) /\
    (~ unlucky (N.of_nat (length ws)) -> ext_getId cmp (loaded ws) word = NotFound).
  Proof.
    intros G FF. destruct PC as (R & A & T). unfold ext_getId, binarySearchInVocab. change (ext_size (loaded ws)) with (N.of_nat (length ws)); change (ext_file (loaded ws)) with (external_file ws). assert (L := external_length ws).
    destruct (search_front word G FF (S (length (external_file ws))) (N.of_nat (length ws))) as [S1 S2]; [lia|lia|].
    split; intros X; [now rewrite (S1 X)|]. rewrite (S2 X).
    destruct (N.ltb_spec 0 (N.of_nat (length ws))) as [H|H]; [|reflexivity]. change 0 with (N.of_nat 0). rewrite ext_nth by lia.
    destruct (list_eq_dec N.eq_dec (nth 0 ws []) word) as [E|]; [|reflexivity]. exfalso.
    specialize (G 0%nat ltac:(lia)). rewrite E, R in G. discriminate.
  Qed.
End Search.
