(* Claim C53: the computation of the prefixes; and what it means for C29. *)
From Coq Require Import List NArith Arith Bool Lia Sorted ZifyN ZifyNat ZifyBool.
From Verif Require Import Table_Spec Lex_Proof Ops_Spec Ops_Proof Strings_Model Vocab_Model Vocab_Spec Vocab_Proof Vocab_Thm
  Prefix_Model Prefix_Spec Prefix_Proof Prefix_Proof2.
Import ListNotations.
Open Scope N_scope.

(* the words between which common prefixes are searched; the first one is left escaped *)
Definition neighbours (words : list (list N)) (first : list N) : list (list N) := first :: tl words.
(* For words in byte order the computation succeeds, and it is the greedy choice of the prefixes that
   save most. minimal is the minimal length of a prefix, k the length of the code that counts. *)
Theorem C53_greedy (words : list (list N)) (first : list N) num codelength (always : bool) : words <> [] -> StronglySorted lex_le words ->
  escapeNewlinesAndBackslashes (hd [] words) = Some first ->
  let minimal := if always then 1%nat else (codelength + 1)%nat in
  let k := if always then 0%nat else codelength in
  exists ps, calculatePrefixes (vocabulary_file words) num codelength always = Val ps /\
    greedy k (candidates minimal first (tl words)) num [] ps.
Proof.
  intros NE S E minimal k. unfold calculatePrefixes. rewrite vocabulary_lines.
  destruct words as [|w words]; [contradiction|]. cbn [hd tl map] in *.
  assert (esc w = first) as <- by (unfold esc; now rewrite E).
  apply StronglySorted_inv in S as [S _]. fold minimal.
  assert (M : (0 < minimal)%nat) by (unfold minimal; destruct always; lia).
  destruct (insert_words_repr minimal M (map esc words) words) with (lastWord := esc w) (t := empty_tree) (cands := @nil (list N))
    as (t & -> & R); auto.
  - rewrite map_map. apply map_ext. intros v. apply esc_ok.
  - exact empty_repr.
  - intros x v X _. inversion X; subst; [apply prefix_le; now exists v | match goal with Y : In _ [] |- _ => destruct Y end].
  - cbn [app] in R. replace (if always then 0 else N.of_nat codelength) with (N.of_nat k) by (unfold k; destruct always; reflexivity).
    apply choose_greedy; auto.
    + intros X. apply candidates_in in X as [X _]; [|exact M]. cbn in X. lia.
    + intros q [].
Qed.
Print Assumptions C53_greedy.
(* The results are different, non-empty and common to neighbours; there are at most as many as wanted. *)
Theorem C53_prefixes (words : list (list N)) (first : list N) num codelength always : StronglySorted lex_le words ->
  escapeNewlinesAndBackslashes (hd [] words) = Some first ->
  exists ps, calculatePrefixes (vocabulary_file words) num codelength always = Val ps /\
    (length ps <= num)%nat /\ NoDup ps /\
    forall p, In p ps -> p <> [] /\ (always = false -> (codelength < length p)%nat) /\
      common_to_neighbours p (neighbours words first) /\ exists w, In w words /\ prefix_of p w.
Proof.
  intros S E. destruct words as [|w words].
  - exists []. split; [reflexivity|]. split; [cbn; lia|]. split; [constructor|intros p []].
  - destruct (C53_greedy (w :: words) first num codelength always) as (ps & -> & G); auto; [discriminate|].
    exists ps. split; [reflexivity|]. apply greedy_facts in G as (L & ND & C). split; [exact L|]. split; [exact ND|].
    intros p P. apply C in P as [P _]. apply candidates_in in P as [P1 P2]; [|destruct always; lia].
    split; [intros ->; destruct always; cbn in P1; lia|]. split; [intros ->; lia|]. split; [exact P2|].
    destruct P2 as (a & x & y & b & EQ & _ & PY). exists y. split; [|exact PY]. right. cbn [tl] in EQ.
    destruct a as [|c a]; cbn [app] in EQ; injection EQ as _ ->; [now left|]. apply in_or_app. right. right. now left.
Qed.
Print Assumptions C53_prefixes.
(* No sensible prefix is missed: with room for more, nothing could be saved by any other candidate. *)
Theorem C53_complete k cands num ps : greedy k cands num [] ps -> (length ps < num)%nat ->
  forall x, In x cands -> gain k cands (rev ps) x = 0%nat.
Proof.
  intros G. assert (H : forall chosen, greedy k cands num chosen ps -> (length ps < num)%nat ->
    forall x, In x cands -> gain k cands (rev ps ++ chosen) x = 0%nat).
  { clear G. intros chosen G. induction G as [chosen|n chosen H|n chosen p ps I P B G IH]; intros L x X; cbn [length] in *.
    - lia.
    - now apply H.
    - cbn [rev]. rewrite <- app_assoc. apply IH; auto. lia. }
  intros L x X. rewrite <- (app_nil_r (rev ps)). now apply (H []).
Qed.
Print Assumptions C53_complete.
(* The search for the place of an insertion may start at any node whose value is a prefix. *)
Theorem C53_start_anywhere v path t s : good t -> node_at path t s -> prefix_of (value s) v ->
  insert_at v path t = insert v t.
Proof. apply insert_anywhere. Qed.
Print Assumptions C53_start_anywhere.

(* <ab1>, <ab2>, <abc/x>, <abc/y>, <z>: the prefix with the larger gain comes first *)
Definition example_sorted : list (list N) :=
  [[60; 97; 98; 49]; [60; 97; 98; 50]; [60; 97; 98; 99; 47; 120]; [60; 97; 98; 99; 47; 121]; [60; 122]].
Example C53_example : StronglySorted lex_le example_sorted /\
  calculatePrefixes (vocabulary_file example_sorted) 126 1 true = Val [[60; 97; 98]; [60; 97; 98; 99; 47]; [60]] /\
  calculatePrefixes (vocabulary_file example_sorted) 2 1 false = Val [[60; 97; 98]; [60; 97; 98; 99; 47]].
Proof.
  split; [repeat constructor; discriminate|]. split; vm_compute; reflexivity.
Qed.

(* Words in another order than that of the bytes, e.g. without regard to case: a null pointer. The
   file for the prefixes is therefore sorted by bytes (Index.cpp:97-107, 237-238). *)
Theorem C53_other_order_refuted : exists words, 
  StronglySorted (fun a b => lex_le (map tolower a) (map tolower b)) words /\
  calculatePrefixes (vocabulary_file words) 126 1 true = Undefined.
Proof.
  exists [[97; 98; 99; 97; 49]; [97; 98; 99; 97; 50]; [65; 66; 67; 66; 49]; [65; 66; 67; 66; 50]; [97; 98; 100; 49]; [97; 98; 101; 49]].
  split; [repeat constructor; discriminate|]. vm_compute. reflexivity.
Qed.
Print Assumptions C53_other_order_refuted.

(* C29: a prefix with a newline is written as two lines, and the words change. *)
Theorem C29_newline_prefix_refuted : exists words prefixes map2 vec1 vec2 stored,
  StronglySorted lex_le words /\ calculatePrefixes (vocabulary_file words) NUM_COMPRESSION_PREFIXES 1 true = Val prefixes /\
  rebuilt words prefixes map2 vec1 vec2 (Val stored) /\
  nth_error words 3 = Some [34; 120; 121; 49] /\ at_word map2 stored 3 = Some [99; 100; 49].
Proof.
  set (words := [[33]; [34; 98; 10; 99; 100; 49]; [34; 98; 10; 99; 100; 50]; [34; 120; 121; 49]; [34; 120; 121; 50]]).
  exists words, [[34; 98; 10; 99; 100]; [34; 120; 121]; [34]].
  exists (prefix_map [[34; 98]; [99; 100]; [34; 120; 121]; [34]]).
  exists (sort_by longer (prefix_vec [[34; 98; 10; 99; 100]; [34; 120; 121]; [34]])).
  exists (sort_by longer (prefix_vec [[34; 98]; [99; 100]; [34; 120; 121]; [34]])).
  eexists. split; [repeat constructor; discriminate|]. split; [vm_compute; reflexivity|].
  split; [split; [|split]|].
  - eexists. split; [reflexivity | apply sort_by_result; apply longer_order].
  - split; [vm_compute; reflexivity | apply sort_by_result; apply longer_order].
  - vm_compute. reflexivity.
  - split; vm_compute; reflexivity.
Qed.
Print Assumptions C29_newline_prefix_refuted.
