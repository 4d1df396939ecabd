(* Property paths: the theorems. *)
From Coq Require Import Ascii String List Arith NArith Bool Lia.
From Verif Require Import Conv_Model Keys_Model PPath_Model PPath_Spec PPath_Proof PPath_Proof2 PPath_Proof3 PPath_Proof4.
Import ListNotations.
Open Scope N_scope.
Open Scope list_scope.

(* Every text of a property path is parsed to the tree of the path, if every count `*n` stands in a
   run of delimiters that begins with a star (in particular right behind a link). *)
Theorem C60_parses_partial : forall ts p, path_of link_text ts p -> counts_in_star_runs None ts ->
  parse (concat ts) = Val (rep p).
Proof. intros ts p D C. exact (parse_text p ts D C). Qed.

(* Whatever is accepted is a property path, except that every token other than an opening
   parenthesis can stand for a link. *)
Theorem C60_accepts : forall str q, parse str = Val q ->
  exists ts p, path_of any_link ts p /\ concat ts = str /\ Forall (fun t => t <> []) ts /\ q = rep p.
Proof.
  intros str q H. destruct (parse_accepts str q H) as (ts & p & D & E & F & Q). exists ts, p. repeat (split; auto).
  eapply Forall_impl; [|exact F]. intros t [A _]. exact A.
Qed.
(* The parser ends, with a path, a ParseException or an exception of std::stoi. *)
Theorem C60_terminates : forall str, match parse str with Val _ | ParseError | StoiError => True | _ => False end.
Proof. exact parse_ends. Qed.
(* A variable as the predicate *)
Theorem C60_variable : forall name, Forall (fun c => graphic c /\ ~ delim c /\ c <> 60 /\ c <> 62 /\ c <> 92) name ->
  parse (63 :: name) = Val (leaf (63 :: name)).
Proof.
  intros name F. unfold parse, tokenize. cbn [length Nat.add].
  replace (tokenize_loop (S (length name + 2)) true false false [] (63 :: name) []) with (@Val tokens [63 :: name]); [reflexivity|].
  cbn [tokenize_loop]. change (valid 63) with true. change (63 =? LESS) with false. change (63 =? GREATER) with false.
  change (63 =? BACKSLASH) with false. change (delimiter 63) with true. change (63 =? QUESTION) with true. cbn [negb andb orb app].
  assert (H : forall f st cur toks, tokenize_loop (length name + f) st false false cur name toks = tokenize_loop f (match name with [] => st | _ => false end) false false (cur ++ name) [] toks).
  { clear - F. induction F as [|c name (Hg & Hd & H1 & H2 & H3) F IH]; intros f st cur toks; [rewrite app_nil_r; reflexivity|].
    assert (P : name_part [c]) by (constructor; auto). pose proof (part_step [c] P (length name + f)%nat st cur name toks) as E. cbn [length Nat.add app] in E |- *.
    rewrite E, IH, <- app_assoc. destruct name; reflexivity. }
  rewrite H. reflexivity.
Qed.
(* The flag for paths that can be empty, if no alternative mixes parts that can and that cannot *)
Theorem C60_null_partial : forall p, uniform p -> sequences_ok p -> can_be_null (rep p) = can_be_empty p.
Proof. exact rep_null. Qed.

(* <p>/^(x:q\/r|<s>)*/<t>*3 *)
Definition tokens_example : list (list N) :=
  [bytes "<p>"; bytes "/"; bytes "^"; bytes "("; bytes "x:q\/r"; bytes "|"; bytes "<s*>"; bytes ")"; bytes "*"; bytes "/"; bytes "<t>"; bytes "*3"].
Definition path_example : ppath :=
  Seq [Link (bytes "<p>"); Inv (Star (Alt [Link (bytes "x:q\/r"); Link (bytes "<s*>")])); UpTo 3 (Link (bytes "<t>"))].
Lemma iri_link cs : Forall (fun c => graphic c /\ c <> 62) cs -> link_text (60 :: cs ++ [62]).
Proof.
  intros F. exists [60 :: cs ++ [62]]. split; [congruence|]. split; [constructor; [apply part_iri; auto|constructor]|].
  split; [cbn; rewrite app_nil_r; reflexivity|]. intros c t E. injection E as <- _. unfold digit. lia.
Qed.
Ltac graphics := repeat (apply Forall_cons; [unfold graphic; split; [lia|discriminate]|]); apply Forall_nil.
Lemma name_link : link_text (bytes "x:q\/r").
Proof.
  exists [[120]; [58]; [113]; [92; 47]; [114]]. split; [congruence|]. split.
  - repeat (apply Forall_cons; [first [apply part_escape; unfold graphic; lia|apply part_char; unfold graphic, delim; cbn [In]; lia]|]). apply Forall_nil.
  - split; [reflexivity|]. intros c t E. injection E as <- _. unfold digit. lia.
Qed.
Example C60_parses_example : path_of link_text tokens_example path_example /\ counts_in_star_runs None tokens_example /\
  concat tokens_example = bytes "<p>/^(x:q\/r|<s*>)*/<t>*3" /\ can_be_empty path_example = false.
Proof.
  split; [|split; [|split; reflexivity]].
  - apply path_one. apply seq_many; [|cbn; lia].
    apply (seqs_more _ [bytes "<p>"]). { apply step_elt, elt_primary, primary_link. apply (iri_link [112]). graphics. }
    apply (seqs_more _ [bytes "^"; bytes "("; bytes "x:q\/r"; bytes "|"; bytes "<s*>"; bytes ")"; bytes "*"]).
    { apply step_inv. apply (elt_star _ [bytes "("; bytes "x:q\/r"; bytes "|"; bytes "<s*>"; bytes ")"]).
      apply (primary_parens _ [bytes "x:q\/r"; bytes "|"; bytes "<s*>"]). apply path_alt; [|cbn; lia].
      apply (alts_more _ [bytes "x:q\/r"]); [apply seq_one, step_elt, elt_primary, primary_link, name_link|].
      apply alts_one, seq_one, step_elt, elt_primary, primary_link. apply (iri_link [115; 42]). graphics. }
    apply seqs_one, step_elt. apply (elt_upto _ [bytes "<t>"] (Link (bytes "<t>")) [51]).
    + apply primary_link. apply (iri_link [116]). graphics.
    + congruence.
    + constructor; [unfold digit; lia|constructor].
    + reflexivity.
  - cbn -[delim]. unfold delim. cbn [In]. repeat (first [left; split; [lia|]; split; [first [left; reflexivity|right; reflexivity]|]|right; split; [lia|]]). exact I.
Qed.

(* A count behind a parenthesis is a syntax error, because the delimiter that is tested is the first
   one of the run: `(<a>/<b>)*3` is rejected. *)
Theorem C60_count_refuted : exists ts p, path_of link_text ts p /\ parse (concat ts) = ParseError.
Proof.
  exists [bytes "("; bytes "<a>"; bytes "/"; bytes "<b>"; bytes ")"; bytes "*3"], (UpTo 3 (Seq [Link (bytes "<a>"); Link (bytes "<b>")])).
  split; [|vm_compute; reflexivity]. apply path_one, seq_one, step_elt.
  apply (elt_upto _ [bytes "("; bytes "<a>"; bytes "/"; bytes "<b>"; bytes ")"] _ [51]); [|congruence|constructor; [unfold digit; lia|constructor]|reflexivity].
  apply (primary_parens _ [bytes "<a>"; bytes "/"; bytes "<b>"]). apply path_one, seq_many; [|cbn; lia].
  apply (seqs_more _ [bytes "<a>"]); [apply step_elt, elt_primary, primary_link, (iri_link [97]); graphics|].
  apply seqs_one, step_elt, elt_primary, primary_link, (iri_link [98]). graphics.
Qed.
(* A delimiter is accepted as a link: `<a>//` is a sequence of <a> and a link named `/`. *)
Theorem C60_delimiter_link_refuted : exists str, parse str = Val (rep (Seq [Link (bytes "<a>"); Link (bytes "/")])) /\ str = bytes "<a>//".
Proof. exists (bytes "<a>//"). split; [vm_compute; reflexivity|reflexivity]. Qed.
(* An IRI with a byte that is not a graphic ASCII character (for example any non-ASCII letter) is
   rejected as a predicate. *)
Theorem C60_non_ascii_refuted : forall cs q, parse (60 :: cs ++ [62]) = Val q -> Forall graphic cs.
Proof.
  intros cs q H. assert (V : Forall (fun c => valid c = true) (60 :: cs ++ [62])).
  { unfold parse in H. destruct (tokenize (60 :: cs ++ [62])) as [ts| | | | |] eqn:T; try discriminate H. clear H. revert T. unfold tokenize.
    generalize (60 :: cs ++ [62]). clear. intros rest. generalize (length rest + 2)%nat. intros fuel.
    assert (W : forall fuel st ins esc cur rest toks ts, tokenize_loop fuel st ins esc cur rest toks = Val ts -> Forall (fun c => valid c = true) rest); [|apply W].
    clear. induction fuel as [|fuel IH]; intros st ins esc cur rest toks ts H; [discriminate H|].
    cbn [tokenize_loop] in H. destruct rest as [|c rest]; [constructor|]. destruct (valid c) eqn:Vc; [|discriminate H]. cbn [negb] in H.
    set (ins' := if c =? LESS then true else if c =? GREATER then false else ins) in *.
    destruct (negb ins' && (c =? BACKSLASH)); [constructor; eauto|]. destruct (negb ins' && delimiter c && esc); [constructor; eauto|].
    destruct (negb ins' && delimiter c && (negb st || negb (c =? QUESTION))); [|constructor; eauto].
    destruct (delimiter_run fuel c (c :: rest)) as [[run r]| | | | |] eqn:R; try discriminate H. cbn [bind] in H. apply IH in H.
    assert (X : forall fuel first rest toks r, delimiter_run fuel first rest = Val (toks, r) -> Forall (fun c => valid c = true) r -> Forall (fun c => valid c = true) rest).
    { clear. induction fuel as [|fuel IH]; intros first rest toks r H F; [discriminate H|]. cbn [delimiter_run] in H. destruct rest as [|d rest]; [constructor|].
      destruct (delimiter d) eqn:D; [|injection H as <- <-; auto].
      destruct (if first =? STAR then digits rest else ([], rest)) as [ds rest'] eqn:E.
      destruct (delimiter_run fuel first rest') as [[toks' r']| | | | |] eqn:E'; try discriminate H. cbn [bind] in H. injection H as <- <-.
      specialize (IH _ _ _ _ E' F). constructor; [unfold valid; rewrite D; reflexivity|].
      destruct (first =? STAR); [|injection E as <- <-; auto]. apply digits_spec in E. destruct E as (-> & Dg & _). apply Forall_app. split; auto.
      eapply Forall_impl; [|exact Dg]. intros a Ha. apply valid_graphic. unfold digit, graphic in *. lia. }
    apply (X _ _ _ _ _ R H). }
  inversion V as [|? ? _ V2]; subst. apply Forall_app in V2. destruct V2 as [V2 _]. eapply Forall_impl; [|exact V2].
  intros c Hc. unfold valid in Hc. unfold graphic. apply orb_true_iff in Hc. destruct Hc as [Hc|Hc].
  - apply delimiter_iff in Hc. unfold delim in Hc. cbn [In] in Hc. lia.
  - unfold isgraph in Hc. apply andb_true_iff in Hc. destruct Hc as [_ Hc]. apply andb_true_iff in Hc. destruct Hc as [A B]. apply N.leb_le in A, B. lia.
Qed.
Example C60_non_ascii_example : parse (bytes "<" ++ [195; 164] ++ bytes ">") = ParseError.
Proof. vm_compute. reflexivity. Qed.
(* An alternative with a part that can be empty is not marked as one that can be empty. *)
Theorem C60_null_refuted : exists p, sequences_ok p /\ can_be_empty p = true /\ can_be_null (rep p) = false.
Proof. exists (Alt [Star (Link (bytes "<a>")); Link (bytes "<b>")]). split; [cbn; repeat split; auto; lia|]. split; reflexivity. Qed.

Lemma user_old t n : user_term t -> old n t.
Proof. intros H k _ ->. apply (H (decimal k)). reflexivity. Qed.

(* The graph pattern for a triple with a property path: its solutions, restricted to the variables
   of the query, are those that give the ends of the triple values connected by the path. *)
Theorem C61_pattern_partial : forall (G : list N -> list N -> list N -> Prop) nodes p s o n,
  nodes_in G nodes -> N.of_nat (length nodes) < 2 ^ 64 ->
  uniform p -> sequences_ok p -> can_be_empty p = false -> user_term s -> user_term o ->
  exists ps n', seedFromPropertyPathTriple s (rep p) o n = Val (ps, n') /\
    forall mu, (exists mu', (forall v, user_term v -> mu' v = mu v) /\ solution G mu' (map to_pat ps)) <->
               connects G p (value_of mu s) (value_of mu o).
Proof.
  intros G nodes p s o n HN HS U S E Us Uo. unfold seedFromPropertyPathTriple. rewrite (rep_null p U S), E.
  destruct (seed_good G p U S s o n (user_old s n Us) (user_old o n Uo)) as (ps & n' & P & L & Lo & D).
  exists ps, n'. split; auto. intros mu.
  assert (CP : connects G p (value_of mu s) (value_of mu o) <-> proper G p (value_of mu s) (value_of mu o)).
  { rewrite (connects_proper G nodes HN); [|unfold SIZE_MAX; lia]. rewrite E. split; [intros [H|[H _]]; [auto|discriminate H]|auto]. }
  rewrite CP. split.
  - intros (mu' & A & Sol). assert (V : forall t, user_term t -> value_of mu' t = value_of mu t) by (intros t Ht; unfold value_of; rewrite (A t Ht); reflexivity).
    rewrite <- (V s Us), <- (V o Uo). apply D. exists mu'. split; [apply agree_refl|exact Sol].
  - intros H. apply D in H. destruct H as (mu' & A & Sol). exists mu'. split; [|exact Sol].
    intros v Hv. apply (agree_old _ _ _ _ _ A). apply user_old. auto.
Qed.
(* A path that can be empty as a whole is rejected. *)
Theorem C61_empty_rejected : forall p s o n, uniform p -> sequences_ok p -> can_be_empty p = true ->
  seedFromPropertyPathTriple s (rep p) o n = PlanError.
Proof. intros p s o n U S E. unfold seedFromPropertyPathTriple. rewrite (rep_null p U S), E. reflexivity. Qed.

(* From the text of the path to the pattern. *)
Theorem C61_text_partial : forall (G : list N -> list N -> list N -> Prop) nodes ts p s o n,
  nodes_in G nodes -> N.of_nat (length nodes) < 2 ^ 64 -> path_of link_text ts p -> counts_in_star_runs None ts ->
  uniform p -> sequences_ok p -> can_be_empty p = false -> user_term s -> user_term o ->
  exists q ps n', parse (concat ts) = Val q /\ seedFromPropertyPathTriple s q o n = Val (ps, n') /\
    forall mu, (exists mu', (forall v, user_term v -> mu' v = mu v) /\ solution G mu' (map to_pat ps)) <->
               connects G p (value_of mu s) (value_of mu o).
Proof.
  intros G nodes ts p s o n HN HS D C U S E Us Uo. exists (rep p).
  destruct (C61_pattern_partial G nodes p s o n HN HS U S E Us Uo) as (ps & n' & A & B). exists ps, n'. split; [apply C60_parses_partial; auto|]. auto.
Qed.

Definition A := bytes "<a>". Definition B := bytes "<b>". Definition C := bytes "<c>". Definition D := bytes "<d>".
Definition X := bytes "<x>". Definition Y := bytes "<y>". Definition M := bytes "<m>".
Definition S_ := bytes "?s". Definition O_ := bytes "?o".

(* x -a-> m -b-> y with the path a/b* *)
Definition small_graph : list N -> list N -> list N -> Prop := fun s p o => In (s, p, o) [(X, A, M); (M, B, Y)].
Lemma var_user c : user_term [63; c] <-> c <> 58.
Proof.
  split.
  - intros H ->. apply (H []). reflexivity.
  - intros H t E. injection E as E. subst. congruence.
Qed.
Example C61_pattern_example : let p := Seq [Link A; Star (Link B)] in
  nodes_in small_graph [X; M; Y] /\ uniform p /\ sequences_ok p /\ can_be_empty p = false /\ user_term S_ /\ user_term O_ /\
  connects small_graph p X Y /\ ~ connects small_graph p Y X.
Proof.
  cbv zeta. split; [|split; [|split; [|split; [|split; [|split; [|split]]]]]].
  - intros s p o H. unfold small_graph in H. cbn [In] in H. cbn [In]. destruct H as [E|[E|[]]]; injection E as <- <- <-; auto.
  - cbn. auto.
  - cbn -[one_run]. split; [|split; [lia|split; [lia|repeat split; try lia; auto]]]. cbn. intros [|[|[|k]]] H; cbn in H; try discriminate H. left. intros i Hi. lia.
  - reflexivity.
  - apply (var_user 115). lia.
  - apply (var_user 111). lia.
  - exists M. split; [left; auto|]. exists Y. split; [|reflexivity]. exists 1%nat. apply (walk_cons _ _ _ Y); [right; left; auto|constructor].
  - intros (z & [E|[E|[]]] & _); discriminate E.
Qed.

(* The parts of a sequence are connected wrongly as soon as a part that cannot be empty follows both
   one that can and one that cannot: all chunks of the sequence get the ends of the whole path. The
   path a*/b/c does not find x -b-> m -c-> y. *)
Theorem C61_long_sequence_refuted : exists (G : list N -> list N -> list N -> Prop) p s o mu ps n',
  uniform p /\ can_be_empty p = false /\ user_term s /\ user_term o /\
  seedFromPropertyPathTriple s (rep p) o 0 = Val (ps, n') /\
  connects G p (value_of mu s) (value_of mu o) /\
  ~ exists mu', (forall v, user_term v -> mu' v = mu v) /\ solution G mu' (map to_pat ps).
Proof.
  exists (fun s p o => In (s, p, o) [(X, B, M); (M, C, Y)]), (Seq [Star (Link A); Link B; Link C]), S_, O_, (fun v => if text_eqb v S_ then X else Y).
  eexists. eexists. split; [cbn; auto|]. split; [reflexivity|]. split; [apply (var_user 115); lia|]. split; [apply (var_user 111); lia|].
  split; [vm_compute; reflexivity|]. split.
  - exists X. split; [exists 0%nat; constructor|]. exists M. split; [left; auto|]. exists Y. split; [right; left; auto|reflexivity].
  - intros (mu' & U & H). inversion H as [|? ? H1 _]; subst. cbn [to_pat satisfies] in H1.
    assert (US : user_term S_) by (apply (var_user 115); lia). assert (UO : user_term O_) by (apply (var_user 111); lia).
    unfold value_of in H1. change [63; 115] with S_ in H1. change [63; 111] with O_ in H1. cbn [is_variable] in H1.
    change (is_variable S_) with true in H1. change (is_variable O_) with true in H1. cbv iota in H1.
    rewrite (U _ US), (U _ UO) in H1. vm_compute in H1. intuition discriminate.
Qed.
(* The vector of the bits is indexed beyond its end if a part that can be empty is not in the first
   chunk: for example in a/b*/c/d*, whatever the links are. *)
Theorem C61_sequence_undefined_refuted : forall a b c d s o n,
  seedFromPropertyPathTriple s (rep (Seq [Link a; Star (Link b); Link c; Star (Link d)])) o n = Undefined.
Proof. reflexivity. Qed.
(* An alternative with a part that can be empty beside one that cannot loses the empty path: the path
   (a|b* )/c does not find x -c-> y. *)
Theorem C61_mixed_alternative_refuted : exists (G : list N -> list N -> list N -> Prop) p s o mu ps n',
  sequences_ok p /\ can_be_empty p = false /\ user_term s /\ user_term o /\
  seedFromPropertyPathTriple s (rep p) o 0 = Val (ps, n') /\
  connects G p (value_of mu s) (value_of mu o) /\
  ~ exists mu', (forall v, user_term v -> mu' v = mu v) /\ solution G mu' (map to_pat ps).
Proof.
  exists (fun s p o => In (s, p, o) [(X, C, Y)]), (Seq [Alt [Link A; Star (Link B)]; Link C]), S_, O_, (fun v => if text_eqb v S_ then X else Y).
  eexists. eexists. split.
  { cbn -[one_run]. split; [|split; [lia|split; [lia|repeat split; try lia; auto]]]. cbn. intros [|[|[|k]]] H; cbn in H; try discriminate H. right. intros [|i] Hi; [reflexivity|lia]. }
  split; [reflexivity|]. split; [apply (var_user 115); lia|]. split; [apply (var_user 111); lia|].
  split; [vm_compute; reflexivity|]. split.
  - exists X. split; [right; left; exists 0%nat; constructor|]. exists Y. split; [left; auto|reflexivity].
  - intros (mu' & U & H). inversion H as [|? ? H1 _]; subst. cbn [to_pat map satisfies] in H1. destruct H1 as [[H1 _]|[H1 _]].
    + cbn [In] in H1. destruct H1 as [H1|[]]. injection H1 as _ H1 _. discriminate H1.
    + destruct H1 as (k & K & W). inversion W as [|? ? ? ? E _]; subst; [cbn in K; lia|]. destruct E as (m & _ & _ & [[E|[]] _]).
      injection E as _ E _. discriminate E.
Qed.

Print Assumptions C60_parses_partial.
Print Assumptions C60_accepts.
Print Assumptions C60_terminates.
Print Assumptions C60_variable.
Print Assumptions C60_null_partial.
Print Assumptions C60_count_refuted.
Print Assumptions C60_delimiter_link_refuted.
Print Assumptions C60_non_ascii_refuted.
Print Assumptions C60_null_refuted.
Print Assumptions C61_pattern_partial.
Print Assumptions C61_empty_rejected.
Print Assumptions C61_text_partial.
Print Assumptions C61_long_sequence_refuted.
Print Assumptions C61_sequence_undefined_refuted.
Print Assumptions C61_mixed_alternative_refuted.
