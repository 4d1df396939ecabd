(* C33, C39, C45, C51: splitting, escaping and decoding of strings. *)
From Coq Require Import List NArith ZArith Arith Bool Lia ZifyBool ZifyN ZifyNat.
From Verif Require Import ListAux Strings_Model Strings_Spec Strings_Proof Strings_Proof2 Strings_Proof3 Strings_Proof4.
Import ListNotations.
Open Scope N_scope.

(* ---- C39 ---- *)

(* The parts of a string joined again give the string; no part contains the separator. *)
Theorem C39_split s sep : s <> [] ->
  exists ps, split s sep = Some ps /\ ps <> [] /\ join ps [sep] = s /\ Forall (fun p => ~ In sep p) ps.
Proof.
  intros H. destruct (split_ok s sep H) as (ps & E & N & G & F). exists ps.
  rewrite join_glue. auto.
Qed.
Print Assumptions C39_split.
Example split_example : split [97; 44; 44; 98; 44] 44 = Some [[97]; []; [98]; []] /\
  join [[97]; []; [98]; []] [44] = [97; 44; 44; 98; 44].
Proof. split; vm_compute; reflexivity. Qed.

(* Splitting the joined parts gives the parts. *)
Theorem C39_split_join ps sep : ps <> [] -> ps <> [[]] -> Forall (fun p => ~ In sep p) ps ->
  split (join ps [sep]) sep = Some ps.
Proof.
  intros H1 H2 F. rewrite join_glue.
  destruct (split_ok (glue [sep] ps) sep) as (qs & E & N & G & F').
  - destruct ps as [|p [|q ps]]; [congruence | cbn; congruence |]. rewrite glue_cons by discriminate.
    destruct p; discriminate.
  - rewrite E. f_equal. now apply (glue_unique sep).
Qed.
Print Assumptions C39_split_join.
Example split_join_example : [[97]; []; [98]] <> [] /\ [[97]; []; [98]] <> [[]] /\
  Forall (fun p => ~ In 44 p) [[97]; []; [98]] /\ join [[97]; []; [98]] [44] = [97; 44; 44; 98].
Proof.
  split; [discriminate|]. split; [discriminate|]. split; [|vm_compute; reflexivity].
  repeat constructor; cbn; intuition discriminate.
Qed.

(* joining *)
Theorem C39_join ps j : join ps j = glue j ps.
Proof. apply join_glue. Qed.
Print Assumptions C39_join.

(* The one empty part is lost. *)
Theorem C39_split_empty_refuted : exists ps sep,
  ps <> [] /\ Forall (fun p => ~ In sep p) ps /\ split (join ps [sep]) sep <> Some ps.
Proof.
  exists [[]], 44. split; [discriminate|]. split; [repeat constructor; auto | vm_compute; discriminate].
Qed.
Print Assumptions C39_split_empty_refuted.

(* Splitting at whitespace gives the maximal pieces without whitespace. *)
Theorem C39_split_whitespace s : exists ts, pieces whitespace s ts /\ splitWs s = Some ts.
Proof.
  destruct (pieces_total whitespace ws_dec s) as [ts P]. exists ts. split; auto. now apply splitWs_ok.
Qed.
Print Assumptions C39_split_whitespace.
(* ... which are determined by the string. *)
Theorem C39_pieces_unique (A : Type) (sep : A -> Prop) s ts ts' :
  pieces sep s ts -> pieces sep s ts' -> ts = ts'.
Proof. apply pieces_unique. Qed.
Print Assumptions C39_pieces_unique.
Example split_ws_example : splitWs [32; 97; 98; 9; 10; 99; 32] = Some [[97; 98]; [99]].
Proof. vm_compute; reflexivity. Qed.

(* The same where whitespace between brackets does not count. *)
Theorem C39_split_whitespace_brackets s left right : ~ whitespace left -> ~ whitespace right ->
  exists ts, pieces (fun x => whitespace (fst x) /\ (snd x <= 0)%Z) (with_depth left right s) ts /\
    splitWsWithEscape s left right = Some (map (map fst) ts).
Proof.
  intros L R. destruct (pieces_total wsep wsep_dec (with_depth left right s)) as [ts P].
  exists ts. split; [exact P|]. now apply splitEsc_ok.
Qed.
Print Assumptions C39_split_whitespace_brackets.
Example split_brackets_example :
  ~ whitespace 40 /\ ~ whitespace 41 /\
  splitWsWithEscape [97; 32; 40; 98; 32; 99; 41; 32; 100] 40 41 = Some [[97]; [40; 98; 32; 99; 41]; [100]] /\
  splitWsWithEscape [97; 32; 34; 98; 32; 99; 34; 32; 100] 34 34 = Some [[97]; [34; 98; 32; 99; 34]; [100]].
Proof. split; [unfold whitespace; cbn; lia|]. split; [unfold whitespace; cbn; lia|]. split; vm_compute; reflexivity. Qed.

(* Splitting at any of some characters. *)
Theorem C39_split_any s seps : Forall (fun c => c < 128) seps ->
  exists ts, pieces (fun c => In c seps) s ts /\ splitAny s seps = Some ts.
Proof.
  intros F. destruct (pieces_total (fun c => In c seps) (fun c => in_dec N.eq_dec c seps) s) as [ts P].
  exists ts. split; auto. now apply splitAny_ok.
Qed.
Print Assumptions C39_split_any.
Example split_any_example : Forall (fun c => c < 128) [44; 59] /\
  splitAny [97; 44; 59; 98; 59] [44; 59] = Some [[97]; [98]].
Proof. split; [repeat constructor | vm_compute; reflexivity]. Qed.
(* A separator that is not an ASCII character is out of the range of the table. *)
Theorem C39_split_any_refuted s : exists seps, Forall (fun c => c < 256) seps /\ splitAny s seps = None.
Proof. exists [195]. split; [repeat constructor | reflexivity]. Qed.
Print Assumptions C39_split_any_refuted.

(* Stripping. *)
Theorem C39_strip s set : stripped (fun c => set c = true) s (strip s set).
Proof. apply strip_ok. reflexivity. Qed.
Print Assumptions C39_strip.
Theorem C39_lstrip s set : stripped_left (fun c => set c = true) s (lstrip s set).
Proof. apply lstrip_ok. reflexivity. Qed.
Print Assumptions C39_lstrip.
Theorem C39_rstrip s set : stripped_right (fun c => set c = true) s (rstrip s set).
Proof. apply rstrip_ok. reflexivity. Qed.
Print Assumptions C39_rstrip.
Example strip_example : strip [32; 32; 97; 32; 98; 32] (N.eqb 32) = [97; 32; 98] /\
  lstrip [32; 97; 32] (N.eqb 32) = [97; 32] /\ rstrip [32; 97; 32] (N.eqb 32) = [32; 97] /\
  strip [32; 32] (N.eqb 32) = [].
Proof. repeat split. Qed.

(* Runs of spaces and tabs become one space. *)
Theorem C39_normalize_spaces s : spaces_normalized s (normalizeSpaces s) /\
  forall t, spaces_normalized s t -> t = normalizeSpaces s.
Proof.
  destruct (spaces_total s) as [t T]. pose proof (normalize_ok _ _ T) as E. rewrite E. split; auto.
  intros t' T'. apply normalize_ok in T'. congruence.
Qed.
Print Assumptions C39_normalize_spaces.
Example normalize_example : normalizeSpaces [97; 32; 9; 32; 98] = [97; 32; 98].
Proof. vm_compute; reflexivity. Qed.

(* prefixes *)
Theorem C39_starts_with s p : startsWith s p = true <-> exists b, s = p ++ b.
Proof. apply startsWith_iff. Qed.
Print Assumptions C39_starts_with.
Theorem C39_ends_with s p : endsWith s p = true <-> exists a, s = a ++ p.
Proof. apply endsWith_iff. Qed.
Print Assumptions C39_ends_with.
Theorem C39_common_prefix a b : exists a' b', a = commonPrefix a b ++ a' /\ b = commonPrefix a b ++ b' /\
  forall p, startsWith a p = true -> startsWith b p = true -> startsWith (commonPrefix a b) p = true.
Proof.
  revert b; induction a as [|x a IH]; intros [|y b]; cbn [commonPrefix].
  - exists [], []. auto.
  - exists [], (y :: b). auto.
  - exists (x :: a), []. auto.
  - destruct (N.eqb_spec x y) as [->|N].
    + destruct (IH b) as (a' & b' & A & B & M). exists a', b'. cbn [app]. split; [now f_equal|].
      split; [now f_equal|]. intros [|c p]; cbn [startsWith]; auto. rewrite !andb_true_iff.
      intros [-> P] [_ Q]. auto.
    + exists (x :: a), (y :: b). split; auto. split; auto. intros [|c p]; cbn [startsWith]; auto.
      rewrite !andb_true_iff. intros [E _] [E' _]. apply N.eqb_eq in E, E'. congruence.
Qed.
Print Assumptions C39_common_prefix.

(* matching brackets *)
Theorem C39_closing_bracket s start open close i : open <> close ->
  (findClosingBracket s start open close = Some i <->
   exists pre inner post, s = pre ++ open :: inner ++ close :: post /\ length pre = start /\
     balanced open close inner /\ i = (start + 1 + length inner)%nat).
Proof. intros H. now apply closing_ok. Qed.
Print Assumptions C39_closing_bracket.
Example closing_example : findClosingBracket [97; 40; 40; 98; 41; 99; 41; 41] 1 40 41 = Some 6%nat /\
  findClosingBracket [40; 40; 41] 0 40 41 = None.
Proof. split; vm_compute; reflexivity. Qed.

(* ---- C45 ---- *)
Theorem C45_decode_encoded s u : url_encodes s u -> decodeUrl u = s.
Proof. intros H. apply decode_ok. now apply encodes_decodes. Qed.
Print Assumptions C45_decode_encoded.
(* every byte string has an encoding *)
Theorem C45_encoding_exists s : Forall (fun c => c < 256) s -> exists u, url_encodes s u.
Proof. apply encodes_total. Qed.
Print Assumptions C45_encoding_exists.
(* for every text, also one with malformed escapes *)
Theorem C45_decode u s : decodeUrl u = s <-> url_decodes u s.
Proof.
  split; [|apply decode_ok]. intros <-. destruct (decode_total u) as [s S].
  pose proof (decode_ok _ _ S) as E. now rewrite E.
Qed.
Print Assumptions C45_decode.
Theorem C45_plain u : ~ In 37 u -> ~ In 43 u -> decodeUrl u = u.
Proof.
  intros P Q. apply decode_ok. induction u as [|c u IH]; [constructor|]. cbn in P, Q.
  constructor; auto.
Qed.
Print Assumptions C45_plain.
Example decode_example : url_encodes [195; 164; 32; 97] [37; 99; 51; 37; 65; 52; 43; 97] /\
  decodeUrl [37; 99; 51; 37; 65; 52; 43; 97] = [195; 164; 32; 97] /\
  decodeUrl [37; 50; 37; 50; 48; 37] = [37; 50; 32; 37].
Proof.
  split; [|split; vm_compute; reflexivity].
  apply (ue_byte 12 3 99 51); [apply (hex_lower 12); lia | apply (hex_decimal 3); lia|].
  apply (ue_byte 10 4 65 52); [apply (hex_upper 10); lia | apply (hex_decimal 4); lia|].
  repeat constructor; discriminate.
Qed.

(* ---- C33 ---- *)
Theorem C33_escape s : exists e, escapeNewlinesAndBackslashes s = Some e /\ ~ In 10 e /\
  unescapeNewlinesAndBackslashes e = Val s.
Proof.
  exists (flat_map escape_char s). split; [apply escape_loop_eq; lia|].
  split; [apply escape_no_newline|]. apply unescape_iff; auto. apply escape_escaped.
Qed.
Print Assumptions C33_escape.
Theorem C33_injective s t : escapeNewlinesAndBackslashes s = escapeNewlinesAndBackslashes t -> s = t.
Proof.
  destruct (C33_escape s) as (e & E & _ & U), (C33_escape t) as (e' & E' & _ & U'). congruence.
Qed.
Print Assumptions C33_injective.
(* exactly the texts with these two escapes are accepted *)
Theorem C33_unescape u s : unescapeNewlinesAndBackslashes u = Val s <-> escaped line_escape False False u s.
Proof.
  unfold unescapeNewlinesAndBackslashes. rewrite unescape_iff by reflexivity. unfold esc_ok.
  split; apply escaped_ext; try reflexivity; split; try discriminate; contradiction.
Qed.
Print Assumptions C33_unescape.
Example escape_example : escapeNewlinesAndBackslashes [97; 10; 92; 110] = Some [97; 92; 110; 92; 92; 110] /\
  unescapeNewlinesAndBackslashes [97; 92; 110; 92; 92; 110] = Val [97; 10; 92; 110].
Proof. split; vm_compute; reflexivity. Qed.

(* ---- C51 ---- *)

(* A literal in any of the four forms of quotes. *)
Theorem C51_literal_partial q u s : quotes q -> (forall c, q = [c] -> hd_error u <> Some c) ->
  (normalizeRDFLiteral (q ++ u ++ q) = Val ([34] ++ s ++ [34]) <-> escaped string_escape True False u s).
Proof.
  intros Q H. rewrite normalize_quotes by auto.
  assert (E : unescapeStringAndNumericEscapes false false u = Val s <-> escaped string_escape True False u s).
  { rewrite unescape_iff by reflexivity. unfold esc_ok. split; apply escaped_ext; try reflexivity; tauto. }
  rewrite <- E. destruct (unescapeStringAndNumericEscapes false false u) as [r| | | |]; try (split; discriminate).
  split.
  - intros X. injection X as X. apply app_inj_tail in X as [-> _]. reflexivity.
  - intros X. injection X as ->. reflexivity.
Qed.
Print Assumptions C51_literal_partial.
Lemma hex_number_00e4 : hex_number [48; 48; 101; 52] 228.
Proof. apply hex_value_iff. vm_compute; reflexivity. Qed.
Example literal_example :
  escaped string_escape True False [97; 92; 34; 92; 117; 48; 48; 101; 52; 98] [97; 34; 195; 164; 98] /\
  normalizeRDFLiteral ([34] ++ [97; 92; 34; 92; 117; 48; 48; 101; 52; 98] ++ [34])
    = Val [34; 97; 34; 195; 164; 98; 34] /\
  normalizeRDFLiteral ([39; 39; 39] ++ [34; 39; 92; 110] ++ [39; 39; 39]) = Val [34; 34; 39; 10; 34].
Proof.
  split; [|split; vm_compute; reflexivity].
  apply es_char; [discriminate|]. apply es_letter; [esc|].
  apply (es_u _ _ _ [48; 48; 101; 52] 228 [195; 164]); auto using hex_number_00e4.
  - left. apply (utf8_2 3 36); lia.
  - right; discriminate.
  - apply es_char; [discriminate | constructor].
Qed.

(* A numeric escape at the end of a literal (or of an IRI) is rejected, whatever precedes it. *)
Theorem C51_numeric_at_end_refuted q u s h : quotes q -> (forall c, q = [c] -> hd_error u <> Some c) ->
  escaped string_escape True False u s -> length h = 4%nat ->
  normalizeRDFLiteral (q ++ (u ++ [92; 117] ++ h) ++ q) = Check.
Proof.
  intros Q H E L. rewrite normalize_quotes; auto.
  - replace (unescapeStringAndNumericEscapes _ _ _) with (@Check (list N)); [reflexivity|]. symmetry.
    apply (numeric_at_end false false eq_refl u s 4) with (c := 117%nat); auto.
    + unfold esc_ok. revert E. apply escaped_ext; [reflexivity | tauto].
    + rewrite app_length. lia.
  - intros c C. specialize (H c C). destruct u; cbn in *; auto.
    destruct Q as [Q|[Q|[Q|Q]]]; rewrite Q in C; injection C as <-; discriminate.
Qed.
Print Assumptions C51_numeric_at_end_refuted.
Example numeric_at_end_example :
  (* "café" *)
  normalizeRDFLiteral [34; 99; 97; 102; 92; 117; 48; 48; 101; 57; 34] = Check /\
  escaped string_escape True True [99; 97; 102; 92; 117; 48; 48; 101; 57] [99; 97; 102; 195; 169].
Proof.
  split; [vm_compute; reflexivity|].
  do 3 (apply es_char; [discriminate|]).
  apply (es_u _ _ _ [48; 48; 101; 57] 233 [195; 169] [] []); auto.
  - apply hex_value_iff. vm_compute; reflexivity.
  - left. apply (utf8_2 3 41); lia.
  - constructor.
Qed.

(* A single quote or three of them: the views become shorter than empty. *)
Theorem C51_short_literal_refuted : exists l, normalizeRDFLiteral l = Undefined.
Proof. exists [34]. vm_compute; reflexivity. Qed.
Print Assumptions C51_short_literal_refuted.

(* Otherwise nothing undefined happens. *)
Theorem C51_unescape_defined nu nl u : nu && nl = false ->
  unescapeStringAndNumericEscapes nu nl u <> Undefined.
Proof. intros F. apply loop_defined; [exact F | lia]. Qed.
Print Assumptions C51_unescape_defined.

(* An IRI in angle brackets. *)
Theorem C51_iri_partial u s :
  unescapeIriref ([60] ++ u ++ [62]) = Val ([60] ++ s ++ [62]) <-> escaped no_escape True False u s.
Proof.
  unfold unescapeIriref. rewrite startsWith_app.
  replace (endsWith _ _) with true.
  2:{ symmetry. apply endsWith_iff. exists ([60] ++ u). now rewrite app_assoc. }
  cbn [andb]. rewrite (remove_ends_ok 1 [60] u [62]) by reflexivity.
  assert (E : unescapeStringAndNumericEscapes true false u = Val s <-> escaped no_escape True False u s).
  { rewrite unescape_iff by reflexivity. unfold esc_ok, no_escape. split; apply escaped_ext; try reflexivity; tauto. }
  rewrite <- E. destruct (unescapeStringAndNumericEscapes true false u) as [r| | | |]; try (split; discriminate).
  split.
  - intros X. injection X as X. apply app_inj_tail in X as [-> _]. reflexivity.
  - intros X. injection X as ->. reflexivity.
Qed.
Print Assumptions C51_iri_partial.
Example iri_example : unescapeIriref [60; 97; 92; 117; 48; 48; 101; 52; 98; 62] = Val [60; 97; 195; 164; 98; 62] /\
  unescapeIriref [60; 97; 92; 110; 62] = Runtime.
Proof. split; vm_compute; reflexivity. Qed.

(* A prefixed name. *)
Theorem C51_prefixed_name u s : unescapePrefixedIri u = Val s <-> escaped local_escape False False u s.
Proof.
  unfold unescapePrefixedIri. split; [apply prefixed_sound; lia | intros E; apply prefixed_complete; auto; lia].
Qed.
Print Assumptions C51_prefixed_name.
Example prefixed_example : unescapePrefixedIri [97; 58; 98; 92; 46; 99] = Val [97; 58; 98; 46; 99] /\
  unescapePrefixedIri [97; 92; 98] = Check.
Proof. split; vm_compute; reflexivity. Qed.

(* The meaning of an escaped text is unique. *)
Theorem C51_meaning_unique u s s' :
  escaped string_escape True False u s -> escaped string_escape True False u s' -> s = s'.
Proof.
  intros E E'.
  assert (U : forall t, escaped string_escape True False u t ->
    unescapeStringAndNumericEscapes false false u = Val t).
  { intros t T. apply unescape_iff; [reflexivity|]. revert T. unfold esc_ok. apply escaped_ext; [reflexivity | tauto]. }
  apply U in E, E'. congruence.
Qed.
Print Assumptions C51_meaning_unique.

(* The end of a literal is its first unescaped end. *)
Theorem C51_literal_end s pat : exists r, findLiteralEnd s pat = Some r /\
  match r with
  | Some p => unescaped_at pat s p /\ forall q, (q < p)%nat -> ~ unescaped_at pat s q
  | None => forall q, ~ unescaped_at pat s q
  end.
Proof. apply literal_loop_ok; lia. Qed.
Print Assumptions C51_literal_end.
Example literal_end_example :
  findLiteralEnd [97; 92; 34; 98; 92; 92; 34; 34] [34] = Some (Some 6%nat) /\
  findLiteralEnd [97; 92; 34] [34] = Some None.
Proof. split; vm_compute; reflexivity. Qed.
