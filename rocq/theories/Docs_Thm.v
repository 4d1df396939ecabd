(* Property C44: the text of a record. *)
From Coq Require Import List NArith ZArith Arith Bool Lia Sorted ZifyN ZifyNat ZifyBool.
From Verif Require ListAux TextIndex_Proof3.
From Verif Require Import Base Bytes Postings_Model Fts_Spec Docs_Model Docs_Spec.
Import ListNotations.
Open Scope N_scope.

(* ---- reading the file ---- *)
Lemma read_lines_line l : forall acc rest, Forall (fun c => c <> 10 /\ c <> 0) l -> Forall (fun c => c <> 10 /\ c <> 0) acc ->
  N.of_nat (length (acc ++ l)) < BUFFER_SIZE_DOCSFILE_LINE - 1 ->
  read_lines acc (l ++ 10 :: rest) =
  match read_lines [] rest with Done ls => Done ((acc ++ l) :: ls) | r => r end.
Proof.
  induction l as [|c l IH]; intros acc rest H1 H2 H3.
  - rewrite app_nil_r in *. cbn [app read_lines]. change (10 =? NL) with true. cbv iota.
    assert (E : forallb (fun c => negb (c =? 0)) acc = true).
    { apply forallb_forall. intros c Hc. rewrite Forall_forall in H2. specialize (H2 c Hc). lia. }
    rewrite E. replace (N.of_nat (length acc) <? BUFFER_SIZE_DOCSFILE_LINE - 1) with true; [reflexivity|].
    symmetry. now apply N.ltb_lt.
  - cbn [app read_lines]. apply Forall_cons_iff in H1. destruct H1 as [H1 H1'].
    replace (c =? NL) with false by (symmetry; apply N.eqb_neq; tauto).
    rewrite IH; auto.
    + now rewrite <- app_assoc.
    + apply Forall_app. split; auto.
    + now rewrite <- app_assoc.
Qed.
Lemma read_docs docs : documents docs -> forall all, (forall d, In d all -> In d docs) ->
  read_lines [] (docs_file all) = Done (map (fun d => fst d ++ [9] ++ snd d) all).
Proof.
  intros D. induction all as [|d all IH]; intros H; auto. unfold docs_file in *. cbn [flat_map map].
  assert (Hd : In d docs) by (apply H; now left).
  replace ((fst d ++ [9] ++ snd d ++ [10]) ++ flat_map (fun d => fst d ++ [9] ++ snd d ++ [10]) all)
    with ((fst d ++ [9] ++ snd d) ++ 10 :: flat_map (fun d => fst d ++ [9] ++ snd d ++ [10]) all)
    by (rewrite <- !app_assoc; reflexivity).
  rewrite read_lines_line.
  - rewrite IH by (intros; apply H; now right). reflexivity.
  - apply Forall_app. split; [|apply Forall_cons; [lia|apply (do_text _ D _ Hd)]].
    destruct (do_digits _ D _ Hd) as [_ F]. eapply Forall_impl; [|exact F]. cbn. intros. lia.
  - constructor.
  - pose proof (do_length _ D _ Hd). cbn [app]. rewrite app_length. cbn [length].
    change (BUFFER_SIZE_DOCSFILE_LINE - 1) with (1024 * 1024 * 100 - 1). lia.
Qed.
Lemma take_digits_value ds : Forall (fun c => 48 <= c <= 57) ds -> forall a,
  take_digits (Z.of_N a) ds = Z.of_N (fold_left (fun a d => a * 10 + (d - 48)) ds a).
Proof.
  induction 1 as [|d ds H _ IH]; intros a; auto. cbn [take_digits fold_left].
  replace (isdigit d) with true by (unfold isdigit; lia). rewrite <- IH. f_equal. lia.
Qed.
Lemma atol_value ds : ds <> [] -> Forall (fun c => 48 <= c <= 57) ds -> atol ds = Z.of_N (value ds).
Proof.
  intros Hn H. unfold atol, value. rewrite <- (take_digits_value ds H 0). destruct ds as [|d ds]; [congruence|].
  apply Forall_cons_iff in H. destruct H as [H _]. cbn [skip_space].
  replace (isspace d) with false by (unfold isspace; lia).
  assert (d <> 45 /\ d <> 43) as [A B] by lia.
  destruct d as [|p]; [lia|]. do 6 (destruct p as [p|p|]; try lia; try reflexivity).
Qed.
Lemma find_tab_at ds t : Forall (fun c => c <> 9) ds -> find_tab (ds ++ 9 :: t) = Some (length ds).
Proof.
  induction 1 as [|d ds H _ IH]; auto. cbn [app find_tab length].
  replace (d =? TAB) with false by (symmetry; now apply N.eqb_neq). now rewrite IH.
Qed.
Lemma line_doc docs d : documents docs -> In d docs -> doc_of_line (fst d ++ [9] ++ snd d) = (doc_id d, doc_text d).
Proof.
  intros D Hd. destruct (do_digits _ D _ Hd) as [Hn F]. unfold doc_of_line. cbn [app].
  rewrite find_tab_at by (eapply Forall_impl; [|exact F]; cbn; intros; lia).
  rewrite firstn_app, Nat.sub_diag, firstn_O, app_nil_r, firstn_all, atol_value; auto.
  change (S (length (fst d))) with (1 + length (fst d))%nat. rewrite Nat.add_comm.
  replace (fst d ++ 9 :: snd d) with ((fst d ++ [9]) ++ snd d) by (rewrite <- app_assoc; reflexivity).
  replace (length (fst d) + 1)%nat with (length (fst d ++ [9])) by (rewrite app_length; reflexivity).
  rewrite skipn_app, skipn_all, Nat.sub_diag. cbn [app skipn]. unfold doc_text, doc_id, to_id. f_equal.
  pose proof (do_range _ D _ Hd) as R. unfold doc_id in R. rewrite Z.mod_small by lia. apply N2Z.id.
Qed.

(* ---- the offsets ---- *)
Fixpoint offsets_of (cur off : N) (docs : list doc) : list N :=
  match docs with
  | [] => [off]
  | d :: docs' => repeat off (N.to_nat (doc_id d + 1 - cur)) ++
                  offsets_of (doc_id d + 1) (off + N.of_nat (length (doc_text d))) docs'
  end.
Lemma repeat_snoc {A} (x : A) n : repeat x n ++ [x] = repeat x (S n).
Proof. induction n; cbn; auto. now rewrite IHn. Qed.
Lemma docs_loop_ok docs all : documents docs -> (forall d, In d all -> In d docs) ->
  forall cur off text offsets, strictly_ascending (map doc_id all) -> (forall d, In d all -> cur <= doc_id d) ->
  docs_loop (map (fun d => fst d ++ [9] ++ snd d) all) cur off text offsets =
  (text ++ flat_map doc_text all, offsets ++ offsets_of cur off all).
Proof.
  intros D. induction all as [|d all IH]; intros H cur off text offsets Ha Hc; cbn [map docs_loop flat_map offsets_of].
  - now rewrite app_nil_r.
  - rewrite (line_doc docs d D) by (apply H; now left). cbn [map] in Ha. apply StronglySorted_inv in Ha.
    destruct Ha as [Ha Hf]. rewrite Forall_forall in Hf. pose proof (Hc d (or_introl eq_refl)) as Hd.
    rewrite IH; auto; [|intros; apply H; now right|].
    + rewrite <- !app_assoc. f_equal. f_equal. replace (N.max cur (doc_id d)) with (doc_id d) by lia.
      rewrite app_assoc, repeat_snoc. f_equal. f_equal. lia.
    + intros d' Hd'. specialize (Hf (doc_id d') (in_map doc_id _ _ Hd')). specialize (Hc d' (or_intror Hd')). lia.
Qed.

(* first entry and the first that differs from it *)
Definition scan (ws : list N) : option (N * N) :=
  match ws with
  | [] => None
  | f :: ws' => option_map (fun t => (f, t)) (List.find (fun t => negb (t =? f)) ws')
  end.
Lemma offsets_head cur off docs : (forall d, In d docs -> cur <= doc_id d) -> exists r, offsets_of cur off docs = off :: r.
Proof.
  intros H. destruct docs as [|d docs]; cbn [offsets_of]; [eauto|]. specialize (H d (or_introl eq_refl)).
  destruct (N.to_nat (doc_id d + 1 - cur)) eqn:E; [lia|]. cbn. eauto.
Qed.
Lemma find_repeat off n l : List.find (fun t => negb (t =? off)) (repeat off n ++ l) = List.find (fun t => negb (t =? off)) l.
Proof. induction n as [|n IH]; auto. cbn. now rewrite N.eqb_refl. Qed.
Lemma skipn_repeat {A} (x : A) k n : skipn k (repeat x n) = repeat x (n - k).
Proof. revert n. induction k as [|k IH]; intros [|n]; cbn; auto. Qed.

Fixpoint text_at (off : N) (docs : list doc) (cid : N) : option (N * N) :=
  match docs with
  | [] => None
  | d :: docs' =>
      let off' := off + N.of_nat (length (doc_text d)) in
      if (cid <=? doc_id d) && negb (off' =? off) then Some (off, off') else text_at off' docs' cid
  end.
Lemma document_all docs cid : (forall d, In d docs -> cid <= doc_id d) ->
  forall cid', cid' <= cid -> document_of docs cid' = document_of docs cid.
Proof.
  destruct docs as [|d docs]; intros H cid' Hle; auto. cbn. specialize (H d (or_introl eq_refl)).
  replace (cid <=? doc_id d) with true by lia. replace (cid' <=? doc_id d) with true by lia. reflexivity.
Qed.
Lemma text_at_all docs : forall off cid cid', (forall d, In d docs -> cid <= doc_id d /\ cid' <= doc_id d) ->
  text_at off docs cid = text_at off docs cid'.
Proof.
  induction docs as [|d docs IH]; intros off cid cid' H; auto. cbn [text_at].
  specialize (H d (or_introl eq_refl)) as Hd. replace (cid <=? doc_id d) with true by lia.
  replace (cid' <=? doc_id d) with true by lia. rewrite (IH _ cid cid'); auto. intros; apply H; now right.
Qed.
Lemma scan_offsets docs : forall cur off cid, strictly_ascending (map doc_id docs) ->
  (forall d, In d docs -> cur <= doc_id d) -> cur <= cid ->
  scan (skipn (N.to_nat (cid - cur)) (offsets_of cur off docs)) = text_at off docs cid.
Proof.
  induction docs as [|d docs IH]; intros cur off cid Ha Hc Hle.
  - cbn [offsets_of text_at]. destruct (N.to_nat (cid - cur)) as [|[|k]]; reflexivity.
  - cbn [map] in Ha. apply StronglySorted_inv in Ha. destruct Ha as [Ha Hf]. rewrite Forall_forall in Hf.
    assert (Hc' : forall d', In d' docs -> doc_id d + 1 <= doc_id d').
    { intros d' Hd'. specialize (Hf (doc_id d') (in_map doc_id _ _ Hd')). lia. }
    pose proof (Hc d (or_introl eq_refl)) as Hd. cbn [offsets_of text_at].
    set (off' := off + N.of_nat (length (doc_text d))).
    rewrite skipn_app, skipn_repeat, repeat_length.
    destruct (cid <=? doc_id d) eqn:E.
    + replace (N.to_nat (doc_id d + 1 - cur) - N.to_nat (cid - cur))%nat with (S (N.to_nat (doc_id d - cid))) by lia.
      replace (N.to_nat (cid - cur) - N.to_nat (doc_id d + 1 - cur))%nat with 0%nat by lia.
      cbn [repeat app skipn scan]. rewrite find_repeat. cbn [andb].
      destruct (offsets_head (doc_id d + 1) off' docs Hc') as [r Er]. rewrite Er. cbn [List.find].
      destruct (off' =? off) eqn:Eo; cbn [negb option_map].
      * apply N.eqb_eq in Eo. specialize (IH (doc_id d + 1) off' (doc_id d + 1) Ha Hc' (N.le_refl _)).
        rewrite N.sub_diag in IH. cbn [skipn N.to_nat] in IH. rewrite Er in IH. cbn [scan] in IH. rewrite Eo in IH.
        rewrite IH, Eo. apply text_at_all. intros d' Hd'. specialize (Hc' d' Hd'). lia.
      * reflexivity.
    + cbn [andb]. replace (N.to_nat (doc_id d + 1 - cur) - N.to_nat (cid - cur))%nat with 0%nat by lia.
      cbn [repeat app].
      replace (N.to_nat (cid - cur) - N.to_nat (doc_id d + 1 - cur))%nat with (N.to_nat (cid - (doc_id d + 1))) by lia.
      apply IH; auto. lia.
Qed.
Lemma text_at_spec docs : forall off cid,
  (forall f t, text_at off docs cid = Some (f, t) -> exists pre d post, docs = pre ++ d :: post /\
     f = off + N.of_nat (length (flat_map doc_text pre)) /\ t = f + N.of_nat (length (doc_text d)) /\
     next_text docs cid = Some (doc_text d)) /\
  (text_at off docs cid = None -> next_text docs cid = None).
Proof.
  unfold next_text. induction docs as [|d docs IH]; intros off cid; cbn [text_at]; [split; [discriminate|reflexivity]|].
  destruct (IH (off + N.of_nat (length (doc_text d))) cid) as [I1 I2]. cbn [filter].
  destruct (doc_text d) as [|x xs] eqn:Ed.
  - cbn [length] in *. change (N.of_nat 0) with 0 in *. rewrite N.add_0_r in *. rewrite N.eqb_refl, andb_false_r. split; auto.
    intros f t H. destruct (I1 f t H) as [pre [d' [post [P1 [P2 [P3 P4]]]]]].
    exists (d :: pre), d', post. split; [cbn; congruence|]. cbn [flat_map]. rewrite Ed. auto.
  - replace (negb (off + N.of_nat (length (x :: xs)) =? off)) with true by (cbn [length]; lia).
    cbn [document_of]. rewrite andb_true_r. destruct (cid <=? doc_id d) eqn:E.
    + split; [|discriminate]. intros f t H. injection H as <- <-. exists [], d, docs.
      cbn [option_map flat_map length]. rewrite N.add_0_r, Ed. auto.
    + split; auto. intros f t H. destruct (I1 f t H) as [pre [d' [post [P1 [P2 [P3 P4]]]]]].
      exists (d :: pre), d', post. split; [cbn; congruence|]. cbn [flat_map]. rewrite app_length, Ed. split; [lia|auto].
Qed.

(* ---- the search in the file ---- *)
Lemma nth_word text ws k : Forall (fun v => v < 256 ^ N.of_nat 8) ws ->
  load_word (text ++ words 8 ws) (length text + 8 * k) 8 = nth_error ws k.
Proof.
  intros H. destruct (nth_error ws k) as [v|] eqn:E.
  - apply nth_error_split in E. destruct E as [l1 [l2 [-> <-]]]. apply Forall_app in H. destruct H as [_ H].
    apply Forall_cons_iff in H. destruct H as [H _].
    unfold words. rewrite flat_map_app. cbn [flat_map].
    apply (load_word_at _ _ 8 v (text ++ flat_map (le 8) l1) (flat_map (le 8) l2)); auto.
    + rewrite <- app_assoc. reflexivity.
    + rewrite app_length. f_equal. clear. induction l1 as [|a l IH]; auto. cbn [flat_map length]. rewrite app_length, le_length. lia.
  - apply nth_error_None in E. unfold load_word, load.
    assert (L : length (words 8 ws) = (8 * length ws)%nat).
    { unfold words. clear. induction ws as [|a l IH]; auto. cbn [flat_map length]. rewrite app_length, le_length. lia. }
    rewrite app_length, L. replace (length text + 8 * k + 8 <=? length text + 8 * length ws)%nat with false; auto.
    symmetry. apply Nat.leb_gt. lia.
Qed.
Lemma excerpt_loop_ok text ws from : Forall (fun v => v < 256 ^ N.of_nat 8) ws ->
  forall rest k to fuel, skipn k ws = rest -> (k <= length ws)%nat -> (length rest < fuel)%nat ->
  excerpt_loop fuel (text ++ words 8 ws) (length text + 8 * k) from to =
  match List.find (fun t => negb (t =? from)) (to :: rest) with Some t => Done t | None => Hang end.
Proof.
  intros F. induction rest as [|w rest IH]; intros k to fuel H Hk Hf; (destruct fuel as [|fuel]; [cbn in Hf; lia|]);
    cbn [excerpt_loop List.find]; destruct (to =? from) eqn:E; cbn [negb]; auto; rewrite nth_word by auto.
  - assert (L : length (skipn k ws) = 0%nat) by now rewrite H. rewrite skipn_length in L.
    rewrite (proj2 (nth_error_None ws k)) by lia. reflexivity.
  - assert (L : length (skipn k ws) = S (length rest)) by now rewrite H. rewrite skipn_length in L.
    assert (N1 : nth_error ws k = Some w).
    { rewrite <- (firstn_skipn k ws), H, nth_error_app2; rewrite firstn_length_le by lia; auto. now rewrite Nat.sub_diag. }
    rewrite N1. replace (length text + 8 * k + 8)%nat with (length text + 8 * S k)%nat by lia.
    cbn [length] in Hf. apply IH; [|lia|lia].
    replace (S k) with (k + 1)%nat by lia. rewrite ListAux.skipn_add, H. reflexivity.
Qed.

Lemma offsets_bound docs : forall cur off b, (forall x, off <= x <= off + N.of_nat (length (flat_map doc_text docs)) -> x < b) ->
  Forall (fun v => v < b) (offsets_of cur off docs).
Proof.
  induction docs as [|d docs IH]; intros cur off b H; cbn [offsets_of].
  - constructor; auto. apply H. lia.
  - cbn [flat_map] in H. rewrite app_length in H. apply Forall_app. split.
    + apply Forall_forall. intros x Hx. apply repeat_spec in Hx. subst x. apply H. lia.
    + apply IH. intros x Hx. apply H. lia.
Qed.
Lemma offsets_last docs : forall cur off d, last (offsets_of cur off docs) d = off + N.of_nat (length (flat_map doc_text docs)).
Proof.
  induction docs as [|x docs IH]; intros cur off d; cbn [offsets_of flat_map]; [cbn; lia|].
  rewrite app_length. assert (K : offsets_of (doc_id x + 1) (off + N.of_nat (length (doc_text x))) docs <> []).
  { destruct docs; cbn; [discriminate|]. destruct (repeat _ _) eqn:E; [|discriminate]. cbn.
    clear. generalize (doc_id d0 + 1). generalize (off + N.of_nat (length (doc_text x)) + N.of_nat (length (doc_text d0))).
    induction docs as [|y docs IH]; intros a b; cbn; [discriminate|]. destruct (repeat _ _); [apply IH|discriminate]. }
  assert (App : forall (a b : list N), b <> [] -> last (a ++ b) d = last b d).
  { clear. induction a as [|y a IH]; intros b Hb; auto. cbn [app]. rewrite <- (IH b Hb). cbn [last].
    destruct (a ++ b) eqn:E; auto. destruct a; [cbn in E; congruence|discriminate]. }
  rewrite App by auto. rewrite IH. lia.
Qed.

(* The excerpt of every record, whatever documents are empty: the text of the first document with a
   text that does not end before the record; otherwise the file is read past its end for ever. *)
Theorem C44_excerpt_general docs : documents docs ->
  exists file, buildDocsDB (docs_file docs) = Done file /\
    forall cid, getTextExcerpt file cid =
      match next_text docs cid with Some t => Done t | None => Hang end.
Proof.
  intros D. unfold buildDocsDB. rewrite (read_docs docs D) by auto.
  rewrite (docs_loop_ok docs docs D); auto; [|apply (do_ids _ D)|intros; lia]. cbn [app].
  eexists. split; [reflexivity|]. intros cid.
  set (text := flat_map doc_text docs). set (ws := offsets_of 0 0 docs).
  pose proof (do_size _ D) as Sz. fold text in Sz.
  assert (F : Forall (fun v => v < 256 ^ N.of_nat 8) ws).
  { apply offsets_bound. fold text. intros x Hx. change (256 ^ N.of_nat 8) with (2 ^ 64). lia. }
  assert (Lw : length (words 8 ws) = (8 * length ws)%nat).
  { unfold words. clear. induction ws as [|a l IH]; auto. cbn [flat_map length]. rewrite app_length, le_length. lia. }
  destruct (offsets_head 0 0 docs ltac:(intros; lia)) as [r Er]. fold ws in Er.
  assert (Pos : (0 < length ws)%nat) by (rewrite Er; cbn; lia).
  assert (Start : load_word (text ++ words 8 ws) (length (text ++ words 8 ws) - 8) 8 = Some (N.of_nat (length text))).
  { rewrite app_length, Lw. replace (length text + 8 * length ws - 8)%nat with (length text + 8 * (length ws - 1))%nat by lia.
    rewrite nth_word by auto. rewrite (nth_error_nth' ws 0) by lia. f_equal.
    rewrite <- TextIndex_Proof3.last_nth by (rewrite Er; discriminate). apply offsets_last. }
  unfold getTextExcerpt. rewrite Start.
  replace (N.to_nat (N.of_nat (length text) + cid * 8)) with (length text + 8 * N.to_nat cid)%nat by lia.
  replace (length text + 8 * N.to_nat cid + 8)%nat with (length text + 8 * S (N.to_nat cid))%nat by lia.
  replace (length text + 8 * N.to_nat cid + 16)%nat with (length text + 8 * S (S (N.to_nat cid)))%nat by lia.
  rewrite !nth_word by auto.
  pose proof (scan_offsets docs 0 0 cid (do_ids _ D) ltac:(intros; lia) ltac:(lia)) as Sc. fold ws in Sc.
  rewrite N.sub_0_r in Sc. destruct (text_at_spec docs 0 cid) as [T1 T2].
  destruct (nth_error ws (N.to_nat cid)) as [from|] eqn:E1.
  2:{ apply nth_error_None in E1. rewrite skipn_all2 in Sc by auto. cbn in Sc. rewrite T2; auto. }
  assert (L1 : (N.to_nat cid < length ws)%nat) by (apply nth_error_Some; congruence).
  assert (Sk : skipn (N.to_nat cid) ws = from :: skipn (S (N.to_nat cid)) ws).
  { rewrite (ListAux.skipn_nth_cons (N.to_nat cid) ws 0) by auto. f_equal. now apply nth_error_nth. }
  rewrite Sk in Sc. cbn [scan] in Sc.
  destruct (nth_error ws (S (N.to_nat cid))) as [to|] eqn:E2.
  2:{ apply nth_error_None in E2. rewrite skipn_all2 in Sc by auto. cbn in Sc. rewrite T2; auto. }
  assert (L2 : (S (N.to_nat cid) < length ws)%nat) by (apply nth_error_Some; congruence).
  assert (Sk2 : skipn (S (N.to_nat cid)) ws = to :: skipn (S (S (N.to_nat cid))) ws).
  { rewrite (ListAux.skipn_nth_cons (S (N.to_nat cid)) ws 0) by auto. f_equal. now apply nth_error_nth. }
  rewrite Sk2 in Sc.
  rewrite (excerpt_loop_ok text ws from F (skipn (S (S (N.to_nat cid))) ws)); auto.
  2:{ rewrite app_length, Lw, skipn_length. lia. }
  destruct (List.find (fun t => negb (t =? from)) (to :: skipn (S (S (N.to_nat cid))) ws)) as [t|] eqn:Ef.
  - cbn [option_map] in Sc. destruct (T1 from t (eq_sym Sc)) as [pre [d [post [P1 [P2 [P3 P4]]]]]].
    rewrite P4. replace (t <? from) with false by lia.
    rewrite (load_at' _ _ _ (flat_map doc_text pre) (doc_text d) (flat_map doc_text post ++ words 8 ws)).
    + reflexivity.
    + unfold text. rewrite P1, flat_map_app. cbn [flat_map]. now rewrite <- !app_assoc.
    + rewrite P2. lia.
    + rewrite P3. lia.
  - cbn [option_map] in Sc. rewrite T2; auto.
Qed.
Print Assumptions C44_excerpt_general.

(* Every record of a document with a text gets this text. *)
Theorem C44_excerpt docs : documents docs ->
  exists file, buildDocsDB (docs_file docs) = Done file /\
    forall cid d, document_of docs cid = Some d -> doc_text d <> [] ->
      getTextExcerpt file cid = Done (doc_text d).
Proof.
  intros D. destruct (C44_excerpt_general docs D) as [file [B G]]. exists file. split; auto.
  intros cid d Hd Ht. rewrite G. replace (next_text docs cid) with (Some (doc_text d)); auto. symmetry.
  pose proof (do_ids _ D) as Ha. clear - Hd Ht Ha. unfold next_text.
  induction docs as [|x docs IH]; [discriminate|]. cbn [document_of filter] in *.
  cbn [map] in Ha. apply StronglySorted_inv in Ha. destruct Ha as [Ha _].
  destruct (cid <=? doc_id x) eqn:E.
  - injection Hd as ->. destruct (doc_text d) eqn:Et; [congruence|]. cbn [document_of]. rewrite E. cbn. congruence.
  - destruct (doc_text x); [now apply IH|]. cbn [document_of]. rewrite E. now apply IH.
Qed.
Print Assumptions C44_excerpt.

Definition ex_docs : list doc := [([50], [104; 105]); ([48; 53], [97]); ([55], []); ([49; 50], [9; 98; 99])].
Example docs_example : documents ex_docs /\
  match buildDocsDB (docs_file ex_docs) with
  | Done f => map (getTextExcerpt f) [0; 2; 3; 5; 8; 12] =
              [Done [104; 105]; Done [104; 105]; Done [97]; Done [97]; Done [9; 98; 99]; Done [9; 98; 99]]
  | _ => False
  end.
Proof.
  split; [|vm_compute; reflexivity].
  split.
  - intros d Hd. cbn in Hd. destruct Hd as [Hd|[Hd|[Hd|[Hd|[]]]]]; subst d; (split; [discriminate|]); repeat (constructor; [lia|]); constructor.
  - repeat constructor.
  - intros d Hd. cbn in Hd. destruct Hd as [Hd|[Hd|[Hd|[Hd|[]]]]]; subst d; vm_compute; reflexivity.
  - intros d Hd. cbn in Hd. destruct Hd as [Hd|[Hd|[Hd|[Hd|[]]]]]; subst d; repeat (constructor; [lia|]); constructor.
  - intros d Hd. cbn in Hd. destruct Hd as [Hd|[Hd|[Hd|[Hd|[]]]]]; subst d; vm_compute; discriminate.
  - vm_compute. reflexivity.
Qed.

(* A document without text: its records get the text of the next document, *)
Theorem C44_empty_document_refuted : exists docs cid d file, documents docs /\
  document_of docs cid = Some d /\ buildDocsDB (docs_file docs) = Done file /\
  doc_text d = [] /\ getTextExcerpt file cid = Done [9; 98; 99].
Proof.
  exists ex_docs, 7, ([55], []). eexists. split; [exact (proj1 docs_example)|]. split; [reflexivity|].
  split; [vm_compute; reflexivity|]. split; [reflexivity|vm_compute; reflexivity].
Qed.
(* and if there is none, or the record is after the last document, the call does not return. *)
Theorem C44_last_document_refuted docs cid : documents docs -> next_text docs cid = None ->
  exists file, buildDocsDB (docs_file docs) = Done file /\ getTextExcerpt file cid = Hang.
Proof.
  intros D H. destruct (C44_excerpt_general docs D) as [file [B G]]. exists file. split; auto. now rewrite G, H.
Qed.
(* The order of the ids is not checked: a document with a smaller id is stored under the next
   free one. *)
Theorem C44_unordered_refuted :
  match buildDocsDB (docs_file [([53], [97]); ([51], [98])]) with
  | Done f => getTextExcerpt f 3 = Done [97] /\ getTextExcerpt f 6 = Done [98]
  | _ => False
  end.
Proof. vm_compute. split; reflexivity. Qed.

(* A negative id is not rejected but counted from the end of the id range. *)
Theorem C44_negative_id_refuted ds t : ds <> [] -> Forall (fun c => 48 <= c <= 57) ds -> 0 < value ds < 2 ^ 63 ->
  doc_of_line ([45] ++ ds ++ [9] ++ t) = (2 ^ 64 - value ds, t).
Proof.
  intros Hn F R. unfold doc_of_line.
  replace ([45] ++ ds ++ [9] ++ t) with ((45 :: ds) ++ 9 :: t) by reflexivity.
  rewrite find_tab_at by (constructor; [discriminate|]; eapply Forall_impl; [|exact F]; cbn; intros; lia).
  rewrite firstn_app, Nat.sub_diag, firstn_O, app_nil_r, firstn_all.
  replace (atol (45 :: ds)) with (- Z.of_N (value ds))%Z by (cbn [atol skip_space isspace]; unfold value; now rewrite <- (take_digits_value ds F 0)).
  f_equal.
  - unfold to_id. replace (- Z.of_N (value ds))%Z with ((2 ^ 64 - Z.of_N (value ds)) + (-1) * 2 ^ 64)%Z by lia.
    rewrite Z.mod_add by discriminate. rewrite Z.mod_small by lia. lia.
  - change ((45 :: ds) ++ 9 :: t) with ((45 :: ds) ++ [9] ++ t). rewrite app_assoc.
    replace (S (length (45 :: ds))) with (length ((45 :: ds) ++ [9])) by (rewrite app_length; cbn; lia).
    now rewrite skipn_app, skipn_all, Nat.sub_diag.
Qed.
Example C44_negative_example : doc_of_line [45; 49; 9; 97] = (2 ^ 64 - 1, [97]).
Proof. now vm_compute. Qed.

Print Assumptions C44_negative_id_refuted.
Print Assumptions C44_empty_document_refuted.
Print Assumptions C44_last_document_refuted.
Print Assumptions C44_unordered_refuted.
