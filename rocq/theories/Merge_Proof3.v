(* The merged vocabulary. *)
From Coq Require Import List NArith Arith Bool Lia Sorted Permutation ZifyN ZifyNat ZifyBool.
From Verif Require Import ListAux Bytes Table_Spec Lex_Proof Ops_Spec Strings_Model Collate_Model Collate_Proof Prefix_Proof
  Vocab_Model Vocab_Proof Merge_Model Merge_Spec Merge_Proof Merge_Proof2.
Import ListNotations.
Open Scope N_scope.

Lemma untag_tag f es : map untag (tag f es) = es.
Proof. unfold tag. rewrite map_map. rewrite <- (map_id es) at 2. apply map_ext. now intros [w i]. Qed.
Lemma open_files_ok fs : Forall (Forall entry_fits) fs -> forall i,
  open_files i (map partial_file fs) = Some (heads (tag_from i fs), rests (tag_from i fs)).
Proof.
  induction 1 as [|es fs F FS IH]; intros i; [reflexivity|]. cbn [map open_files tag_from heads flat_map rests]. rewrite IH.
  destruct es as [|e es]; [reflexivity|]. inversion F; subst. rewrite read_entry_ok by assumption.
  cbn [tag map firstn app tl]. fold (tag i es). now rewrite untag_tag.
Qed.
Lemma tag_from_nth fs : forall i f, nth_error (tag_from i fs) f = option_map (tag (i + f)) (nth_error fs f).
Proof.
  induction fs as [|es fs IH]; intros i [|f]; cbn [tag_from nth_error option_map]; auto.
  - now rewrite Nat.add_0_r.
  - rewrite IH. now rewrite Nat.add_succ_r.
Qed.
Lemma tag_from_length fs : forall i, length (tag_from i fs) = length fs.
Proof. induction fs; intros; cbn; auto. Qed.
Lemma tag_from_tagged fs : tagged (tag_from 0 fs).
Proof.
  intros f l q E I. rewrite tag_from_nth in E. destruct (nth_error fs f); [|discriminate]. cbn in E. injection E as <-.
  unfold tag in I. apply in_map_iff in I as (e & <- & _). reflexivity.
Qed.
Lemma tag_from_in fs i l : In l (tag_from i fs) -> exists f es, In es fs /\ l = tag f es.
Proof.
  intros I. apply In_nth_error in I as [f E]. rewrite tag_from_nth in E. destruct (nth_error fs f) as [es|] eqn:N; [|discriminate].
  cbn in E. injection E as <-. exists (i + f)%nat, es. split; [eapply nth_error_In, N | reflexivity].
Qed.
Lemma tag_from_fits fs : Forall (Forall entry_fits) fs -> forall i, fits (tag_from i fs).
Proof.
  intros F i l q I J. apply tag_from_in in I as (f & es & I & ->). unfold tag in J. apply in_map_iff in J as (e & <- & J).
  rewrite Forall_forall in F. specialize (F es I). rewrite Forall_forall in F. specialize (F e J). now destruct e.
Qed.
(* all words, with their repetitions *)
Definition words_in (fs : list (list (word * N))) : list word := map fst (concat fs).
Lemma tag_from_words fs : forall i, map value (concat (tag_from i fs)) = words_in fs.
Proof.
  unfold words_in. induction fs as [|es fs IH]; intros i; [reflexivity|]. cbn [tag_from concat]. rewrite !map_app, IH. f_equal.
  unfold tag. rewrite map_map. reflexivity.
Qed.
Lemma filter_all {A} (f : A -> bool) l : (forall x, In x l -> f x = true) -> filter f l = l.
Proof. induction l as [|a l IH]; intros H; [reflexivity|]. cbn. rewrite H by now left. f_equal. apply IH. intros; apply H; now right. Qed.
Lemma filter_none {A} (f : A -> bool) l : (forall x, In x l -> f x = false) -> filter f l = [].
Proof. induction l as [|a l IH]; intros H; [reflexivity|]. cbn. rewrite H by now left. apply IH. intros; apply H; now right. Qed.
Lemma split_external lt ws voc : word_order lt ws -> in_order lt voc ->
  voc = filter (fun w => negb (is_external w)) voc ++ filter is_external voc.
Proof.
  intros WO S. induction S as [|a l S IH F]; [reflexivity|]. cbn [filter]. destruct (is_external a) eqn:E; cbn [negb].
  - rewrite Forall_forall in F. assert (X : forall x, In x l -> is_external x = true).
    { intros x I. specialize (F x I). apply (first_order lt ws WO) in F. unfold is_external in *. lia. }
    rewrite (filter_none _ l) by (intros x I; now rewrite X). cbn [app]. f_equal. symmetry. now apply filter_all.
  - cbn [app]. f_equal. exact IH.
Qed.

Record merged (lt : word -> word -> bool) (fs : list (list (word * N))) (internal ext : list word) (w : writer) : Prop :=
  { m_out : outfile w = vocabulary_file internal;
    m_ext : outfile_ext w = vocabulary_file (map shown ext);
    m_total : total w = N.of_nat (length (internal ++ ext));
    m_size : (length (internal ++ ext) <= length (words_in fs))%nat;
    m_internal : strictly_in_order lt internal;
    m_order : in_order lt (internal ++ ext);
    m_kinds : (forall v, In v internal -> ~ external v) /\ (forall v, In v ext -> external v);
    m_words : forall v, In v (internal ++ ext) <-> In v (words_in fs);
    m_ext_words : Permutation ext (filter is_external (words_in fs));
    m_files : length (id_vecs w) = length fs;
    m_ids : forall f es, nth_error fs f = Some es ->
      exists vec, nth_error (id_vecs w) f = Some vec /\
        Forall2 (fun e p => fst p = snd e /\ stands_for (internal ++ ext) (snd p) (fst e)) es vec;
    m_lang : forall i v, nth_error (internal ++ ext) i = Some v ->
      (first_byte v = 64 <-> fst (lang_bounds w) <= N.of_nat i < snd (lang_bounds w)) }.

Lemma words_buf c buf : forall wr w, write_words c wr buf = Ok w -> write_buf w = [].
Proof.
  induction buf as [|q buf IH]; intros wr w H; cbn [write_words] in H; [now injection H as <-|].
  destruct (write_word c wr q); cbn [bind] in H; try discriminate. eapply IH, H.
Qed.
Lemma batches_buf B rest : forall b wr w, write_buf wr = [] -> write_batches B wr b rest = Ok w -> write_buf w = [].
Proof.
  induction rest as [|q rest IH]; intros b wr w W H; cbn [write_batches] in H.
  - destruct b; [now injection H as <- | eapply words_buf, H].
  - destruct (Nat.leb B _); [|eapply IH; eassumption].
    destruct (write_words (B / 5) wr (b ++ [q])) as [wr'| |] eqn:E2; cbn [bind] in H; try discriminate.
    eapply IH; [eapply words_buf, E2 | exact H].
Qed.

Section Merged.
  Variable lt : word -> word -> bool.
  Variable fs : list (list (word * N)).
  Hypothesis WO : word_order lt (words_in fs).
  Hypothesis FS : Forall (fun es => in_order lt (map fst es)) fs.
  Hypothesis FT : Forall (Forall entry_fits) fs.
  Hypothesis LG : Forall legal (words_in fs).
  Hypothesis SZ : N.of_nat (length (words_in fs)) < 2 ^ 64.

  Lemma weak_trans a b c : In a (words_in fs) -> In b (words_in fs) -> In c (words_in fs) ->
    lt a b = false -> lt b c = false -> lt a c = false.
  Proof.
    intros A B C AB BC. destruct (lt a c) eqn:AC; [|reflexivity]. exfalso. destruct (lt b a) eqn:BA.
    - rewrite (wo_trans _ _ WO b a c BA AC) in BC. discriminate.
    - rewrite (wo_total _ _ WO a b A B AB BA) in AC. congruence.
  Qed.
  Lemma value_in l q : In l (tag_from 0 fs) -> In q l -> In (value q) (words_in fs).
  Proof.
    intros I J. rewrite <- (tag_from_words fs 0). apply in_map. apply in_concat. now exists l.
  Qed.
  Lemma sorted_map {A B} (f : A -> B) (R : B -> B -> Prop) l : StronglySorted R (map f l) -> StronglySorted (fun x y => R (f x) (f y)) l.
  Proof.
    induction l as [|a l IH]; intros S; [constructor|]. cbn in S. apply StronglySorted_inv in S as [S F]. constructor; [auto|].
    rewrite Forall_map in F. exact F.
  Qed.
  Lemma pend_sorted l : In l (tag_from 0 fs) -> StronglySorted (fun x y => lt (value y) (value x) = false) l.
  Proof.
    intros I. apply tag_from_in in I as (f & es & I & ->). rewrite Forall_forall in FS. specialize (FS es I).
    apply (sorted_map value (fun x y => lt y x = false)). unfold tag. rewrite map_map. exact FS.
  Qed.

  Lemma merge_ok B r : mergeVocabulary lt B (map partial_file fs) r ->
    exists w internal ext, r = Ok w /\ merged lt fs internal ext w.
  Proof.
    unfold mergeVocabulary. rewrite open_files_ok by exact FT. intros (out & R & ->).
    destruct (run_kmerge lt _ _ _ R (tag_from 0 fs)) as (ws & -> & K); auto using tag_from_tagged, tag_from_fits.
    pose proof (kmerge_perm lt _ _ K) as P. pose proof (kmerge_file lt _ _ K (tag_from_tagged fs)) as KF.
    pose proof (kmerge_sorted lt (words_in fs) weak_trans _ _ K value_in pend_sorted) as S.
    assert (PV : Permutation (map value ws) (words_in fs)) by (rewrite <- (tag_from_words fs 0); now apply Permutation_map).
    assert (LW : length ws = length (words_in fs)) by (rewrite <- (Permutation_length PV); now rewrite map_length).
    rewrite map_length.
    destruct (write_batches_ok lt (words_in fs) WO (length fs) B ws [] [] [] (new_writer (length fs))) as (voc & w & E & I).
    - apply inv_new.
    - cbn [app]. apply Forall_forall. intros q Q.
      assert (In (value q) (words_in fs)) as IQ by (eapply Permutation_in; [exact PV | now apply in_map]).
      split; [exact IQ|]. split; [rewrite Forall_forall in LG; now apply LG|].
      apply (Permutation_in _ P) in Q. apply in_concat in Q as (l & L1 & L2). apply In_nth_error in L1 as [f L1].
      rewrite (tag_from_tagged fs f l q L1 L2). rewrite <- (tag_from_length fs 0). apply nth_error_Some. congruence.
    - exact S.
    - cbn [app]. rewrite LW. exact SZ.
    - cbn [app] in *. destruct I as [i1 i2 i2' i3 i4 i5 i6 i7 i8 i9 i10 i11 i12 i13].
      assert (SV : filter (fun w => negb (is_external w)) voc ++ filter is_external voc = voc) by (symmetry; eapply split_external; eassumption).
      exists w, (filter (fun w => negb (is_external w)) voc), (filter is_external voc).
      assert (WR : written w = id_vecs w) by (unfold written; rewrite (batches_buf B ws [] (new_writer (length fs)) w); [reflexivity | reflexivity | exact E]).
      rewrite WR in *.
      split; [exact E|]. constructor; rewrite ?SV; auto.
      + lia.
      + split; intros v V; apply filter_In in V as [_ V]; unfold external, is_external in *; lia.
      + intros v. rewrite i9. split; apply Permutation_in; [exact PV | now symmetry].
      + rewrite i10. clear - PV. induction PV; cbn [filter]; auto.
        * destruct (is_external x); auto.
        * destruct (is_external x), (is_external y); auto. constructor.
        * now rewrite IHPV1.
      + intros f es F. assert (FL : (f < length fs)%nat) by (apply nth_error_Some; congruence).
        exists (nth f (id_vecs w) []). split; [apply nth_error_nth'; lia|].
        specialize (i6 f). unfold of_file in i6. rewrite KF in i6 by (now rewrite tag_from_length).
        rewrite (nth_error_nth (tag_from 0 fs) f [] (x := tag f es)) in i6 by (rewrite tag_from_nth, F; reflexivity).
        unfold tag in i6. revert i6. generalize (nth f (id_vecs w) []). clear. induction es as [|e es IH]; intros vec H; cbn [map] in H; inversion H; subst; constructor; auto.
  Qed.
  Lemma merge_exists B : exists r, mergeVocabulary lt B (map partial_file fs) r.
  Proof.
    unfold mergeVocabulary. rewrite open_files_ok by exact FT.
    destruct (exists_run lt (wo_irrefl _ _ WO) (wo_trans _ _ WO) _ (tag_from 0 fs) (heads (tag_from 0 fs)) eq_refl) as [out R];
      auto using tag_from_tagged, tag_from_fits.
    eexists. exists out. split; [exact R | reflexivity].
  Qed.
End Merged.
