(* Solutions in ids are answers in words. *)
From Coq Require Import String List NArith Arith Bool Lia Permutation Sorted.
From Verif Require Conv_Model Perm_Model Perm_Thm Whole_Spec.
From Verif Require Import Vocab_Proof Table_Spec Vars_Model Collate_Model Collate_Spec Vocab_Model Vocab_Thm Merge_Spec Plan_Model Plan_Spec Plan_Proof5 Plan_Thm Meta_Model Whole_Model Whole_Proof2.
Import ListNotations.
Local Open Scope nat_scope.

Section Words.
Variable v : vocabulary.
Variable disk : list (list N).
Let words := v_words v ++ disk.
Hypothesis Hwf : well_formed (v_loc v) (v_externalize v) (v_words v) disk (v_external v).
Hypothesis Hnd : NoDup words.
Variable ids : list (N * N * N).
Variable facts : list (list N * list N * list N).
Hypothesis Hfacts : Forall2 (triple_stands_for words) ids facts.
Let kb := nodup Perm_Thm.triple_dec ids.
Definition word_of (i : N) : list N := nth (N.to_nat i) words [].
Definition low (i : N) : Prop := N.to_nat i < length words.

Lemma id_found t id : id_of v t = Ok (Some id) <-> nth_error words (N.to_nat id) = Some (Conv_Model.bytes t).
Proof.
  unfold id_of. split.
  - destruct (getId _ _ _ _ _) as [j| |] eqn:E; intros X; try discriminate. assert (j = id) by congruence. subst j.
    exact (C30_found _ _ _ _ _ _ _ Hwf E).
  - intros E. apply (C30_present _ _ _ _ _ _ _ Hwf) in E. rewrite N2Nat.id in E. now rewrite E.
Qed.
Lemma id_low t id : id_of v t = Ok (Some id) -> low id.
Proof. intros H. apply id_found in H. apply nth_error_Some. congruence. Qed.
Lemma voc_word t i : voc v t = Some i -> low i /\ word_of i = Conv_Model.bytes t.
Proof.
  unfold voc. destruct (id_of v t) as [x| |] eqn:E; try discriminate. intros ->. split; [eapply id_low; eauto|].
  apply id_found in E. unfold word_of. now apply nth_error_nth.
Qed.
Lemma word_voc t i : low i -> word_of i = Conv_Model.bytes t -> voc v t = Some i.
Proof.
  intros L E. unfold voc. assert (H : id_of v t = Ok (Some i)); [|now rewrite H]. apply id_found. rewrite <- E. unfold word_of. now apply nth_error_nth'.
Qed.
Lemma word_inj i j : low i -> low j -> word_of i = word_of j -> i = j.
Proof. intros A B E. apply N2Nat.inj. unfold word_of in E. exact (proj1 (NoDup_nth words []) Hnd _ _ A B E). Qed.
Lemma stands i w : stands_for words i w -> low i /\ word_of i = w.
Proof. intros H. unfold stands_for in H. split; [apply nth_error_Some; congruence|]. unfold word_of. now apply nth_error_nth. Qed.
Lemma word_stands i : low i -> stands_for words i (word_of i).
Proof. intros H. now apply nth_error_nth'. Qed.
Lemma kb_fact i j k : In (i, j, k) kb -> low i /\ low j /\ low k /\ In (word_of i, word_of j, word_of k) facts.
Proof.
  unfold kb. rewrite nodup_In. clear kb. induction Hfacts as [|[[a b] c] [[x y] z] l l' (S1 & S2 & S3) F IH]; [easy|]. cbn in S1, S2, S3.
  apply stands in S1 as [L1 <-]. apply stands in S2 as [L2 <-]. apply stands in S3 as [L3 <-]. intros [E|H].
  - assert (a = i /\ b = j /\ c = k) as (-> & -> & ->) by (repeat split; congruence). repeat split; auto. now left.
  - destruct (IH F H) as (? & ? & ? & ?). repeat split; auto. now right.
Qed.
Lemma fact_kb x y z : In (x, y, z) facts -> exists i j k, In (i, j, k) kb /\ low i /\ low j /\ low k /\ word_of i = x /\ word_of j = y /\ word_of k = z.
Proof.
  intros H. assert (G : exists i j k, In (i, j, k) ids /\ low i /\ low j /\ low k /\ word_of i = x /\ word_of j = y /\ word_of k = z).
  2: { destruct G as (i & j & k & G & R). exists i, j, k. split; auto. now apply nodup_In. }
  revert H. clear kb. induction Hfacts as [|[[a b] c] [[x' y'] z'] l l' (S1 & S2 & S3) F IH]; [easy|]. cbn in S1, S2, S3.
  apply stands in S1 as [L1 E1]. apply stands in S2 as [L2 E2]. apply stands in S3 as [L3 E3]. intros [E|H].
  - exists a, b, c. split; [now left|]. repeat split; auto; congruence.
  - destruct (IH F H) as (i & j & k & I1 & I2). exists i, j, k. split; [now right|exact I2].
Qed.

(* ---------- values ---------- *)
Lemma value_word U : forall mu t, Whole_Spec.value_in U (map word_of mu) t = option_map word_of (get U (map Some mu) t).
Proof.
  induction U as [|u U IH]; intros [|x mu] t; try reflexivity. cbn. destruct (String.eqb u t); [reflexivity|apply IH].
Qed.
Lemma get_in U : forall (mu : list N) t i, get U (map Some mu) t = Some i -> In i mu.
Proof.
  induction U as [|u U IH]; intros [|x mu] t i; cbn; try discriminate. destruct (String.eqb u t); [intros E; injection E as <-; now left|].
  intros E. right. eapply IH; eauto.
Qed.
Lemma value_in_in U : forall mu t x, Whole_Spec.value_in U mu t = Some x -> In x mu.
Proof.
  induction U as [|u U IH]; intros [|y mu] t x; cbn; try discriminate. destruct (String.eqb u t); [intros E; injection E as <-; now left|].
  intros E. right. eapply IH; eauto.
Qed.
(* every value is the value of a variable *)
Lemma in_value U : forall mu x, NoDup U -> length mu = length U -> In x mu -> exists u, In u U /\ Whole_Spec.value_in U mu u = Some x.
Proof.
  induction U as [|u U IH]; intros [|y mu] x ND L; try discriminate; [easy|]. cbn in L. injection L as L. inversion ND as [|? ? N1 N2]; subst. intros [->|H].
  - exists u. split; [now left|]. cbn. now rewrite String.eqb_refl.
  - destruct (IH mu x N2 L H) as (w & W & E). exists w. split; [now right|]. cbn. destruct (String.eqb_spec u w) as [->|]; [contradiction|exact E].
Qed.

Variable U : list string.
Variable ts : list triple.
Variable fs : list filt.
Variable sat : filt -> list (option N) -> bool.
Variable wsat : filt -> list (option (list N)) -> bool.
Hypothesis HU : query_ok U ts fs.
Hypothesis Hsat : forall f l, In f fs -> (forall i, In (Some i) l -> low i) -> sat f l = wsat f (map (option_map word_of) l).
Definition patterns : list (string * string * string) := map (fun t => (t_s t, t_p t, t_o t)) ts.
Definition wanswer : list (list N) -> Prop :=
  Whole_Spec.answer is_var Conv_Model.bytes facts U patterns (map (fun f => (filter_vars f, wsat f)) fs).
Notation solves := (answers (voc v) kb sat U ts fs).

Lemma meaning_word mu t i : term_value is_var (voc v) U mu t = Some i -> Whole_Spec.meaning is_var Conv_Model.bytes U (map word_of mu) t = Some (word_of i).
Proof.
  unfold term_value, Whole_Spec.meaning. destruct (is_var t); intros E; [now rewrite value_word, E|]. now apply voc_word in E as [_ ->].
Qed.
Lemma term_low mu t i : (forall x, In x mu -> low x) -> term_value is_var (voc v) U mu t = Some i -> low i.
Proof. unfold term_value. intros H. destruct (is_var t); intros E; [apply H; eapply get_in; eauto|now apply voc_word in E]. Qed.
Lemma word_meaning mu t i : (forall x, In x mu -> low x) -> low i ->
  Whole_Spec.meaning is_var Conv_Model.bytes U (map word_of mu) t = Some (word_of i) -> term_value is_var (voc v) U mu t = Some i.
Proof.
  unfold term_value, Whole_Spec.meaning. intros Hm L. destruct (is_var t); intros E.
  - rewrite value_word in E. destruct (get U (map Some mu) t) as [j|] eqn:G; [|discriminate]. cbn in E. injection E as E. f_equal. apply word_inj; auto.
    apply Hm. eapply get_in; eauto.
  - injection E as E. now apply word_voc.
Qed.

Lemma solution_low mu : solves mu -> forall x, In x mu -> low x.
Proof.
  intros (L & H & _) x Hx. destruct HU as (ND & Q & _ & _).
  assert (I : exists u, In u U /\ get U (map Some mu) u = Some x).
  { clear - ND L Hx. revert mu L Hx. induction U as [|u V IH]; intros [|y mu] L Hx; try discriminate; [easy|]. cbn in L. injection L as L.
    inversion ND as [|? ? N1 N2]; subst. destruct Hx as [->|Hx]; [exists u; split; [now left|]; cbn; now rewrite String.eqb_refl|].
    destruct (IH N2 mu L Hx) as (w & W & E). exists w. split; [now right|]. cbn. destruct (String.eqb_spec u w) as [->|]; [contradiction|exact E]. }
  destruct I as (u & Iu & G). apply Q in Iu as (Vu & t & Ht & T). specialize (H (t_s t, t_p t, t_o t)).
  destruct H as (i & j & k & E1 & E2 & E3 & K); [apply in_map_iff; eauto|]. apply kb_fact in K as (K1 & K2 & K3 & _).
  unfold term_value in *. destruct T as [T|[T|T]]; rewrite <- T, Vu, G in *; congruence.
Qed.
Lemma filter_word mu f : In f fs -> (forall x, In x mu -> low x) ->
  sat f (map (get U (map Some mu)) (filter_vars f)) = wsat f (map (Whole_Spec.value_in U (map word_of mu)) (filter_vars f)).
Proof.
  intros Hf Hm. rewrite Hsat; auto.
  - f_equal. rewrite map_map. apply map_ext. intros a. now rewrite value_word.
  - intros i Hi. apply in_map_iff in Hi as (a & E & _). apply Hm. eapply get_in; eauto.
Qed.
Lemma solution_answer mu : solves mu -> wanswer (map word_of mu).
Proof.
  intros S. pose proof (solution_low mu S) as Lo. destruct S as (L & H & F). split; [now rewrite map_length|]. split.
  - intros [[s p] q] Ht. destruct (H _ Ht) as (i & j & k & E1 & E2 & E3 & K). apply kb_fact in K as (_ & _ & _ & K).
    exists (word_of i), (word_of j), (word_of k). auto using meaning_word.
  - intros f Hf. apply in_map_iff in Hf as (g & <- & Hg). cbn [fst snd]. rewrite <- filter_word by auto.
    apply (F (filter_vars g, sat g)). apply in_map_iff. eauto.
Qed.
Lemma answer_solution wmu : wanswer wmu -> exists mu, wmu = map word_of mu /\ solves mu.
Proof.
  intros (L & H & F). destruct HU as (ND & Q & _ & _).
  assert (M : exists mu, wmu = map word_of mu /\ forall x, In x mu -> low x).
  { assert (I : forall w, In w wmu -> exists i, low i /\ word_of i = w).
    { intros w Hw. destruct (in_value U wmu w ND L Hw) as (u & Iu & G). apply Q in Iu as (Vu & t & Ht & T).
      destruct (H (t_s t, t_p t, t_o t)) as (x & y & z & E1 & E2 & E3 & K); [apply in_map_iff; eauto|].
      apply fact_kb in K as (i & j & k & _ & L1 & L2 & L3 & W1 & W2 & W3). unfold Whole_Spec.meaning in *.
      destruct T as [T|[T|T]]; rewrite <- T, Vu, G in *; [exists i|exists j|exists k]; split; auto; congruence. }
    clear - I. induction wmu as [|w wmu IH]; [exists []; easy|]. destruct (I w) as (i & Li & E); [now left|].
    destruct IH as (mu & -> & Lm); [intros; apply I; now right|]. exists (i :: mu). split; [cbn; now rewrite E|]. intros x [<-|Hx]; auto. }
  destruct M as (mu & -> & Lo). exists mu. split; auto. split; [now rewrite map_length in L|]. split.
  - intros [[s p] q] Ht. destruct (H _ Ht) as (x & y & z & E1 & E2 & E3 & K). apply fact_kb in K as (i & j & k & K & L1 & L2 & L3 & <- & <- & <-).
    exists i, j, k. auto using word_meaning.
  - intros f Hf. apply in_map_iff in Hf as (g & <- & Hg). cbn [fst snd]. rewrite filter_word by auto.
    apply (F (filter_vars g, wsat g)). apply in_map_iff. eauto.
Qed.
(* the words of a correct table *)
Lemma words_correct m tab : correct m U tab solves ->
  exists sols, map (fun r => map (fun u => option_map (idToOptionalString (v_words v) (v_external v)) (value_of m r u)) U) tab =
                 map (map (fun w => Some (Word w))) sols /\ NoDup sols /\ forall mu, In mu sols <-> wanswer mu.
Proof.
  intros (sols & E & N & H). exists (map (map word_of) sols). split; [|split].
  - transitivity (map (map (option_map (idToOptionalString (v_words v) (v_external v)))) (map (fun r => map (value_of m r) U) tab)).
    { rewrite map_map. apply map_ext. intros r. now rewrite map_map. }
    rewrite E, !map_map. apply map_ext_in. intros mu Hm. rewrite !map_map. apply map_ext_in. intros x Hx. cbn. f_equal.
    apply H in Hm. apply (solution_low _ Hm) in Hx. unfold low in Hx. rewrite (C30_word_of_id _ _ _ _ _ _ Hwf).
    + fold words. now rewrite (nth_error_nth' words [] Hx).
    + destruct Hwf as (_ & _ & _ & _ & _ & B & _). assert (LE := external_length disk). unfold words in Hx. rewrite app_length in Hx. lia.
  - assert (Lo : forall mu, In mu sols -> forall x, In x mu -> low x) by (intros mu Hm; apply solution_low; now apply H).
    clear - N Lo Hnd. induction N as [|mu sols I N IH]; cbn; constructor; [|apply IH; intros; eapply Lo; [right; eauto|eauto]].
    intros X. apply in_map_iff in X as (nu & E & Hn). apply I. replace mu with nu; auto.
    assert (A : forall x, In x mu -> low x) by (apply Lo; now left). assert (B : forall x, In x nu -> low x) by (apply Lo; now right).
    clear - Hnd E A B. revert nu E B. induction mu as [|x mu IH]; intros [|y nu] E B; try discriminate; auto. cbn in E. injection E as E1 E2. f_equal.
    + apply word_inj; auto; [apply B|apply A]; now left.
    + apply IH; auto; intros; [apply A|apply B]; now right.
  - intros mu. rewrite in_map_iff. split.
    + intros (nu & <- & Hn). apply solution_answer. now apply H.
    + intros Hm. destruct (answer_solution mu Hm) as (nu & -> & S). exists nu. split; auto. now apply H.
Qed.
End Words.
