(* Merging partial vocabularies. *)
From Coq Require Import List NArith Arith Bool Lia Sorted Permutation ZifyN ZifyNat ZifyBool.
From Verif Require Import ListAux Bytes Table_Spec Lex_Proof Std_Model Ops_Spec Strings_Model Collate_Model Vocab_Model Vocab_Proof
  Merge_Model Merge_Spec.
Import ListNotations.
Open Scope N_scope.

Lemma word_eqb_eq a b : word_eqb a b = true <-> a = b.
Proof. unfold word_eqb. destruct (list_eq_dec N.eq_dec a b); split; congruence. Qed.
Lemma word_eqb_neq a b : word_eqb a b = false <-> a <> b.
Proof. unfold word_eqb. destruct (list_eq_dec N.eq_dec a b); split; congruence. Qed.

Lemma set_nth_length {A} i (x : A) : forall l, length (set_nth i x l) = length l.
Proof. induction i; destruct l; cbn; auto. Qed.
Lemma nth_set_nth {A} i (x : A) : forall l j d, (i < length l)%nat ->
  nth j (set_nth i x l) d = if (j =? i)%nat then x else nth j l d.
Proof.
  induction i as [|i IH]; intros [|y l] j d L; cbn in L; try lia.
  - destruct j; reflexivity.
  - destruct j; cbn [set_nth nth]; [reflexivity|]. rewrite IH by lia. reflexivity.
Qed.
Lemma nth_error_set_nth {A} i (x : A) : forall l j, (i < length l)%nat ->
  nth_error (set_nth i x l) j = if (j =? i)%nat then Some x else nth_error l j.
Proof.
  induction i as [|i IH]; intros [|y l] j L; cbn in L; try lia.
  - destruct j; reflexivity.
  - destruct j; cbn [set_nth nth_error]; [reflexivity|]. rewrite IH by lia. reflexivity.
Qed.
Lemma set_nth_set {A} i (x y : A) : forall l, set_nth i x (set_nth i y l) = set_nth i x l.
Proof. induction i; destruct l; cbn; auto. now f_equal. Qed.
Lemma set_nth_map {A B} (f : A -> B) i x : forall l, map f (set_nth i x l) = set_nth i (f x) (map f l).
Proof. induction i; destruct l; cbn; auto. now f_equal. Qed.
Lemma set_nth_split {A} (a b : list A) x y : set_nth (length a) y (a ++ x :: b) = a ++ y :: b.
Proof. induction a; cbn; auto. now f_equal. Qed.

(* ---- entries ---- *)
Definition entry_fits (e : word * N) : Prop := N.of_nat (length (fst e)) < 2 ^ 64 /\ snd e < 2 ^ 64.
Lemma firstn_exact {A} n (a b : list A) : length a = n -> firstn n (a ++ b) = a.
Proof. intros <-. rewrite firstn_app, Nat.sub_diag, firstn_all. apply app_nil_r. Qed.
Lemma skipn_exact {A} n (a b : list A) : length a = n -> skipn n (a ++ b) = b.
Proof. intros <-. now rewrite skipn_app, Nat.sub_diag, skipn_all. Qed.
Lemma read_entry_ok e es : entry_fits e -> read_entry (partial_file (e :: es)) = Entry (fst e) (snd e) (partial_file es).
Proof.
  intros [F1 F2]. unfold partial_file. cbn [flat_map]. fold (partial_file es). unfold entry_bytes. destruct e as [w id]. cbn [fst snd] in *.
  unfold read_entry. cbv zeta. rewrite <- !app_assoc.
  set (L := le 8 (N.of_nat (length w))). set (I := le 8 id).
  assert (LL : length L = 8%nat) by apply le_length. assert (LI : length I = 8%nat) by apply le_length.
  rewrite (proj2 (Nat.ltb_ge _ _)) by (rewrite app_length; lia).
  rewrite (firstn_exact 8 L), (skipn_exact 8 L) by exact LL.
  replace (of_le L) with (N.of_nat (length w)) by (symmetry; apply of_le_le; rewrite pow8; exact F1). rewrite Nat2N.id.
  rewrite (proj2 (Nat.ltb_ge _ _)) by (rewrite !app_length; lia).
  rewrite (firstn_exact (length w) w), (skipn_exact (length w) w) by reflexivity.
  rewrite (firstn_exact 8 I) by exact LI.
  replace (of_le I) with id by (symmetry; apply of_le_le; rewrite pow8; exact F2). f_equal.
  rewrite app_assoc. apply skipn_exact. rewrite app_length. lia.
Qed.

(* ---- the order in which words leave the queue ---- *)
Definition tag (f : nat) (es : list (word * N)) : list queue_word := map (fun e => Queued (fst e) f (snd e)) es.
Fixpoint tag_from (i : nat) (fs : list (list (word * N))) : list (list queue_word) :=
  match fs with [] => [] | es :: fs' => tag i es :: tag_from (Datatypes.S i) fs' end.
Definition untag (q : queue_word) : word * N := (value q, word_id q).
Definition heads (p : list (list queue_word)) : list queue_word := flat_map (firstn 1) p.
Definition rests (p : list (list queue_word)) : list (list N) := map (fun l => partial_file (map untag (tl l))) p.
Definition tagged (p : list (list queue_word)) : Prop := forall f l q, nth_error p f = Some l -> In q l -> file_id q = f.
Definition fits (p : list (list queue_word)) : Prop := forall l q, In l p -> In q l -> entry_fits (untag q).

Section Order.
  Variable lt : word -> word -> bool.
  Inductive kmerge : list (list queue_word) -> list queue_word -> Prop :=
  | kmerge_done p : heads p = [] -> kmerge p []
  | kmerge_step p f top rest out : nth_error p f = Some (top :: rest) -> is_top lt top (heads p) ->
      kmerge (set_nth f rest p) out -> kmerge p (top :: out).

  Lemma heads_split a l b : heads (a ++ l :: b) = heads a ++ firstn 1 l ++ heads b.
  Proof. unfold heads. now rewrite flat_map_app. Qed.
  Lemma top_head p top : tagged p -> In top (heads p) -> exists rest, nth_error p (file_id top) = Some (top :: rest).
  Proof.
    intros T I. apply in_flat_map in I as ([|q l] & I & J); [destruct J|]. destruct J as [->|[]].
    apply In_nth_error in I as [f E]. exists l. rewrite (T f (top :: l) top E); [exact E | now left].
  Qed.
  Lemma tagged_set p f top rest : tagged p -> nth_error p f = Some (top :: rest) -> tagged (set_nth f rest p).
  Proof.
    intros T E g l q N I. assert (L : (f < length p)%nat) by (apply nth_error_Some; congruence).
    rewrite nth_error_set_nth in N by exact L. destruct (Nat.eqb_spec g f) as [->|].
    - injection N as <-. eapply T; [exact E | now right].
    - eapply T; eassumption.
  Qed.
  Lemma in_set_nth {A} i (x : A) l y : In y (set_nth i x l) -> y = x \/ In y l.
  Proof. revert l. induction i as [|i IH]; intros [|z l] H; cbn in *; auto; destruct H as [->|H]; auto. destruct (IH _ H); auto. Qed.
  Lemma fits_set p f top rest : fits p -> nth_error p f = Some (top :: rest) -> fits (set_nth f rest p).
  Proof.
    intros F E l q I J. apply in_set_nth in I as [->|I]; [|eapply F; eassumption].
    eapply F; [eapply nth_error_In, E | now right].
  Qed.
  Lemma rests_set p f top rest l : nth_error p f = Some (top :: rest) ->
    rests (set_nth f l p) = set_nth f (partial_file (map untag (tl l))) (rests p).
  Proof. intros. unfold rests. apply (set_nth_map (fun l0 => partial_file (map untag (tl l0)))). Qed.
  Lemma set_nth_same {A} i (x : A) : forall l, nth_error l i = Some x -> set_nth i x l = l.
  Proof. induction i; intros [|y l] E; cbn in *; try discriminate; [congruence | f_equal; auto]. Qed.

  Lemma run_kmerge queue files out : merge_run lt queue files out -> forall p, tagged p -> fits p ->
    Permutation queue (heads p) -> files = rests p -> exists ws, out = Some ws /\ kmerge p ws.
  Proof.
    induction 1 as [files|q1 top q2 files f out TOP NE RE R IH|q1 top q2 files f w id rest out TOP NE RE R IH|q1 top q2 files f TOP NE RE];
      intros p T F P ->.
    - exists []. split; [reflexivity|]. constructor. now apply Permutation_nil.
    - assert (I : In top (heads p)) by (eapply Permutation_in; [exact P | apply in_or_app; right; now left]).
      destruct (top_head p top T I) as [rest E].
      assert (RN : rest = []).
      { unfold rests in NE. rewrite nth_error_map, E in NE. cbn [option_map] in NE. injection NE as <-.
        destruct rest as [|q rest]; [reflexivity|]. cbn [tl map] in RE. rewrite read_entry_ok in RE; [discriminate|].
        eapply F; [eapply nth_error_In, E | right; now left]. }
      subst rest.
      destruct (IH (set_nth (file_id top) [] p)) as (ws & -> & K).
      + eapply tagged_set; eassumption.
      + eapply fits_set; eassumption.
      + apply nth_error_split in E as (a & b & -> & L). rewrite <- L, set_nth_split. rewrite heads_split in P |- *. cbn [firstn app] in *.
        rewrite <- Permutation_middle in P. symmetry in P. rewrite <- Permutation_middle in P. symmetry in P.
        now apply Permutation_cons_inv in P.
      + rewrite (rests_set p (file_id top) top [] []) by exact E. cbn [tl map].
        rewrite set_nth_same; [reflexivity|]. unfold rests. now rewrite nth_error_map, E.
      + exists (top :: ws). split; [reflexivity|]. econstructor; [exact E| |exact K].
        intros q Q. apply TOP. eapply Permutation_in; [symmetry; exact P | exact Q].
    - assert (I : In top (heads p)) by (eapply Permutation_in; [exact P | apply in_or_app; right; now left]).
      destruct (top_head p top T I) as [r E].
      assert (RN : exists q r', r = q :: r' /\ value q = w /\ word_id q = id /\ rest = partial_file (map untag r')).
      { unfold rests in NE. rewrite nth_error_map, E in NE. cbn [option_map] in NE. injection NE as <-.
        destruct r as [|q r']; [cbn in RE; discriminate|]. cbn [tl map] in RE. rewrite read_entry_ok in RE.
        - injection RE as <- <- <-. now exists q, r'.
        - eapply F; [eapply nth_error_In, E | right; now left]. }
      destruct RN as (q & r' & -> & <- & <- & ->).
      assert (FQ : file_id q = file_id top) by (eapply T; [exact E | right; now left]).
      assert (QQ : Queued (value q) (file_id top) (word_id q) = q) by (rewrite <- FQ; now destruct q).
      rewrite QQ in *.
      destruct (IH (set_nth (file_id top) (q :: r') p)) as (ws & -> & K).
      + eapply tagged_set; eassumption.
      + eapply fits_set; eassumption.
      + apply nth_error_split in E as (a & b & -> & L). rewrite <- L, set_nth_split. rewrite heads_split in P |- *. cbn [firstn app] in *.
        rewrite <- Permutation_middle in P. symmetry in P. rewrite <- Permutation_middle in P. symmetry in P.
        apply Permutation_cons_inv in P. rewrite app_assoc. rewrite P. rewrite <- app_assoc.
        apply Permutation_app_head. symmetry. apply Permutation_cons_append.
      + rewrite (rests_set p (file_id top) top (q :: r')) by exact E. reflexivity.
      + exists (top :: ws). split; [reflexivity|]. econstructor; [exact E| |exact K].
        intros x Q. apply TOP. eapply Permutation_in; [symmetry; exact P | exact Q].
    - exfalso. assert (I : In top (heads p)) by (eapply Permutation_in; [exact P | apply in_or_app; right; now left]).
      destruct (top_head p top T I) as [r E].
      unfold rests in NE. rewrite nth_error_map, E in NE. cbn [option_map] in NE. injection NE as <-.
      destruct r as [|q r']; [cbn in RE; discriminate|]. cbn [tl map] in RE. rewrite read_entry_ok in RE; [discriminate|].
      eapply F; [eapply nth_error_In, E | right; now left].
  Qed.

  (* ---- and back: there is a run ---- *)
  Lemma exists_top (irr : forall a, lt a a = false) (tr : forall a b c, lt a b = true -> lt b c = true -> lt a c = true) q :
    q <> [] -> exists top, In top q /\ is_top lt top q.
  Proof.
    induction q as [|x q IH]; [contradiction|]. intros _. destruct q as [|y q].
    - exists x. split; [now left|]. intros z [->|[]]. apply irr.
    - destruct IH as (t & I & T); [discriminate|]. destruct (lt (value x) (value t)) eqn:E.
      + exists x. split; [now left|]. intros z [->|Z]; [apply irr|].
        destruct (lt (value z) (value x)) eqn:E2; [|reflexivity]. rewrite <- (T z Z). symmetry. eapply tr; eassumption.
      + exists t. split; [now right|]. intros z [->|Z]; [exact E | now apply T].
  Qed.
  Lemma exists_run (irr : forall a, lt a a = false) (tr : forall a b c, lt a b = true -> lt b c = true -> lt a c = true) n :
    forall p queue, length (concat p) = n -> tagged p -> fits p -> Permutation queue (heads p) ->
    exists out, merge_run lt queue (rests p) out.
  Proof.
    induction n as [|n IH]; intros p queue N T F P.
    - assert (heads p = []) as H.
      { clear -N. induction p as [|l p IH]; [reflexivity|]. cbn in N. rewrite app_length in N. destruct l; [|cbn in N; lia]. now apply IH. }
      rewrite H in P. apply Permutation_sym, Permutation_nil in P as ->. eexists. constructor.
    - destruct queue as [|q0 queue0] eqn:EQ.
      { apply Permutation_nil in P. exfalso. clear -N P. induction p as [|l p IH]; [discriminate|]. destruct l; [now apply IH | discriminate]. }
      rewrite <- EQ in *. destruct (exists_top irr tr queue) as (top & I & TOP); [now rewrite EQ|].
      apply in_split in I as (q1 & q2 & EQ2). rewrite EQ2 in *.
      assert (I : In top (heads p)) by (eapply Permutation_in; [exact P | apply in_or_app; right; now left]).
      destruct (top_head p top T I) as [r E].
      assert (NE : nth_error (rests p) (file_id top) = Some (partial_file (map untag r))) by (unfold rests; now rewrite nth_error_map, E).
      assert (NL : length (concat (set_nth (file_id top) r p)) = n).
      { pose proof E as E2. apply nth_error_split in E2 as (a & b & -> & L). rewrite <- L, set_nth_split.
        rewrite concat_app, app_length in *. cbn [concat] in *. rewrite app_length in *. cbn [length] in N. lia. }
      destruct r as [|q r].
      + destruct (IH (set_nth (file_id top) [] p) (q1 ++ q2)) as [out R]; auto.
        * eapply tagged_set; eassumption.
        * eapply fits_set; eassumption.
        * pose proof E as E2. apply nth_error_split in E2 as (a & b & -> & L). rewrite <- L, set_nth_split. rewrite heads_split in P |- *. cbn [firstn app] in *.
          rewrite <- Permutation_middle in P. symmetry in P. rewrite <- Permutation_middle in P. symmetry in P.
          now apply Permutation_cons_inv in P.
        * rewrite (rests_set p (file_id top) top [] []) in R by exact E. cbn [tl map] in R.
          rewrite set_nth_same in R by exact NE.
          eexists. eapply run_last; [exact TOP|exact NE|reflexivity|exact R].
      + assert (FQ : file_id q = file_id top) by (eapply T; [exact E | right; now left]).
        assert (QQ : Queued (value q) (file_id top) (word_id q) = q) by (rewrite <- FQ; now destruct q).
        destruct (IH (set_nth (file_id top) (q :: r) p) (q1 ++ q2 ++ [q])) as [out R]; auto.
        * eapply tagged_set; eassumption.
        * eapply fits_set; eassumption.
        * pose proof E as E2. apply nth_error_split in E2 as (a & b & -> & L). rewrite <- L, set_nth_split. rewrite heads_split in P |- *. cbn [firstn app] in *.
          rewrite <- Permutation_middle in P. symmetry in P. rewrite <- Permutation_middle in P. symmetry in P.
          apply Permutation_cons_inv in P. rewrite app_assoc. rewrite P. rewrite <- app_assoc.
          apply Permutation_app_head. symmetry. apply Permutation_cons_append.
        * rewrite (rests_set p (file_id top) top (q :: r)) in R by exact E. cbn [tl] in R. rewrite <- QQ in R.
          eexists. eapply run_next; [exact TOP|exact NE| |exact R].
          cbn [map]. rewrite read_entry_ok; [reflexivity|]. eapply F; [eapply nth_error_In, E | right; now left].
  Qed.

  (* ---- what comes out ---- *)
  Lemma kmerge_perm p out : kmerge p out -> Permutation out (concat p).
  Proof.
    induction 1 as [p H|p f top rest out E T K IH].
    - replace (concat p) with (@nil queue_word); [constructor|]. symmetry.
      clear -H. induction p as [|l p IH]; [reflexivity|]. destruct l; [now apply IH | discriminate].
    - apply nth_error_split in E as (a & b & -> & L). rewrite <- L, set_nth_split in IH.
      rewrite concat_app in *. cbn [concat] in *. rewrite IH. cbn [app]. now apply Permutation_middle.
  Qed.
  Lemma kmerge_file p out : kmerge p out -> tagged p -> forall f, (f < length p)%nat ->
    filter (fun q => Nat.eqb (file_id q) f) out = nth f p [].
  Proof.
    induction 1 as [p H|p f top rest out E T K IH]; intros TG g L.
    - cbn [filter]. symmetry. revert g L. clear TG. induction p as [|l p IH]; intros g L; [destruct g; reflexivity|].
      destruct l; [|discriminate]. destruct g; [reflexivity|]. apply IH; [exact H | cbn in L; lia].
    - assert (LF : (f < length p)%nat) by (apply nth_error_Some; congruence).
      pose proof (IH (tagged_set _ _ _ _ TG E)) as IH'. rewrite set_nth_length in IH'. cbn [filter].
      rewrite (TG f (top :: rest) top E) by now left. rewrite IH' by exact L. rewrite nth_set_nth by exact LF.
      rewrite (Nat.eqb_sym f g). destruct (Nat.eqb_spec g f) as [->|]; [|reflexivity].
      symmetry. now apply nth_error_nth.
  Qed.
  Lemma kmerge_sorted ws (W : forall a b c, In a ws -> In b ws -> In c ws -> lt a b = false -> lt b c = false -> lt a c = false) p out :
    kmerge p out -> (forall l q, In l p -> In q l -> In (value q) ws) ->
    (forall l, In l p -> StronglySorted (fun x y => lt (value y) (value x) = false) l) ->
    StronglySorted (fun x y => lt (value y) (value x) = false) out.
  Proof.
    induction 1 as [p H|p f top rest out E T K IH]; intros IN S; [constructor|].
    pose proof (S _ (nth_error_In _ _ E)) as ST. apply StronglySorted_inv in ST as [ST1 ST2].
    constructor.
    - apply IH.
      + intros l q I J. apply in_set_nth in I as [->|I]; [|eapply IN; eassumption].
        eapply IN; [eapply nth_error_In, E | now right].
      + intros l I. apply in_set_nth in I as [->|I]; [exact ST1 | now apply S].
    - apply Forall_forall. intros y Y. apply kmerge_perm in K. apply (Permutation_in _ K) in Y.
      apply in_concat in Y as (l & I & J). apply in_set_nth in I as [->|I].
      + rewrite Forall_forall in ST2. now apply ST2.
      + destruct l as [|h l]; [destruct J|]. assert (TH : lt (value h) (value top) = false).
        { apply T. unfold heads. apply in_flat_map. exists (h :: l). split; [exact I | now left]. }
        destruct J as [->|J]; [exact TH|]. pose proof (S _ I) as SI. apply StronglySorted_inv in SI as [_ SI]. rewrite Forall_forall in SI.
        eapply W; [| | |apply SI, J | exact TH].
        * eapply IN; [exact I | now right].
        * eapply IN; [exact I | now left].
        * eapply IN; [eapply nth_error_In, E | now left].
  Qed.
End Order.
