(* Lemmas about VALUES. *)
From Coq Require Import String List NArith Arith Bool Lia ZifyBool ZifyN ZifyNat.
From Verif Require Import Values_Model Values_Spec.
From Verif Require Import Conv_Model(bytes).
Import ListNotations.
Open Scope N_scope.

Lemma text_eqb_ok a b : text_eqb a b = true <-> a = b.
Proof. unfold text_eqb. destruct (list_eq_dec N.eq_dec a b); split; congruence. Qed.

Fixpoint select {A} (b : list bool) (l : list A) : list A :=
  match b, l with
  | true :: b', x :: l' => x :: select b' l'
  | false :: b', _ :: l' => select b' l'
  | _, _ => []
  end.
Definition erase_list {A} (its : list (nat * bool)) (l : list A) : list A := fold_left (fun (l : list A) (it : nat * bool) => if snd it then l else erase (fst it) l) its l.
Lemma erase_columns_fold its : forall vars rows, erase_columns its (SparqlValues vars rows) = SparqlValues (erase_list its vars) (map (erase_list its) rows).
Proof.
  induction its as [|[k b] its IH]; intros vars rows; cbn [erase_columns].
  - unfold erase_list. cbn [fold_left]. now rewrite map_id.
  - destruct b; cbn [variables values]; rewrite IH; unfold erase_list; cbn [fold_left snd fst]; [reflexivity|]. now rewrite map_map.
Qed.
Lemma erase_mid {A} (p : list A) x r : erase (length p) (p ++ x :: r) = p ++ r.
Proof.
  unfold erase. rewrite firstn_app, Nat.sub_diag, firstn_all. cbn [firstn]. rewrite app_nil_r. f_equal.
  replace (p ++ x :: r) with ((p ++ [x]) ++ r) by now rewrite <- app_assoc. replace (S (length p)) with (length (p ++ [x])) by (rewrite app_length; cbn [length]; lia).
  rewrite skipn_app, skipn_all, Nat.sub_diag. reflexivity.
Qed.
Lemma erase_list_ok {A} bound : forall (p l : list A) n, length l = length bound -> n = length bound ->
  erase_list (rev (combine (seq (length p) n) bound)) (p ++ l) = p ++ select bound l.
Proof.
  unfold erase_list. induction bound as [|b bound IH]; intros p l n L ->.
  - destruct l; [reflexivity|discriminate].
  - destruct l as [|x l]; [discriminate|]. cbn [length seq combine rev]. rewrite fold_left_app. cbn [fold_left fst snd].
    replace (p ++ x :: l) with ((p ++ [x]) ++ l) by now rewrite <- app_assoc. replace (S (length p)) with (length (p ++ [x])) by (rewrite app_length; cbn [length]; lia).
    cbn [length] in L. rewrite (IH (p ++ [x])) by lia. rewrite <- app_assoc. cbn [app]. destruct b; cbn [select]; [reflexivity|apply erase_mid].
Qed.

Definition blank (v : list text) : bool := forallb (fun s => text_eqb s UNDEF) v.
Fixpoint blanks (i : nat) (rows : list (list text)) : list nat :=
  match rows with [] => [] | v :: rows' => if blank v then i :: blanks (S i) rows' else blanks (S i) rows' end.
Lemma erase_rows_ok rows : forall p, fold_left (fun rows it => erase it rows) (rev (blanks (length p) rows)) (p ++ rows) = p ++ filter (fun v => negb (blank v)) rows.
Proof.
  induction rows as [|v rows IH]; intros p; [reflexivity|]. cbn [blanks filter].
  assert (E : fold_left (fun rows it => erase it rows) (rev (blanks (S (length p)) rows)) (p ++ v :: rows) = p ++ v :: filter (fun v => negb (blank v)) rows).
  { replace (p ++ v :: rows) with ((p ++ [v]) ++ rows) by now rewrite <- app_assoc. replace (S (length p)) with (length (p ++ [v])) by (rewrite app_length; cbn [length]; lia).
    rewrite IH, <- app_assoc. reflexivity. }
  destruct (blank v); cbn [negb]; [|exact E]. cbn [rev]. rewrite fold_left_app, E. cbn [fold_left]. apply erase_mid.
Qed.

Lemma or_nth bound : forall v k, length v = length bound ->
  nth k (map (fun p => fst p || negb (text_eqb (snd p) UNDEF)) (combine bound v)) false = true <-> nth k bound false = true \/ nth k v UNDEF <> UNDEF.
Proof.
  induction bound as [|b bound IH]; intros v k L; destruct v as [|w v]; try discriminate; cbn [combine map].
  - destruct k; cbn [nth]; split; try discriminate; intros [H|H]; try discriminate; congruence.
  - destruct k as [|k]; cbn [nth fst snd].
    + rewrite orb_true_iff, negb_true_iff, <- not_true_iff_false, text_eqb_ok. reflexivity.
    + apply IH. now injection L.
Qed.
Lemma scan_ok n rows : forall i ev b, length b = n ->
  match scan n i rows ev b with
  | None => exists row, In row rows /\ length row <> n
  | Some (ev', b') => Forall (fun row => length row = n) rows /\ ev' = ev ++ blanks i rows /\ length b' = n /\
      forall k, nth k b' false = true <-> nth k b false = true \/ exists row, In row rows /\ nth k row UNDEF <> UNDEF
  end.
Proof.
  induction rows as [|v rows IH]; intros i ev b Lb; cbn [scan blanks].
  - split; [constructor|]. split; [now rewrite app_nil_r|]. split; auto. intros k. split; [now left|]. intros [H|(r & [] & _)]; auto.
  - destruct (Nat.eqb_spec (length v) n) as [Lv|Lv]; cbn [negb]; [|exists v; split; [now left|auto]].
    specialize (IH (S i) (if forallb (fun s => text_eqb s UNDEF) v then ev ++ [i] else ev) (map (fun p => fst p || negb (text_eqb (snd p) UNDEF)) (combine b v))).
    destruct (scan _ _ _ _ _) as [[ev' b']|].
    + destruct IH as (F & E & L & B). { rewrite map_length, combine_length. lia. }
      split; [constructor; auto|]. split; [|split; auto].
      * rewrite E. fold (blank v). destruct (blank v); [now rewrite <- app_assoc|reflexivity].
      * intros k. rewrite B, or_nth by lia. split.
        -- intros [[H|H]|(r & I & H)]; auto; right; [exists v; split; [now left|auto]|exists r; split; [now right|auto]].
        -- intros [H|(r & [<-|I] & H)]; auto. right. exists r. auto.
    + destruct IH as (r & I & H). { rewrite map_length, combine_length. lia. } exists r. split; [now right|auto].
Qed.

Lemma gives_nth vars row v w : gives vars row v w <-> exists k, nth_error vars k = Some v /\ nth_error row k = Some w /\ w <> UNDEF.
Proof.
  split.
  - induction 1 as [v w vars row H|u x vars row v w _ (k & A & B & C)]; [exists 0%nat; auto|exists (S k); auto].
  - intros (k & A & B & C). revert vars row A B. induction k as [|k IH]; intros [|u vars] [|x row] A B; try discriminate.
    + cbn in A, B. injection A as ->. injection B as ->. now apply gv_here.
    + apply gv_later. now apply IH.
Qed.

(* The elements at the selected positions *)
Lemma select_nth {A B} b : forall (l : list A) (m : list B) x y, length l = length b -> length m = length b ->
  (exists c, nth_error (select b l) c = Some x /\ nth_error (select b m) c = Some y) <-> exists k, nth k b false = true /\ nth_error l k = Some x /\ nth_error m k = Some y.
Proof.
  induction b as [|a b IH]; intros l m x y Ll Lm; destruct l as [|u l], m as [|z m]; try discriminate.
  - split; [intros (c & E & _); destruct c; discriminate|intros (k & _ & E & _); destruct k; discriminate].
  - injection Ll as Ll. injection Lm as Lm. specialize (IH l m x y Ll Lm). destruct a; cbn [select]; split.
    + intros (c & E & F). destruct c as [|c]; [exists 0%nat; auto|]. destruct (proj1 IH) as (k & K); [exists c; auto|]. exists (S k). exact K.
    + intros (k & K & E & F). destruct k as [|k]; [exists 0%nat; auto|]. destruct (proj2 IH) as (c & C); [exists k; auto|]. exists (S c). exact C.
    + intros H. destruct (proj1 IH H) as (k & K). exists (S k). exact K.
    + intros (k & K & E & F). destruct k as [|k]; [discriminate|]. apply IH. exists k. auto.
Qed.
Lemma select_nth1 {A} b (l : list A) x : length l = length b -> In x (select b l) <-> exists k, nth k b false = true /\ nth_error l k = Some x.
Proof.
  intros L. pose proof (select_nth b l l x x L L) as H. split.
  - intros I. apply In_nth_error in I as [c E]. destruct (proj1 H) as (k & K & E1 & _); eauto.
  - intros (k & K & E). destruct (proj2 H) as (c & E1 & _); [eauto|]. now apply nth_error_In in E1.
Qed.
Lemma columns_from_in vars : forall i m v c, In (v, c) (columns_from i vars m) <-> In (v, c) m \/ exists j, c = (i + j)%nat /\ nth_error vars j = Some v.
Proof.
  induction vars as [|u vars IH]; intros i m v c; cbn [columns_from].
  - split; [auto|]. intros [H|(j & _ & E)]; auto. destruct j; discriminate.
  - rewrite IH. cbn [In]. split.
    + intros [[E|I]|(j & -> & E)]; auto; right; [injection E as -> ->; exists 0%nat; split; [lia|reflexivity]|exists (S j); split; [lia|auto]].
    + intros [I|(j & -> & E)]; auto. destruct j as [|j]; [left; left; cbn in E; injection E as ->; f_equal; lia|]. right. exists j. split; [lia|auto].
Qed.
Lemma cell_columns vars out v id : cell_is (columns_from 0 vars []) out v id <-> exists c, nth_error vars c = Some v /\ nth_error out c = Some id.
Proof.
  split.
  - intros [c I E]. apply columns_from_in in I as [[]|(j & -> & F)]. exists j. auto.
  - intros (c & E & F). apply (ci_cell _ _ _ _ c); auto. apply columns_from_in. right. exists c. auto.
Qed.
Lemma write_row_ok getId row ids : write_row getId row = Some ids <-> Forall2 (fun w id => getId w = Some id) row ids.
Proof.
  revert ids. induction row as [|w row IH]; intros ids; cbn [write_row].
  - split; [intros E; injection E as <-; constructor|]. now inversion 1.
  - destruct (getId w) as [id|] eqn:G; [|split; [discriminate|inversion 1; congruence]].
    destruct (write_row getId row) as [r|] eqn:W; (split; [intros E|inversion 1; subst]); try discriminate.
    + injection E as <-. constructor; auto. now apply IH.
    + match goal with H : Forall2 _ row _ |- _ => apply IH in H; injection H as -> end. congruence.
    + match goal with H : Forall2 _ row _ |- _ => apply IH in H; discriminate H end.
Qed.
Lemma write_row_none getId row : write_row getId row = None -> exists w, In w row /\ getId w = None.
Proof.
  induction row as [|w row IH]; cbn [write_row]; [discriminate|]. destruct (getId w) eqn:G; [|exists w; split; [now left|auto]].
  destruct (write_row getId row); [discriminate|]. intros _. destruct IH as (x & I & E); auto. exists x. split; [now right|auto].
Qed.
Lemma nth_forall2 {A B} (R : A -> B -> Prop) l m : Forall2 R l m -> forall c, (forall x, nth_error l c = Some x -> exists y, nth_error m c = Some y /\ R x y) /\ (forall y, nth_error m c = Some y -> exists x, nth_error l c = Some x /\ R x y).
Proof.
  induction 1 as [|x y l m H _ IH]; intros [|c]; cbn [nth_error]; split; intros z E; try discriminate; try (injection E as <-; eauto); now apply IH.
Qed.

Definition keeps (getId : text -> option N) (vars : list text) (rows : list (list text)) (row : list text) : Prop :=
  forall v, bound_in vars rows v -> exists w id, gives vars row v w /\ getId w = Some id.

Section Table.
  Variable getId : text -> option N.
  Hypothesis undef : getId UNDEF = None.
  Variables (vars : list text) (all : list (list text)) (b : list bool).
  Hypothesis nodup : NoDup vars.
  Hypothesis widths : Forall (fun row => length row = length vars) all.
  Hypothesis b_length : length b = length vars.
  Hypothesis b_ok : forall k, nth k b false = true <-> exists row, In row all /\ nth k row UNDEF <> UNDEF.
  Lemma bound_b v k : nth_error vars k = Some v -> (nth k b false = true <-> bound_in vars all v).
  Proof.
    intros Ev. rewrite b_ok. split.
    - intros (row & I & H). assert (L : length row = length vars) by (rewrite Forall_forall in widths; auto).
      destruct (nth_error row k) as [w|] eqn:E.
      + exists row, w. split; auto. apply gives_nth. exists k. rewrite (nth_error_nth _ _ UNDEF E) in H. auto.
      + apply nth_error_None in E. assert (nth_error vars k <> None) by congruence. apply nth_error_Some in H0. lia.
    - intros (row & w & I & G). apply gives_nth in G as (j & A & B & C). exists row. split; auto.
      assert (j = k). { apply (proj1 (NoDup_nth_error vars) nodup); [|congruence]. apply nth_error_Some. congruence. } subst j.
      now rewrite (nth_error_nth _ _ UNDEF B).
  Qed.
  Lemma row_ok row : In row all ->
    match write_row getId (select b row) with
    | Some out => keeps getId vars all row /\ agrees getId vars (columns_from 0 (select b vars) []) row out
    | None => ~ keeps getId vars all row
    end.
  Proof.
    intros Irow. assert (L : length row = length vars) by (rewrite Forall_forall in widths; auto). destruct (write_row getId (select b row)) as [out|] eqn:W.
    - apply write_row_ok in W. split.
      + intros v B. destruct B as (r & w & I & G). pose proof G as G'. apply gives_nth in G as (k & A & _ & _). assert (K : nth k b false = true) by (apply (bound_b v k); auto; exists r, w; auto).
        destruct (nth_error row k) as [x|] eqn:E. 2: { apply nth_error_None in E. assert (nth_error vars k <> None) by congruence. apply nth_error_Some in H. lia. }
        destruct (proj2 (select_nth b vars row v x ltac:(lia) ltac:(lia))) as (c & Ec & Er); [exists k; auto|].
        destruct (proj1 (nth_forall2 _ _ _ W c) x Er) as (id & _ & Gx). exists x, id. split; auto. apply gives_nth. exists k. split; auto. split; auto. congruence.
      + intros v id. rewrite cell_columns. split.
        * intros (c & E & F). destruct (proj2 (nth_forall2 _ _ _ W c) id F) as (w & Ew & Gw). exists w. split; auto.
          destruct (proj1 (select_nth b vars row v w ltac:(lia) ltac:(lia))) as (k & K & A & B); [eauto|]. apply gives_nth. exists k. split; auto. split; auto. congruence.
        * intros (w & G & Gw). apply gives_nth in G as (k & A & B & C). destruct (nth k b false) eqn:K.
          -- destruct (proj2 (select_nth b vars row v w ltac:(lia) ltac:(lia))) as (c & Ec & Er); [eauto|]. destruct (proj1 (nth_forall2 _ _ _ W c) w Er) as (id' & O & G'). exists c. split; auto. congruence.
          -- exfalso. rewrite (proj2 (b_ok k)) in K; [discriminate|]. exists row. split; auto. now rewrite (nth_error_nth _ _ UNDEF B).
    - intros K. apply write_row_none in W as (w & I & G). apply select_nth1 in I as (k & Kb & E); [|lia].
      destruct (nth_error vars k) as [v|] eqn:Ev. 2: { apply nth_error_None in Ev. assert (nth_error row k <> None) by congruence. apply nth_error_Some in H. lia. }
      destruct (K v) as (x & id & Gx & Ix); [now apply (bound_b v k)|]. apply gives_nth in Gx as (j & A & B & C).
      assert (j = k). { apply (proj1 (NoDup_nth_error vars) nodup); [|congruence]. apply nth_error_Some. congruence. } subst j. congruence.
  Qed.
  Lemma blank_drops row : In row all -> blank row = true -> (exists k, nth k b false = true) -> ~ keeps getId vars all row.
  Proof.
    intros I Bl (k & K) H. destruct (nth_error vars k) as [v|] eqn:Ev.
    - apply (bound_b v k) in K; auto. destruct (H v K) as (w & id & G & _). apply gives_nth in G as (j & _ & B & C).
      unfold blank in Bl. rewrite forallb_forall in Bl. apply nth_error_In in B. apply Bl in B. apply text_eqb_ok in B. auto.
    - apply nth_error_None in Ev. rewrite nth_overflow in K by lia. discriminate.
  Qed.
  Lemma rows_ok rows : (exists k, nth k b false = true) -> (forall r, In r rows -> In r all) ->
    exists kept, picks (keeps getId vars all) rows kept /\
      Forall2 (agrees getId vars (columns_from 0 (select b vars) [])) kept (writeValues getId (map (select b) (filter (fun v => negb (blank v)) rows))).
  Proof.
    intros Kb. induction rows as [|row rows IH]; intros Sub; [exists []; split; constructor|].
    destruct IH as (kept & P & F); [intros r I; apply Sub; now right|]. assert (Ir : In row all) by (apply Sub; now left). cbn [filter].
    destruct (blank row) eqn:Bl; cbn [negb].
    - exists kept. split; auto. apply pk_leave; auto. now apply blank_drops.
    - cbn [map writeValues]. pose proof (row_ok row Ir) as R. destruct (write_row getId (select b row)) as [out|].
      + destruct R as [K A]. exists (row :: kept). split; [now apply pk_take|now constructor].
      + exists kept. split; auto. now apply pk_leave.
  Qed.
End Table.

Lemma sanitize_ok vars rows :
  match sanitizeValues (SparqlValues vars rows) with
  | None => (exists row, In row rows /\ length row <> length vars) \/ forall row w, In row rows -> In w row -> w = UNDEF
  | Some v => exists b, length b = length vars /\ Forall (fun row => length row = length vars) rows /\
      (forall k, nth k b false = true <-> exists row, In row rows /\ nth k row UNDEF <> UNDEF) /\ (exists k, nth k b false = true) /\
      v = SparqlValues (select b vars) (map (select b) (filter (fun v => negb (blank v)) rows))
  end.
Proof.
  unfold sanitizeValues. cbn [variables values]. pose proof (scan_ok (length vars) rows 0 [] (map (fun _ => false) vars) ltac:(apply map_length)) as S.
  destruct (scan _ _ _ _ _) as [[ev b]|]; [|now left]. destruct S as (F & -> & L & B). cbn [app].
  pose proof (erase_rows_ok rows []) as ER. cbn [app length] in ER. rewrite ER, erase_columns_fold.
  assert (B' : forall k, nth k b false = true <-> exists row, In row rows /\ nth k row UNDEF <> UNDEF).
  { intros k. rewrite B. split; [|now right]. intros [H|H]; auto. exfalso. revert H. clear. revert k. induction vars as [|x l IH]; intros [|k]; cbn [map nth]; try discriminate. apply IH. }
  assert (Ev : erase_list (rev (combine (seq 0 (length vars)) b)) vars = select b vars) by (apply (erase_list_ok b [] vars); lia).
  assert (Er : map (erase_list (rev (combine (seq 0 (length vars)) b))) (filter (fun v => negb (blank v)) rows) = map (select b) (filter (fun v => negb (blank v)) rows)).
  { apply map_ext_in. intros row I. apply filter_In in I as [I _]. rewrite Forall_forall in F. apply (erase_list_ok b [] row); [rewrite (F row I); lia|lia]. }
  rewrite Ev, Er. cbn [variables values].
  assert (C : (exists k, nth k b false = true) \/ forall k, nth k b false = false).
  { clear. induction b as [|[] b [[k K]|N]]; [right; intros []; reflexivity|left; exists 0%nat; reflexivity|left; exists 0%nat; reflexivity|left; exists (S k); exact K|right; intros [|k]; [reflexivity|apply N]]. }
  assert (Non : (forall k, nth k b false = false) -> forall row w, In row rows -> In w row -> w = UNDEF).
  { intros H row w I J. apply In_nth with (d := UNDEF) in J as (k & _ & <-). destruct (list_eq_dec N.eq_dec (nth k row UNDEF) UNDEF) as [E|E]; auto.
    specialize (H k). rewrite (proj2 (B' k)) in H; [discriminate|]. exists row. auto. }
  destruct C as [(k & K)|C].
  - assert (N1 : select b vars <> []).
    { intros E. assert (exists v, In v (select b vars)) as [v I]; [|rewrite E in I; destruct I]. assert (K' := K). assert ((k < length b)%nat) by (destruct (Nat.lt_ge_cases k (length b)); auto; rewrite nth_overflow in K by lia; discriminate).
      destruct (nth_error vars k) as [v|] eqn:Ek; [|apply nth_error_None in Ek; lia]. exists v. apply select_nth1; [lia|eauto]. }
    assert (N2 : map (select b) (filter (fun v => negb (blank v)) rows) <> []).
    { apply B' in K as (row & I & H). intros E. assert (J : In (select b row) (map (select b) (filter (fun v => negb (blank v)) rows))); [|rewrite E in J; destruct J].
      apply in_map, filter_In. split; auto. apply negb_true_iff, not_true_iff_false. intros Bl. apply H. unfold blank in Bl. rewrite forallb_forall in Bl.
      destruct (nth_in_or_default k row UNDEF) as [J|J]; auto. apply Bl in J. now apply text_eqb_ok. }
    destruct (map (select b) _) as [|x r] eqn:M; [congruence|]. destruct (select b vars) as [|y z] eqn:V; [congruence|].
    exists b. rewrite M, V. repeat split; auto; try apply B'. exists k. exact K.
  - assert (Z : select b vars = []). { assert (forall v, ~ In v (select b vars)) as H by (intros v I; apply select_nth1 in I as (k & K & _); [rewrite C in K; discriminate|lia]). destruct (select b vars) as [|y z]; auto. destruct (H y). now left. }
    rewrite Z. destruct (map (select b) _); right; apply Non; auto.
Qed.
