(* Theorems about VALUES (C71). *)
From Coq Require Import String List NArith Arith Bool Lia.
From Verif Require Import Values_Model Values_Spec Values_Proof.
From Verif Require Conv_Model.
From Verif Require Import Conv_Model(bytes).
Import ListNotations.
Open Scope N_scope.

(* C71: the result has, in order and as often as in the clause, the rows that have a value of the
   vocabulary for every variable with values, and each with exactly its values. *)
Theorem C71_rows getId vars rows t : getId UNDEF_word = None -> NoDup vars -> computeResult getId (SparqlValues vars rows) = Some t ->
  exists kept, picks (fun row => forall v, bound_in vars rows v -> exists w id, gives vars row v w /\ getId w = Some id) rows kept /\
    Forall2 (agrees getId vars (columns t)) kept (data t).
Proof.
  intros U Nd E. unfold computeResult in E. pose proof (sanitize_ok vars rows) as S. destruct (sanitizeValues (SparqlValues vars rows)) as [v|]; [|discriminate].
  injection E as <-. destruct S as (b & L & F & B & K & ->). cbn [columns data variables values]. unfold getVariableColumns. cbn [variables].
  apply (rows_ok getId U vars rows b Nd F L B rows K). auto.
Qed.

(* The clause is refused exactly if a row has the wrong length or no row has a value. *)
Theorem C71_refused getId vars rows : computeResult getId (SparqlValues vars rows) = None <->
  (exists row, In row rows /\ length row <> length vars) \/ (forall row w, In row rows -> In w row -> w = UNDEF_word).
Proof.
  unfold computeResult. pose proof (sanitize_ok vars rows) as S. destruct (sanitizeValues (SparqlValues vars rows)) as [v|]; split; auto; try discriminate.
  destruct S as (b & L & F & B & (k & K) & ->). intros [(row & I & H)|H].
  - rewrite Forall_forall in F. destruct H. auto.
  - apply B in K as (row & I & Hk). destruct Hk. destruct (nth_in_or_default k row UNDEF) as [J|J]; auto. now apply (H row).
Qed.

Lemma picks_all {A} (P : A -> Prop) l l' : picks P l l' -> (forall x, In x l -> P x) -> l = l'.
Proof.
  induction 1 as [|x l l' Px _ IH|x l l' Px _ IH]; intros H; [reflexivity| |].
  - f_equal. apply IH. intros y I. apply H. now right.
  - destruct Px. apply H. now left.
Qed.
(* The full claim for clauses without UNDEF whose words are all in the vocabulary: the rows of the
   result are the rows of the clause. Missing: UNDEF and words that are not in the vocabulary. *)
Theorem C71_values_partial getId vars rows : getId UNDEF_word = None -> NoDup vars -> vars <> [] -> rows <> [] -> Forall (fun row => length row = length vars) rows ->
  (forall row w, In row rows -> In w row -> exists id, getId w = Some id) ->
  exists t, computeResult getId (SparqlValues vars rows) = Some t /\ Forall2 (agrees getId vars (columns t)) rows (data t).
Proof.
  intros U Nd Nv Nr F G. rewrite Forall_forall in F. destruct (computeResult getId (SparqlValues vars rows)) as [t|] eqn:E.
  - exists t. split; auto. destruct (C71_rows _ _ _ _ U Nd E) as (kept & P & A). replace rows with kept; auto. symmetry. apply (picks_all _ _ _ P).
    intros r I v (r' & w & I' & Gv). apply gives_nth in Gv as (k & Ev & _). assert (K : (k < length vars)%nat) by (apply nth_error_Some; congruence).
    destruct (nth_error r k) as [x|] eqn:Ex; [|apply nth_error_None in Ex; rewrite (F r I) in Ex; lia].
    destruct (G r x I) as [id Hid]; [now apply nth_error_In in Ex|]. exists x, id. split; auto. apply gives_nth. exists k. split; auto. split; auto. intros ->. change UNDEF with UNDEF_word in Hid. congruence.
  - apply C71_refused in E as [(row & I & H)|H]; [destruct H; auto|]. destruct rows as [|row rows]; [congruence|]. pose proof (F row (or_introl eq_refl)) as L.
    destruct row as [|w row]; [destruct vars; [congruence|discriminate]|]. destruct (G (w :: row) w) as [id Hid]; [now left|now left|].
    rewrite (H (w :: row) w) in Hid; [congruence|now left|now left].
Qed.

Definition v_x := bytes "?x". Definition v_y := bytes "?y". Definition v_z := bytes "?z".
Definition w_a := bytes "<a>". Definition w_b := bytes "<b>". Definition w_c := bytes "<c>".
Definition e_id (w : list N) : option N := if text_eqb w w_a then Some 5 else if text_eqb w w_b then Some 3 else None.
Example C71_values_example :
  computeResult e_id (SparqlValues [v_x; v_y] [[w_a; w_b]; [w_b; w_b]; [w_a; w_b]]) = Some (Table [(v_y, 1%nat); (v_x, 0%nat)] [[5; 3]; [3; 3]; [5; 3]]) /\
  NoDup [v_x; v_y] /\ e_id UNDEF_word = None.
Proof. split; [vm_compute; reflexivity|]. split; [|vm_compute; reflexivity]. repeat constructor; vm_compute; intuition discriminate. Qed.
Example C71_rows_example :
  computeResult e_id (SparqlValues [v_x; v_y; v_z] [[w_a; UNDEF; w_b]; [UNDEF; UNDEF; UNDEF]; [w_b; UNDEF; w_c]; [w_b; UNDEF; UNDEF]]) = Some (Table [(v_z, 1%nat); (v_x, 0%nat)] [[5; 3]]).
Proof. vm_compute. reflexivity. Qed.
Example C71_refused_example : computeResult e_id (SparqlValues [v_x; v_y] [[UNDEF; UNDEF]]) = None /\ computeResult e_id (SparqlValues [v_x; v_y] [[w_a]]) = None.
Proof. split; vm_compute; reflexivity. Qed.

(* A row with UNDEF for a variable that has a value in another row is dropped, although it gives a
   value to the other variable. *)
Theorem C71_undef_refuted getId a b ia ib : getId UNDEF_word = None -> getId a = Some ia -> getId b = Some ib ->
  computeResult getId (SparqlValues [v_x; v_y] [[a; UNDEF_word]; [a; b]]) = Some (Table [(v_y, 1%nat); (v_x, 0%nat)] [[ia; ib]]).
Proof.
  intros U A B. unfold computeResult, sanitizeValues. cbn [variables values length scan Nat.eqb negb map combine fst snd forallb].
  assert (Na : text_eqb a UNDEF = false) by (apply not_true_iff_false; rewrite text_eqb_ok; intros ->; change UNDEF with UNDEF_word in A; congruence).
  assert (Nb : text_eqb b UNDEF = false) by (apply not_true_iff_false; rewrite text_eqb_ok; intros ->; change UNDEF with UNDEF_word in B; congruence).
  change (text_eqb UNDEF_word UNDEF) with true. rewrite Na, Nb. cbn in U. cbn. now rewrite A, U, B.
Qed.
(* A row with a word that is not in the vocabulary is dropped, also if the clause stands alone. *)
Theorem C71_unknown_refuted getId v w : getId w = None -> w <> UNDEF_word -> computeResult getId (SparqlValues [v] [[w]]) = Some (Table [(v, 0%nat)] []).
Proof.
  intros G Nw. unfold computeResult, sanitizeValues. cbn [variables values length scan Nat.eqb negb map combine fst snd forallb].
  assert (Na : text_eqb w UNDEF = false) by (apply not_true_iff_false; rewrite text_eqb_ok; exact Nw). rewrite Na. cbn. now rewrite G.
Qed.
(* A number is never found, since the vocabulary has its index word: the literal is in the data, the
   triple pattern finds it (IndexScan.h:52), VALUES does not. *)
Definition lit42 : list N := bytes """42""" ++ Conv_Model.XSD_INT_SUFFIX.
Theorem C71_number_refuted word : Conv_Model.convertValueLiteralToIndexWord lit42 = Conv_Model.Ok word ->
  computeResult (fun w => if text_eqb w word then Some 7 else None) (SparqlValues [v_x] [[lit42]]) = Some (Table [(v_x, 0%nat)] []).
Proof.
  intros E. apply C71_unknown_refuted; [|intros H; vm_compute in H; discriminate H]. destruct (text_eqb lit42 word) eqn:F; [|reflexivity].
  apply text_eqb_ok in F. subst word. vm_compute in E. discriminate E.
Qed.
Example C71_number_example : exists word, Conv_Model.convertValueLiteralToIndexWord lit42 = Conv_Model.Ok word.
Proof. eexists. vm_compute. reflexivity. Qed.

Print Assumptions C71_rows.
Print Assumptions C71_refused.
Print Assumptions C71_values_partial.
Print Assumptions C71_undef_refuted.
Print Assumptions C71_unknown_refuted.
Print Assumptions C71_number_refuted.
