(* C57, C58, C59: files with one record per line. *)
From Coq Require Import Ascii String List NArith ZArith Arith Bool Lia Sorted.
From Verif Require Import Lines_Model Lines_Spec Lines_Proof.
From Verif Require Conv_Model.
Import ListNotations.
Open Scope N_scope.
Open Scope list_scope.

Definition b (s : string) : text := Conv_Model.bytes s.

(* ---- C57: N-Triples ---- *)

Lemma nt_line_text q l t : nt q l t -> ~ In 10 l /\ l <> [].
Proof.
  intros [w0 s w1 p w2 o c rest _ _ _ _ _ _ _ NL]. split; [exact NL|]. intros E. apply (f_equal (@length N)) in E.
  rewrite !app_length in E. cbn [length] in E. lia.
Qed.
(* A file of N-Triples without escaped quotes gives the three terms of every line. *)
Theorem C57_ntriples_partial ls ts nl : Forall2 (nt False) ls ts -> nt_all (file_of ls nl) = Some ts.
Proof.
  intros H. unfold nt_all. rewrite lines_file.
  - eapply all_ok; [|exact H]. apply nt_ok.
  - eapply forall2_left; [|exact H]. intros l t K. eapply nt_line_text; eauto.
Qed.
(* A literal with an escaped quote and a blank behind it is cut at this blank, without an error. *)
Theorem C57_escaped_quote_refuted w0 s w1 p w2 u v c w suffix d rest :
  Forall is_blank w0 -> subject s -> blanks w1 -> iri p -> blanks w2 -> ~ In 34 u -> no_blank v -> is_blank c -> is_blank d ->
  nt_line (w0 ++ s ++ w1 ++ p ++ w2 ++ ([34] ++ u ++ [92; 34] ++ v ++ [c] ++ w ++ [34] ++ suffix) ++ [d] ++ rest) =
  Some (s, p, [34] ++ u ++ [92; 34] ++ v).
Proof.
  intros W0 S_ W1 P_ W2 U V C D.
  replace (([34] ++ u ++ [92; 34] ++ v ++ [c] ++ w ++ [34] ++ suffix) ++ [d] ++ rest) with
    (([34] ++ (u ++ [92]) ++ [34] ++ v) ++ [c] ++ (w ++ [34] ++ suffix ++ [d] ++ rest)).
  2:{ cbn [app]. rewrite <- !app_assoc. cbn [app]. rewrite <- !app_assoc. cbn [app]. do 3 f_equal. rewrite <- ?app_assoc. reflexivity. }
  rewrite nt_like; auto.
  - cbn [app]. rewrite <- app_assoc. reflexivity.
  - right. right. exists (u ++ [92]), v. split; [|auto]. intros I. apply in_app_or in I as [I|[I|[]]]; [auto | discriminate].
Qed.
(* A literal without a closing quote is accepted together with the rest of the line. *)
Theorem C57_open_literal_refuted : nt_line (b "<s> <p> ""abc .") = Some (b "<s>", b "<p>", b """abc .").
Proof. vm_compute. reflexivity. Qed.
(* An object that is followed by the dot without a blank is rejected. *)
Theorem C57_dot_refuted : nt_line (b "<s> <p> <o>.") = None.
Proof. vm_compute. reflexivity. Qed.
(* An empty line or a comment line ends the loading with an exception. *)
Theorem C57_comment_refuted :
  nt_all (file_of [b "<s> <p> <o> ."; b "# comment"; b "<s> <p> <o> ."] true) = None /\
  nt_all (file_of [b "<s> <p> <o> ."; []; b "<s> <p> <o> ."] true) = None.
Proof. split; vm_compute; reflexivity. Qed.

Definition ex_nt : list text := [b "<s> <p> <o> ."; b " _:a  <p> ""x \\ y""@en ."; b "<s> <q> _:b ."].
Lemma ex_nt_ok : Forall2 (nt False) ex_nt [(b "<s>", b "<p>", b "<o>"); (b "_:a", b "<p>", b """x \\ y""@en"); (b "<s>", b "<q>", b "_:b")].
Proof.
  assert (NB : forall t, forallb (fun c => negb (blank c)) t = true -> no_blank t).
  { intros t. rewrite forallb_forall, <- Forall_forall. apply Forall_impl. intros c K I. apply blank_iff in I. now rewrite I in K. }
  assert (I : forall c, c <> 32 -> c <> 9 -> c <> 62 -> iri ([60] ++ [c] ++ [62])).
  { intros c A B D. apply iri_; [constructor; [unfold is_blank; lia | constructor]|]. cbn [In]. intuition congruence. }
  assert (W : blanks [32]) by (split; [discriminate|]; constructor; [now left | constructor]).
  repeat apply Forall2_cons; try apply Forall2_nil.
  - apply (nt_ False [] (b "<s>") [32] (b "<p>") [32] (b "<o>") 32 [46]); auto; try (now left).
    + left. apply (I 115); discriminate.
    + apply (I 112); discriminate.
    + left. apply (I 111); discriminate.
    + cbn. intuition discriminate.
  - apply (nt_ False [32] (b "_:a") [32; 32] (b "<p>") [32] (b """x \\ y""@en") 32 [46]); auto; try (now left).
    + constructor; [now left | constructor].
    + right. apply (label_ [97]). now apply NB.
    + split; [discriminate|]. repeat constructor; now left.
    + apply (I 112); discriminate.
    + right. right. apply (literal_ False (b "x \\ y") (b "@en")).
      * apply sb_char; [discriminate | discriminate|]. apply sb_char; [discriminate | discriminate|]. apply sb_escape.
        apply sb_char; [discriminate | discriminate|]. apply sb_char; [discriminate | discriminate|]. constructor.
      * cbn. intuition discriminate.
      * now apply NB.
    + cbn. intuition discriminate.
  - apply (nt_ False [] (b "<s>") [32] (b "<q>") [32] (b "_:b") 32 [46]); auto; try (now left).
    + left. apply (I 115); discriminate.
    + apply (I 113); discriminate.
    + right. left. apply (label_ [98]). now apply NB.
    + cbn. intuition discriminate.
Qed.
Example C57_example : nt_all (file_of ex_nt false) =
  Some [(b "<s>", b "<p>", b "<o>"); (b "_:a", b "<p>", b """x \\ y""@en"); (b "<s>", b "<q>", b "_:b")].
Proof. apply C57_ntriples_partial, ex_nt_ok. Qed.
Example C57_quote_example : nt_line (b "<s> <p> ""say \""hi you\"" now"" .") = Some (b "<s>", b "<p>", b """say \""hi").
Proof. vm_compute. reflexivity. Qed.

(* ---- C58: tab-separated values ---- *)

(* The first three fields of every line; in release builds the tab after the third may be missing. *)
Theorem C58_tsv debug ls ts nl : Forall2 (tsv (debug = false)) ls ts -> Forall (fun l => size l < 2 ^ 64 - 1) ls ->
  tsv_all debug (file_of ls nl) = Some ts.
Proof.
  intros H S_. unfold tsv_all. rewrite lines_file.
  - apply (all_ok (tsv_line debug) (fun l t => tsv (debug = false) l t /\ size l < 2 ^ 64 - 1)).
    + intros l r [K1 K2]. now apply tsv_ok.
    + clear nl. induction H as [|l t ls ts K _ IH]; [constructor|]. inversion_clear S_. constructor; auto.
  - eapply forall2_left; [|exact H]. intros l t K. cbn beta. split.
    + destruct K as [x y z rest [_ X] [_ Y] [_ Z] R|x y z _ [_ X] [_ Y] [_ Z]]; rewrite !in_app_iff; cbn [In]; intuition discriminate.
    + destruct K; intros E; apply (f_equal (@length N)) in E; rewrite !app_length in E; cbn [length] in E; lia.
Qed.
Example C58_example : tsv_all true (file_of [b "s" ++ [9] ++ b "p" ++ [9] ++ b "o" ++ [9] ++ b "."; [9; 9; 9]] true) =
  Some [(b "s", b "p", b "o"); ([], [], [])].
Proof.
  apply C58_tsv.
  - constructor; [|constructor; [|constructor]].
    + apply (tsv_three (true = false) (b "s") (b "p") (b "o") (b ".")); unfold field; cbn; intuition discriminate.
    + apply (tsv_three (true = false) [] [] [] []); unfold field; cbn; intuition discriminate.
  - repeat constructor.
Qed.
(* In a release build a line with fewer fields is not rejected: fields are repeated. *)
Theorem C58_missing_fields_refuted x y : field x -> field y -> size x + size y < 2 ^ 64 - 2 ->
  tsv_line false x = Some (x, x, x) /\ tsv_line false (x ++ [9] ++ y) = Some (x, y, x).
Proof.
  intros [X _] [Y _] L. split.
  - unfold tsv_line, assert_. cbn [andb]. rewrite (find_tab_none [] x X : find_tab x 0 = npos). change (add npos 1) with 0.
    rewrite (find_tab_none [] x X : find_tab x 0 = npos). change (add npos 1) with 0.
    rewrite (find_tab_none [] x X : find_tab x 0 = npos). change (sub npos 0) with npos.
    assert (R : substr_ x 0 npos = Some x).
    { rewrite <- (app_nil_r x) at 1. apply (substr_at [] x []); [reflexivity|]. right. split; auto. unfold npos. lia. }
    rewrite R. reflexivity.
  - set (ln := x ++ [9] ++ y). assert (Sz : size ln = size x + 1 + size y) by (unfold ln; rewrite !size_app; unfold size; cbn [length]; lia).
    assert (E1 : find_tab ln 0 = size x) by (apply (find_tab_at [] x y X); change (size ln < npos); unfold npos; lia).
    assert (P1 : add (size x) 1 = size (x ++ [9])) by (rewrite add_small by lia; rewrite size_app; reflexivity).
    assert (E2 : find_tab ln (add (size x) 1) = npos).
    { rewrite P1. replace ln with ((x ++ [9]) ++ y) by (unfold ln; now rewrite <- app_assoc). now apply find_tab_none. }
    unfold tsv_line, assert_. cbn [andb]. rewrite E1, E2. change (add npos 1) with 0. rewrite E1.
    replace (substr_ ln 0 (size x)) with (Some x) by (symmetry; apply (substr_at [] x ([9] ++ y)); [lia | now left]). cbn [bind].
    replace (substr_ ln (add (size x) 1) (sub npos (add (size x) 1))) with (Some y).
    2:{ symmetry. rewrite P1. replace ln with ((x ++ [9]) ++ y ++ []) by (unfold ln; rewrite app_nil_r, <- app_assoc; reflexivity).
        assert (size (x ++ [9]) = size x + 1) by (rewrite size_app; reflexivity).
        rewrite sub_small by (unfold npos; lia). apply substr_at; [unfold npos; lia|]. right. split; auto. unfold npos. lia. }
    cbn [bind]. rewrite sub_small by lia. rewrite N.sub_0_r.
    replace (substr_ ln 0 (size x)) with (Some x) by (symmetry; apply (substr_at [] x ([9] ++ y)); [lia | now left]). reflexivity.
Qed.

(* ---- C59: the context file ---- *)

(* Every line gives its word (in lower case if it is not an entity), kind, context and score; in debug
   builds the contexts must be in ascending order. *)
Theorem C59_context_file lower debug ls rs nl : Forall2 context ls rs -> Forall (fun l => size l < 2 ^ 64 - 1) ls ->
  (debug = true -> StronglySorted N.le (map (fun r => snd (fst r)) rs)) ->
  context_all lower debug (file_of ls nl) =
  Some (map (fun r => let '(w, e, c, s) := r in L (if e : bool then w else lower w) e c s) rs).
Proof.
  intros H S_ O. unfold context_all. rewrite lines_file.
  - apply context_file_ok; auto. intros D x r y E. specialize (O D). subst rs. clear H S_ D.
    split; [|lia]. induction x as [|x0 x IH]; [constructor|]. cbn [map app] in O. apply StronglySorted_inv in O as [O1 O2].
    constructor; [|auto]. rewrite Forall_forall in O2. apply O2. rewrite map_app. apply in_or_app. right. now left.
  - eapply forall2_left; [|exact H]. intros l t [w e cs ss [_ W] [_ C] [_ S'] _ _].
    assert (N10 : forall ds, Forall (fun c => 48 <= c <= 57) ds -> ~ In 10 ds).
    { intros ds F I. rewrite Forall_forall in F. specialize (F _ I). lia. }
    specialize (N10 cs C) as NC. specialize (N10 ss S') as NS. split.
    + rewrite !in_app_iff. cbn [In]. destruct e; intuition discriminate.
    + intros E. apply (f_equal (@length N)) in E. rewrite !app_length in E. cbn [length] in E. lia.
Qed.
Example C59_example : context_all (map (fun c => if 90 <? c then c else c + 32)) true
    (file_of [b "Apple" ++ [9] ++ b "0" ++ [9] ++ b "7" ++ [9] ++ b "1"; b "<Apple>" ++ [9] ++ b "1" ++ [9] ++ b "12" ++ [9] ++ b "300"] false) =
  Some [L (b "apple") false 7 1; L (b "<Apple>") true 12 300].
Proof.
  assert (D : forall t, forallb (fun c => (48 <=? c) && (c <=? 57)) t = true -> t <> [] -> digits t).
  { intros t K Nn. split; auto. rewrite forallb_forall in K. apply Forall_forall. intros c I. specialize (K c I). lia. }
  rewrite (C59_context_file _ true _ [(b "Apple", false, 7, 1); (b "<Apple>", true, 12, 300)]).
  - vm_compute. reflexivity.
  - constructor; [|constructor; [|constructor]].
    + apply (context_ (b "Apple") false (b "7") (b "1")); [split; cbn; intuition discriminate | apply D; [reflexivity | discriminate].. | reflexivity | reflexivity].
    + apply (context_ (b "<Apple>") true (b "12") (b "300")); [split; cbn; intuition discriminate | apply D; [reflexivity | discriminate].. | reflexivity | reflexivity].
  - repeat constructor.
  - intros _. cbn. repeat constructor; discriminate.
Qed.
(* A score above 65535 is not rejected but taken modulo 65536. *)
Theorem C59_score_refuted lower : 
  context_line lower true (b "w" ++ [9] ++ b "1" ++ [9] ++ b "7" ++ [9] ++ b "65537") = Some (L (b "w") true 7 1).
Proof. vm_compute. reflexivity. Qed.
(* In a release build contexts out of order are accepted. *)
Theorem C59_order_refuted lower :
  let f := file_of [b "w" ++ [9] ++ b "1" ++ [9] ++ b "7" ++ [9] ++ b "1"; b "v" ++ [9] ++ b "1" ++ [9] ++ b "5" ++ [9] ++ b "1"] true in
  context_all lower true f = None /\ context_all lower false f = Some [L (b "w") true 7 1; L (b "v") true 5 1].
Proof. split; vm_compute; reflexivity. Qed.
Print Assumptions C57_ntriples_partial.
Print Assumptions C57_escaped_quote_refuted.
Print Assumptions C57_open_literal_refuted.
Print Assumptions C57_dot_refuted.
Print Assumptions C57_comment_refuted.
Print Assumptions C58_tsv.
Print Assumptions C58_missing_fields_refuted.
Print Assumptions C59_context_file.
Print Assumptions C59_score_refuted.
Print Assumptions C59_order_refuted.
