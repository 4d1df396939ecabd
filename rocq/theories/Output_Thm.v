(* Theorems about the output of results (C69). *)
From Coq Require Import String List NArith ZArith Arith Bool Lia ZifyBool ZifyN ZifyNat.
From Verif Require Import Strings_Model Conv_Model Output_Model Output_Spec Output_Proof.
From Verif Require Keys_Proof.
Import ListNotations.
Open Scope N_scope.

(* C69, Json: the rows that LIMIT and OFFSET select, at most as many as were asked for in the request
   (100000 if nothing is said, and without LIMIT), with the values of the selected variables. *)
Theorem C69_json w r sel lt ot send l o m win out : number_given lt l -> number_given ot o ->
  match send with Some s => number_given s (Some m) | None => m = 100000 end -> sel <> [] ->
  let most := N.min (match l with Some n => n | None => 100000 end) m in
  window (Some most) (match o with Some n => n | None => 0 end) (data r) win ->
  Forall2 (fun row => Forall2 (cell w r row) sel) win out ->
  responseJson w r sel lt ot send = Ok out.
Proof.
  intros L O M S most W F. unfold responseJson. rewrite (number_or_given _ _ _ L), (number_or_given _ _ _ O).
  assert (Hm : match send with Some s => atol_size s | None => MAX_NOF_ROWS_IN_RESULT end = m).
  { destruct send as [s|]; [|symmetry; exact M]. inversion M as [|k Hk]; subst. now apply atol_size_decimal. }
  rewrite Hm. apply (json_ok w r sel _ _ win); auto. unfold MAX_NOF_ROWS_IN_RESULT.
  assert (match o with Some n => n | None => 0 end < 2 ^ 63) by (destruct O; auto; lia).
  assert (match l with Some n => n | None => 100000 end < 2 ^ 63) by (destruct L; auto; lia). lia.
Qed.

(* C69, CSV and TSV: the same as lines, without a limit if the query has none.
   Missing: OFFSET without LIMIT. *)
Theorem C69_lines_partial w r sel lt ot sep l o win out : number_given lt l -> number_given ot o -> sel <> [] ->
  N.of_nat (length (data r)) < 2 ^ 63 -> (l = None -> o = None \/ o = Some 0) ->
  window l (match o with Some n => n | None => 0 end) (data r) win ->
  Forall2 (fun row => Forall2 (cell w r row) sel) win out ->
  responseSepValues w r sel lt ot sep = Ok (concat (map (line sep) out)).
Proof.
  intros L O S B C W F. unfold responseSepValues. rewrite (number_or_given _ _ _ L), (number_or_given _ _ _ O). destruct l as [l|].
  - apply (stream_ok w r sel _ _ sep win); auto. assert (match o with Some n => n | None => 0 end < 2 ^ 63) by (destruct O; auto; lia). inversion L. lia.
  - assert (Z : match o with Some n => n | None => 0 end = 0) by (destruct (C eq_refl) as [-> | ->]; reflexivity). rewrite Z in *.
    apply (stream_ok w r sel _ _ sep win); auto; [vm_compute; reflexivity|]. apply window_all; auto. unfold max_size_t. lia.
Qed.

(* The lines can be read back if no value has a separator or a line end in it; unbound and empty
   values are not told apart. *)
Theorem C69_read_back sep xs ys r s : sep <> 10 -> xs <> [] -> length xs = length ys -> Forall (fun x => ~ In sep (field x) /\ ~ In 10 (field x)) (xs ++ ys) ->
  line sep xs ++ r = line sep ys ++ s -> map field xs = map field ys /\ r = s.
Proof.
  intros Hs. assert (Sp : forall (c : N) a b u v, ~ In c a -> ~ In c b -> a ++ c :: u = b ++ c :: v -> a = b /\ u = v).
  { intros c a. induction a as [|x a IH]; intros [|y b] u v Ia Ib E.
    - injection E as <-. auto.
    - injection E as <- _. destruct Ib. now left.
    - injection E as -> _. destruct Ia. now left.
    - injection E as <- E. apply IH in E as [-> ->]; [auto| |]; intros I; [apply Ia|apply Ib]; now right. }
  revert ys. induction xs as [|x xs IH]; intros [|y ys] Hx Len F E; try congruence; [discriminate|]. apply Forall_app in F as [Fx Fy].
  inversion Fx as [|? ? [X1 X2] Fxs]; subst. inversion Fy as [|? ? [Y1 Y2] Fys]; subst. destruct xs as [|x' xs], ys as [|y' ys]; try discriminate.
  - cbn [line] in E. rewrite <- !app_assoc in E. apply Sp in E as [E ->]; auto. cbn [map]. now rewrite E.
  - cbn [line] in E. rewrite <- !app_assoc in E. cbn [app] in E. apply Sp in E as [E0 E]; auto. destruct (IH (y' :: ys)) as [E1 E2]; auto; [discriminate| |].
    + apply Forall_app. split; assumption.
    + cbn [map] in *. rewrite E0, E1. auto.
Qed.

Definition e_world : world := World (fun id => if id =? 3 then Some (bytes "<a>") else if id =? 4 then Some (bytes ":v:float:PP00000000000000000001E420000000000000000000000000000I") else None)
  (fun _ => []) (fun _ => bytes "0.5") [bytes "l0"].
Definition e_result : result := Result [[3; 7]; [4; 8]; [3; 9]; [5; 10]; [3; 11]] [KB; VERBATIM] [(bytes "?x", 0); (bytes "?n", 1)].
Definition e_select : list text := [bytes "?n"; bytes "TEXT(?x)"; bytes "?y"].
Definition e_cells : list (list (option text)) := [[Some (bytes "9"); Some (bytes "<a>"); None]; [Some (bytes "10"); None; None]].
Lemma e_window : window (Some 2) 2 (data e_result) [[3; 9]; [5; 10]].
Proof. intros [|[|k]]; try reflexivity. cbn [nth_error]. replace (nth_error (A:=list N) [] k) with (@None (list N)) by (destruct k; reflexivity). replace (N.of_nat (S (S k)) <? 2) with false by lia. reflexivity. Qed.
Ltac e_cell_x i := apply (ce_column _ e_result _ _ (bytes "?x") [] [(bytes "?n", 1)] 0 KB i _ (se_text (bytes "?x"))); [reflexivity|intros []|reflexivity|reflexivity|].
Lemma e_cells_ok : Forall2 (fun row => Forall2 (cell e_world e_result row) e_select) [[3; 9]; [5; 10]] e_cells.
Proof.
  repeat apply Forall2_cons; try apply Forall2_nil.
  - apply (ce_column _ _ _ _ (bytes "?n") [(bytes "?x", 0)] [] 1 VERBATIM 9); try reflexivity; [apply se_plain; intros t H; discriminate|cbn; intuition discriminate|apply (sh_number e_world 9)].
  - e_cell_x 3. apply sh_word; [reflexivity|intros t H; discriminate].
  - apply (ce_none _ _ _ _ (bytes "?y")); [apply se_plain; intros t H; discriminate|cbn; intuition discriminate].
  - apply (ce_column _ _ _ _ (bytes "?n") [(bytes "?x", 0)] [] 1 VERBATIM 10); try reflexivity; [apply se_plain; intros t H; discriminate|cbn; intuition discriminate|apply (sh_number e_world 10)].
  - e_cell_x 5. apply sh_unbound. reflexivity.
  - apply (ce_none _ _ _ _ (bytes "?y")); [apply se_plain; intros t H; discriminate|cbn; intuition discriminate].
Qed.
Example C69_json_example : number_given (bytes "3") (Some 3) /\ number_given (bytes "2") (Some 2) /\
  responseJson e_world e_result e_select (bytes "3") (bytes "2") (Some (bytes "2")) = Ok e_cells /\
  responseJson e_world e_result [bytes "?x"] (bytes "1") (bytes "1") None = Ok [[Some (bytes """42""^^<http://www.w3.org/2001/XMLSchema#int>")]].
Proof.
  split; [apply (ng_some 3); lia|]. split; [apply (ng_some 2); lia|]. split; [|vm_compute; reflexivity].
  apply (C69_json e_world e_result e_select _ _ _ (Some 3) (Some 2) 2 [[3; 9]; [5; 10]]); [apply (ng_some 3); lia|apply (ng_some 2); lia|apply (ng_some 2); lia|discriminate|exact e_window|exact e_cells_ok].
Qed.
Example C69_lines_example : responseSepValues e_world e_result e_select (bytes "2") (bytes "2") 9 = Ok (bytes "9" ++ [9] ++ bytes "<a>" ++ [9; 10] ++ bytes "10" ++ [9; 9; 10]).
Proof.
  rewrite (C69_lines_partial e_world e_result e_select _ _ 9 (Some 2) (Some 2) [[3; 9]; [5; 10]] e_cells);
    [vm_compute; reflexivity|apply (ng_some 2); lia|apply (ng_some 2); lia|discriminate|vm_compute; reflexivity|discriminate|exact e_window|exact e_cells_ok].
Qed.

(* A CSV or TSV export of a query with OFFSET and without LIMIT is empty, whatever its result is: offset
   plus the greatest number wraps to offset - 1. *)
Theorem C69_offset_refuted w r sel n sep : 0 < n -> n < 2 ^ 63 -> responseSepValues w r sel [] (decimal n) sep = Ok [].
Proof.
  intros H1 H2. unfold responseSepValues. rewrite (number_or_given _ _ _ ng_none), (number_or_given _ _ _ (ng_some n H2)). unfold writeResultToStream.
  destruct (validIndices r sel) as [|v vs]; [reflexivity|]. rewrite row_loop_nil; [reflexivity|]. unfold size_t, max_size_t.
  replace (n + (2 ^ 64 - 1)) with (n - 1 + 1 * 2 ^ 64) by lia. rewrite N.mod_add by lia. rewrite N.mod_small by lia. lia.
Qed.

(* A query without LIMIT gets at most 100000 rows as Json, whatever number of rows the request asks for. *)
Theorem C69_cut_refuted w r sel ot send out : responseJson w r sel [] ot send = Ok out -> (length out <= N.to_nat 100000)%nat.
Proof.
  unfold responseJson, number_or at 1, writeResultAsJson. set (m := match send with Some _ => _ | None => _ end). clearbody m. set (o := number_or 0 ot). clearbody o.
  destruct (validIndices r sel) as [|v vs]; [intros E; injection E as <-; cbn [length]; lia|]. unfold writeJsonTable, rows_between, size_t. intros E.
  assert (L : forall n i l, row_loop (fun i => json_row w r i (v :: vs)) n i = Ok l -> length l = n).
  { induction n as [|n IH]; intros i l H; cbn [row_loop] in H; [injection H as <-; reflexivity|]. destruct (json_row w r i (v :: vs)); try discriminate. cbn [bind] in H.
    destruct (row_loop _ n (i + 1)) as [l'| |] eqn:R; try discriminate. injection H as <-. cbn [length]. f_equal. eauto. }
  apply L in E. rewrite E. assert ((N.min MAX_NOF_ROWS_IN_RESULT m + o) mod 2 ^ 64 <= N.min MAX_NOF_ROWS_IN_RESULT m + o) by (apply N.mod_le; lia).
  assert (N.min MAX_NOF_ROWS_IN_RESULT m <= 100000) by (unfold MAX_NOF_ROWS_IN_RESULT; lia). lia.
Qed.

(* An unbound count (ID_NO_VALUE, Id.h:14), as in an OPTIONAL with a subquery that counts, is shown as a number. *)
Theorem C69_unbound_refuted w a : (forall t, a <> bytes "TEXT(" ++ t) ->
  responseJson w (Result [[2 ^ 64 - 3]] [VERBATIM] [(a, 0)]) [a] [] [] None = Ok [[Some (bytes "18446744073709551613")]].
Proof.
  intros H. unfold responseJson, writeResultAsJson, validIndices. cbn [map columns]. unfold selected_name. rewrite startsWith_false by exact H. cbn [find_column].
  destruct (list_eq_dec N.eq_dec a a); [|congruence]. vm_compute. reflexivity.
Qed.

(* Values with a comma in them are not quoted in CSV exports: two different rows give the same line. *)
Theorem C69_comma_refuted : exists w1 w2 r sel out, responseSepValues w1 r sel [] [] 44 = Ok out /\ responseSepValues w2 r sel [] [] 44 = Ok out /\
  responseJson w1 r sel [] [] None <> responseJson w2 r sel [] [] None.
Proof.
  exists (World (fun _ => None) (fun _ => []) (fun _ => []) [bytes "a,b"; bytes "c"]), (World (fun _ => None) (fun _ => []) (fun _ => []) [bytes "a"; bytes "b,c"]),
    (Result [[0; 1]] [LOCAL_VOCAB; LOCAL_VOCAB] [(bytes "?x", 0); (bytes "?y", 1)]), [bytes "?x"; bytes "?y"], (bytes "a,b,c" ++ [10]).
  split; [vm_compute; reflexivity|]. split; [vm_compute; reflexivity|]. vm_compute. discriminate.
Qed.

Print Assumptions C69_json.
Print Assumptions C69_lines_partial.
Print Assumptions C69_read_back.
Print Assumptions C69_offset_refuted.
Print Assumptions C69_cut_refuted.
Print Assumptions C69_unbound_refuted.
Print Assumptions C69_comma_refuted.
