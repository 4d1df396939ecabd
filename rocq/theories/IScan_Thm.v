(* Property C83: index scans. *)
From Coq Require Import Ascii String List NArith Arith Bool Lia Permutation Sorted.
From Verif Require Strings_Model Conv_Model Serve_Model Serve_Proof Serve_Proof2 Vocab_Spec Perm_Model Perm_Thm Merge_Thm Whole_Spec Collate_Thm Collate_Model Ops_Proof IScan_Spec Plan_Proof5 Plan_Exec Plan_Thm Vocab_Model
  Whole_Proof2 Whole_Proof4 Whole_Proof5 Whole_Thm.
From Verif Require Import Table_Spec Ops_Spec Ops_Model Vars_Model Meta_Model Plan_Model Whole_Model IScan_Model.
Import ListNotations.
Local Open Scope nat_scope.

(* ---- texts ---- *)
Lemma str_bytes s : Serve_Model.str (Conv_Model.bytes s) = s.
Proof. induction s as [|c s IH]; [reflexivity|]. cbn [Conv_Model.bytes Serve_Model.str]. rewrite IH. f_equal. apply Ascii.ascii_N_embedding. Qed.
Lemma setObject_variable o : is_var o = true -> setObject o = Val o.
Proof.
  intros V. unfold setObject, Serve_Model.set_object. destruct o as [|c o]; [discriminate|].
  assert (c = ascii_of_nat 63) as ->. { cbn in V. destruct c as [[] [] [] [] [] [] [] []]; try discriminate; reflexivity. }
  replace (Conv_Model.isXsdValue (Conv_Model.bytes (String (ascii_of_nat 63) o))) with false; [now rewrite str_bytes|].
  unfold Conv_Model.isXsdValue. cbn [Conv_Model.bytes]. destruct (Conv_Model.rfind _ _); reflexivity.
Qed.

(* the translated object is a variable only if the object is *)
Definition starts_with (c : N) (w : list N) : Prop := exists r, w = c :: r.
Lemma float_start value k t w : Conv_Model.float_index_word value k t = Conv_Model.Ok w -> starts_with 58 w.
Proof.
  unfold Conv_Model.float_index_word. intros E.
  repeat (destruct (list_eq_dec _ _ _) in E; [injection E as <-; eexists; reflexivity|]). destruct (Nat.ltb _ _) in E; [|discriminate].
  injection E as <-. eexists. reflexivity.
Qed.
Lemma float_string_start value t w : Conv_Model.convertFloatStringToIndexWord value t = Conv_Model.Ok w -> starts_with 58 w.
Proof.
  unfold Conv_Model.convertFloatStringToIndexWord. intros E. destruct (Strings_Model.find_char _ _) in E; [now apply float_start in E|].
  destruct (Strings_Model.find_char _ _) in E; [now apply float_start in E|discriminate].
Qed.
Lemma date_start value w : Conv_Model.convertDateToIndexWord value = Conv_Model.Ok w -> starts_with 58 w.
Proof.
  unfold Conv_Model.convertDateToIndexWord, Conv_Model.normalizeDate. intros E.
  destruct (Conv_Model.time_of _ _) as [[h m] s] in E. destruct (Conv_Model.day_of _ _) as [[y n] d] in E.
  destruct (Nat.ltb _ _) in E; [discriminate|]. cbn [Conv_Model.bind] in E. injection E as <-. eexists. reflexivity.
Qed.
Lemma convert_start o w : Conv_Model.convertValueLiteralToIndexWord o = Conv_Model.Ok w -> starts_with 58 w \/ starts_with 34 w.
Proof.
  unfold Conv_Model.convertValueLiteralToIndexWord. intros E.
  assert (exists r, o = 34%N :: r) as (r & ->).
  { destruct o as [|c o]; [discriminate|]. destruct (N.eq_dec c 34) as [->|N]; [eauto|]. exfalso.
    destruct c as [|[[]|[[]|[]|]|]]; try discriminate; try lia; (repeat match goal with p : positive |- _ => destruct p; try discriminate; try lia end). }
  destruct (Conv_Model.rfind _ _) in E; [|discriminate]. destruct (Conv_Model.literal_type _) as [ty| |] in E; try discriminate. cbn [Conv_Model.bind] in E.
  destruct (_ || _ || _ || _) in E; [left; eapply date_start; eauto|]. destruct (_ || _) in E; [left; eapply float_string_start; eauto|].
  repeat (destruct (Conv_Model.is _ _) in E; [left; eapply float_string_start; eauto|]). injection E as <-. right. eexists. reflexivity.
Qed.
Lemma setObject_kind o w : setObject o = Val w -> is_var w = is_var o.
Proof.
  unfold setObject, Serve_Model.set_object. destruct (Conv_Model.isXsdValue _) eqn:X.
  - intros E. replace (is_var o) with false.
    + destruct (Conv_Model.convertValueLiteralToIndexWord _) as [u| |] eqn:C; try discriminate. injection E as <-.
      apply convert_start in C as [(r & ->)|(r & ->)]; reflexivity.
    + symmetry. destruct (is_var o) eqn:V; [|reflexivity]. exfalso. clear E. destruct o as [|c o]; [discriminate|].
      assert (c = ascii_of_nat 63) as ->. { cbn in V. destruct c as [[] [] [] [] [] [] [] []]; try discriminate; reflexivity. }
      unfold Conv_Model.isXsdValue in X. cbn [Conv_Model.bytes] in X. destruct (Conv_Model.rfind _ _) in X; discriminate.
  - rewrite str_bytes. congruence.
Qed.

(* ---- the planner's scans ---- *)
(* the permutation and the keys of a scan *)
Definition order_of (ty : scan_type) : order :=
  match ty with
  | PSO_BOUND_S | PSO_FREE_S | FULL_INDEX_SCAN_PSO => PSO
  | POS_BOUND_O | POS_FREE_O | FULL_INDEX_SCAN_POS => POS
  | SPO_FREE_P | FULL_INDEX_SCAN_SPO => SPO
  | SOP_BOUND_O | SOP_FREE_O | FULL_INDEX_SCAN_SOP => SOP
  | OPS_FREE_P | FULL_INDEX_SCAN_OPS => OPS
  | OSP_FREE_S | FULL_INDEX_SCAN_OSP => OSP
  end.
Definition keys_of (x : index_scan_op) : list string :=
  match i_type x with
  | PSO_BOUND_S => [i_predicate x; i_subject x]
  | POS_BOUND_O => [i_predicate x; i_object x]
  | SOP_BOUND_O => [i_subject x; i_object x]
  | PSO_FREE_S | POS_FREE_O => [i_predicate x]
  | SPO_FREE_P | SOP_FREE_O => [i_subject x]
  | OPS_FREE_P | OSP_FREE_S => [i_object x]
  | _ => []
  end.
Definition scan_of (sd : seed) : tree := Scan (order_of (i_type (sd_scan sd))) (keys_of (sd_scan sd)) (map fst (sd_vars sd)).
Definition tree_of (sd : seed) : tree := match sd_filter sd with Some (a, b) => EqFilter (scan_of sd) a b | None => scan_of sd end.

Lemma names_one a : map fst (columns [a]) = [a].
Proof. reflexivity. Qed.
Lemma columns_two a b : a <> b -> columns [a; b] = [(a, 0); (b, 1)].
Proof. intros H. unfold columns. cbn. destruct (String.eqb_spec a b); [contradiction|reflexivity]. Qed.
Lemma columns_three a b c : a <> b -> a <> c -> b <> c -> columns [a; b; c] = [(a, 0); (b, 1); (c, 2)].
Proof.
  intros H1 H2 H3. unfold columns. cbn. destruct (String.eqb_spec a b); [contradiction|]. cbn. destruct (String.eqb_spec a c); [contradiction|].
  destruct (String.eqb_spec b c); [contradiction|reflexivity].
Qed.

(* the variables of a triple *)
Lemma two_variables t : length (triple_vars t) = 2 ->
  (is_var (t_p t) = false -> is_var (t_s t) = true /\ is_var (t_o t) = true /\ t_s t <> t_o t) /\
  (is_var (t_s t) = false -> is_var (t_p t) = true /\ is_var (t_o t) = true /\ t_p t <> t_o t) /\
  (is_var (t_o t) = false -> is_var (t_s t) = true /\ is_var (t_p t) = true /\ t_s t <> t_p t).
Proof.
  destruct t as [s p o]. unfold triple_vars. cbn [t_s t_p t_o filter].
  destruct (is_var s), (is_var p), (is_var o); cbn [nodup length]; repeat (destruct (in_dec _ _ _) as [?I|?I]; cbn [In nodup length] in * );
    intros L; try discriminate; repeat split; intros; try discriminate; try congruence; intros ->; tauto.
Qed.
Lemma three_variables t : 3 <= length (triple_vars t) ->
  is_var (t_s t) = true /\ is_var (t_p t) = true /\ is_var (t_o t) = true /\ t_s t <> t_p t /\ t_s t <> t_o t /\ t_p t <> t_o t.
Proof.
  destruct t as [s p o]. unfold triple_vars. cbn [t_s t_p t_o filter].
  destruct (is_var s), (is_var p), (is_var o); cbn [nodup length]; repeat (destruct (in_dec _ _ _) as [?I|?I]; cbn [In nodup length] in * );
    intros L; try lia; repeat split; intros ->; tauto.
Qed.
Lemma vars_object s p o w : is_var w = is_var o -> (is_var o = true -> w = o) -> length (triple_vars (T s p w)) = length (triple_vars (T s p o)).
Proof.
  intros V E. destruct (is_var o) eqn:VO; [now rewrite E|]. unfold triple_vars. cbn [t_s t_p t_o filter]. now rewrite V, VO.
Qed.
Definition obind {A B} (x : outcome A) (f : A -> outcome B) : outcome B := Meta_Model.bind x f.

(* The scans that the planner makes for a triple are those of the planner's model (C56, C61, C79): in particular the
   object of a scan is the translated one, and the key of a scan comes from the positions that its type names. *)
Theorem C83_planner allp fr t w : setObject (t_o t) = Val w -> is_var fr = true -> fr <> t_s t ->
  seeds_of allp fr (T (t_s t) (t_p t) w) = bind (scan_seeds allp fr t) (fun l => Val (map tree_of l)).
Proof.
  intros SO VF NF. assert (V := setObject_kind _ _ SO). assert (VO : is_var (t_o t) = true -> w = t_o t).
  { intros X. rewrite (setObject_variable _ X) in SO. congruence. }
  assert (LV : length (triple_vars (T (t_s t) (t_p t) w)) = length (triple_vars t)).
  { destruct t as [s p o]. apply vars_object; auto. }
  unfold seeds_of, scan_seeds. rewrite LV. cbn [t_s t_p t_o]. assert (T2 := two_variables t). assert (T3 := three_variables t).
  destruct (length (triple_vars t)) as [|[|[|k]]].
  - reflexivity.
  - unfold one_seed, make_scan. rewrite V, SO. cbn [bind].
    replace (is_var (t_s t) && is_var (t_o t) && (t_s t =? w)%string) with (is_var (t_s t) && is_var (t_o t) && (t_s t =? t_o t)%string).
    2: { destruct (is_var (t_o t)) eqn:X; [now rewrite VO|]. now rewrite !andb_false_r. }
    destruct (is_var (t_s t) && is_var (t_o t) && (t_s t =? t_o t)%string) eqn:Q.
    + destruct (is_var (t_p t)); [reflexivity|]. rewrite (setObject_variable _ VF). cbn [bind map]. unfold tree_of, scan_of. cbn [sd_filter sd_scan sd_vars i_type order_of keys_of i_predicate].
      rewrite columns_two by auto. reflexivity.
    + destruct (is_var (t_s t)); [reflexivity|]. destruct (is_var (t_o t)) eqn:X; [|reflexivity]. now rewrite (VO eq_refl).
  - destruct (T2 eq_refl) as (A & B & C). clear T2 T3. unfold two_seeds, one_seed, make_scan. rewrite V, SO. cbn [bind app map].
    destruct (is_var (t_p t)); cbn [negb].
    + destruct (is_var (t_s t)); cbn [negb].
      * destruct (is_var (t_o t)); cbn [negb]; [reflexivity|]. destruct (C eq_refl) as (_ & _ & D). unfold tree_of, scan_of.
        cbn [sd_filter sd_scan sd_vars i_type order_of keys_of i_object]. now rewrite !columns_two by auto.
      * destruct (B eq_refl) as (_ & O & D). rewrite (VO O) in *. unfold tree_of, scan_of.
        cbn [sd_filter sd_scan sd_vars i_type order_of keys_of i_subject]. now rewrite !columns_two by auto.
    + destruct (A eq_refl) as (_ & O & D). rewrite (VO O) in *. unfold tree_of, scan_of.
      cbn [sd_filter sd_scan sd_vars i_type order_of keys_of i_predicate]. now rewrite !columns_two by auto.
  - destruct (T3 ltac:(lia)) as (A & B & C & D & E & F). rewrite (VO C). destruct allp; [|reflexivity]. cbn [bind map]. unfold tree_of, scan_of.
    cbn [sd_filter sd_scan sd_vars i_type order_of keys_of]. rewrite !columns_three by auto. reflexivity.
Qed.

(* the seeds of a triple, by cases *)
Lemma seed_cases allp fr t l sd : scan_seeds allp fr t = Val l -> In sd l -> NoDup (filter is_var [t_s t; t_p t; t_o t]) -> 
  (exists w, setObject (t_o t) = Val w /\ sd_filter sd = None /\
    let s := t_s t in let p := t_p t in let o := t_o t in
    let made ty vs := sd_scan sd = IScan ty s p w /\ sd_vars sd = columns vs in
    (is_var s = true /\ is_var p = false /\ is_var o = false /\ made POS_BOUND_O [s]) \/
    (is_var s = false /\ is_var p = false /\ is_var o = true /\ made PSO_BOUND_S [o]) \/
    (is_var s = false /\ is_var p = true /\ is_var o = false /\ made SOP_BOUND_O [p]) \/
    (is_var s = true /\ is_var p = false /\ is_var o = true /\ s <> o /\ (made PSO_FREE_S [s; o] \/ made POS_FREE_O [o; s])) \/
    (is_var s = false /\ is_var p = true /\ is_var o = true /\ p <> o /\ (made SPO_FREE_P [p; o] \/ made SOP_FREE_O [o; p])) \/
    (is_var s = true /\ is_var p = true /\ is_var o = false /\ s <> p /\ (made OSP_FREE_S [s; p] \/ made OPS_FREE_P [p; s]))) \/
  (is_var (t_s t) = true /\ is_var (t_p t) = true /\ is_var (t_o t) = true).
Proof.
  intros E I ND. assert (NV : length (triple_vars t) = length (filter is_var [t_s t; t_p t; t_o t])).
  { unfold triple_vars. now rewrite nodup_fixed_point. }
  unfold scan_seeds in E. rewrite NV in E. clear NV. destruct t as [s p o]. cbn [t_s t_p t_o] in *.
  unfold two_seeds, one_seed, make_scan in E.
  destruct (is_var s) eqn:VS, (is_var p) eqn:VP, (is_var o) eqn:VO; cbn [filter] in E, ND; rewrite ?VS, ?VP, ?VO in *;
    cbn [length andb negb] in E; try discriminate; [right; auto|..]; left.
  all: destruct (setObject o) as [w| | |] eqn:SO; cbn [bind app] in E; try discriminate; exists w.
  all: assert (ND2 : forall a b : string, NoDup [a; b] -> a <> b)
    by (intros a b N; inversion N as [|? ? N1 _]; subst; intros ->; apply N1; now left).
  all: injection E as <-; cbn [In] in I.
  all: repeat (destruct I as [<-|I] || destruct I); split; auto; split; auto; cbn [sd_scan sd_vars].
  all: first [left; now auto | right; left; now auto | right; right; left; now auto
    | solve [right; right; right; left; repeat split; auto] | solve [right; right; right; right; left; repeat split; auto]
    | solve [right; right; right; right; right; repeat split; auto]].
Qed.

Lemma seed_ok o sd vs : sd_vars sd = columns vs -> NoDup vs -> length vs = getResultWidth (sd_scan sd) ->
  vars o (tree_of sd) = sd_vars sd /\ width_of (tree_of sd) = getResultWidth (sd_scan sd) /\ sorted_of (tree_of sd) = resultSortedOn (sd_scan sd).
Proof.
  intros V ND L. assert (N : map fst (columns vs) = vs /\ sorted_of (scan_of sd) = seq 0 (length (map fst (columns vs))) /\
    resultSortedOn (sd_scan sd) = seq 0 (length vs)).
  { unfold scan_of. rewrite V. split; [|split; [reflexivity|rewrite L; unfold resultSortedOn, getResultWidth; now destruct (i_type _)]].
    assert (B : length vs <= 3) by (rewrite L; unfold getResultWidth; destruct (i_type _); lia).
    destruct vs as [|a [|b [|c [|]]]]; cbn [length] in B; try lia; try reflexivity.
    - inversion ND as [|? ? N1 _]; subst. rewrite columns_two; [reflexivity|]. intros ->. apply N1. now left.
    - inversion ND as [|? ? N1 ND2]; subst. inversion ND2 as [|? ? N2 _]; subst.
      rewrite columns_three; [reflexivity|intros ->; apply N1; now left|intros ->; apply N1; right; now left|intros ->; apply N2; now left]. }
  destruct N as (N1 & N2 & N3).
  assert (X : vars o (scan_of sd) = sd_vars sd /\ width_of (scan_of sd) = getResultWidth (sd_scan sd) /\ sorted_of (scan_of sd) = resultSortedOn (sd_scan sd)).
  { split; [|split].
    - unfold scan_of. cbn [vars]. rewrite V, N1. reflexivity.
    - unfold scan_of. cbn [width_of]. rewrite V, N1. exact L.
    - rewrite N2, N3, N1. reflexivity. }
  unfold tree_of. destruct (sd_filter sd) as [[a b]|]; exact X.
Qed.
Lemma nodup_two (a b : string) : a <> b -> NoDup [a; b].
Proof. intros N. constructor; [intros [E|[]]; congruence|]. constructor; [intros []|constructor]. Qed.

(* A scan of the planner's model has the variables, the width, the sorting and the rows of the operation. *)
Theorem C83_faithful o allp fr t l sd : scan_seeds allp fr t = Val l -> In sd l -> fr <> t_s t ->
  vars o (tree_of sd) = sd_vars sd /\ width_of (tree_of sd) = getResultWidth (sd_scan sd) /\
  sorted_of (tree_of sd) = resultSortedOn (sd_scan sd) /\
  (forall v ix, obind (computeResult v ix (sd_scan sd)) (fun r => Ok (r_data r)) =
    index_scan v ix (order_of (i_type (sd_scan sd))) (keys_of (sd_scan sd))).
Proof.
  intros E I NF.
  assert (D : forall v ix x, obind (computeResult v ix x) (fun r => Ok (r_data r)) = index_scan v ix (order_of (i_type x)) (keys_of x)).
  { intros v ix [ty a b c]. unfold computeResult, keys_of, obind, scan_one, scan_two. cbn [i_type i_subject i_predicate i_object].
    destruct ty; cbn [order_of]; try reflexivity; now destruct (index_scan _ _ _ _). }
  assert (exists vs, sd_vars sd = columns vs /\ NoDup vs /\ length vs = getResultWidth (sd_scan sd)) as (vs & V1 & V2 & V3).
  2: { destruct (seed_ok o sd vs V1 V2 V3) as (A & B & C). auto. }
  clear D. unfold scan_seeds in E. assert (T2 := two_variables t). assert (T3 := three_variables t).
  assert (ND1 : forall a : string, NoDup [a]) by (intros a; constructor; [intros []|constructor]).
  destruct (length (triple_vars t)) as [|[|[|k]]]; try discriminate.
  - destruct (_ && _ && _) in E.
    + destruct (is_var (t_p t)) in E; [discriminate|]. unfold make_scan in E. destruct (setObject fr) in E; try discriminate. cbn [bind] in E.
      injection E as <-. destruct I as [<-|[]]. exists [t_s t; fr]. split; [reflexivity|]. split; [now apply nodup_two; auto|reflexivity].
    + unfold one_seed, make_scan in E. destruct (setObject _) in E; cbn [bind] in E;
        (destruct (is_var (t_s t)) in E; [|destruct (is_var (t_o t)) in E]); try discriminate; injection E as <-;
        destruct I as [<-|[]]; (eexists [_]); (split; [reflexivity|split; [apply ND1|reflexivity]]).
  - destruct (T2 eq_refl) as (A & B & C). clear T2 T3. unfold two_seeds, one_seed, make_scan in E.
    assert (S : forall a b : string, a <> b -> NoDup [a; b] /\ NoDup [b; a]) by (intros; split; apply nodup_two; auto).
    destruct (is_var (t_p t)) in E, A, B, C; [destruct (is_var (t_s t)) in E, A, B, C; [destruct (is_var (t_o t)) in E, A, B, C|]|]; cbn [negb] in E.
    + injection E as <-. destruct I.
    + destruct (C eq_refl) as (_ & _ & N). destruct (S _ _ N). destruct (setObject _) in E; cbn [bind app] in E; try discriminate. injection E as <-.
      destruct I as [<-|[<-|[]]]; (eexists [_; _]); (split; [reflexivity|split; [assumption|reflexivity]]).
    + destruct (B eq_refl) as (_ & _ & N). destruct (S _ _ N). destruct (setObject _) in E; cbn [bind app] in E; try discriminate. injection E as <-.
      destruct I as [<-|[<-|[]]]; (eexists [_; _]); (split; [reflexivity|split; [assumption|reflexivity]]).
    + destruct (A eq_refl) as (_ & _ & N). destruct (S _ _ N). destruct (setObject _) in E; cbn [bind app] in E; try discriminate. injection E as <-.
      destruct I as [<-|[<-|[]]]; (eexists [_; _]); (split; [reflexivity|split; [assumption|reflexivity]]).
  - destruct (T3 ltac:(lia)) as (_ & _ & _ & N1 & N2 & N3). destruct allp; [|discriminate]. injection E as <-.
    assert (S : forall a b c : string, a <> b -> a <> c -> b <> c -> NoDup [a; b; c]).
    { intros a b c H1 H2 H3. constructor; [intros [X|[X|[]]]; congruence|now apply nodup_two]. }
    repeat (destruct I as [<-|I]); [..|destruct I]; (eexists [_; _; _]); (split; [reflexivity|split; [apply S; auto|reflexivity]]).
Qed.

(* The variable columns that the operation itself gives are those that the planner sets, if the scan is not one of the
   full index and no filter is added. *)
Theorem C83_columns allp fr t l sd : scan_seeds allp fr t = Val l -> In sd l -> NoDup (filter is_var [t_s t; t_p t; t_o t]) ->
  filter is_var [t_s t; t_p t; t_o t] <> [t_s t; t_p t; t_o t] -> getVariableColumns (sd_scan sd) = sd_vars sd.
Proof.
  intros E I ND NF. destruct (seed_cases _ _ _ _ _ E I ND) as [(w & SO & _ & H)|(A & B & C)].
  2: { exfalso. apply NF. cbn [filter]. now rewrite A, B, C. }
  assert (K := setObject_kind _ _ SO). assert (VW : is_var (t_o t) = true -> w = t_o t).
  { intros X. rewrite (setObject_variable _ X) in SO. congruence. }
  cbv zeta in H. destruct t as [s p o]. cbn [t_s t_p t_o] in *. clear E I ND NF SO.
  assert (S : forall a b, a <> b -> var_set (var_set [] a 0) b 1 = columns [a; b]) by reflexivity.
  destruct H as [H|[H|[H|[H|[H|H]]]]]; destruct H as (V1 & V2 & V3 & H).
  1-3: destruct H as [-> ->].
  4-6: destruct H as [NE [[-> ->]|[-> ->]]].
  all: cbv [getVariableColumns put3 put i_type i_subject i_predicate i_object]; rewrite V1, V2, K, V3; cbn [fst snd]; try rewrite (VW V3); reflexivity.
Qed.

(* Scans of the full index are made without subject, predicate and object, so that the operation says that its result,
   which is three columns wide, has no variables. *)
Theorem C83_full_columns_refuted : ~ (forall allp fr t l sd, scan_seeds allp fr t = Val l -> In sd l ->
  length (getVariableColumns (sd_scan sd)) = getResultWidth (sd_scan sd)).
Proof.
  intros H. set (t := T "?a" "?b" "?c").
  destruct (scan_seeds true "?d" t) as [l| | |] eqn:E; try (vm_compute in E; discriminate).
  assert (I : In (Seed (IScan FULL_INDEX_SCAN_SPO "" "" "") (columns ["?a"; "?b"; "?c"]%string) None) l).
  { vm_compute in E. injection E as <-. left. reflexivity. }
  assert (X := H _ _ _ _ _ E I). vm_compute in X. discriminate.
Qed.

(* ---- what the scans find ---- *)
Lemma find_one a : var_find (columns [a]) a = Some 0.
Proof. unfold columns, var_find. cbn [values_vars var_set find fst snd]. now rewrite String.eqb_refl. Qed.
Lemma find_two a b : a <> b -> var_find (columns [a; b]) a = Some 0 /\ var_find (columns [a; b]) b = Some 1.
Proof.
  intros N. rewrite columns_two by exact N. unfold var_find. cbn [find fst snd]. rewrite !String.eqb_refl.
  destruct (String.eqb_spec a b); [contradiction|]. split; reflexivity.
Qed.
(* the rest of a fact behind the keys of a scan is the row for the fact *)
Lemma rest_row s p w (x y z : list N) ty vs r :
  (is_var s = true /\ is_var p = false /\ is_var w = false /\ ty = POS_BOUND_O /\ vs = [s]) \/
  (is_var s = false /\ is_var p = false /\ is_var w = true /\ ty = PSO_BOUND_S /\ vs = [w]) \/
  (is_var s = false /\ is_var p = true /\ is_var w = false /\ ty = SOP_BOUND_O /\ vs = [p]) \/
  (is_var s = true /\ is_var p = false /\ is_var w = true /\ s <> w /\ (ty = PSO_FREE_S /\ vs = [s; w] \/ ty = POS_FREE_O /\ vs = [w; s])) \/
  (is_var s = false /\ is_var p = true /\ is_var w = true /\ p <> w /\ (ty = SPO_FREE_P /\ vs = [p; w] \/ ty = SOP_FREE_O /\ vs = [w; p])) \/
  (is_var s = true /\ is_var p = true /\ is_var w = false /\ s <> p /\ (ty = OSP_FREE_S /\ vs = [s; p] \/ ty = OPS_FREE_P /\ vs = [p; s])) ->
  (Whole_Spec.arranged (Whole_Thm.positions (order_of ty)) (x, y, z) = map Conv_Model.bytes (keys_of (IScan ty s p w)) ++ r <->
   IScan_Spec.met is_var Conv_Model.bytes (s, p, w) (x, y, z) /\ IScan_Spec.row_for is_var (var_find (columns vs)) (s, p, w) (x, y, z) r).
Proof.
  intros H. unfold IScan_Spec.met, IScan_Spec.row_for, IScan_Spec.variables, IScan_Spec.places.
  assert (P : forall (Q : string -> list N -> Prop), (forall u v, In (u, v) [(s, x); (p, y); (w, z)] -> Q u v) <-> Q s x /\ Q p y /\ Q w z).
  { intros Q. split; [intros X; repeat split; apply X; cbn; auto|].
    intros (X1 & X2 & X3) u v [X|[X|[X|[]]]]; injection X as <- <-; assumption. }
  rewrite (P (fun u v => is_var u = false -> Conv_Model.bytes u = v)).
  rewrite (P (fun u v => is_var u = true -> exists c, var_find (columns vs) u = Some c /\ nth_error r c = Some v)). clear P.
  destruct H as [H|[H|[H|[H|[H|H]]]]]; destruct H as (V1 & V2 & V3 & H).
  1-3: destruct H as [-> ->].
  4-6: destruct H as [NE [[-> ->]|[-> ->]]].
  all: cbn [filter order_of Whole_Thm.positions Whole_Spec.arranged map nth keys_of i_type i_subject i_predicate i_object app];
    rewrite ?V1, ?V2, ?V3; cbn [length].
  all: repeat match goal with
    | |- context [columns [?a]] => rewrite (find_one a)
    | |- context [columns [?a; ?b]] => let N := fresh in assert (N : a <> b) by congruence; let F1 := fresh in let F2 := fresh in
        destruct (find_two a b N) as [F1 F2]; rewrite F1, F2; clear F1 F2 N
    end.
  all: split;
    [intros E; injection E as; subst; split; [repeat split; intros; try discriminate; auto
       |split; [reflexivity|repeat split; intros; try discriminate; eexists; split; reflexivity]]
    |intros [(M1 & M2 & M3) [L (R1 & R2 & R3)]]].
  all: repeat match goal with H : false = false -> _ |- _ => specialize (H eq_refl) | H : true = true -> _ |- _ => specialize (H eq_refl) as (? & ? & ?) end.
  all: destruct r as [|r1 [|r2 [|]]]; cbn [length] in L; try discriminate.
  all: repeat match goal with H : Some _ = Some _ |- _ => injection H as <- end; cbn [nth_error] in *;
    repeat match goal with H : Some _ = Some _ |- _ => injection H as H end; subst; reflexivity.
Qed.

Section Scans.
Variable loc : Collate_Model.icu.
Variable numMaps : nat.
Variable linesPerPartial : N.
Variable bufferSize : nat.
Variable parts : list (list (nat * (list N * (list N * list N * list N)))).
Variables per thr : nat.
Variable logmult : N -> N -> N.
Variable sort2 : list (N * N) -> list (N * N).
Variable sort3 : (N * N * N -> N * N * N) -> list (N * N * N) -> list (N * N * N).
Variable prefixes : list (list N).
Variable ix : Perm_Model.index.
Variable v : vocabulary.
Hypothesis Hin : Merge_Thm.input_ok loc numMaps linesPerPartial parts.
Hypothesis Hmark : Whole_Proof5.marked (v_externalize v) parts.
Hypothesis Hpre : Forall Vocab_Spec.no_newline prefixes.
Hypothesis Hper : 0 < per.
Hypothesis Hlog : forall a b, (logmult a b < 256)%N.
Hypothesis Hsorts : Perm_Thm.sorts sort2 sort3.
Hypothesis Hbuilt : index_built loc numMaps linesPerPartial bufferSize parts per thr logmult sort2 sort3 prefixes ix v.
Hypothesis Honce : Whole_Proof5.once_on_disk (v_external v).
Hypothesis Hsize : (N.of_nat (length (v_words v) + length (Vocab_Model.ext_file (v_external v))) < 2 ^ 63)%N.
Hypothesis Hfew : (N.of_nat (length (Merge_Thm.all_triples parts)) < 2 ^ 40)%N.

(* The result of a scan for a triple: it is as wide and sorted as the operation says; its rows are, as words, those for
   the facts of the input that have the constants of the triple in their places, each once; and the word at the place of a
   variable is in the column that the planner set for the variable. *)
Theorem C83_scan allp fr t w l sd res : setObject (t_o t) = Val w -> scan_seeds allp fr t = Val l -> In sd l ->
  NoDup (filter is_var [t_s t; t_p t; t_o t]) -> computeResult v ix (sd_scan sd) = Ok res ->
  r_cols res = getResultWidth (sd_scan sd) /\ r_types res = repeat KB (r_cols res) /\ r_sortedBy res = resultSortedOn (sd_scan sd) /\
  width (r_cols res) (r_data res) /\ sorted_lex (r_sortedBy res) (r_data res) /\
  exists rows, map (map (Whole_Thm.shows v)) (r_data res) = map (map Vocab_Model.Word) rows /\
    Whole_Spec.lists rows (fun r => exists f, In f (Whole_Proof5.facts_of parts) /\ IScan_Spec.met is_var Conv_Model.bytes (t_s t, t_p t, w) f /\
      IScan_Spec.row_for is_var (var_find (sd_vars sd)) (t_s t, t_p t, w) f r).
Proof using Hin Hmark Hpre Hper Hlog Hsorts Hbuilt Honce Hsize Hfew.
  intros SO E I ND C.
  assert (R : exists tab, index_scan v ix (order_of (i_type (sd_scan sd))) (keys_of (sd_scan sd)) = Ok tab /\
    res = ResultTable (getResultWidth (sd_scan sd)) (repeat KB (getResultWidth (sd_scan sd))) (resultSortedOn (sd_scan sd)) tab /\
    length (keys_of (sd_scan sd)) + getResultWidth (sd_scan sd) = 3 /\ resultSortedOn (sd_scan sd) = seq 0 (getResultWidth (sd_scan sd))).
  { clear - C. destruct (sd_scan sd) as [ty a b c]. unfold computeResult, scan_one, scan_two in C. unfold getResultWidth, resultSortedOn, keys_of.
    cbn [i_type i_subject i_predicate i_object] in *.
    destruct ty; cbn [order_of]; try discriminate; (destruct (index_scan _ _ _ _) as [tab| |]; [|discriminate|discriminate]); cbn [Meta_Model.bind] in C;
      injection C as <-; exists tab; repeat split; reflexivity. }
  destruct R as (tab & ET & -> & L3 & SR). cbn [r_cols r_types r_sortedBy r_data].
  split; [reflexivity|]. split; [reflexivity|]. split; [reflexivity|].
  assert (WS : width (getResultWidth (sd_scan sd)) tab /\ sorted_lex (resultSortedOn (sd_scan sd)) tab).
  { destruct (Whole_Proof5.built_ok loc numMaps linesPerPartial bufferSize parts per thr logmult sort2 sort3 prefixes ix v Hin Hmark Hpre Hbuilt Honce Hsize Hfew)
      as (disk & ids & WF & NDW & F & OK & CI & _).
    assert (Hvoc : forall t id, id_of v t = Ok (Some id) -> (id < N.of_nat (length (v_words v ++ disk)))%N).
    { intros t0 id H. apply (Whole_Proof4.id_low v disk WF) in H. unfold Whole_Proof4.low in H. lia. }
    apply (Whole_Proof2.index_scan_sound per thr logmult sort2 sort3 Hper Hlog Hsorts _ _ OK ix CI v Hvoc) in ET. subst tab. rewrite SR.
    destruct (Plan_Exec.ix_of_ok (nodup Perm_Thm.triple_dec ids) (order_of (i_type (sd_scan sd)))) as [PX SX].
    apply Plan_Proof5.scan_sorted; [|exact SX|exact L3].
    unfold width. apply Forall_forall. intros r Hr. eapply Permutation_in in Hr; [|exact PX]. apply in_map_iff in Hr as ([[a b] c] & <- & _).
    now destruct (order_of _). }
  split; [apply WS|]. split; [apply WS|].
  destruct (Whole_Thm.C79_scan loc numMaps linesPerPartial bufferSize parts per thr logmult sort2 sort3 prefixes ix v Hin Hmark Hpre Hper Hlog Hsorts Hbuilt
    Honce Hsize Hfew _ _ _ ET) as (rows & ER & NR & IR).
  exists rows. split; [exact ER|]. split; [exact NR|]. intros r. rewrite IR.
  destruct (seed_cases _ _ _ _ _ E I ND) as [(w' & SO' & _ & H)|(A & B & D)].
  2: { exfalso. clear - E I ND A B D C. unfold scan_seeds in E. cbn [filter] in ND. rewrite A, B, D in ND.
    unfold triple_vars in E. cbn [filter] in E. rewrite A, B, D, nodup_fixed_point in E by exact ND. cbn [length] in E. destruct allp; [|discriminate].
    injection E as <-. repeat (destruct I as [<-|I]; [discriminate|]). destruct I. }
  rewrite SO in SO'. injection SO' as <-. cbv zeta in H. assert (K := setObject_kind _ _ SO).
  assert (VW : is_var (t_o t) = true -> w = t_o t).
  { intros X. rewrite (setObject_variable _ X) in SO. congruence. }
  assert (X : exists ty vs, sd_scan sd = IScan ty (t_s t) (t_p t) w /\ sd_vars sd = columns vs /\
    forall x y z, Whole_Spec.arranged (Whole_Thm.positions (order_of ty)) (x, y, z) = map Conv_Model.bytes (keys_of (IScan ty (t_s t) (t_p t) w)) ++ r <->
    IScan_Spec.met is_var Conv_Model.bytes (t_s t, t_p t, w) (x, y, z) /\ IScan_Spec.row_for is_var (var_find (columns vs)) (t_s t, t_p t, w) (x, y, z) r).
  { clear - H K VW. destruct H as [H|[H|[H|[H|[H|H]]]]]; destruct H as (V1 & V2 & V3 & H).
    1-3: destruct H as [-> ->].
    4-6: destruct H as [NE [[-> ->]|[-> ->]]].
    all: rewrite V3 in K; try rewrite <- (VW V3) in *.
    all: do 2 eexists; split; [reflexivity|]; split; [reflexivity|]; intros x y z; apply rest_row; tauto. }
  destruct X as (ty & vs & -> & -> & X). split.
  - intros ([[x y] z] & If & Ef). exists (x, y, z). split; [exact If|]. now apply X.
  - intros ([[x y] z] & If & Ef). exists (x, y, z). split; [exact If|]. now apply X.
Qed.
End Scans.
Print Assumptions C83_planner.
Print Assumptions C83_faithful.
Print Assumptions C83_columns.
Print Assumptions C83_full_columns_refuted.
Print Assumptions C83_scan.

(* ---- an example: the triples with <p>, and the subjects of the triples with <p> and <c> ---- *)
Definition e_one : triple := T "?x" "<p>" "<c>".
Definition e_two : triple := T "?x" "<p>" "?y".
Definition e_seed_one : seed := Seed (IScan POS_BOUND_O "?x" "<p>" "<c>") [("?x"%string, 0)] None.
Definition e_seed_two : seed := Seed (IScan POS_FREE_O "?x" "<p>" "?y") [("?y"%string, 0); ("?x"%string, 1)] None.
Example C83_example : exists ix,
  Merge_Thm.input_ok Collate_Thm.example_icu 4 3 Whole_Thm.e_parts /\ Whole_Proof5.marked (v_externalize Whole_Thm.e_voc) Whole_Thm.e_parts /\
  Perm_Thm.sorts (Ops_Proof.sort_by Perm_Model.pair_less) Perm_Thm.ex_sort3 /\
  index_built Collate_Thm.example_icu 4 3 10 Whole_Thm.e_parts 2 3 Perm_Thm.ex_log (Ops_Proof.sort_by Perm_Model.pair_less) Perm_Thm.ex_sort3 [[60%N]] ix Whole_Thm.e_voc /\
  Whole_Proof5.once_on_disk (v_external Whole_Thm.e_voc) /\
  setObject "<c>" = Val "<c>"%string /\ scan_seeds false "?z" e_one = Val [e_seed_one] /\
  (exists sd, scan_seeds false "?z" e_two = Val [sd; e_seed_two]) /\
  NoDup (filter is_var [t_s e_one; t_p e_one; t_o e_one]) /\ NoDup (filter is_var [t_s e_two; t_p e_two; t_o e_two]) /\
  computeResult Whole_Thm.e_voc ix (sd_scan e_seed_one) = Ok (ResultTable 1 [KB] [0] [[1]; [3]]%N) /\
  computeResult Whole_Thm.e_voc ix (sd_scan e_seed_two) = Ok (ResultTable 2 [KB; KB] [0; 1] [[1; 0]; [1; 1]; [2; 1]; [2; 3]]%N) /\
  setObject "?y" = Val "?y"%string /\ "?z"%string <> t_s e_one.
Proof.
  destruct Whole_Thm.e_built as (ix & BI & CI). exists ix.
  assert (Y : match Perm_Model.create_index 2 3 Perm_Thm.ex_log (Ops_Proof.sort_by Perm_Model.pair_less) Perm_Thm.ex_sort3 7 Whole_Thm.e_ids with
      | Ok (Some r) => (computeResult Whole_Thm.e_voc r (sd_scan e_seed_one), computeResult Whole_Thm.e_voc r (sd_scan e_seed_two)) | _ => (UB, UB) end =
      (Ok (ResultTable 1 [KB] [0] [[1]; [3]]%N), Ok (ResultTable 2 [KB; KB] [0; 1] [[1; 0]; [1; 1]; [2; 1]; [2; 3]]%N))) by (vm_compute; reflexivity).
  rewrite CI in Y.
  split; [apply Whole_Thm.e_input|]. split; [apply Whole_Thm.e_marked|]. split; [apply Perm_Thm.ex_sorts|]. split; [exact BI|]. split; [apply Whole_Thm.e_once|].
  split; [vm_compute; reflexivity|]. split; [vm_compute; reflexivity|]. split; [eexists; vm_compute; reflexivity|].
  split; [cbn; repeat constructor; intros []|]. split; [cbn; apply nodup_two; discriminate|].
  split; [exact (f_equal fst Y)|]. split; [exact (f_equal snd Y)|]. split; [vm_compute; reflexivity|discriminate].
Qed.
