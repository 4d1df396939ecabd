(* Proofs about the output of results. *)
From Coq Require Import String List NArith ZArith Arith Bool Lia ZifyBool ZifyN ZifyNat.
From Verif Require Import Strings_Model Conv_Model Output_Model Output_Spec.
From Verif Require Docs_Model Keys_Proof.
Import ListNotations.
Open Scope N_scope.

Lemma take_digits_atoi s : forall acc, Forall (fun c => isdigit c = true) s -> Docs_Model.take_digits (Z.of_N acc) s = Z.of_N (atoi_loop acc s).
Proof.
  induction s as [|c s IH]; intros acc H; [reflexivity|]. inversion H as [|? ? C Hs]; subst. cbn [Docs_Model.take_digits atoi_loop].
  change (Docs_Model.isdigit c) with (isdigit c). rewrite C, <- IH by auto. f_equal. unfold isdigit in C. lia.
Qed.
Lemma atol_decimal n : Docs_Model.atol (decimal n) = Z.of_N n.
Proof.
  destruct (Keys_Proof.decimal_first n) as (c & r & E & D). pose proof (Keys_Proof.decimal_digits n) as F.
  assert (V : Docs_Model.take_digits 0 (decimal n) = Z.of_N n).
  { change 0%Z with (Z.of_N 0). rewrite (take_digits_atoi _ 0 F). f_equal. pose proof (Keys_Proof.atoi_decimal n [] I) as H. rewrite app_nil_r in H. exact H. }
  unfold Docs_Model.atol. rewrite E in *. cbn [Docs_Model.skip_space]. unfold isdigit in D. replace (Docs_Model.isspace c) with false by (unfold Docs_Model.isspace; lia).
  assert (c = 48 \/ c = 49 \/ c = 50 \/ c = 51 \/ c = 52 \/ c = 53 \/ c = 54 \/ c = 55 \/ c = 56 \/ c = 57) as J by lia.
  destruct J as [-> | [-> | [-> | [-> | [-> | [-> | [-> | [-> | [-> | ->]]]]]]]]]; exact V.
Qed.
Lemma atol_size_decimal n : n < 2 ^ 63 -> atol_size (decimal n) = n.
Proof.
  intros H. unfold atol_size. rewrite atol_decimal, Z.min_r, Z.max_r by lia. unfold Docs_Model.to_id. rewrite Z.mod_small by lia. lia.
Qed.
Lemma number_or_given d s n : number_given s n -> number_or d s = match n with Some k => k | None => d end.
Proof.
  intros [|k H]; [reflexivity|]. unfold number_or. destruct (Keys_Proof.decimal_first k) as (c & r & E & _). rewrite E, <- E. now apply atol_size_decimal.
Qed.

Lemma startsWith_app p : forall t, startsWith (p ++ t) p = true.
Proof. induction p as [|c p IH]; intros t; [now destruct t|]. cbn [app startsWith]. now rewrite N.eqb_refl, IH. Qed.
Lemma startsWith_false p : forall s, (forall t, s <> p ++ t) -> startsWith s p = false.
Proof.
  induction p as [|c p IH]; intros s H; [now destruct (H s)|]. destruct s as [|d s]; [reflexivity|]. cbn [startsWith].
  destruct (N.eqb_spec d c) as [->|]; [|reflexivity]. cbn [andb]. apply IH. intros t ->. now apply (H t).
Qed.
Lemma find_char_no p s : Forall (fun c => p c = false) s -> forall t, find_char p (s ++ t) = option_map (Nat.add (length s)) (find_char p t).
Proof.
  induction s as [|c s IH]; intros F t; cbn [app find_char length]; [now destruct (find_char p t)|]. inversion F as [|? ? C Fs]; subst. rewrite C, IH by auto.
  now destruct (find_char p t).
Qed.
Lemma rfind_last c s : rfind c (s ++ [c]) = Some (length s).
Proof. unfold rfind. rewrite rev_unit. cbn [find_char]. rewrite N.eqb_refl. cbn [option_map]. rewrite app_length. cbn [length]. f_equal. lia. Qed.
Lemma selected_ok s v : selects s v -> selected_name s = v.
Proof.
  intros [v' H|v']; unfold selected_name.
  - now rewrite startsWith_false.
  - rewrite startsWith_app. change (bytes ")") with [41]. rewrite app_assoc, rfind_last, app_length. change (length (bytes "TEXT(")) with 5%nat.
    replace (Nat.ltb (5 + length v') 5) with false by (symmetry; apply Nat.ltb_ge; lia).
    replace (5 + length v' - 5)%nat with (length v') by lia. unfold substr. rewrite <- app_assoc.
    change (skipn 5 (bytes "TEXT(" ++ v' ++ [41])) with (v' ++ [41]). rewrite firstn_app, firstn_all, Nat.sub_diag. now rewrite app_nil_r.
Qed.
Lemma find_column_in a v c b : ~ In v (map fst a) -> find_column (a ++ (v, c) :: b) v = Some c.
Proof.
  induction a as [|[k d] a IH]; intros H; cbn [app find_column].
  - now destruct (list_eq_dec N.eq_dec v v).
  - cbn [map fst] in H. destruct (list_eq_dec N.eq_dec k v) as [->|]; [destruct H; left; reflexivity|]. apply IH. intros I. apply H. now right.
Qed.
Lemma find_column_none m v : ~ In v (map fst m) -> find_column m v = None.
Proof.
  induction m as [|[k d] m IH]; intros H; [reflexivity|]. cbn [find_column]. cbn [map fst] in H. destruct (list_eq_dec N.eq_dec k v) as [->|]; [destruct H; left; reflexivity|].
  apply IH. intros I. apply H. now right.
Qed.

Lemma local_ok w id : local_word w id = nth_error (local_vocab w) (N.to_nat id).
Proof.
  unfold local_word. destruct (N.ltb_spec id (N.of_nat (length (local_vocab w)))) as [H|H].
  - symmetry. apply nth_error_nth'. lia.
  - symmetry. apply nth_error_None. lia.
Qed.
Lemma json_shown w ty id x : shown w ty id x -> json_cell w ty id = Ok x.
Proof.
  intros [i E|i e E F|i t l E C|i|i|i|i e E|i E]; cbn [json_cell]; rewrite ?local_ok, ?E; try reflexivity.
  - now rewrite startsWith_false.
  - unfold VALUE_PREFIX. rewrite startsWith_app, C. reflexivity.
Qed.
Lemma stream_shown w ty id x : shown w ty id x -> stream_cell w ty id = Ok (field x).
Proof.
  intros [i E|i e E F|i t l E C|i|i|i|i e E|i E]; cbn [stream_cell field]; rewrite ?local_ok, ?E; try reflexivity.
  - now rewrite startsWith_false.
  - unfold VALUE_PREFIX. rewrite startsWith_app. cbn [field]. exact C.
Qed.

Section Rows.
Variables (w : world) (r : result) (i : N) (row : list N).
Hypothesis at_row : nth_error (data r) (N.to_nat i) = Some row.

Lemma cell_json s x : cell w r row s x -> forall vs,
  json_row w r i (validIndices r [s] ++ vs) = bind (json_row w r i vs) (fun l => Ok (x :: l)).
Proof.
  intros H vs. destruct H as [s v a b c ty id x S C Na T Id X|s v S Nc]; unfold validIndices; cbn [map app json_row]; rewrite (selected_ok _ _ S).
  - rewrite C, find_column_in by auto. unfold at_cell, getResultType. rewrite at_row, Id. cbn [bind]. rewrite (nth_error_nth _ _ KB T), (json_shown _ _ _ _ X). reflexivity.
  - rewrite find_column_none by auto. reflexivity.
Qed.
Lemma cells_json sel xs : Forall2 (cell w r row) sel xs -> json_row w r i (validIndices r sel) = Ok xs.
Proof.
  induction 1 as [|s x sel xs H _ IH]; [reflexivity|]. change (validIndices r (s :: sel)) with (validIndices r [s] ++ validIndices r sel).
  rewrite (cell_json s x H), IH. reflexivity.
Qed.
Lemma cells_stream sep sel xs : Forall2 (cell w r row) sel xs -> stream_row w r i sep (validIndices r sel) = Ok (line sep xs).
Proof.
  induction 1 as [|s x sel xs H F IH]; [reflexivity|]. unfold validIndices in *. cbn [map stream_row]. rewrite IH. clear IH.
  assert (E : forall f : text -> outcome text, bind match (match find_column (columns r) (selected_name s) with Some c => Some (c, getResultType r c) | None => None end) with
     | Some (c, ty) => bind (at_cell r i c) (stream_cell w ty) | None => Ok [] end f = f (field x)).
  { intros f. destruct H as [s v a b c ty id x S C Na T Id X|s v S Nc]; rewrite (selected_ok _ _ S).
    - rewrite C, find_column_in by auto. unfold at_cell, getResultType. rewrite at_row, Id. cbn [bind]. rewrite (nth_error_nth _ _ KB T), (stream_shown _ _ _ _ X). reflexivity.
    - rewrite find_column_none by auto. reflexivity. }
  rewrite E. cbn [bind]. destruct F as [|s' x' sel xs H' F]; reflexivity.
Qed.
End Rows.

Lemma row_loop_ok {A B} (rows : list B) (f : N -> outcome A) (P : B -> A -> Prop) : (forall i row x, nth_error rows (N.to_nat i) = Some row -> P row x -> f i = Ok x) ->
  forall win out, Forall2 P win out -> forall i, (forall k, (k < length win)%nat -> nth_error rows (N.to_nat i + k) = nth_error win k) ->
  row_loop f (length win) i = Ok out.
Proof.
  intros Hf win out F. induction F as [|b a win out H F IH]; intros i E; [reflexivity|]. cbn [length row_loop].
  rewrite (Hf i b a). 2: { specialize (E O). rewrite Nat.add_0_r in E. apply E. cbn [length]. lia. } 2: assumption.
  cbn [bind]. rewrite IH; [reflexivity|]. intros k Hk. specialize (E (S k)). cbn [length nth_error] in E. rewrite <- E by lia. f_equal. lia.
Qed.

(* windows as a part of a list *)
Lemma window_firstn {A} limit offset (rows out : list A) : window limit offset rows out ->
  out = match limit with Some l => firstn (N.to_nat l) (skipn (N.to_nat offset) rows) | None => skipn (N.to_nat offset) rows end.
Proof.
  intros H. assert (E : forall (a b : list A), (forall k, nth_error a k = nth_error b k) -> a = b).
  { induction a as [|x a IH]; intros [|y b] E; auto; [specialize (E O); discriminate|specialize (E O); discriminate|].
    pose proof (E O) as E0. injection E0 as ->. f_equal. apply IH. intros k. apply (E (S k)). }
  assert (Sk : forall n (l : list A) k, nth_error (skipn n l) k = nth_error l (n + k)%nat).
  { induction n as [|n IH]; intros [|x l] k; cbn [skipn Nat.add nth_error]; auto. now destruct k. }
  assert (F : forall n (l : list A) k, nth_error (firstn n l) k = if Nat.ltb k n then nth_error l k else None).
  { induction n as [|n IH]; intros [|x l] [|k]; cbn [firstn nth_error]; auto.
    - now destruct (Nat.ltb (S k) (S n)).
    - rewrite IH. reflexivity. }
  apply E. intros k. rewrite (H k). destruct limit as [l|].
  - rewrite F, Sk. destruct (N.ltb_spec (N.of_nat k) l), (Nat.ltb_spec k (N.to_nat l)); auto; lia.
  - symmetry. apply Sk.
Qed.
Lemma window_rows {A} l offset (rows out : list A) : window (Some l) offset rows out ->
  length out = N.to_nat (N.min (N.of_nat (length rows)) (l + offset) - offset) /\ forall k, (k < length out)%nat -> nth_error rows (N.to_nat offset + k) = nth_error out k.
Proof.
  intros H. pose proof (window_firstn _ _ _ _ H) as E. cbn beta iota in E. split.
  - rewrite E, firstn_length, skipn_length. lia.
  - intros k Hk. rewrite (H k). assert (length out <= N.to_nat l)%nat by (rewrite E, firstn_length; lia). destruct (N.ltb_spec (N.of_nat k) l); [reflexivity|lia].
Qed.
Lemma window_all {A} offset (rows out : list A) l : N.of_nat (length rows) <= l -> window None offset rows out -> window (Some l) offset rows out.
Proof.
  intros B H k. rewrite (H k). destruct (N.ltb_spec (N.of_nat k) l) as [|G]; [reflexivity|]. apply nth_error_None. lia.
Qed.
Lemma window_same {A} l offset (rows a b : list A) : window l offset rows a -> window l offset rows b -> a = b.
Proof. intros Ha Hb. rewrite (window_firstn _ _ _ _ Ha), (window_firstn _ _ _ _ Hb). reflexivity. Qed.

Lemma valid_cons r s sel : exists a l, validIndices r (s :: sel) = a :: l.
Proof. unfold validIndices. cbn [map]. eauto. Qed.
Lemma json_ok w r sel l o win out : sel <> [] -> l + o < 2 ^ 64 -> window (Some l) o (data r) win ->
  Forall2 (fun row => Forall2 (cell w r row) sel) win out -> writeResultAsJson w r sel l o = Ok out.
Proof.
  intros S B W F. destruct sel as [|s sel]; [congruence|]. unfold writeResultAsJson. destruct (valid_cons r s sel) as (a & vs & E).
  rewrite E, <- E. unfold writeJsonTable, rows_between, size_t. rewrite N.mod_small by auto. apply window_rows in W as [L W]. rewrite <- L.
  apply (row_loop_ok (data r) _ _ (fun i row x R H => cells_json w r i row R (s :: sel) x H) win out F). exact W.
Qed.
Lemma stream_ok w r sel l o sep win out : sel <> [] -> o + l < 2 ^ 64 -> window (Some l) o (data r) win ->
  Forall2 (fun row => Forall2 (cell w r row) sel) win out -> writeResultToStream w r sel l o sep = Ok (concat (map (line sep) out)).
Proof.
  intros S B W F. destruct sel as [|s sel]; [congruence|]. unfold writeResultToStream. destruct (valid_cons r s sel) as (a & vs & E).
  rewrite E, <- E. unfold rows_between, size_t. rewrite N.mod_small by auto. rewrite N.min_comm, (N.add_comm o l). apply window_rows in W as [L W]. rewrite <- L.
  rewrite (row_loop_ok (data r) _ (fun row t => exists x, Forall2 (cell w r row) (s :: sel) x /\ t = line sep x)
    (fun i row t R H => match H with ex_intro _ x (conj H1 H2) => eq_trans (cells_stream w r i row R sep (s :: sel) x H1) (f_equal _ (eq_sym H2)) end) win (map (line sep) out)).
  - reflexivity.
  - clear -F. induction F; cbn [map]; constructor; eauto.
  - exact W.
Qed.

Lemma row_loop_nil {A} (f : N -> outcome A) from u : u <= from -> rows_between f from u = Ok [].
Proof. intros H. unfold rows_between. replace (u - from) with 0 by lia. reflexivity. Qed.
