(* The index word of a number, and the order of index words. *)
From Coq Require Import Ascii String.
From Coq Require Import List NArith ZArith Arith Bool Lia ZifyN ZifyNat ZifyBool.
From Verif Require Import Table_Spec Lex_Proof Std_Model Std_Proof Strings_Model Strings_Proof Collate_Model Conv_Model Conv_Spec Conv_Proof.
Import ListNotations.
Open Scope N_scope.

Definition zeros (l : list N) : nat := length (take_while (N.eqb 0) l).
Definition expo (n : number) : Z := (Z.of_nat (length (whole n)) - 1 - Z.of_nat (zeros (all_digits n)))%Z.
Definition nega_expo (n : number) : bool := (expo n <? 0)%Z.
Definition sign_char (n : number) : N :=
  if negative n then (if nega_expo n then 45 else 43) else (if nega_expo n then 77 else 80).
Definition expo_digits (n : number) : list N :=
  if Bool.eqb (negative n) (nega_expo n) then fixed 20 (Z.abs_N (expo n)) else nines (fixed 20 (Z.abs_N (expo n))).
Definition mant_digits (n : number) : list N := if negative n then nines (fit 30 (all_digits n)) else fit 30 (all_digits n).
(* the word without the type *)
Definition body (n : number) : list N :=
  if magnitude n =? 0 then VALUE_FLOAT_PREFIX ++ [78; 48]
  else VALUE_FLOAT_PREFIX ++ [if negative n then 77 else 80; sign_char n] ++ chars (expo_digits n) ++ [69] ++ chars (mant_digits n).

Lemma zeros_split l : l = repeat 0 (zeros l) ++ drop_while (N.eqb 0) l.
Proof.
  rewrite <- (take_drop_while (N.eqb 0) l) at 1. f_equal. unfold zeros. pose proof (take_while_all (N.eqb 0) l) as F.
  induction F as [|x t E F IH]; [reflexivity|]. cbn [length repeat]. rewrite <- IH. f_equal. lia.
Qed.
Lemma zeros_app k d r : d <> 0 -> zeros (repeat 0 k ++ d :: r) = k.
Proof. intros D. unfold zeros. induction k as [|k IH]; cbn [repeat app take_while]; [destruct (N.eqb_spec 0 d); [congruence|reflexivity]|]. cbn [N.eqb length]. now rewrite IH. Qed.
Lemma nonzero_split l : number_of l <> 0 -> exists d r, l = repeat 0 (zeros l) ++ d :: r /\ d <> 0.
Proof.
  intros Z. pose proof (zeros_split l) as E. destruct (drop_while (N.eqb 0) l) as [|d r] eqn:D.
  - rewrite E, number_app, number_zeros in Z. cbn in Z. lia.
  - exists d, r. split; [exact E|]. apply drop_while_head in D. lia.
Qed.
Lemma leading n : canonical n -> magnitude n <> 0 -> exists d r, all_digits n = repeat 0 (zeros (all_digits n)) ++ d :: r /\ d <> 0 /\
  (zeros (all_digits n) = 0%nat \/ (0 < zeros (all_digits n))%nat /\ length (whole n) = 1%nat /\ whole n = [0]) /\
  Z.of_nat (length r) = (expo n + Z.of_nat (length (fraction n)))%Z.
Proof.
  intros K M. destruct (nonzero_split _ M) as (d & r & E & D). exists d, r. split; [exact E|]. split; [exact D|]. split.
  - destruct (can_first n K) as [W|(x & l & W & X)].
    + right. split; [|rewrite W; auto]. unfold all_digits, zeros. rewrite W. cbn [app take_while N.eqb length]. lia.
    + left. unfold all_digits, zeros. rewrite W. cbn [app take_while]. destruct (N.eqb_spec 0 x); [congruence|reflexivity].
  - unfold expo. assert (L : length (all_digits n) = length (repeat 0 (zeros (all_digits n)) ++ d :: r)) by (now rewrite <- E).
    rewrite app_length, repeat_length in L. cbn [length] in L. unfold all_digits in *. rewrite app_length in L. lia.
Qed.
Lemma all_digits_digits n : canonical n -> digits (all_digits n).
Proof. intros K. apply digits_app; [apply (can_whole n K)|apply (can_fraction n K)]. Qed.
Lemma expo_bound n : canonical n -> Z.abs_N (expo n) < 2 ^ 31.
Proof.
  intros K. pose proof (can_int n K) as I. unfold expo. assert (zeros (all_digits n) <= length (all_digits n))%nat.
  { unfold zeros. rewrite <- (take_drop_while (N.eqb 0) (all_digits n)) at 2. rewrite app_length. lia. }
  assert (length (whole n) <= length (all_digits n))%nat by (unfold all_digits; rewrite app_length; lia).
  assert (0 < length (whole n))%nat by (destruct (can_first n K) as [->|(x & l & -> & _)]; cbn; lia). lia.
Qed.
Lemma pow20 : 2 ^ 31 < 10 ^ N.of_nat 19. Proof. reflexivity. Qed.
Lemma expo_digits_ok n : digits (expo_digits n) /\ length (expo_digits n) = 20%nat.
Proof.
  unfold expo_digits. destruct (Bool.eqb (negative n) (nega_expo n)).
  - split; [apply fixed_digits|apply fixed_length].
  - split; [apply nines_digits|]. unfold nines. now rewrite map_length, fixed_length.
Qed.
Lemma mant_digits_length n : length (mant_digits n) = 30%nat.
Proof. unfold mant_digits. destruct (negative n); unfold nines; now rewrite ?map_length, fit_length. Qed.

(* ---- the text ---- *)
Lemma chars_not l c : c < 48 -> Forall (fun x => (c =? x) = false) (chars l).
Proof. intros C. apply Forall_forall. intros x I. apply in_map_iff in I as (d & <- & _). lia. Qed.
Lemma find_dot l r : find_char (N.eqb 46) (chars l ++ 46 :: r) = Some (length l).
Proof. replace (length l) with (length (chars l)) by (unfold chars; apply map_length). apply find_char_app; [now apply chars_not|reflexivity]. Qed.
Lemma find_char_cons p c s : p c = false -> find_char p (c :: s) = option_map S (find_char p s).
Proof. intros E. cbn [find_char]. now rewrite E. Qed.
Lemma text_dot n : find_char (N.eqb 46) (text n) = Some (length (sign_chars n) + length (whole n))%nat.
Proof.
  unfold text, sign_chars. destruct (negative n); cbn [app length]; [rewrite find_char_cons by reflexivity|]; cbn [app]; now rewrite find_dot.
Qed.
Lemma strip_plus_text n s : whole n <> [] -> strip_plus (sign_chars n ++ chars (whole n) ++ s) = sign_chars n ++ chars (whole n) ++ s.
Proof. intros W. unfold sign_chars. destruct (negative n); [reflexivity|]. destruct (whole n) as [|d l]; [contradiction|]. cbn [chars map app strip_plus]. destruct (N.eqb_spec (48 + d) 43); [lia|reflexivity]. Qed.
Lemma whole_nonempty n : canonical n -> whole n <> [].
Proof. intros K E. destruct (can_first n K) as [H|(x & l & H & _)]; rewrite E in H; discriminate. Qed.
Lemma filter_dot n : filter (fun c => negb (c =? 46)) (chars (whole n) ++ [46] ++ chars (fraction n)) = chars (all_digits n).
Proof.
  assert (F : forall l, filter (fun c => negb (c =? 46)) (chars l) = chars l).
  { induction l as [|d l IH]; [reflexivity|]. cbn [chars map filter]. replace (48 + d =? 46) with false by lia. cbn [negb]. f_equal. exact IH. }
  rewrite !filter_app, !F. unfold all_digits, chars. rewrite map_app. cbn [filter app]. reflexivity.
Qed.
(* the digits of a text *)
Definition digits_in (s : list N) : list N := map (fun c => c - 48) (filter (fun c => 48 <=? c) s).
Lemma digits_in_text n : digits_in (text n) = all_digits n.
Proof.
  assert (F : forall l, digits_in (chars l) = l).
  { unfold digits_in. induction l as [|d l IH]; [reflexivity|]. cbn [chars map filter]. replace (48 <=? 48 + d) with true by lia. cbn [map]. f_equal; [lia|exact IH]. }
  assert (A : forall a b, digits_in (a ++ b) = digits_in a ++ digits_in b) by (intros; unfold digits_in; now rewrite filter_app, map_app).
  unfold text. rewrite !A, !F. unfold sign_chars. destruct (negative n); reflexivity.
Qed.
Lemma value_head n r : canonical n -> (at_ (chars (whole n) ++ r) 0 =? 48) = match whole n with d :: _ => d =? 0 | [] => false end.
Proof. intros K. pose proof (whole_nonempty n K). destruct (whole n) as [|d l]; [contradiction|]. change (at_ (chars (d :: l) ++ r) 0) with (48 + d). lia. Qed.
Lemma take_while_chars l : length (take_while (N.eqb 48) (chars l)) = zeros l.
Proof. unfold zeros. induction l as [|d l IH]; [reflexivity|]. cbn [chars map take_while]. replace (48 =? 48 + d) with (0 =? d) by lia. destruct (0 =? d); [|reflexivity]. cbn [length]. f_equal. exact IH. Qed.
Lemma exponent_ok n : canonical n -> magnitude n <> 0 -> exponent_of (chars (whole n) ++ [46] ++ chars (fraction n)) (length (whole n)) = expo n.
Proof.
  intros K M. unfold exponent_of. rewrite value_head by assumption. destruct (leading n K M) as (d & r & E & D & Z & L).
  destruct (can_first n K) as [W|(x & l & W & X)]; rewrite W in *.
  - replace (Nat.leb (length [0]) 1 && (0 =? 0)) with true by reflexivity. cbn [chars map app skipn length]. change (map (N.add 48)) with chars. rewrite take_while_chars.
    unfold expo. rewrite W. unfold all_digits in *. rewrite W in *. cbn [app length] in *.
    assert (ZZ : zeros (0 :: fraction n) = S (zeros (fraction n))) by reflexivity. rewrite ZZ in *.
    replace (Nat.eqb (2 + zeros (fraction n)) (S (S (length (chars (fraction n)))))) with false; [lia|].
    symmetry. apply Nat.eqb_neq. unfold chars. rewrite map_length. cbn [repeat app] in E. injection E as E. rewrite E at 2. rewrite app_length, repeat_length. cbn. lia.
  - replace (x =? 0) with false by lia. rewrite andb_false_r. unfold expo. destruct Z as [Z|(_ & _ & Z)]; [rewrite Z|]; rewrite W; [lia|injection Z as Z _; congruence].
Qed.
Lemma body_word n t : canonical n -> float_index_word (text n) (length (sign_chars n) + length (whole n)) t = Ok (body n ++ [type_char t]).
Proof.
  intros K. unfold float_index_word, body. destruct (N.eqb_spec (magnitude n) 0) as [Z|Z].
  - destruct (can_zero n K Z) as [W F]. unfold text, sign_chars. rewrite W, F. destruct (negative n).
    + destruct (list_eq_dec N.eq_dec _ (bytes "0.0")) as [E|_]; [discriminate|]. destruct (list_eq_dec N.eq_dec _ (bytes "-0.0")) as [_|E]; [reflexivity|contradiction E; reflexivity].
    + destruct (list_eq_dec N.eq_dec _ (bytes "0.0")) as [_|E]; [reflexivity|contradiction E; reflexivity].
  - destruct (list_eq_dec N.eq_dec _ (bytes "0.0")) as [E|_]; [exfalso; apply Z; unfold magnitude; rewrite <- digits_in_text, E; reflexivity|].
    destruct (list_eq_dec N.eq_dec _ (bytes "-0.0")) as [E|_]; [exfalso; apply Z; unfold magnitude; rewrite <- digits_in_text, E; reflexivity|].
    assert (NG : (at_ (text n) 0 =? 45) = negative n).
    { unfold text, sign_chars. destruct (negative n); [reflexivity|]. pose proof (whole_nonempty n K) as W. destruct (whole n) as [|d l]; [contradiction|]. match goal with |- (?x =? 45) = _ => change x with (48 + d) end. lia. }
    rewrite NG. cbv zeta.
    replace (if negative n then skipn 1 (text n) else text n) with (chars (whole n) ++ [46] ++ chars (fraction n)) by (unfold text, sign_chars; destruct (negative n); reflexivity).
    replace (if negative n then (length (sign_chars n) + length (whole n) - 1)%nat else (length (sign_chars n) + length (whole n))%nat) with (length (whole n)) by (unfold sign_chars; destruct (negative n); cbn [length]; lia).
    rewrite exponent_ok, filter_dot by assumption. change (expo n <? 0)%Z with (nega_expo n).
    pose proof (expo_bound n K) as EB. pose proof pow20 as P20.
    destruct (decimal_padded 19 (Z.abs_N (expo n)) ltac:(lia) ltac:(lia)) as (L19 & _ & _).
    destruct (decimal_padded 20 (Z.abs_N (expo n)) ltac:(lia)) as (_ & P1 & P2); [apply N.lt_trans with (10 ^ N.of_nat 19); [lia|reflexivity]|].
    replace (length (if neqb (negative n) (nega_expo n) then getBase10ComplementOfIntegerString (decimal (Z.abs_N (expo n))) else decimal (Z.abs_N (expo n)))) with (length (decimal (Z.abs_N (expo n))))
      by (destruct (neqb (negative n) (nega_expo n)); [unfold getBase10ComplementOfIntegerString; now rewrite map_length|reflexivity]).
    unfold exponent_digits, mantissa_digits.
    replace (Nat.ltb (length (decimal (Z.abs_N (expo n)))) 20) with true by (symmetry; apply Nat.ltb_lt; lia). f_equal. rewrite <- !app_assoc. f_equal. cbn [app]. f_equal. f_equal.
    assert (EX : replicate (20 - length (decimal (Z.abs_N (expo n)))) (if Bool.eqb (nega_expo n) (negative n) then 48 else 57) ++
                 (if neqb (negative n) (nega_expo n) then getBase10ComplementOfIntegerString (decimal (Z.abs_N (expo n))) else decimal (Z.abs_N (expo n))) = chars (expo_digits n)).
    { unfold expo_digits, neqb. destruct (negative n), (nega_expo n); cbn [Bool.eqb negb]; assumption. }
    rewrite app_assoc, EX. f_equal. f_equal. rewrite app_assoc. f_equal.
    pose proof (all_digits_digits n K) as DD. unfold mant_digits, fit, replicate. destruct (negative n).
    + rewrite complement_chars by assumption. unfold chars, nines. rewrite !map_length, !map_app, <- !firstn_map. f_equal.
      change (map (fun d => 9 - d)) with nines. change (map (N.add 48)) with chars. now rewrite nines_repeat, chars_repeat.
    + unfold chars. rewrite map_length, map_app, <- firstn_map. f_equal. change (map (N.add 48)) with chars. now rewrite chars_repeat.
Qed.
Lemma encode n t : canonical n -> convertFloatStringToIndexWord (text n) t = Ok (body n ++ [type_char t]).
Proof.
  intros K. unfold convertFloatStringToIndexWord. unfold text at 1 2. rewrite strip_plus_text by now apply whole_nonempty. fold (text n). rewrite text_dot. now apply body_word.
Qed.
Lemma encode_plus n t : canonical n -> negative n = false -> convertFloatStringToIndexWord (43 :: text n) t = Ok (body n ++ [type_char t]).
Proof. intros K E. unfold convertFloatStringToIndexWord. cbn [strip_plus N.eqb Pos.eqb]. rewrite text_dot. now apply body_word. Qed.
(* an integer *)
Definition integer (negative : bool) (l : list N) : number := Number negative l [0].
Lemma encode_integer n t : canonical n -> fraction n = [0] -> convertFloatStringToIndexWord (integer_text n) t = Ok (body n ++ [type_char t]) /\
  convertFloatStringToIndexWord (integer_text n ++ bytes ".0") t = Ok (body n ++ [type_char t]).
Proof.
  intros K F. assert (T : integer_text n ++ bytes ".0" = text n) by (unfold integer_text, text; rewrite F, <- !app_assoc; reflexivity).
  split; [|rewrite T; now apply encode]. unfold convertFloatStringToIndexWord.
  assert (SP : strip_plus (integer_text n) = integer_text n) by (pose proof (strip_plus_text n [] (whole_nonempty n K)) as H; rewrite app_nil_r in H; exact H).
  rewrite SP. replace (find_char (N.eqb 46) (integer_text n)) with (@None nat).
  - rewrite T. unfold text at 1 2. rewrite strip_plus_text by now apply whole_nonempty. fold (text n). rewrite text_dot. now apply body_word.
  - symmetry. apply find_char_all. unfold integer_text, sign_chars. destruct (negative n); [constructor; [reflexivity|]|]; now apply chars_not.
Qed.

(* ---- the order ---- *)
Lemma magnitude_bounds n : canonical n -> magnitude n <> 0 ->
  exists k, Z.of_N k = (expo n + Z.of_nat (length (fraction n)))%Z /\ 10 ^ k <= magnitude n < 10 * 10 ^ k.
Proof.
  intros K M. destruct (leading n K M) as (d & r & E & D & _ & L). exists (len r). split; [rewrite nat_N_Z; exact L|].
  unfold magnitude. rewrite E, number_app, number_zeros. cbn [number_of]. pose proof (all_digits_digits n K) as DD. rewrite E in DD. apply Forall_app in DD as [_ DD]. inversion DD; subst.
  pose proof (number_lt r H2). pose proof (pow10_pos (len r)). nia.
Qed.
(* the order of the absolute values *)
Definition compare_abs (a b : number) : comparison :=
  (magnitude a * 10 ^ len (fraction b) ?= magnitude b * 10 ^ len (fraction a)).
Lemma expo_lt a b : canonical a -> canonical b -> magnitude a <> 0 -> magnitude b <> 0 -> (expo a < expo b)%Z -> compare_abs a b = Lt.
Proof.
  intros KA KB MA MB E. destruct (magnitude_bounds a KA MA) as (ka & EA & BA). destruct (magnitude_bounds b KB MB) as (kb & EB & BB).
  unfold compare_abs. apply N.compare_lt_iff. apply N.lt_le_trans with (10 * 10 ^ ka * 10 ^ len (fraction b)).
  - apply N.mul_lt_mono_pos_r; [apply pow10_pos|apply BA].
  - apply N.le_trans with (10 ^ kb * 10 ^ len (fraction a)); [|apply N.mul_le_mono_r; apply BB].
    rewrite <- N.pow_succ_r', <- !N.pow_add_r. apply N.pow_le_mono_r; lia.
Qed.
Lemma same_expo a b : canonical a -> canonical b -> magnitude a <> 0 -> magnitude b <> 0 -> expo a = expo b -> length (whole a) = length (whole b).
Proof.
  intros KA KB MA MB E. destruct (leading a KA MA) as (d & r & _ & _ & [Z|(ZP & W & _)] & _), (leading b KB MB) as (d' & r' & _ & _ & [Z'|(ZP' & W' & _)] & _); unfold expo in E.
  - lia.
  - pose proof (whole_nonempty a KA). destruct (whole a); [contradiction|]. cbn [length] in *. lia.
  - pose proof (whole_nonempty b KB). destruct (whole b); [contradiction|]. cbn [length] in *. lia.
  - lia.
Qed.
Lemma lex_fit a b m : canonical a -> canonical b -> length (whole a) = length (whole b) -> (length (all_digits a) <= m)%nat -> (length (all_digits b) <= m)%nat ->
  lex_cmp (fit m (all_digits a)) (fit m (all_digits b)) = compare_abs a b.
Proof.
  intros KA KB W LA LB. unfold compare_abs, magnitude. apply lex_fit_values; auto using all_digits_digits. unfold all_digits. rewrite !app_length. lia.
Qed.
Lemma lex_mant a b : canonical a -> canonical b -> length (whole a) = length (whole b) ->
  (compare_abs a b <> Gt -> lex_cmp (fit 30 (all_digits a)) (fit 30 (all_digits b)) <> Gt) /\
  (short a -> short b -> lex_cmp (fit 30 (all_digits a)) (fit 30 (all_digits b)) = compare_abs a b).
Proof.
  intros KA KB W. set (m := (30 + length (all_digits a) + length (all_digits b))%nat).
  pose proof (lex_fit a b m KA KB W ltac:(lia) ltac:(lia)) as L. split.
  - intros C. rewrite <- L in C. rewrite (fit_fit 30 m (all_digits a)), (fit_fit 30 m (all_digits b)) by lia. now apply lex_firstn.
  - intros SA SB. rewrite <- L. rewrite (fit_short 30 m _ ltac:(lia) SA), (fit_short 30 m _ ltac:(lia) SB). rewrite lex_app by now rewrite !fit_length.
    rewrite lex_cmp_refl. now destruct (lex_cmp (fit 30 (all_digits a)) (fit 30 (all_digits b))).
Qed.
(* the parts of a word that depend on the number, for positive numbers; negative ones are turned round *)
Definition positive_key (n : number) : list N :=
  [if nega_expo n then 0 else 1] ++ (if nega_expo n then nines (fixed 20 (Z.abs_N (expo n))) else fixed 20 (Z.abs_N (expo n))).
Lemma nines20 n : length (nines (fixed 20 n)) = 20%nat.
Proof. unfold nines. now rewrite map_length, fixed_length. Qed.
Lemma lex_positive_key a b : canonical a -> canonical b -> lex_cmp (positive_key a) (positive_key b) = (expo a ?= expo b)%Z.
Proof.
  intros KA KB. pose proof (expo_bound a KA) as BA. pose proof (expo_bound b KB) as BB. assert (P : 2 ^ 31 < 10 ^ N.of_nat 20) by reflexivity.
  unfold positive_key, nega_expo. destruct (Z.ltb_spec (expo a) 0), (Z.ltb_spec (expo b) 0); rewrite lex_app by reflexivity; cbn [lex_cmp N.compare or_else].
  - rewrite lex_nines by (try apply fixed_digits; now rewrite !fixed_length). rewrite lex_fixed by lia. match goal with |- (?x ?= ?y) = _ => destruct (N.compare_spec x y) end; symmetry; rewrite ?Z.compare_eq_iff, ?Z.compare_lt_iff, ?Z.compare_gt_iff; lia.
  - symmetry. apply Z.compare_lt_iff. lia.
  - symmetry. apply Z.compare_gt_iff. lia.
  - cbn [Pos.compare Pos.compare_cont or_else]. rewrite lex_fixed by lia. match goal with |- (?x ?= ?y) = _ => destruct (N.compare_spec x y) end; symmetry; rewrite ?Z.compare_eq_iff, ?Z.compare_lt_iff, ?Z.compare_gt_iff; lia.
Qed.
Lemma body_positive a b : canonical a -> canonical b -> magnitude a <> 0 -> magnitude b <> 0 -> negative a = false -> negative b = false ->
  lex_cmp (body a) (body b) = or_else (lex_cmp (positive_key a) (positive_key b)) (lex_cmp (fit 30 (all_digits a)) (fit 30 (all_digits b))).
Proof.
  intros KA KB MA MB NA NB. unfold body. replace (magnitude a =? 0) with false by lia. replace (magnitude b =? 0) with false by lia. rewrite lex_same. rewrite NA, NB.
  unfold sign_char, expo_digits, mant_digits, positive_key. rewrite NA, NB. cbn [app]. rewrite !lex_cons, N.compare_refl. cbn [or_else].
  destruct (nega_expo a), (nega_expo b); cbn [Bool.eqb N.compare Pos.compare Pos.compare_cont or_else]; try reflexivity.
  all: rewrite lex_app by (unfold chars; now rewrite !map_length, ?nines20, ?fixed_length); rewrite lex_cons, N.compare_refl, !lex_chars; reflexivity.
Qed.
Lemma body_negative a b : canonical a -> canonical b -> magnitude a <> 0 -> magnitude b <> 0 -> negative a = true -> negative b = true ->
  lex_cmp (body a) (body b) = or_else (lex_cmp (positive_key b) (positive_key a)) (lex_cmp (fit 30 (all_digits b)) (fit 30 (all_digits a))).
Proof.
  intros KA KB MA MB NA NB. unfold body. replace (magnitude a =? 0) with false by lia. replace (magnitude b =? 0) with false by lia. rewrite lex_same. rewrite NA, NB.
  unfold sign_char, expo_digits, mant_digits, positive_key. rewrite NA, NB. cbn [app]. rewrite !lex_cons, N.compare_refl. cbn [or_else].
  pose proof (all_digits_digits a KA). pose proof (all_digits_digits b KB).
  destruct (nega_expo a), (nega_expo b); cbn [Bool.eqb N.compare Pos.compare Pos.compare_cont or_else]; try reflexivity.
  all: rewrite lex_app by (unfold chars; now rewrite !map_length, ?nines20, ?fixed_length); rewrite lex_cons, N.compare_refl, !lex_chars; cbn [or_else]; rewrite (lex_nines (fit 30 (all_digits a))) by (try (now apply fit_digits); now rewrite !fit_length); f_equal.
  - symmetry. apply lex_nines; try apply fixed_digits. now rewrite !fixed_length.
  - apply lex_nines; try apply fixed_digits. now rewrite !fixed_length.
Qed.
Lemma abs_key a b : canonical a -> canonical b -> magnitude a <> 0 -> magnitude b <> 0 ->
  (compare_abs a b <> Gt -> or_else (lex_cmp (positive_key a) (positive_key b)) (lex_cmp (fit 30 (all_digits a)) (fit 30 (all_digits b))) <> Gt) /\
  (short a -> short b -> or_else (lex_cmp (positive_key a) (positive_key b)) (lex_cmp (fit 30 (all_digits a)) (fit 30 (all_digits b))) = compare_abs a b).
Proof.
  intros KA KB MA MB. rewrite lex_positive_key by assumption. destruct (Z.compare_spec (expo a) (expo b)) as [E|E|E]; cbn [or_else].
  - apply lex_mant; auto. now apply same_expo.
  - rewrite (expo_lt a b) by assumption. split; [discriminate|reflexivity].
  - assert (G : compare_abs a b = Gt) by (unfold compare_abs; rewrite N.compare_antisym; fold (compare_abs b a); rewrite (expo_lt b a) by assumption; reflexivity).
    rewrite G. split; [intros H; now contradiction H|reflexivity].
Qed.
Lemma compare_abs_antisym a b : compare_abs b a = CompOpp (compare_abs a b).
Proof. unfold compare_abs. now rewrite N.compare_antisym. Qed.
Lemma compare_values_abs a b : compare_values a b =
  match negative a, negative b with
  | false, false => compare_abs a b
  | true, true => compare_abs b a
  | true, false => if (magnitude a =? 0) && (magnitude b =? 0) then Eq else Lt
  | false, true => if (magnitude a =? 0) && (magnitude b =? 0) then Eq else Gt
  end.
Proof.
  unfold compare_values, scaled, compare_abs. rewrite <- !nat_N_Z. change 10%Z with (Z.of_N 10). rewrite <- !N2Z.inj_pow.
  pose proof (pow10_pos (len (fraction a))). pose proof (pow10_pos (len (fraction b))). set (pa := 10 ^ len (fraction a)) in *. set (pb := 10 ^ len (fraction b)) in *.
  destruct (negative a), (negative b).
  - rewrite !Z.mul_opp_l, Z.compare_opp, <- !N2Z.inj_mul. now rewrite N2Z.inj_compare.
  - destruct (N.eqb_spec (magnitude a) 0) as [->|], (N.eqb_spec (magnitude b) 0) as [->|]; cbn [andb]; [reflexivity| | |]; apply Z.compare_lt_iff; nia.
  - destruct (N.eqb_spec (magnitude a) 0) as [->|], (N.eqb_spec (magnitude b) 0) as [->|]; cbn [andb]; [reflexivity| | |]; apply Z.compare_gt_iff; nia.
  - rewrite <- !N2Z.inj_mul. now rewrite N2Z.inj_compare.
Qed.
Lemma zero_abs a b : magnitude a = 0 -> magnitude b <> 0 -> compare_abs a b = Lt.
Proof. intros A B. unfold compare_abs. apply N.compare_lt_iff. rewrite A. pose proof (pow10_pos (len (fraction a))). nia. Qed.
Lemma body_other a b : canonical a -> canonical b -> (magnitude a = 0 \/ magnitude b = 0 \/ negative a <> negative b) -> lex_cmp (body a) (body b) = compare_values a b.
Proof.
  intros KA KB H. rewrite compare_values_abs. unfold body. destruct (N.eqb_spec (magnitude a) 0) as [A|A], (N.eqb_spec (magnitude b) 0) as [B|B]; rewrite lex_same; cbn [andb].
  - cbn [lex_cmp N.compare Pos.compare Pos.compare_cont]. unfold compare_abs. rewrite A, B. destruct (negative a), (negative b); reflexivity.
  - cbn [app lex_cmp N.compare Pos.compare Pos.compare_cont]. destruct (negative a), (negative b); cbn [N.compare Pos.compare Pos.compare_cont]; try reflexivity.
    + rewrite compare_abs_antisym, (zero_abs a b) by assumption. reflexivity.
    + now rewrite (zero_abs a b).
  - cbn [app lex_cmp]. destruct (negative a), (negative b); cbn [N.compare Pos.compare Pos.compare_cont]; try reflexivity.
    + now rewrite (zero_abs b a).
    + rewrite compare_abs_antisym, (zero_abs b a) by assumption. reflexivity.
  - destruct H as [H|[H|H]]; try contradiction. cbn [app lex_cmp]. destruct (negative a), (negative b); try contradiction; reflexivity.
Qed.
Lemma body_order a b : canonical a -> canonical b ->
  (compare_values a b <> Gt -> lex_cmp (body a) (body b) <> Gt) /\ (short a -> short b -> lex_cmp (body a) (body b) = compare_values a b).
Proof.
  intros KA KB. destruct (N.eq_dec (magnitude a) 0) as [A|A]; [rewrite body_other by auto; auto|]. destruct (N.eq_dec (magnitude b) 0) as [B|B]; [rewrite body_other by auto; auto|].
  destruct (Bool.bool_dec (negative a) (negative b)) as [N|N]; [|rewrite body_other by auto; auto]. rewrite compare_values_abs.
  destruct (negative a) eqn:NA; rewrite <- N.
  - rewrite body_negative by auto. destruct (abs_key b a) as [X Y]; auto.
  - rewrite body_positive by auto. now apply abs_key.
Qed.
Lemma body_length a : canonical a -> magnitude a <> 0 -> length (body a) = 62%nat.
Proof.
  intros K M. unfold body. replace (magnitude a =? 0) with false by lia. rewrite !app_length. unfold chars. rewrite !map_length, mant_digits_length. rewrite (proj2 (expo_digits_ok a)). reflexivity.
Qed.
