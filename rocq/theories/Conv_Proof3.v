(* Reading numbers back from index words. *)
From Coq Require Import Ascii String.
From Coq Require Import List NArith ZArith Arith Bool Lia ZifyN ZifyNat ZifyBool.
From Verif Require Import Table_Spec Lex_Proof Std_Model Std_Proof Strings_Model Strings_Proof Collate_Model Conv_Model Conv_Spec Conv_Proof Conv_Proof2.
Import ListNotations.
Open Scope N_scope.

Lemma lex_body a b x y : canonical a -> canonical b -> lex_cmp (body a ++ x) (body b ++ y) = or_else (lex_cmp (body a) (body b)) (lex_cmp x y).
Proof.
  intros KA KB. destruct (N.eq_dec (magnitude a) 0) as [A|A], (N.eq_dec (magnitude b) 0) as [B|B].
  - unfold body. rewrite A, B. cbn [N.eqb]. now apply lex_app.
  - unfold body. rewrite A. replace (magnitude b =? 0) with false by lia. cbn [N.eqb]. rewrite <- !app_assoc, !lex_same. cbn [app lex_cmp]. destruct (negative b); reflexivity.
  - unfold body. rewrite B. replace (magnitude a =? 0) with false by lia. cbn [N.eqb]. rewrite <- !app_assoc, !lex_same. cbn [app lex_cmp]. destruct (negative a); reflexivity.
  - apply lex_app. now rewrite !body_length.
Qed.

(* ---- zeros after a number ---- *)
Lemma nza_split l : exists j, l = no_zeros_after l ++ repeat 0 j.
Proof.
  induction l as [|d l (j & IH)]; [exists 0%nat; reflexivity|]. cbn [no_zeros_after]. destruct (no_zeros_after l) as [|x r] eqn:E.
  - destruct (N.eqb_spec d 0) as [->|]; [exists (S j)|exists j]; rewrite IH at 1; reflexivity.
  - exists j. cbn [app]. f_equal. exact IH.
Qed.
Lemma nza_last l : no_zeros_after l = [] \/ exists a c, no_zeros_after l = a ++ [c] /\ c <> 0.
Proof.
  induction l as [|d l IH]; [now left|]. cbn [no_zeros_after]. destruct IH as [->|(a & c & -> & C)].
  - destruct (N.eqb_spec d 0); [now left|]. right. exists [], d. auto.
  - right. exists (d :: a), c. split; [|exact C]. destruct a; reflexivity.
Qed.
Lemma nza_zeros j : no_zeros_after (repeat 0 j) = [].
Proof. induction j as [|j IH]; [reflexivity|]. cbn [repeat no_zeros_after]. now rewrite IH. Qed.
Lemma nza_app_zeros l j : no_zeros_after (l ++ repeat 0 j) = no_zeros_after l.
Proof. induction l as [|d l IH]; [apply nza_zeros|]. cbn [app no_zeros_after]. now rewrite IH. Qed.
Lemma nza_app l d r : d <> 0 -> no_zeros_after (l ++ d :: r) = l ++ no_zeros_after (d :: r).
Proof.
  intros D. assert (N : no_zeros_after (d :: r) <> []) by (cbn [no_zeros_after]; destruct (no_zeros_after r); [replace (d =? 0) with false by lia|]; discriminate).
  set (z := no_zeros_after (d :: r)) in *. assert (IH : forall l, no_zeros_after (l ++ d :: r) = l ++ z); [|apply IH]. clear l. induction l as [|x l IH]; [reflexivity|]. cbn [app no_zeros_after]. rewrite IH. destruct (l ++ z) eqn:E; [|reflexivity]. apply app_eq_nil in E as [_ E]. contradiction.
Qed.
Lemma nza_head d r : d <> 0 -> exists t, no_zeros_after (d :: r) = d :: t.
Proof. intros D. cbn [no_zeros_after]. destruct (no_zeros_after r); [replace (d =? 0) with false by lia|]; eauto. Qed.
Lemma nza_digits l : digits l -> digits (no_zeros_after l).
Proof. intros D. destruct (nza_split l) as (j & E). rewrite E in D. now apply Forall_app in D. Qed.
Lemma nza_number l : number_of l = number_of (no_zeros_after l) * 10 ^ N.of_nat (length l - length (no_zeros_after l)).
Proof.
  destruct (nza_split l) as (j & E). rewrite E at 1. rewrite number_app, number_zeros, N.add_0_r, repeat_length. f_equal. f_equal. f_equal.
  apply (f_equal (@length N)) in E. rewrite app_length, repeat_length in E. lia.
Qed.
Lemma rstrip_out s c set : set c = false -> rstrip (s ++ [c]) set = s ++ [c].
Proof. intros E. unfold rstrip, find_last_not. rewrite rev_app_distr. cbn [rev app find_char]. rewrite E. cbn [negb option_map]. unfold substr. cbn [skipn]. apply firstn_all2. rewrite app_length. cbn. lia. Qed.
Lemma rstrip_in s c set : set c = true -> rstrip (s ++ [c]) set = rstrip s set.
Proof.
  intros E. unfold rstrip, find_last_not. rewrite rev_app_distr. cbn [rev app find_char]. rewrite E. cbn [negb].
  destruct (find_char _ (rev s)) as [i|] eqn:F; [|reflexivity]. cbn [option_map]. apply find_char_some in F as (a & x & b & R & <- & _ & _).
  assert (L : length (rev s) = length (a ++ x :: b)) by now rewrite R. rewrite rev_length, app_length in L. cbn [length] in L. rewrite app_length. cbn [length].
  unfold substr. cbn [skipn]. rewrite firstn_app. replace (length s + 1 - 1 - S (length a) + 1 - length s)%nat with 0%nat by lia. cbn [firstn]. rewrite app_nil_r. f_equal. lia.
Qed.
Lemma rstrip_chars l : rstrip (chars l) (N.eqb 48) = chars (no_zeros_after l).
Proof.
  destruct (nza_split l) as (j & E). rewrite E at 1. clear E. induction j as [|j IH].
  - cbn [repeat]. rewrite app_nil_r. destruct (nza_last l) as [->|(a & c & -> & C)]; [reflexivity|]. unfold chars. rewrite map_app. apply rstrip_out. lia.
  - cbn [repeat]. rewrite repeat_cons, app_assoc. unfold chars in *. rewrite map_app. cbn [map]. rewrite rstrip_in by reflexivity. exact IH.
Qed.
Lemma drop_chars l : drop_while (N.eqb 48) (chars l) = chars (drop_while (N.eqb 0) l).
Proof. induction l as [|d l IH]; [reflexivity|]. cbn [chars map drop_while]. replace (48 =? 48 + d) with (0 =? d) by lia. destruct (0 =? d); [exact IH|reflexivity]. Qed.
Lemma drop_zeros k d r : d <> 0 -> drop_while (N.eqb 0) (repeat 0 k ++ d :: r) = d :: r.
Proof. intros D. induction k as [|k IH]; cbn [repeat app drop_while]; [replace (0 =? d) with false by lia; reflexivity|]. exact IH. Qed.

(* ---- the parts of a word ---- *)
Lemma atoi_chars l : forall acc, digits l -> atoi_loop acc (chars l) = acc * 10 ^ len l + number_of l.
Proof.
  induction l as [|d l IH]; intros acc D; [cbn; lia|]. inversion D; subst. cbn [chars map atoi_loop]. replace (isdigit (48 + d)) with true by (unfold isdigit; lia).
  change (map (N.add 48) l) with (chars l). rewrite IH by assumption. cbn [number_of length]. rewrite pow10_S. replace (48 + d - 48) with d by lia. nia.
Qed.
Lemma parts_ok n t : canonical n -> magnitude n <> 0 ->
  number_parts (body n ++ [t]) = Ok (Some (negative n, nega_expo n, Z.abs_N (expo n), chars (fit 30 (all_digits n)))).
Proof.
  intros K M. unfold number_parts. rewrite app_length, body_length by assumption.
  replace (Nat.leb (62 + length [t]) (length VALUE_FLOAT_PREFIX + 1)) with false by reflexivity.
  set (num := [if negative n then 77 else 80; sign_char n] ++ chars (expo_digits n) ++ [69] ++ chars (mant_digits n)).
  assert (LN : length num = 53%nat) by (unfold num; rewrite !app_length; unfold chars; rewrite !map_length, mant_digits_length, (proj2 (expo_digits_ok n)); reflexivity).
  assert (B : body n = VALUE_FLOAT_PREFIX ++ num) by (unfold body; replace (magnitude n =? 0) with false by lia; reflexivity).
  replace (substr (body n ++ [t]) (length VALUE_FLOAT_PREFIX) (62 + length [t] - length VALUE_FLOAT_PREFIX - 1)) with num.
  2:{ rewrite B, <- app_assoc. unfold substr. rewrite skipn_len. change (62 + length [t] - length VALUE_FLOAT_PREFIX - 1)%nat with 53%nat. rewrite <- LN. now rewrite firstn_len. }
  destruct (list_eq_dec N.eq_dec num (bytes "N0")) as [E|_]; [rewrite E in LN; discriminate|]. cbv zeta.
  replace (at_ num 0 =? 77) with (negative n) by (unfold num; destruct (negative n); reflexivity).
  replace ((at_ num 1 =? 77) || (at_ num 1 =? 45)) with (nega_expo n) by (unfold num, sign_char; destruct (negative n), (nega_expo n); reflexivity).
  assert (PE : find_char (N.eqb 69) num = Some 22%nat).
  { replace num with (([if negative n then 77 else 80; sign_char n] ++ chars (expo_digits n)) ++ 69 :: chars (mant_digits n)) by (unfold num; now rewrite <- !app_assoc).
    replace 22%nat with (length ([if negative n then 77 else 80; sign_char n] ++ chars (expo_digits n))) by (rewrite app_length; unfold chars; rewrite map_length, (proj2 (expo_digits_ok n)); reflexivity).
    apply find_char_app; [|reflexivity]. apply Forall_app. split.
    - unfold sign_char. repeat constructor; destruct (negative n); try destruct (nega_expo n); reflexivity.
    - destruct (expo_digits_ok n) as [D _]. unfold chars. apply Forall_map. revert D. apply Forall_impl. intros a L. lia. }
  rewrite PE. replace (Nat.ltb 22 2) with false by reflexivity.
  assert (S1 : substr num 2 (22 - 2) = chars (expo_digits n)).
  { unfold substr, num. cbn [app skipn]. change (22 - 2)%nat with 20%nat. rewrite <- (proj2 (expo_digits_ok n)). replace (length (expo_digits n)) with (length (chars (expo_digits n))) by (unfold chars; apply map_length). apply firstn_len. }
  assert (S2 : skipn (22 + 1) num = chars (mant_digits n)).
  { replace num with (([if negative n then 77 else 80; sign_char n] ++ chars (expo_digits n) ++ [69]) ++ chars (mant_digits n)) by (unfold num; now rewrite <- !app_assoc).
    replace (22 + 1)%nat with (length ([if negative n then 77 else 80; sign_char n] ++ chars (expo_digits n) ++ [69])) by (rewrite !app_length; unfold chars; rewrite map_length, (proj2 (expo_digits_ok n)); reflexivity).
    apply skipn_len. }
  rewrite S1, S2. clear S1 S2 PE B LN num.
  pose proof (all_digits_digits n K) as DD. pose proof (expo_bound n K) as EB.
  assert (A : atoi (if Bool.eqb (negative n) (nega_expo n) then chars (expo_digits n) else getBase10ComplementOfIntegerString (chars (expo_digits n))) = Z.abs_N (expo n)).
  { unfold expo_digits. destruct (Bool.eqb (negative n) (nega_expo n)).
    - unfold atoi. rewrite atoi_chars by apply fixed_digits. cbn [N.mul N.add]. apply fixed_number. apply N.lt_trans with (2 ^ 31); [exact EB|reflexivity].
    - rewrite complement_chars by apply nines_digits. rewrite nines_nines by apply fixed_digits. unfold atoi. rewrite atoi_chars by apply fixed_digits. cbn [N.mul N.add]. apply fixed_number. apply N.lt_trans with (2 ^ 31); [exact EB|reflexivity]. }
  rewrite A. replace (Z.abs_N (expo n) <? 2 ^ 31) with true by lia. do 3 f_equal. unfold mant_digits. destruct (negative n); [|reflexivity].
  rewrite complement_chars by apply nines_digits. now rewrite nines_nines by now apply fit_digits.
Qed.
Lemma parts_zero n t : magnitude n = 0 -> number_parts (body n ++ [t]) = Ok None.
Proof. intros M. unfold body. rewrite M. reflexivity. Qed.

(* ---- the text ---- *)
Lemma digits_loop_before j : forall l os zs t, (j < length l)%nat ->
  digits_loop (chars l) os zs t (t + N.of_nat j) = digits_loop (chars (skipn (S j) l)) (os ++ zs ++ chars (firstn (S j) l) ++ [46]) [] (t + N.of_nat j + 1) (t + N.of_nat j).
Proof.
  induction j as [|j IH]; intros [|d l] os zs t L; cbn [length] in L; try lia.
  - cbn [chars map digits_loop]. change (map (N.add 48)) with chars. replace (t =? t + N.of_nat 0) with true by lia. cbn [skipn firstn chars map]. replace (48 + d =? 48) with (d =? 0) by lia.
    destruct (N.eqb_spec d 0) as [->|]; f_equal; try lia; rewrite <- ?app_assoc; cbn [app]; rewrite ?app_nil_r, <- ?app_assoc; reflexivity.
  - cbn [chars map digits_loop]. change (map (N.add 48)) with chars. replace (t =? t + N.of_nat (S j)) with false by lia.
    cbn [skipn]. rewrite firstn_cons. cbn [chars map]. change (map (N.add 48)) with chars. replace (48 + d =? 48) with (d =? 0) by lia.
    replace (t + N.of_nat (S j)) with (t + 1 + N.of_nat j) by lia.
    destruct (N.eqb_spec d 0) as [->|]; rewrite IH by lia; f_equal; rewrite <- !app_assoc; reflexivity.
Qed.
Lemma digits_loop_after l : forall os zs t e, e < t ->
  digits_loop (chars l) os zs t e = os ++ match no_zeros_after l with [] => [] | r => zs ++ chars r end.
Proof.
  induction l as [|d l IH]; intros os zs t e L; [cbn; now rewrite app_nil_r|].
  cbn [chars map digits_loop]. change (map (N.add 48)) with chars. replace (t =? e) with false by lia. replace (48 + d =? 48) with (d =? 0) by lia.
  cbn [no_zeros_after]. destruct (N.eqb_spec d 0) as [->|]; rewrite IH by lia.
  - destruct (no_zeros_after l) as [|x r]; [reflexivity|]. cbn [chars map]. now rewrite <- !app_assoc.
  - destruct (no_zeros_after l) as [|x r]; [now rewrite app_nil_r|]. cbn [chars map]. rewrite <- !app_assoc. reflexivity.
Qed.
Lemma short_fit n : short n -> exists i j, fit 30 (all_digits n) ++ repeat 0 i = all_digits n ++ repeat 0 j.
Proof.
  intros S. exists (length (all_digits n)), 30%nat. pose proof (fit_short 30 (30 + length (all_digits n)) (all_digits n) ltac:(lia) S) as E.
  replace (30 + length (all_digits n) - 30)%nat with (length (all_digits n)) in E by lia. rewrite <- E. unfold fit. rewrite firstn_all2 by lia. f_equal. f_equal. lia.
Qed.
Lemma short_nza n : short n -> no_zeros_after (fit 30 (all_digits n)) = no_zeros_after (all_digits n).
Proof. intros S. destruct (short_fit n S) as (i & j & E). apply (f_equal no_zeros_after) in E. now rewrite !nza_app_zeros in E. Qed.
Lemma chars_length l : length (chars l) = length l.
Proof. apply map_length. Qed.
Lemma fit_split n : canonical n -> short n -> magnitude n <> 0 -> exists d r, fit 30 (all_digits n) = repeat 0 (zeros (all_digits n)) ++ d :: r /\ d <> 0.
Proof.
  intros K S M. destruct (leading n K M) as (d & r & E & D & _). destruct (short_fit n S) as (i & j & F). rewrite E in F at 2. rewrite <- app_assoc in F.
  set (k := zeros (all_digits n)) in *. destruct (Nat.le_gt_cases 30 k) as [L|L].
  - exfalso. apply D. assert (X : nth k (fit 30 (all_digits n) ++ repeat 0 i) 0 = nth k (repeat 0 k ++ (d :: r) ++ repeat 0 j) 0) by now rewrite F.
    rewrite app_nth2 in X by (rewrite fit_length; lia). rewrite (app_nth2 (repeat 0 k)) in X by (rewrite repeat_length; lia). rewrite repeat_length, Nat.sub_diag in X. cbn [app nth] in X.
    rewrite <- X. rewrite fit_length. apply nth_repeat.
  - exists d, (firstn (29 - k) (r ++ repeat 0 j)). split; [|exact D]. apply (f_equal (firstn 30)) in F. rewrite firstn_app, fit_length, Nat.sub_diag, firstn_O, app_nil_r in F. rewrite firstn_all2 in F by (rewrite fit_length; lia).
    rewrite F. rewrite firstn_app, repeat_length, firstn_all2 by (rewrite repeat_length; lia). f_equal. replace (30 - k)%nat with (Datatypes.S (29 - k)) by lia. reflexivity.
Qed.
Lemma match_nonempty (l : list N) : l <> [] -> match l with [] => [0] | x :: t => x :: t end = l.
Proof. destruct l; congruence. Qed.
Lemma text_back n t : canonical n -> short n -> magnitude n <> 0 -> (length (whole n) <= 30)%nat ->
  convertIndexWordToFloatString (body n ++ [t]) = Ok (text (shortest n)).
Proof.
  intros K S M W. unfold convertIndexWordToFloatString. rewrite parts_ok by assumption. cbn [bind]. change (if negative n then [45] else []) with (sign_chars n).
  destruct (fit_split n K S M) as (d & r & F & D). pose proof (short_nza n S) as Z. rewrite drop_chars, F, drop_zeros, <- F by assumption.
  destruct (leading n K M) as (d' & r' & E & D' & H & L). unfold nega_expo. destruct (Z.ltb_spec (expo n) 0) as [X|X].
  - assert (P : (0 < zeros (all_digits n))%nat /\ whole n = [0]).
    { destruct H as [H|(H1 & _ & H2)]; [|auto]. exfalso. unfold expo in X. rewrite H in X. pose proof (whole_nonempty n K). destruct (whole n); [contradiction|]. cbn [length] in X. lia. }
    destruct P as [P WZ]. assert (A : Z.abs_N (expo n) = N.of_nat (zeros (all_digits n))) by (unfold expo; rewrite WZ; cbn [length]; lia).
    rewrite A, Nat2N.id. replace (N.of_nat (zeros (all_digits n)) =? 0) with false by lia. f_equal. unfold text, shortest, sign_chars. cbn [negative whole fraction]. f_equal. rewrite WZ. cbn [chars map app]. unfold bytes. cbn [app]. 
    change (N_of_ascii "0") with 48. change (N_of_ascii ".") with 46. do 2 f_equal. change (48 + d :: map (N.add 48) r) with (chars (d :: r)). rewrite rstrip_chars.
    rewrite F, E in Z. rewrite ?zeros_app, !nza_app in Z by assumption. rewrite (proj1 (app_inv_head_iff _ _ _) Z).
    destruct (zeros (all_digits n)) as [|k] eqn:EK; [lia|]. unfold all_digits in E. rewrite WZ in E. cbn [repeat app] in E. injection E as E. rewrite E, nza_app by assumption.
    replace (Datatypes.S k - 1)%nat with k by lia. destruct (nza_head d' r' D') as (u & U). rewrite U. rewrite match_nonempty by (destruct k; discriminate).
    unfold replicate, chars. rewrite map_app. change (map (N.add 48) (repeat 0 k)) with (chars (repeat 0 k)). now rewrite chars_repeat.
  - assert (ZZ : zeros (all_digits n) = 0%nat).
    { destruct H as [H|(H1 & H2 & _)]; [exact H|]. unfold expo in X. lia. }
    rewrite ZZ in *. cbn [repeat app] in *. rewrite <- F. pose proof (whole_nonempty n K) as WN. set (w := (length (whole n) - 1)%nat).
    assert (LW : length (whole n) = Datatypes.S w) by (destruct (whole n); [contradiction|unfold w; cbn [length]; lia]). clearbody w.
    assert (A : Z.abs_N (expo n) = 0 + N.of_nat w) by (unfold expo; rewrite ZZ; lia). rewrite A.
    rewrite digits_loop_before by (rewrite fit_length; lia). rewrite digits_loop_after by lia. cbn [app].
    assert (FW : firstn (Datatypes.S w) (fit 30 (all_digits n)) = whole n).
    { rewrite <- fit_fit by lia. unfold fit, all_digits. rewrite <- LW, firstn_len, app_length. replace (length (whole n) - (length (whole n) + length (fraction n)))%nat with 0%nat by lia. cbn [repeat]. apply app_nil_r. }
    assert (FF : no_zeros_after (skipn (Datatypes.S w) (fit 30 (all_digits n))) = no_zeros_after (fraction n)).
    { destruct (short_fit n S) as (i & j & G). apply (f_equal (skipn (Datatypes.S w))) in G. rewrite skipn_app, fit_length in G. replace (Datatypes.S w - 30)%nat with 0%nat in G by lia. rewrite skipn_O in G.
      unfold all_digits in G at 2. rewrite <- app_assoc in G. rewrite <- LW, skipn_len in G. rewrite <- LW. apply (f_equal no_zeros_after) in G. now rewrite !nza_app_zeros in G. }
    rewrite FW, FF, chars_length, fit_length. replace (N.to_nat (0 + N.of_nat w) - 30)%nat with 0%nat by lia. unfold replicate. cbn [repeat]. 
    assert (R : forall l (c : N), rev (l ++ [c]) = c :: rev l) by (intros; rewrite rev_app_distr; reflexivity).
    destruct (no_zeros_after (fraction n)) as [|x u] eqn:NF.
    + rewrite app_nil_r. replace (sign_chars n ++ chars (whole n) ++ [46]) with ((sign_chars n ++ chars (whole n)) ++ [46]) by now rewrite <- app_assoc. rewrite R. cbn [N.eqb Pos.eqb]. f_equal. unfold text, shortest, sign_chars. cbn [negative whole fraction]. rewrite NF, <- !app_assoc. reflexivity.
    + destruct (nza_last (fraction n)) as [NN|(a & c & NN & C)]; [congruence|]. rewrite NF in NN. rewrite NN. 
      replace ((sign_chars n ++ chars (whole n) ++ [46]) ++ chars (a ++ [c])) with ((sign_chars n ++ chars (whole n) ++ [46] ++ chars a) ++ [48 + c]) by (unfold chars; rewrite map_app, <- !app_assoc; reflexivity).
      rewrite R. replace (48 + c =? 46) with false by lia. rewrite app_nil_r. f_equal. unfold text, shortest, sign_chars. cbn [negative whole fraction]. rewrite NF, NN. unfold chars. rewrite map_app, <- !app_assoc. destruct a; reflexivity.
Qed.
Lemma text_back_zero n t : magnitude n = 0 -> convertIndexWordToFloatString (body n ++ [t]) = Ok (bytes "0.0").
Proof. intros M. unfold convertIndexWordToFloatString. now rewrite parts_zero. Qed.
(* taking the zeros away keeps the value *)
Lemma shortest_value n : compare_values n (shortest n) = Eq.
Proof.
  unfold compare_values. apply Z.compare_eq_iff. assert (E : magnitude n * 10 ^ len (fraction (shortest n)) = magnitude (shortest n) * 10 ^ len (fraction n)).
  { unfold magnitude, all_digits, shortest. cbn [whole fraction]. rewrite !number_app. destruct (nza_split (fraction n)) as (j & F). destruct (no_zeros_after (fraction n)) as [|x u].
    - cbn [app] in F. rewrite F, number_zeros, repeat_length. replace (number_of [0]) with 0 by reflexivity. lia.
    - rewrite F. rewrite number_app, number_zeros, app_length, repeat_length, Nat2N.inj_add, N.pow_add_r. lia. }
  unfold scaled. change (negative (shortest n)) with (negative n). rewrite <- !nat_N_Z. change 10%Z with (Z.of_N 10). rewrite <- !N2Z.inj_pow. destruct (negative n); [rewrite !Z.mul_opp_l; f_equal|]; rewrite <- !N2Z.inj_mul; now rewrite E.
Qed.
(* ---- the float ---- *)
Lemma float_back log10 n t : canonical n -> short n -> magnitude n <> 0 -> magnitude n < 2 ^ 63 ->
  (forall m, m <= magnitude n -> m <> 0 -> 10 ^ log10 m <= m < 10 * 10 ^ log10 m) ->
  exists m x, convertIndexWordToFloat log10 (body n ++ [t]) = Ok (negative n, m, x) /\
    (0 <= x + Z.of_nat (length (fraction n)))%Z /\ Z.of_N (magnitude n) = (Z.of_N m * 10 ^ (x + Z.of_nat (length (fraction n))))%Z.
Proof.
  intros K S M B LG. unfold convertIndexWordToFloat. rewrite parts_ok by assumption. cbn [bind].
  destruct (fit_split n K S M) as (d & r & F & D). pose proof (short_nza n S) as Z. destruct (leading n K M) as (d' & r' & E & D' & H & L).
  rewrite drop_chars, F, drop_zeros, rstrip_chars by assumption. rewrite F, E in Z. rewrite ?zeros_app, !nza_app in Z by assumption. rewrite (proj1 (app_inv_head_iff _ _ _) Z). clear Z F.
  destruct (nza_head d' r' D') as (u & U). pose proof (all_digits_digits n K) as DD. rewrite E in DD. apply Forall_app in DD as [_ DD].
  pose proof (nza_digits _ DD) as DU. rewrite U in DU. pose proof (nza_number (d' :: r')) as NN. rewrite U in NN. rewrite U.
  assert (MG : magnitude n = number_of (d' :: r')) by (unfold magnitude; rewrite E, number_app, number_zeros; lia).
  set (m := number_of (d' :: u)) in *. cbn [length] in NN.
  assert (LU : (length u <= length r')%nat) by (destruct (nza_split (d' :: r')) as (j & J); rewrite U in J; apply (f_equal (@length N)) in J; rewrite app_length in J; cbn [length] in J; lia).
  set (g := N.of_nat (Datatypes.S (length r') - Datatypes.S (length u))) in *. pose proof (pow10_pos g).
  assert (ML : m <= magnitude n) by (rewrite MG, NN; nia). assert (M0 : m <> 0) by (intros X; rewrite MG, NN, X in M; lia).
  assert (AT : atoi (chars (d' :: u)) = m) by (unfold atoi; rewrite atoi_chars by assumption; reflexivity).
  change (chars (d' :: u)) with ((48 + d') :: chars u) in *. cbv beta iota zeta. rewrite AT. replace (m <? 2 ^ 63) with true by lia.
  exists m. eexists. split; [reflexivity|].
  assert (LM : log10 m = N.of_nat (length u)).
  { destruct (LG m ML M0) as [LO UP]. assert (MB : 10 ^ len u <= m < 10 * 10 ^ len u).
    { unfold m. cbn [number_of]. inversion DU; subst. match goal with F : Forall _ u |- _ => pose proof (number_lt u F) end. pose proof (pow10_pos (len u)). nia. }
    clearbody m. rewrite <- N.pow_succ_r' in UP, MB. destruct (N.lt_trichotomy (log10 m) (len u)) as [C|[C|C]]; [|exact C|]; exfalso.
    - assert (10 ^ N.succ (log10 m) <= 10 ^ len u) by (apply N.pow_le_mono_r; lia). lia.
    - assert (10 ^ N.succ (len u) <= 10 ^ log10 m) by (apply N.pow_le_mono_r; lia). lia. }
  assert (EX : (if nega_expo n then - Z.of_N (Z.abs_N (expo n)) else Z.of_N (Z.abs_N (expo n)))%Z = expo n) by (unfold nega_expo; destruct (Z.ltb_spec (expo n) 0); lia).
  rewrite EX, LM. assert (G : (expo n - Z.of_N (len u) + Z.of_nat (length (fraction n)) = Z.of_N g)%Z) by lia. rewrite G. split; [lia|].
  rewrite MG, NN. change 10%Z with (Z.of_N 10). rewrite <- N2Z.inj_pow, <- N2Z.inj_mul. reflexivity.
Qed.
