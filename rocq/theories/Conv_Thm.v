(* Properties C36 and C37: numbers and dates in the index. *)
From Coq Require Import Ascii String.
From Coq Require Import List NArith ZArith Arith Bool Lia ZifyN ZifyNat ZifyBool.
From Verif Require Import Table_Spec Lex_Proof Std_Model Std_Proof Strings_Model Strings_Proof Strings_Proof4 Collate_Model Collate_Spec
  Conv_Model Conv_Spec Conv_Proof Conv_Proof2 Conv_Proof3 Conv_Proof4 Conv_Proof5.
Import ListNotations.
Open Scope N_scope.

(* ---- C36: numbers ---- *)
(* The words of two numbers with at most 30 digits (not counting zeros at the end) compare, byte by
   byte, as the numbers do; equal numbers compare by their type. *)
Theorem C36_order a b t u : canonical a -> canonical b -> short a -> short b ->
  exists x y, convertFloatStringToIndexWord (text a) t = Ok x /\ convertFloatStringToIndexWord (text b) u = Ok y /\
    lex_cmp x y = match compare_values a b with Eq => type_char t ?= type_char u | c => c end.
Proof.
  intros KA KB SA SB. exists (body a ++ [type_char t]), (body b ++ [type_char u]). split; [now apply encode|]. split; [now apply encode|].
  rewrite lex_body by assumption. rewrite (proj2 (body_order a b KA KB)) by assumption. destruct (compare_values a b); try reflexivity. cbn [or_else lex_cmp]. now destruct (type_char t ?= type_char u).
Qed.
(* However many digits there are, the order is never turned round. *)
Theorem C36_monotone a b t : canonical a -> canonical b -> compare_values a b <> Gt ->
  exists x y, convertFloatStringToIndexWord (text a) t = Ok x /\ convertFloatStringToIndexWord (text b) t = Ok y /\ lex_cmp x y <> Gt.
Proof.
  intros KA KB C. exists (body a ++ [type_char t]), (body b ++ [type_char t]). split; [now apply encode|]. split; [now apply encode|].
  rewrite lex_body by assumption. pose proof (proj1 (body_order a b KA KB) C) as H. destruct (lex_cmp (body a) (body b)); cbn [or_else]; try contradiction; try discriminate. rewrite lex_cmp_refl. discriminate.
Qed.
(* One word, one value and one type. *)
Theorem C36_same_word a b t u : canonical a -> canonical b -> short a -> short b ->
  (convertFloatStringToIndexWord (text a) t = convertFloatStringToIndexWord (text b) u <-> compare_values a b = Eq /\ t = u).
Proof.
  intros KA KB SA SB. rewrite !encode by assumption. pose proof (proj2 (body_order a b KA KB) SA SB) as O. split.
  - intros E. injection E as E. apply app_inj_tail in E as [E T]. rewrite <- O, E, lex_cmp_refl. split; [reflexivity|]. destruct t, u; try reflexivity; discriminate.
  - intros [E <-]. rewrite E in O. apply lex_cmp_eq in O. now rewrite O.
Qed.
(* A plus sign, a missing ".0" and the ways of writing the type do not matter; the constants of
   queries are given the same words. *)
Theorem C36_literal n t ty ns : canonical n -> names t ty -> fits t n -> free 34 ns ->
  convertValueLiteralToIndexWord (typed (written t n) ns ty) = convertFloatStringToIndexWord (text n) t /\
  convertValueLiteralToIndexWord (typed_short (written t n) ns ty) = convertFloatStringToIndexWord (text n) t.
Proof. intros K H F A. rewrite encode by assumption. now apply number_literal. Qed.
Theorem C36_plus n t : canonical n -> negative n = false -> convertFloatStringToIndexWord (43 :: text n) t = convertFloatStringToIndexWord (text n) t.
Proof. intros K E. rewrite encode by assumption. now apply encode_plus. Qed.
Theorem C36_constant n : canonical n ->
  isNumeric (text n) = true /\ convertNumericToIndexWord (text n) = convertFloatStringToIndexWord (text n) FLOAT /\
  (fraction n = [0] -> isNumeric (integer_text n) = true /\ convertNumericToIndexWord (integer_text n) = convertFloatStringToIndexWord (text n) INTEGER).
Proof.
  intros K. destruct (constant_numeric n K) as [A B]. destruct (constant_word n K) as [C D]. rewrite !encode by assumption. split; [exact A|]. split; [exact C|]. intros F. split; [exact B|]. now apply D.
Qed.
(* A number with at most 30 digits is shown as the same number, without zeros at the end. *)
Theorem C36_read_back n t : canonical n -> short n -> (length (whole n) <= 30)%nat -> (magnitude n = 0 -> negative n = false) -> fits t n ->
  exists w, convertFloatStringToIndexWord (text n) t = Ok w /\
    convertIndexWordToValueLiteral w = Ok ([34] ++ written t (shortest n) ++ [34] ++ suffix t) /\ compare_values n (shortest n) = Eq.
Proof.
  intros K S W Z F. exists (body n ++ [type_char t]). split; [now apply encode|]. split; [|apply shortest_value]. rewrite number_back by assumption. unfold quoted. now rewrite <- !app_assoc.
Qed.
(* an integer is shown as it was written *)
Theorem C36_read_back_integer n : canonical n -> fraction n = [0] -> (length (whole n) <= 30)%nat -> (magnitude n = 0 -> negative n = false) ->
  exists w, convertFloatStringToIndexWord (integer_text n) INTEGER = Ok w /\ convertIndexWordToValueLiteral w = Ok ([34] ++ integer_text n ++ [34] ++ XSD_INT_SUFFIX).
Proof.
  intros K F W Z. exists (body n ++ [type_char INTEGER]). split; [now apply encode_integer|]. assert (S : short n).
  { unfold short, Conv_Spec.all_digits. rewrite F, skipn_app, skipn_all2 by assumption. cbn [app]. destruct (30 - length (whole n))%nat; [repeat constructor|]. rewrite skipn_all2 by (cbn; lia). constructor. }
  rewrite number_back; try assumption; [|intros _; exact F]. unfold quoted. rewrite <- !app_assoc. reflexivity.
Qed.
(* The float that is computed from a word: mantissa and power of ten have the value of the number
   if log10, rounded down, is right. *)
Theorem C36_float log10 n t : canonical n -> short n -> magnitude n < 2 ^ 63 ->
  (forall m, m <= magnitude n -> m <> 0 -> 10 ^ log10 m <= m < 10 * 10 ^ log10 m) ->
  exists w s m x, convertFloatStringToIndexWord (text n) t = Ok w /\ convertIndexWordToFloat log10 w = Ok (s, m, x) /\
    (m <> 0 -> s = negative n) /\ (m = 0 <-> magnitude n = 0) /\
    (0 <= x + Z.of_nat (length (fraction n)))%Z /\ Z.of_N (magnitude n) = (Z.of_N m * 10 ^ (x + Z.of_nat (length (fraction n))))%Z.
Proof.
  intros K S B L. exists (body n ++ [type_char t]). destruct (N.eq_dec (magnitude n) 0) as [M|M].
  - exists false, 0, 0%Z. split; [now apply encode|]. split; [unfold convertIndexWordToFloat; now rewrite parts_zero|]. rewrite M. repeat split; try lia.
  - destruct (float_back log10 n (type_char t) K S M B L) as (m & x & E & P & V). exists (negative n), m, x. split; [now apply encode|]. split; [exact E|]. split; [reflexivity|]. split; [split; intros X; [subst m; lia|contradiction]|]. now split.
Qed.

Definition n_pos : number := Number false [4; 2] [0; 5; 0].
Definition n_neg : number := Number true [0] [0; 7; 5].
Example C36_example :
  canonical n_pos /\ canonical n_neg /\ short n_pos /\ short n_neg /\ compare_values n_neg n_pos = Lt /\
  convertFloatStringToIndexWord (bytes "42.050") FLOAT = Ok (bytes ":v:float:PP00000000000000000001E420500000000000000000000000000F") /\
  convertFloatStringToIndexWord (bytes "-0.075") DECIMAL = Ok (bytes ":v:float:M-00000000000000000002E992499999999999999999999999999T") /\
  text n_pos = bytes "42.050" /\ text (shortest n_pos) = bytes "42.05" /\ text n_neg = bytes "-0.075".
Proof.
  assert (K : forall neg w f, digits w -> digits f -> (w = [0] \/ exists d l, w = d :: l /\ d <> 0) -> f <> [] -> number_of (w ++ f) <> 0 -> N.of_nat (length (w ++ f)) < 2 ^ 31 -> canonical (Number neg w f)).
  { intros neg w f A B C D E F. constructor; auto. intros Z. contradiction. }
  split; [apply K; try (repeat constructor; lia); try discriminate; right; exists 4, [2]; split; [reflexivity|discriminate]|].
  split; [apply K; try (repeat constructor; lia); try discriminate; now left|].
  split; [constructor|]. split; [constructor|]. repeat split; vm_compute; reflexivity.
Qed.

(* ---- where it fails ---- *)
(* Without a digit before the point the number is taken for a larger one, and two numbers share a word. *)
Theorem C36_no_leading_digit_refuted :
  exists w, convertFloatStringToIndexWord (bytes ".05") FLOAT = Ok w /\ convertFloatStringToIndexWord (bytes "0.5") FLOAT = Ok w.
Proof. eexists. split; [vm_compute; reflexivity|]. vm_compute. reflexivity. Qed.
(* Leading zeros multiply a number. *)
Theorem C36_leading_zeros_refuted : exists w v,
  convertFloatStringToIndexWord (bytes "007.0") INTEGER = Ok w /\ convertFloatStringToIndexWord (bytes "50.0") INTEGER = Ok v /\ lex_cmp v w = Lt /\
  convertIndexWordToValueLiteral w = Ok (quoted (bytes "700") ++ XSD_INT_SUFFIX).
Proof. do 2 eexists. repeat (split; [vm_compute; reflexivity|]). vm_compute. reflexivity. Qed.
(* Zero with more than one digit after the point is larger than some positive numbers and is not a number when it is read. *)
Theorem C36_zeros_refuted log10 : exists w v,
  convertFloatStringToIndexWord (bytes "0.00") FLOAT = Ok w /\ convertFloatStringToIndexWord (bytes "0.05") FLOAT = Ok v /\ lex_cmp v w = Lt /\
  convertIndexWordToFloat log10 w = Throws.
Proof. do 2 eexists. repeat (split; [vm_compute; reflexivity|]). vm_compute. reflexivity. Qed.
Theorem C36_zeros_undefined_refuted : exists w, convertFloatStringToIndexWord (bytes "00.0") FLOAT = Ok w /\ convertIndexWordToFloatString w = Undef.
Proof. eexists. repeat (split; [vm_compute; reflexivity|]). vm_compute. reflexivity. Qed.
(* From 31 digits on an integer is shown as another one. *)
Theorem C36_many_digits_refuted : exists n w, canonical n /\ short n /\ fraction n = [0] /\
  convertFloatStringToIndexWord (integer_text n) INTEGER = Ok w /\ convertIndexWordToValueLiteral w <> Ok (quoted (integer_text n) ++ XSD_INT_SUFFIX).
Proof.
  exists (Number false (1 :: repeat 0 31) [0]). eexists. split.
  - constructor; cbn [whole fraction]; try (repeat constructor; lia); try discriminate.
    + right. exists 1, (repeat 0 31). split; [reflexivity|discriminate].
  - split; [vm_compute; repeat constructor|]. split; [reflexivity|]. split; [vm_compute; reflexivity|]. vm_compute. discriminate.
Qed.
(* From 31 digits on different numbers have one word; a small one is read as if it were zero. *)
Theorem C36_truncated_refuted : exists a b w, canonical a /\ canonical b /\ compare_values a b = Lt /\
  convertFloatStringToIndexWord (text a) FLOAT = Ok w /\ convertFloatStringToIndexWord (text b) FLOAT = Ok w.
Proof.
  exists (Number false [1] (repeat 1 29 ++ [3])), (Number false [1] (repeat 1 29 ++ [5])). eexists. split; [|split].
  - constructor; cbn [whole fraction]; try (repeat constructor; lia); try discriminate. right. exists 1, []. split; [reflexivity|discriminate].
  - constructor; cbn [whole fraction]; try (repeat constructor; lia); try discriminate. right. exists 1, []. split; [reflexivity|discriminate].
  - split; [vm_compute; reflexivity|]. split; [vm_compute; reflexivity|]. vm_compute. reflexivity.
Qed.
(* Exponents are taken for digits: 1000 is smaller than 2. *)
Theorem C36_scientific_refuted : exists w v,
  convertValueLiteralToIndexWord (typed (bytes "1.0E3") (bytes "x") (bytes "double")) = Ok w /\
  convertValueLiteralToIndexWord (typed (bytes "2.0") (bytes "x") (bytes "double")) = Ok v /\ lex_cmp w v = Lt.
Proof. do 2 eexists. repeat (split; [vm_compute; reflexivity|]). vm_compute. reflexivity. Qed.
(* 19 digits are not always a number. *)
Theorem C36_float_throws_refuted log10 : exists n w, canonical n /\ short n /\
  convertFloatStringToIndexWord (text n) INTEGER = Ok w /\ convertIndexWordToFloat log10 w = Throws.
Proof.
  exists (Number false (repeat 9 19) [0]). eexists. split.
  - constructor; cbn [whole fraction]; try (repeat constructor; lia); try discriminate. right. exists 9, (repeat 9 18). split; [reflexivity|discriminate].
  - split; [constructor|]. split; [vm_compute; reflexivity|]. vm_compute. reflexivity.
Qed.
(* In double precision log10(999999999999999) is 15; then 0.999999999999999 is read as a tenth of it. *)
Theorem C36_log10_refuted log10 : log10 999999999999999 = 15 -> exists n w, canonical n /\ short n /\
  convertFloatStringToIndexWord (text n) FLOAT = Ok w /\ magnitude n = 999999999999999 /\ length (fraction n) = 15%nat /\
  convertIndexWordToFloat log10 w = Ok (false, 999999999999999, (-16)%Z).
Proof.
  intros L. exists (Number false [0] (repeat 9 15)). eexists. split.
  - constructor; cbn [whole fraction]; try (repeat constructor; lia); try discriminate.
  - split; [constructor|]. split; [vm_compute; reflexivity|]. split; [reflexivity|]. split; [reflexivity|].
    unfold convertIndexWordToFloat. match goal with |- bind ?p _ = _ => let v := eval vm_compute in p in replace p with v by (vm_compute; reflexivity) end. cbn [bind].
    match goal with |- match ?r with _ => _ end = _ => let v := eval vm_compute in r in replace r with v by (vm_compute; reflexivity) end. cbv iota zeta.
    match goal with |- context [atoi ?r] => replace (atoi r) with 999999999999999 by (vm_compute; reflexivity) end. rewrite L. reflexivity.
Qed.
(* In an order of texts in which the hyphen comes before the plus sign, as in the one of Unicode, the
   words of negative numbers are not in their order. *)
Definition hyphen_first (c : N) : N := if c =? 45 then 44 else if c =? 43 then 46 else c + 1.
Definition hyphen_icu : icu := Icu (fun _ a b => lex_cmp (map hyphen_first a) (map hyphen_first b)) (fun _ a => map hyphen_first a).
Lemma hyphen_icu_ok : icu_ok hyphen_icu.
Proof.
  constructor; [reflexivity| |intros s t a b _ H; exact H]. intros s a I. apply in_map_iff in I as (c & E & _). unfold hyphen_first in E. destruct (c =? 45), (c =? 43); lia.
Qed.
Theorem C36_collation_refuted : exists loc a b x y, icu_ok loc /\ canonical a /\ canonical b /\ compare_values a b = Lt /\
  convertFloatStringToIndexWord (text a) FLOAT = Ok x /\ convertFloatStringToIndexWord (text b) FLOAT = Ok y /\ compare loc x y TOTAL = Gt.
Proof.
  exists hyphen_icu, (Number true [5] [0]), (Number true [0] [5]). do 2 eexists. split; [apply hyphen_icu_ok|]. split; [|split].
  - constructor; cbn [whole fraction]; try (repeat constructor; lia); try discriminate. right. exists 5, []. split; [reflexivity|discriminate].
  - constructor; cbn [whole fraction]; try (repeat constructor; lia); try discriminate.
  - repeat (split; [vm_compute; reflexivity|]). vm_compute. reflexivity.
Qed.

(* ---- C37: dates ---- *)
(* The words of two dates compare, byte by byte, as year, month, day, hour, minute and second do. *)
Theorem C37_order a b : date_ok a -> date_ok b ->
  exists x y, convertDateToIndexWord (date_text a) = Ok x /\ convertDateToIndexWord (date_text b) = Ok y /\ lex_cmp x y = compare_dates a b.
Proof. intros KA KB. exists (date_word a), (date_word b). split; [now apply date_encode|]. split; [now apply date_encode|]. now apply date_order. Qed.
Theorem C37_literal d ty ns : date_ok d -> date_names ty -> free 34 ns ->
  convertValueLiteralToIndexWord (typed (date_text d) ns ty) = convertDateToIndexWord (date_text d) /\
  convertValueLiteralToIndexWord (typed_short (date_text d) ns ty) = convertDateToIndexWord (date_text d).
Proof. intros K H F. rewrite date_encode by assumption. now apply date_literal. Qed.
(* What is shown for a date, except in the year zero, is a date with the same year, month, day and
   time; it has the same word. *)
Theorem C37_read_back d : date_ok d -> number_of (year d) <> 0 ->
  exists w d', convertDateToIndexWord (date_text d) = Ok w /\ convertIndexWordToValueLiteral w = Ok ([34] ++ date_text d' ++ [34] ++ XSD_DATETIME_SUFFIX) /\
    date_ok d' /\ compare_dates d d' = Eq /\ convertValueLiteralToIndexWord ([34] ++ date_text d' ++ [34] ++ XSD_DATETIME_SUFFIX) = Ok w.
Proof.
  intros K Z. exists (date_word d), (shown d). split; [now apply date_encode|]. split; [rewrite date_back by assumption; unfold quoted; now rewrite <- !app_assoc|].
  split; [now apply shown_ok|]. split; [now apply shown_same|].
  assert (W : date_word (shown d) = date_word d) by (apply lex_cmp_eq; rewrite date_order by auto using shown_ok; pose proof (shown_same d K) as S; unfold compare_dates in *; rewrite shown_components by assumption; now rewrite Z.compare_refl, lex_cmp_refl).
  rewrite <- W. apply (date_literal (shown d) (bytes "dateTime") (bytes "http://www.w3.org/2001/XMLSchema")); [now apply shown_ok|constructor|repeat constructor].
Qed.
Definition d_old : date := Date true [5; 0; 0] (Some ([0; 3], Some [1; 5])) NoTime Zulu.
Definition d_new : date := Date false [2; 0; 2; 1] (Some ([1; 2], Some [2; 4])) (Second [1; 8] [3; 0] [0; 1] [5]) (Offset false [0; 5] [0; 0]).
Example C37_example :
  date_ok d_old /\ date_ok d_new /\ compare_dates d_old d_new = Lt /\
  date_text d_old = bytes "-500-03-15Z" /\ date_text d_new = bytes "2021-12-24T18:30:01.5-05:00" /\
  convertDateToIndexWord (date_text d_old) = Ok (bytes ":v:date:-999999999999999499-03-15T00:00:00") /\
  convertDateToIndexWord (date_text d_new) = Ok (bytes ":v:date:0000000000000002021-12-24T18:30:01").
Proof.
  assert (T : forall a b, a < 10 -> b < 10 -> two [a; b]) by (intros; split; [repeat constructor; assumption|reflexivity]).
  split; [|split].
  - constructor; cbn; try tauto; try lia; try (split; [repeat constructor; lia|discriminate]); try (intros _; discriminate). split; apply T; lia.
  - constructor; cbn; try tauto; try lia; try (split; [repeat constructor; lia|discriminate]); try discriminate.
    + split; apply T; lia.
    + repeat split; try (apply T; lia); repeat constructor; lia.
    + intros _. eauto.
    + split; [apply T; lia|]. split; [apply T; lia|discriminate].
  - repeat split; vm_compute; reflexivity.
Qed.
(* Offsets are not taken into account: the later instant has the smaller word. *)
Theorem C37_offset_refuted : exists w v,
  convertDateToIndexWord (bytes "2000-01-01T23:00:00-05:00") = Ok w /\ convertDateToIndexWord (bytes "2000-01-02T00:00:00+05:00") = Ok v /\ lex_cmp w v = Lt.
Proof. do 2 eexists. repeat (split; [vm_compute; reflexivity|]). vm_compute. reflexivity. Qed.
(* An offset after a day becomes part of the day. *)
Theorem C37_day_offset_refuted : convertDateToIndexWord (bytes "2000-01-02-05:00") = Ok (bytes ":v:date:0000000000000002000-01-02-05:00T00:00:00").
Proof. vm_compute. reflexivity. Qed.
(* The year zero is shown without a year, and that is another date. *)
Theorem C37_year_zero_refuted : exists w v,
  convertDateToIndexWord (bytes "0000-03-15") = Ok w /\ convertIndexWordToValueLiteral w = Ok (quoted (bytes "-03-15T00:00:00") ++ XSD_DATETIME_SUFFIX) /\
  convertValueLiteralToIndexWord (quoted (bytes "-03-15T00:00:00") ++ XSD_DATETIME_SUFFIX) = Ok v /\ v <> w.
Proof. do 2 eexists. repeat (split; [vm_compute; reflexivity|]). vm_compute. discriminate. Qed.
(* A year is shown as a moment in the month zero. *)
Theorem C37_year_type_refuted : exists w,
  convertValueLiteralToIndexWord (typed (bytes "2000") (bytes "http://www.w3.org/2001/XMLSchema") (bytes "gYear")) = Ok w /\
  convertIndexWordToValueLiteral w = Ok (quoted (bytes "2000-00-00T00:00:00") ++ XSD_DATETIME_SUFFIX).
Proof. eexists. split; [vm_compute; reflexivity|]. vm_compute. reflexivity. Qed.
(* A year of more than 19 characters stops the index build with an exception. *)
Theorem C37_long_year_refuted y : digits y -> (19 < length y)%nat -> convertDateToIndexWord (chars y) = Throws.
Proof.
  intros D L. unfold convertDateToIndexWord, normalizeDate.
  assert (F : forall c, c < 48 \/ 57 < c -> find_char (N.eqb c) (chars y) = None) by (intros c C; apply find_char_all, free_chars; assumption).
  rewrite !find_0, (F 90) by lia. rewrite (F 84) by lia. unfold time_of, day_of, find, find_from.
  replace (find_char (N.eqb 45) (skipn 1 (chars y))) with (@None nat).
  - cbn [option_map]. rewrite chars_length. replace (Nat.ltb year_digits (length y)) with true by (symmetry; apply Nat.ltb_lt; unfold year_digits; lia). reflexivity.
  - symmetry. apply find_char_all. unfold chars. destruct y as [|d l]; [constructor|]. cbn [map skipn]. inversion D; subst. apply (free_chars 45 l); [assumption|lia].
Qed.

Print Assumptions C36_order.
Print Assumptions C36_monotone.
Print Assumptions C36_same_word.
Print Assumptions C36_literal.
Print Assumptions C36_constant.
Print Assumptions C36_read_back.
Print Assumptions C36_read_back_integer.
Print Assumptions C36_float.
Print Assumptions C36_collation_refuted.
Print Assumptions C36_log10_refuted.
Print Assumptions C37_order.
Print Assumptions C37_literal.
Print Assumptions C37_read_back.
Print Assumptions C37_long_year_refuted.

Print Assumptions C36_plus.
Print Assumptions C36_no_leading_digit_refuted.
Print Assumptions C36_leading_zeros_refuted.
Print Assumptions C36_zeros_refuted.
Print Assumptions C36_zeros_undefined_refuted.
Print Assumptions C36_many_digits_refuted.
Print Assumptions C36_truncated_refuted.
Print Assumptions C36_scientific_refuted.
Print Assumptions C36_float_throws_refuted.
Print Assumptions C37_offset_refuted.
Print Assumptions C37_day_offset_refuted.
Print Assumptions C37_year_zero_refuted.
Print Assumptions C37_year_type_refuted.
