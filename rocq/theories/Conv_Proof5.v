(* Literals with a type. *)
From Coq Require Import Ascii String.
From Coq Require Import List NArith ZArith Arith Bool Lia ZifyN ZifyNat ZifyBool.
From Verif Require Import Table_Spec Lex_Proof Std_Model Std_Proof Strings_Model Strings_Proof Strings_Proof4 Collate_Model Conv_Model Conv_Spec Conv_Proof Conv_Proof2 Conv_Proof3 Conv_Proof4.
Import ListNotations.
Open Scope N_scope.

Definition typed (v ns ty : list N) : list N := [34] ++ v ++ [34; 94; 94; 60] ++ ns ++ [35] ++ ty ++ [62].
(* with a prefixed name *)
Definition typed_short (v ns ty : list N) : list N := [34] ++ v ++ [34; 94; 94] ++ ns ++ [58] ++ ty.
Lemma rfind_last c a b : free c b -> rfind c (a ++ c :: b) = Some (length a).
Proof.
  intros F. unfold rfind. replace (rev (a ++ c :: b)) with (rev b ++ c :: rev a) by (rewrite rev_app_distr; cbn [rev]; now rewrite <- app_assoc).
  rewrite find_char_app; [|apply Forall_rev; exact F|lia]. cbn [option_map]. f_equal. rewrite app_length, rev_length. cbn [length]. lia.
Qed.
Lemma last_char a c : at_ (a ++ [c]) (length (a ++ [c]) - 1) = c.
Proof. rewrite app_length. cbn [length]. replace (length a + 1 - 1)%nat with (length a) by lia. apply at_app. Qed.
Lemma type_of_typed v ns ty : free 35 ty -> literal_type (typed v ns ty) = Ok ty.
Proof.
  intros F. unfold literal_type. set (a := [34] ++ v ++ [34; 94; 94; 60] ++ ns).
  assert (E : typed v ns ty = (a ++ [35] ++ ty) ++ [62]) by (unfold typed, a; rewrite <- !app_assoc; reflexivity).
  rewrite E, last_char. cbn [N.eqb Pos.eqb].
  assert (E2 : (a ++ [35] ++ ty) ++ [62] = a ++ 35 :: ty ++ [62]) by (rewrite <- app_assoc; reflexivity). rewrite E2.
  rewrite rfind_last by (apply free_app; [exact F|apply free_cons; [lia|constructor]]).
  replace (length a + 1)%nat with (length (a ++ [35])) by (rewrite app_length; reflexivity).
  replace (length (a ++ 35%N :: ty ++ [62%N]) - (length a + 2))%nat with (length ty) by (rewrite app_length; cbn [length]; rewrite app_length; cbn [length]; lia).
  replace (a ++ 35 :: ty ++ [62]) with ((a ++ [35]) ++ ty ++ [62]) by (rewrite <- app_assoc; reflexivity). now rewrite substr_at, firstn_len.
Qed.
Lemma type_of_short v ns ty c : free 58 (ty ++ [c]) -> c <> 62 -> literal_type (typed_short v ns (ty ++ [c])) = Ok (ty ++ [c]).
Proof.
  intros F NC. unfold literal_type. set (a := [34] ++ v ++ [34; 94; 94] ++ ns).
  assert (E : typed_short v ns (ty ++ [c]) = (a ++ [58] ++ ty) ++ [c]) by (unfold typed_short, a; rewrite <- !app_assoc; reflexivity).
  rewrite E, last_char. replace (c =? 62) with false by lia.
  replace ((a ++ [58] ++ ty) ++ [c]) with (a ++ 58 :: ty ++ [c]) by (rewrite <- app_assoc; reflexivity). rewrite rfind_last by exact F.
  replace (length a + 1)%nat with (length (a ++ [58])) by (rewrite app_length; reflexivity).
  replace (a ++ 58 :: ty ++ [c]) with ((a ++ [58]) ++ ty ++ [c]) by (rewrite <- app_assoc; reflexivity). now rewrite skipn_len.
Qed.
(* what is done with the value *)
Definition convert_typed (v ty orig : list N) : outcome (list N) :=
  if is ty "dateTime" || is ty "gYear" || is ty "gYearMonth" || is ty "date" then convertDateToIndexWord v
  else if is ty "int" || is ty "integer" then convertFloatStringToIndexWord (v ++ bytes ".0") INTEGER
  else if is ty "float" then convertFloatStringToIndexWord v FLOAT
  else if is ty "double" then convertFloatStringToIndexWord v DOUBLE
  else if is ty "decimal" then convertFloatStringToIndexWord v DECIMAL
  else Ok orig.
Lemma convert_quoted v r ty : free 34 r -> literal_type ([34] ++ v ++ [34] ++ r) = Ok ty ->
  convertValueLiteralToIndexWord ([34] ++ v ++ [34] ++ r) = convert_typed v ty ([34] ++ v ++ [34] ++ r).
Proof.
  intros F T. unfold convertValueLiteralToIndexWord.
  assert (Q : rfind 34 ([34] ++ v ++ [34] ++ r) = Some (length (34 :: v))) by (apply (rfind_last 34 (34 :: v) r F)).
  change ([34] ++ v ++ [34] ++ r) with (34 :: v ++ 34 :: r) in *. cbv iota. rewrite Q, T. cbn [bind]. replace (substr (34 :: v ++ 34 :: r) 1 (length (34 :: v) - 1)) with v; [reflexivity|].
  change (34 :: v ++ 34 :: r) with ([34] ++ v ++ 34 :: r). change 1%nat with (length [34]) at 1. rewrite substr_at. replace (length (34%N :: v) - 1)%nat with (length v) by (cbn [length]; lia). now rewrite firstn_len.
Qed.
Lemma convert_literal v ns ty : free 34 ns -> free 34 ty -> free 35 ty -> convertValueLiteralToIndexWord (typed v ns ty) = convert_typed v ty (typed v ns ty).
Proof.
  intros A B C. apply (convert_quoted v ([94; 94; 60] ++ ns ++ [35] ++ ty ++ [62])); [|now apply type_of_typed].
  apply free_app; [repeat apply free_cons; try lia; constructor|]. repeat apply free_app; auto; apply free_cons; try lia; constructor.
Qed.
Lemma convert_short v ns ty c : free 34 ns -> free 34 (ty ++ [c]) -> free 58 (ty ++ [c]) -> c <> 62 ->
  convertValueLiteralToIndexWord (typed_short v ns (ty ++ [c])) = convert_typed v (ty ++ [c]) (typed_short v ns (ty ++ [c])).
Proof.
  intros A B C D. apply (convert_quoted v ([94; 94] ++ ns ++ [58] ++ ty ++ [c])); [|now apply type_of_short].
  apply free_app; [repeat apply free_cons; try lia; constructor|]. apply free_app; [exact A|]. apply free_app; [apply free_cons; [lia|constructor]|exact B].
Qed.
(* the names of the types *)
Inductive names : numeric_type -> list N -> Prop :=
| n_int : names INTEGER (bytes "int")
| n_integer : names INTEGER (bytes "integer")
| n_float : names FLOAT (bytes "float")
| n_double : names DOUBLE (bytes "double")
| n_decimal : names DECIMAL (bytes "decimal").
Inductive date_names : list N -> Prop :=
| d_dateTime : date_names (bytes "dateTime")
| d_gYear : date_names (bytes "gYear")
| d_gYearMonth : date_names (bytes "gYearMonth")
| d_date : date_names (bytes "date").
(* how a number of this type is written *)
Definition written (t : numeric_type) (n : number) : list N := match t with INTEGER => integer_text n | _ => text n end.
Definition fits (t : numeric_type) (n : number) : Prop := t = INTEGER -> fraction n = [0].
Lemma names_free t ty : names t ty -> free 34 ty /\ free 35 ty /\ free 58 ty /\ exists l c, ty = l ++ [c] /\ c <> 62.
Proof.
  intros H. destruct H; (split; [repeat constructor|split; [repeat constructor|split; [repeat constructor|]]]).
  - exists (bytes "in"), 116. split; [reflexivity|lia].
  - exists (bytes "intege"), 114. split; [reflexivity|lia].
  - exists (bytes "floa"), 116. split; [reflexivity|lia].
  - exists (bytes "doubl"), 101. split; [reflexivity|lia].
  - exists (bytes "decima"), 108. split; [reflexivity|lia].
Qed.
Lemma date_names_free ty : date_names ty -> free 34 ty /\ free 35 ty /\ free 58 ty /\ exists l c, ty = l ++ [c] /\ c <> 62.
Proof.
  intros H. destruct H; (split; [repeat constructor|split; [repeat constructor|split; [repeat constructor|]]]).
  - exists (bytes "dateTim"), 101. split; [reflexivity|lia].
  - exists (bytes "gYea"), 114. split; [reflexivity|lia].
  - exists (bytes "gYearMont"), 104. split; [reflexivity|lia].
  - exists (bytes "dat"), 101. split; [reflexivity|lia].
Qed.
Lemma convert_number n t ty orig : canonical n -> names t ty -> fits t n -> convert_typed (written t n) ty orig = Ok (body n ++ [type_char t]).
Proof.
  intros K H F. destruct H.
  - apply (encode_integer n INTEGER K (F eq_refl)).
  - apply (encode_integer n INTEGER K (F eq_refl)).
  - apply (encode n FLOAT K).
  - apply (encode n DOUBLE K).
  - apply (encode n DECIMAL K).
Qed.
Lemma number_literal n t ty ns : canonical n -> names t ty -> fits t n -> free 34 ns ->
  convertValueLiteralToIndexWord (typed (written t n) ns ty) = Ok (body n ++ [type_char t]) /\
  convertValueLiteralToIndexWord (typed_short (written t n) ns ty) = Ok (body n ++ [type_char t]).
Proof.
  intros K H F A. destruct (names_free t ty H) as (F1 & F2 & F3 & l & c & E & C). split.
  - rewrite convert_literal by assumption. now apply convert_number.
  - rewrite E in *. rewrite convert_short by assumption. now apply convert_number.
Qed.
Lemma date_literal d ty ns : date_ok d -> date_names ty -> free 34 ns ->
  convertValueLiteralToIndexWord (typed (date_text d) ns ty) = Ok (date_word d) /\ convertValueLiteralToIndexWord (typed_short (date_text d) ns ty) = Ok (date_word d).
Proof.
  intros K H A. destruct (date_names_free ty H) as (F1 & F2 & F3 & l & c & E & C).
  assert (X : forall orig, convert_typed (date_text d) ty orig = Ok (date_word d)) by (intros; rewrite <- date_encode by assumption; destruct H; reflexivity). split.
  - rewrite convert_literal by assumption. apply X.
  - rewrite E in *. rewrite convert_short by assumption. apply X.
Qed.
(* constants of queries *)
Lemma free_filter n : find_char (N.eqb 46) (integer_text n) = None.
Proof. apply find_char_all. unfold integer_text, sign_chars. destruct (negative n); [constructor; [reflexivity|]|]; now apply chars_not. Qed.
Lemma constant_word n : canonical n -> convertNumericToIndexWord (text n) = Ok (body n ++ [type_char FLOAT]) /\
  (fraction n = [0] -> convertNumericToIndexWord (integer_text n) = Ok (body n ++ [type_char INTEGER])).
Proof.
  intros K. unfold convertNumericToIndexWord. rewrite text_dot, free_filter. split; [now apply encode|]. intros F. now apply encode_integer.
Qed.
Lemma chars_isdigit l : digits l -> forallb isdigit (chars l) = true.
Proof. intros D. apply forallb_forall. intros x I. apply in_map_iff in I as (d & <- & J). unfold digits in D. rewrite Forall_forall in D. specialize (D d J). unfold isdigit. lia. Qed.
Lemma find_nondigit l r : digits l -> find_char (fun c => negb (isdigit c)) (chars l ++ 46 :: r) = Some (length l).
Proof.
  intros D. rewrite <- (chars_length l). apply find_char_app; [|reflexivity]. apply Forall_forall. intros x I. apply chars_isdigit in D. rewrite forallb_forall in D. now rewrite (D x I).
Qed.
Lemma find_nondigit_none l : digits l -> find_char (fun c => negb (isdigit c)) (chars l) = None.
Proof. intros D. apply find_char_all. apply Forall_forall. intros x I. apply chars_isdigit in D. rewrite forallb_forall in D. now rewrite (D x I). Qed.
Lemma constant_numeric n : canonical n -> isNumeric (text n) = true /\ isNumeric (integer_text n) = true.
Proof.
  intros K. pose proof (can_whole n K) as W. pose proof (can_fraction n K) as F. pose proof (whole_nonempty n K) as N.
  assert (X : forall s, exists c r, sign_chars n ++ chars (whole n) ++ s = c :: r /\ (if (c =? 45) || (c =? 43) then 1%nat else 0%nat) = length (sign_chars n)).
  { intros s. unfold sign_chars. destruct (negative n); [eexists _, _; split; reflexivity|]. destruct (whole n) as [|d l]; [contradiction|]. cbn [app chars map]. eexists _, _. split; [reflexivity|].
    replace (48 + d =? 45) with false by lia. replace (48 + d =? 43) with false by lia. reflexivity. }
  split.
  - destruct (X ([46] ++ chars (fraction n))) as (c & r & E & S). unfold isNumeric. unfold text. rewrite E, S, <- E. cbv zeta.
    unfold find_from. rewrite skipn_len. cbn [app]. rewrite find_nondigit by assumption. cbn [option_map].
    replace (at_ (sign_chars n ++ chars (whole n) ++ 46 :: chars (fraction n)) (length (sign_chars n) + length (whole n))) with 46 by (rewrite at_shift, <- (chars_length (whole n)), at_app; reflexivity). cbn [N.eqb Pos.eqb].
    replace (length (sign_chars n) + length (whole n) + 1)%nat with (length (sign_chars n ++ chars (whole n) ++ [46])) by (rewrite !app_length, chars_length; cbn [length]; lia).
    replace (sign_chars n ++ chars (whole n) ++ 46 :: chars (fraction n)) with ((sign_chars n ++ chars (whole n) ++ [46]) ++ chars (fraction n)) by (rewrite <- !app_assoc; reflexivity).
    rewrite skipn_len. rewrite (app_length _ (chars (fraction n))), chars_length. pose proof (can_point n K) as P.
    replace (Nat.ltb _ _) with true by (symmetry; apply Nat.ltb_lt; destruct (fraction n); [contradiction|cbn [length]; lia]). unfold Conv_Model.all_digits. rewrite chars_isdigit by assumption. reflexivity.
  - destruct (X []) as (c & r & E & S). unfold isNumeric, integer_text. rewrite app_nil_r in E. rewrite E, S, <- E. cbv zeta.
    unfold find_from. rewrite skipn_len, find_nondigit_none by assumption. reflexivity.
Qed.
(* literals of words *)
Lemma back_char n t : at_ (body n ++ [t]) (length (body n ++ [t]) - 1) = t.
Proof. apply last_char. Qed.
Lemma body_prefix n r : startsWith (body n ++ r) VALUE_DATE_PREFIX = false /\ startsWith (body n ++ r) VALUE_FLOAT_PREFIX = true.
Proof.
  unfold body. destruct (magnitude n =? 0); rewrite <- !app_assoc; split; try apply startsWith_app; reflexivity.
Qed.
Definition suffix (t : numeric_type) : list N := match t with INTEGER => XSD_INT_SUFFIX | FLOAT => XSD_FLOAT_SUFFIX | DOUBLE => XSD_DOUBLE_SUFFIX | DECIMAL => XSD_DECIMAL_SUFFIX end.
Lemma before_dot_text n : before_dot (text n) = integer_text n.
Proof.
  unfold before_dot. replace (text n) with (integer_text n ++ 46 :: chars (fraction n)) by (unfold text, integer_text; now rewrite <- !app_assoc).
  pose proof (find_char_none _ _ (free_filter n)) as F. induction F as [|x l E F IH]; [reflexivity|]. cbn [app take_while]. replace (x =? 46) with false by lia. cbn [negb]. now rewrite IH.
Qed.
Lemma number_back n t : canonical n -> short n -> (length (whole n) <= 30)%nat -> (magnitude n = 0 -> negative n = false) -> fits t n ->
  convertIndexWordToValueLiteral (body n ++ [type_char t]) = Ok (quoted (written t (shortest n)) ++ suffix t).
Proof.
  intros K S W Z F. assert (T : convertIndexWordToFloatString (body n ++ [type_char t]) = Ok (text (shortest n))).
  { destruct (N.eq_dec (magnitude n) 0) as [M|M]; [|now apply text_back]. rewrite text_back_zero by assumption. destruct (can_zero n K M) as [A B]. unfold shortest, text, sign_chars. cbn [negative whole fraction]. rewrite (Z M), A, B. reflexivity. }
  unfold convertIndexWordToValueLiteral. destruct (body_prefix n [type_char t]) as [-> ->]. rewrite back_char.
  destruct t; cbn [type_char N.eqb Pos.eqb] in T |- *; rewrite T; cbn [bind written suffix]; try reflexivity. now rewrite before_dot_text.
Qed.
