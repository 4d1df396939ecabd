(* Theorems about BIND (C72). *)
From Coq Require Import String List NArith ZArith Arith Bool Lia.
From Coq Require Import Floats.SpecFloat.
From Verif Require Import Strings_Model Bind_Model Bind_Spec Float_Proof.
From Verif Require Strings_Proof3.
From Verif Require Import Conv_Model(bytes, VALUE_FLOAT_PREFIX).
Import ListNotations.

(* The number x * 2^-149 that a cell holds *)
Inductive number (w : world) : type -> N -> Z -> Prop :=
| nb_count n : (n <= 2 ^ 24)%N -> number w VERBATIM n (Z.of_N n * unit)
| nb_float id x : float_value id = Some x -> number w FLOAT id x
| nb_word id rest x : word_of w id = Some (VALUE_FLOAT_PREFIX ++ rest) -> float_value (word_float w (VALUE_FLOAT_PREFIX ++ rest)) = Some x -> number w KB id x.
(* A cell without a number *)
Inductive no_number (w : world) : type -> N -> Prop :=
| nn_text id : no_number w TEXT id
| nn_local id : no_number w LOCAL_VOCAB id
| nn_unbound id : word_of w id = None -> no_number w KB id
| nn_word id word : word_of w id = Some word -> (forall rest, word <> VALUE_FLOAT_PREFIX ++ rest) -> no_number w KB id
| nn_nan id : float_nan id -> no_number w FLOAT id.
(* What is bound to the target in a row *)
Definition added (P : list N -> N -> Prop) (rows rows' : list (list N)) : Prop := Forall2 (fun row row' => exists id, row' = row ++ [id] /\ P row id) rows rows'.
(* The result is the input with one more column, for the target. *)
Definition extends (b : bind) (t t' : table) (ty : type) (P : list N -> N -> Prop) : Prop :=
  types t' = types t ++ [ty] /\ find_column (columns t') (target b) = Some (length (types t)) /\
  (forall v, v <> target b -> find_column (columns t') v = find_column (columns t) v) /\ added P (data t) (data t').

Lemma extends_ok b t ty f (P : list N -> N -> Prop) : (forall row, P row (f row)) ->
  extends b t (Table (types t ++ [ty]) (getVariableColumns b (columns t) (length (types t))) (map (fun row => row ++ [f row]) (data t))) ty P.
Proof.
  intros H. split; [reflexivity|]. cbn [columns getVariableColumns find_column data]. unfold getVariableColumns. cbn [find_column]. split; [|split].
  - destruct (list_eq_dec N.eq_dec (target b) (target b)); congruence.
  - intros v Nv. destruct (list_eq_dec N.eq_dec (target b) v); congruence.
  - unfold added. induction (data t) as [|row rows IH]; cbn [map]; constructor; auto. exists (f row). auto.
Qed.

Lemma number_value w ty id x : number w ty id x -> exists f, value_of w ty id = Some f /\ is_value f x.
Proof.
  intros [n H|b y H|b rest y H G]; cbn [value_of].
  - eexists. split; [reflexivity|]. apply normalize_exact; [lia|reflexivity|]. destruct (N.eq_dec n (2 ^ 24)) as [->|Ne].
    + exists 1%Z, 173%Z. split; [reflexivity|]. split; [reflexivity|lia].
    + exists (Z.of_N n), 149%Z. split; [reflexivity|]. split; [|lia]. change (2 ^ 24)%N with 16777216%N in *. change (2 ^ 24)%Z with 16777216%Z. lia.
  - eexists. split; [reflexivity|]. now apply of_bits_ok.
  - rewrite H. replace (startsWith (VALUE_FLOAT_PREFIX ++ rest) VALUE_FLOAT_PREFIX) with true by (symmetry; apply Strings_Proof3.startsWith_iff; eauto).
    eexists. split; [reflexivity|]. now apply of_bits_ok.
Qed.
Lemma of_bits_nan b : float_nan b -> of_bits b = S754_nan.
Proof.
  intros [He Hm]. unfold of_bits.
  assert (Ee : Z.of_N ((b / 2 ^ 23) mod 2 ^ 8) = ((Z.of_N b / 2 ^ 23) mod 256)%Z) by (rewrite N2Z.inj_mod, N2Z.inj_div; reflexivity).
  assert (Em : Z.of_N (b mod 2 ^ 23) = (Z.of_N b mod 2 ^ 23)%Z) by (rewrite N2Z.inj_mod; reflexivity).
  cbv zeta in He, Hm. destruct (N.eqb_spec ((b / 2 ^ 23) mod 2 ^ 8) 255) as [_|C]; [|lia]. destruct (N.eqb_spec (b mod 2 ^ 23) 0) as [C|_]; [|reflexivity]. rewrite C in Em. change (Z.of_N 0) with 0%Z in Em. congruence.
Qed.
Lemma no_number_value w ty id : no_number w ty id -> value_of w ty id = None \/ value_of w ty id = Some S754_nan.
Proof.
  intros [b|b|b H|b word H G|b H]; cbn [value_of]; auto.
  - rewrite H. now left.
  - rewrite H. destruct (startsWith word VALUE_FLOAT_PREFIX) eqn:E; auto. apply Strings_Proof3.startsWith_iff in E as [r E]. now apply G in E.
  - right. now rewrite of_bits_nan.
Qed.
Lemma never_nan f : SFeqb f S754_nan = false.
Proof. now destruct f. Qed.
Lemma nan_right op f v : binaryOperation op = Some f -> f v S754_nan = S754_nan.
Proof. unfold binaryOperation. destruct (op =? 43)%N, (op =? 45)%N, (op =? 42)%N, (op =? 47)%N; intros E; try discriminate; injection E as <-; now destruct v. Qed.
Lemma nan_left op f v : binaryOperation op = Some f -> f S754_nan v = S754_nan.
Proof. unfold binaryOperation. destruct (op =? 43)%N, (op =? 45)%N, (op =? 42)%N, (op =? 47)%N; intros E; try discriminate; injection E as <-; now destruct v. Qed.
Lemma zero_value f : is_value f 0 -> exists s, f = S754_zero s.
Proof.
  intros H. remember 0%Z as z eqn:Z0 in H. destruct H as [s|s m e z St E]; [eauto|]. exfalso. subst z.
  pose proof (stored_low _ _ St). assert (0 < 2 ^ (e + 149))%Z by (apply Z.pow_pos_nonneg; lia). unfold signed in E. destruct s; nia.
Qed.

(* C72, arithmetic: the result of an operation on two numbers is bound exactly if it fits into a
   float; if an operand is no number or the divisor is 0, the result is NaN. Missing: counts above
   2^24 and results that do not fit are rounded. *)
Theorem C72_binary_partial w b t t' v1 v2 op c1 c2 : expr b = BinaryOperation v1 v2 op -> computeResult w b t = Some t' ->
  find_column (columns t) v1 = Some c1 -> find_column (columns t) v2 = Some c2 ->
  extends b t t' FLOAT (fun row id =>
    let number1 := number w (nth c1 (types t) KB) (nth c1 row 0%N) in
    let number2 := number w (nth c2 (types t) KB) (nth c2 row 0%N) in
    (forall x y z, number1 x -> number2 y -> calculates op x y z -> fits z -> float_value id = Some z) /\
    (no_number w (nth c1 (types t) KB) (nth c1 row 0%N) \/ no_number w (nth c2 (types t) KB) (nth c2 row 0%N) \/ (op = 47%N /\ number2 0%Z) -> float_nan id)).
Proof.
  intros Eb E F1 F2. unfold computeResult in E. rewrite Eb, F1, F2 in E. destruct (binaryOperation op) as [f|] eqn:Bo; [|discriminate]. injection E as <-.
  set (t1 := nth c1 (types t) KB). set (t2 := nth c2 (types t) KB).
  set (out := fun row => match value_of w t1 (nth c1 row 0%N), value_of w t2 (nth c2 row 0%N) with
    | Some a, Some c => to_bits (if (op =? 47)%N && SFeqb c (S754_zero false) then S754_nan else f a c)
    | _, _ => to_bits S754_nan end).
  rewrite (map_ext _ (fun row => row ++ [out row])).
  2: { intros row. unfold binary_row, out. f_equal. f_equal. destruct (value_of w t1 _) as [a|].
       - destruct (value_of w t2 _) as [c|]; [rewrite !never_nan; reflexivity|]. rewrite !never_nan. cbn [orb SFeqb SFcompare]. rewrite andb_false_r, (nan_right op f a Bo). reflexivity.
       - rewrite !never_nan. cbn [orb SFeqb SFcompare]. rewrite andb_false_r, (nan_right op f _ Bo). reflexivity. }
  apply extends_ok. intros row. split.
  - intros x y z N1 N2 C F. apply number_value in N1 as (a & A & Ia). apply number_value in N2 as (c & C' & Ic). unfold out. rewrite A, C'. apply to_bits_ok.
    destruct C as [x y z Ez|x y z Ez|x y z Ez|x y z Ny Ez]; cbn [N.eqb Pos.eqb andb] in *; injection Bo as <-.
    + subst z. now apply add_exact.
    + subst z. now apply sub_exact.
    + now apply (mul_exact a c x y).
    + replace (SFeqb c (S754_zero false)) with false; [now apply (div_exact a c x y)|]. symmetry. destruct Ic as [s|s m e y St Ey]; [congruence|]. unfold SFeqb. cbn [SFcompare]. now destruct s.
  - intros H. assert (G : out row = to_bits S754_nan); [|rewrite G; apply nan_bits]. unfold out.
    destruct H as [H|[H|[-> H]]].
    + apply no_number_value in H as [H|H]; fold t1 in H; rewrite H; [reflexivity|]. destruct (value_of w t2 _) as [c|]; [|reflexivity]. rewrite (nan_left op f c Bo). now destruct (_ && _).
    + apply no_number_value in H as [H|H]; fold t2 in H; rewrite H; destruct (value_of w t1 _) as [a|]; try reflexivity. rewrite (nan_right op f a Bo). now destruct (_ && _).
    + apply number_value in H as (c & C & Ic). fold t2 in C. rewrite C. destruct (value_of w t1 _) as [a|]; [|reflexivity]. apply zero_value in Ic as [s ->]. reflexivity.
Qed.

(* C72, renaming: the target has the value of the other variable, with its type. *)
Theorem C72_rename w b t v c : expr b = Rename v -> find_column (columns t) v = Some c ->
  exists t', computeResult w b t = Some t' /\ extends b t t' (nth c (types t) KB) (fun row id => id = nth c row 0%N).
Proof. intros E F. eexists. unfold computeResult. rewrite E, F. split; [reflexivity|]. apply (extends_ok b t _ (fun row => nth c row 0%N)). reflexivity. Qed.
(* C72, constants: the target has the number or the Id of the word in every row. *)
Theorem C72_number w b t n : expr b = IntConstant n -> (0 <= n < 2 ^ 63)%Z -> exists t', computeResult w b t = Some t' /\ extends b t t' VERBATIM (fun _ id => Z.of_N id = n).
Proof.
  intros E B. eexists. unfold computeResult. rewrite E. split; [reflexivity|]. apply (extends_ok b t _ (fun _ => Z.to_N (n mod 2 ^ 64))). intros _.
  assert (2 ^ 63 < 2 ^ 64)%Z by reflexivity. rewrite Z.mod_small by lia. lia.
Qed.
Theorem C72_word w b t word : expr b = KbConstant word ->
  match getId w word with
  | Some value => exists t', computeResult w b t = Some t' /\ extends b t t' KB (fun _ id => id = value)
  | None => computeResult w b t = None
  end.
Proof.
  intros E. unfold computeResult. rewrite E. destruct (getId w word) as [value|]; [|reflexivity]. eexists. split; [reflexivity|]. apply (extends_ok b t _ (fun _ => value)). reflexivity.
Qed.

(* Examples: 3 and the word with the float 1.5; 3 / 1.5 = 2. *)
Definition e_world : world := World (fun w => if list_eq_dec N.eq_dec w (bytes "<a>") then Some 4%N else None)
  (fun id => if (id =? 6)%N then Some (VALUE_FLOAT_PREFIX ++ bytes "x") else if (id =? 4)%N then Some (bytes "<a>") else None) (fun _ => 1069547520%N).
Definition e_table : table := Table [VERBATIM; KB] [(bytes "?n", 0%nat); (bytes "?v", 1%nat)] [[3%N; 6%N]; [3%N; 4%N]].
Definition e_bind op : bind := Bind (BinaryOperation (bytes "?n") (bytes "?v") op) (bytes "?r").
Example C72_binary_example :
  number e_world VERBATIM 3 (3 * unit) /\ number e_world KB 6 (3 * 2 ^ 148) /\ calculates 47 (3 * unit) (3 * 2 ^ 148) (2 * unit) /\ fits (2 * unit) /\ no_number e_world KB 4 /\
  option_map data (computeResult e_world (e_bind 47) e_table) = Some [[3%N; 6%N; 1073741824%N]; [3%N; 4%N; 2143289344%N]] /\ float_value 1073741824 = Some (2 * unit)%Z.
Proof.
  split; [apply (nb_count _ 3); vm_compute; discriminate|]. split; [apply (nb_word _ 6 (bytes "x")); vm_compute; reflexivity|].
  split; [apply cl_div; vm_compute; congruence|]. split; [exists 1%Z, 150%Z; repeat split; vm_compute; congruence|].
  split; [apply (nn_word _ 4 (bytes "<a>")); [vm_compute; reflexivity|vm_compute; discriminate]|]. split; vm_compute; reflexivity.
Qed.
Example C72_rename_example : option_map data (computeResult e_world (Bind (Rename (bytes "?v")) (bytes "?r")) e_table) = Some [[3%N; 6%N; 6%N]; [3%N; 4%N; 4%N]].
Proof. vm_compute. reflexivity. Qed.
Example C72_word_example : option_map data (computeResult e_world (Bind (KbConstant (bytes "<a>")) (bytes "?r")) e_table) = Some [[3%N; 6%N; 4%N]; [3%N; 4%N; 4%N]] /\
  computeResult e_world (Bind (KbConstant (bytes "<z>")) (bytes "?r")) e_table = None.
Proof. split; vm_compute; reflexivity. Qed.

(* Sums of counts are rounded to 24 bits: 16777216 + 1 is 16777216. *)
Theorem C72_rounding_refuted w a b c : a <> b ->
  option_map data (computeResult w (Bind (BinaryOperation a b 43) c) (Table [VERBATIM; VERBATIM] [(a, 0%nat); (b, 1%nat)] [[16777216%N; 1%N]])) = Some [[16777216%N; 1%N; 1266679808%N]] /\
  float_value 1266679808 = Some (16777216 * unit)%Z.
Proof.
  intros H. split; [|vm_compute; reflexivity]. unfold computeResult. cbn [expr columns find_column]. destruct (list_eq_dec N.eq_dec a a); [|congruence]. destruct (list_eq_dec N.eq_dec a b); [congruence|].
  destruct (list_eq_dec N.eq_dec b b); [|congruence]. vm_compute. reflexivity.
Qed.
(* An unbound count is taken for the number 2^64 in arithmetic instead of giving an unbound result. *)
Theorem C72_unbound_refuted w a c :
  option_map data (computeResult w (Bind (BinaryOperation a a 42) c) (Table [VERBATIM] [(a, 0%nat)] [[(2 ^ 64 - 3)%N]])) = Some [[(2 ^ 64 - 3)%N; 2139095040%N]] /\
  option_map data (computeResult w (Bind (BinaryOperation a a 43) c) (Table [VERBATIM] [(a, 0%nat)] [[(2 ^ 64 - 3)%N]])) = Some [[(2 ^ 64 - 3)%N; 1610612736%N]] /\
  float_value 1610612736 = Some (2 ^ 65 * unit)%Z.
Proof.
  unfold computeResult. cbn [expr columns find_column]. destruct (list_eq_dec N.eq_dec a a); [|congruence]. split; [|split]; vm_compute; reflexivity.
Qed.
(* A negative constant becomes a great number, -3 even the Id for unbound. *)
Theorem C72_negative_refuted w c : option_map data (computeResult w (Bind (IntConstant (-3)) c) (Table [] [] [[]])) = Some [[(2 ^ 64 - 3)%N]].
Proof. vm_compute. reflexivity. Qed.

Print Assumptions C72_binary_partial.
Print Assumptions C72_rename.
Print Assumptions C72_number.
Print Assumptions C72_word.
Print Assumptions C72_rounding_refuted.
Print Assumptions C72_unbound_refuted.
Print Assumptions C72_negative_refuted.
