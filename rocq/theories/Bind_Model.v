(* Model of BIND: src/engine/Bind.cpp 103-109 (getVariableColumns), 118-181 (computeResult), 183-245
   (computeBinaryOperationBind), 247-267 (computeRenameBind), 269-288 (computeConstantBind). Ids are
   numbers below 2^64, rows are lists of Ids. float is IEEE single precision with rounding to
   nearest, as in Coq's SpecFloat; there is only one NaN. *)
From Coq Require Import String List NArith ZArith Bool.
From Coq Require Import Floats.SpecFloat.
From Verif Require Import Strings_Model.
From Verif Require Import Conv_Model(bytes, VALUE_FLOAT_PREFIX).
Import ListNotations.
Open Scope N_scope.

Notation text := (list N).
(* ResultTable.h 29-41 *)
Inductive type := KB | VERBATIM | TEXT | FLOAT | LOCAL_VOCAB.
Notation float := spec_float.
Definition prec : Z := 24.
Definition emax : Z := 128.

(* memcpy between the first four bytes of an Id and a float (217 and 242) on a little endian machine *)
Definition of_bits (id : N) : float :=
  let s := N.testbit id 31 in
  let e := (id / 2 ^ 23) mod 2 ^ 8 in
  let m := id mod 2 ^ 23 in
  if e =? 255 then (if m =? 0 then S754_infinity s else S754_nan)
  else if e =? 0 then match m with 0 => S754_zero s | Npos p => S754_finite s p (-149) end
  else match 2 ^ 23 + m with 0 => S754_nan | Npos p => S754_finite s p (Z.of_N e - 150) end.
Definition sign_bit (s : bool) : N := if s then 2 ^ 31 else 0.
Definition to_bits (f : float) : N :=
  match f with
  | S754_zero s => sign_bit s
  | S754_infinity s => sign_bit s + 255 * 2 ^ 23
  | S754_nan => 255 * 2 ^ 23 + 2 ^ 22
  | S754_finite s m e => sign_bit s + (if Npos m <? 2 ^ 23 then Npos m else Z.to_N (e + 150) * 2 ^ 23 + (Npos m - 2 ^ 23))
  end.

(* ParsedQuery.h 395-440 *)
Inductive expression := Rename (var : text) | IntConstant (value : Z) | KbConstant (word : text) | BinaryOperation (var1 var2 : text) (op : N).
Record bind := Bind { expr : expression; target : text }.
(* The result of a tree: _resultTypes, the variables and the rows *)
Record table := Table { types : list type; columns : list (text * nat); data : list (list N) }.
(* What is outside: Vocabulary::getId, Index::idToOptionalString and the float that
   convertIndexWordToFloat returns (as its four bytes) *)
Record world := World { getId : text -> option N; word_of : N -> option text; word_float : text -> N }.

Fixpoint find_column (m : list (text * nat)) (v : text) : option nat :=
  match m with
  | [] => None
  | (k, c) :: m' => if list_eq_dec N.eq_dec k v then Some c else find_column m' v
  end.
(* Bind.cpp 103-109; width is that of the subtree. The new entry replaces an old one. *)
Definition getVariableColumns (b : bind) (m : list (text * nat)) (width : nat) : list (text * nat) := (target b, width) :: m.

(* 184-196: the position in "+-*/" and the lambdas; None is the failed AD_CHECK *)
Definition binaryOperation (op : N) : option (float -> float -> float) :=
  if op =? 43 then Some (SFadd prec emax) else if op =? 45 then Some (SFsub prec emax)
  else if op =? 42 then Some (SFmul prec emax) else if op =? 47 then Some (SFdiv prec emax) else None.
(* 212-235: the value in one column; None is the break, after which the other value is not read *)
Definition value_of (w : world) (ty : type) (id : N) : option float :=
  match ty with
  | VERBATIM => Some (binary_normalize prec emax (Z.of_N id) 0 false)
  | FLOAT => Some (of_bits id)
  | TEXT | LOCAL_VOCAB => Some S754_nan
  | KB =>
    let entity := match word_of w id with Some e => e | None => [] end in
    if startsWith entity VALUE_FLOAT_PREFIX then Some (of_bits (word_float w entity)) else None
  end.
(* 205-242: one row *)
Definition binary_row (w : world) (op : N) (f : float -> float -> float) (c1 c2 : nat) (t1 t2 : type) (row : list N) : list N :=
  let NO_VALUE := S754_nan in
  let '(value1, value2) :=
    match value_of w t1 (nth c1 row 0) with
    | None => (NO_VALUE, NO_VALUE)
    | Some v1 => match value_of w t2 (nth c2 row 0) with None => (v1, NO_VALUE) | Some v2 => (v1, v2) end
    end in
  let invalid := SFeqb value1 NO_VALUE || SFeqb value2 NO_VALUE || ((op =? 47) && SFeqb value2 (S754_zero false)) in
  let opResult := if invalid then NO_VALUE else f value1 value2 in
  row ++ [to_bits opResult].

(* Bind.cpp 118-181; None is an exception *)
Definition computeResult (w : world) (b : bind) (t : table) : option table :=
  let width := length (types t) in
  let result ty rows := Some (Table (types t ++ [ty]) (getVariableColumns b (columns t) width) rows) in
  match expr b with
  | BinaryOperation var1 var2 op =>
    match find_column (columns t) var1, find_column (columns t) var2, binaryOperation op with
    | Some c1, Some c2, Some f =>
      result FLOAT (map (binary_row w op f c1 c2 (nth c1 (types t) KB) (nth c2 (types t) KB)) (data t))
    | _, _, _ => None
    end
  | Rename var =>
    match find_column (columns t) var with
    | Some c => result (nth c (types t) KB) (map (fun row => row ++ [nth c row 0]) (data t))
    | None => None
    end
  | IntConstant value => result VERBATIM (map (fun row => row ++ [Z.to_N (value mod 2 ^ 64)]) (data t))
  | KbConstant word =>
    match getId w word with
    | Some value => result KB (map (fun row => row ++ [value]) (data t))
    | None => None
    end
  end.
