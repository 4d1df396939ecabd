(* Single precision numbers (IEEE 754 binary32) on top of the standard library's SpecFloat.
   Used by both models and specifications: C++ `float` arithmetic with the default rounding. *)
From Coq Require Import NArith ZArith Floats.SpecFloat.
Open Scope N_scope.

Definition float32 := spec_float.
Definition float_zero : float32 := S754_zero false.
Definition float_nan : float32 := S754_nan.
Definition float_add (x y : float32) : float32 := SFadd 24 128 x y.
Definition float_div (x y : float32) : float32 := SFdiv 24 128 x y.

(* conversion of an unsigned integer *)
Definition float_of_N (n : N) : float32 := binary_normalize 24 128 (Z.of_N n) 0 false.

(* bit pattern: sign, 8 bits exponent, 23 bits mantissa *)
Definition float_bits (x : float32) : N :=
  let sign (s : bool) := if s then 2 ^ 31 else 0 in
  match x with
  | S754_zero s => sign s
  | S754_infinity s => sign s + 255 * 2 ^ 23
  | S754_nan => 255 * 2 ^ 23 + 2 ^ 22
  | S754_finite s m e =>
      if Npos m <? 2 ^ 23 then sign s + Npos m
      else sign s + Z.to_N (e + 150) * 2 ^ 23 + (Npos m - 2 ^ 23)
  end.

(* the number in the lower 32 bits of an id *)
Definition float_of_bits (id : N) : float32 :=
  let bits := id mod 2 ^ 32 in
  let s := N.testbit bits 31 in
  let e := bits / 2 ^ 23 mod 2 ^ 8 in
  let m := bits mod 2 ^ 23 in
  if e =? 255 then if m =? 0 then S754_infinity s else S754_nan
  else if e =? 0 then match m with 0 => S754_zero s | Npos p => S754_finite s p (-149) end
  else match m + 2 ^ 23 with 0 => S754_zero s | Npos p => S754_finite s p (Z.of_N e - 150) end.

Example float_round_trip :
  float_of_bits 1065353216 = float_of_N 1 /\ float_bits (float_of_N 3) = 1077936128 /\
  float_bits (float_div (float_of_N 1) (float_of_N 4)) = 1048576000 /\
  float_bits (float_add (float_of_bits 3212836864) (float_of_N 3)) = 1073741824.
Proof. vm_compute. auto. Qed.
