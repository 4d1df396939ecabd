(* Numbers in the columns of a result and arithmetic on them. Values of floats are whole multiples of
   2^-149, so they are given as integers in this unit. *)
From Coq Require Import List NArith ZArith Bool.
Import ListNotations.
Open Scope Z_scope.

Definition unit : Z := 2 ^ 149.
(* The number that 32 bits (sign, 8 bits of exponent, 23 bits of mantissa) stand for *)
Definition float_value (bits : N) : option Z :=
  let b := Z.of_N bits in
  let e := (b / 2 ^ 23) mod 256 in
  let m := b mod 2 ^ 23 in
  let sign := if (b / 2 ^ 31) mod 2 =? 1 then -1 else 1 in
  if e =? 255 then None
  else if e =? 0 then Some (sign * m)
  else Some (sign * (2 ^ 23 + m) * 2 ^ (e - 1)).
Definition float_nan (bits : N) : Prop := let b := Z.of_N bits in (b / 2 ^ 23) mod 256 = 255 /\ b mod 2 ^ 23 <> 0.
(* A float has room for 24 bits. *)
Definition fits (z : Z) : Prop := exists m e, z = m * 2 ^ e /\ Z.abs m < 2 ^ 24 /\ 0 <= e <= 253.

(* z is the result of an operation, written as its character *)
Inductive calculates : N -> Z -> Z -> Z -> Prop :=
| cl_add x y z : z = x + y -> calculates 43 x y z
| cl_sub x y z : z = x - y -> calculates 45 x y z
| cl_mul x y z : z * unit = x * y -> calculates 42 x y z
| cl_div x y z : y <> 0 -> z * y = x * unit -> calculates 47 x y z.
