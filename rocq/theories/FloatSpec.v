(** Specification: what a bit pattern stands for, and rounding, by IEEE 754. *)
From Verif Require Import Base GoFloat.
Local Open Scope Z_scope.

(** The number a finite pattern stands for, in units of 2^-1074 (the smallest
    positive double), by IEEE 754: subnormals have exponent field 0 and no
    hidden bit. *)
Definition f64_value (y : Z) : Z :=
  (if f64_sign y =? 1 then -1 else 1) *
  (if f64_exp y =? 0 then f64_frac y else (2 ^ 52 + f64_frac y) * 2 ^ (f64_exp y - 1)).
Definition f32_value (x : Z) : Z :=
  (if f32_sign x =? 1 then -1 else 1) *
  ((if f32_exp x =? 0 then f32_frac x else (2 ^ 23 + f32_frac x) * 2 ^ (f32_exp x - 1)) * 2 ^ 925).

(** The float32 [x] is the double [y] rounded to nearest, ties to even (roundTiesToEven): the sign is kept; an infinity stays
    one and a NaN stays a NaN; from halfway between the largest float32 and 2^128 on the result is an infinity; below, it is
    a finite float32 to which no other is closer, and if another is as close, it is the one whose last bit is 0. *)
Definition rounded (y x : Z) : Prop :=
  0 <= x < 2 ^ 32 /\ f32_sign x = f64_sign y /\
  if f64_exp y =? 2047 then f32_exp x = 255 /\ (f32_frac x = 0 <-> f64_frac y = 0)
  else if Z.abs (f64_value y) <? (2 ^ 128 - 2 ^ 103) * 2 ^ 1074 then
    f32_exp x <> 255 /\
    forall z, 0 <= z < 2 ^ 32 -> f32_exp z <> 255 ->
      Z.abs (f64_value y - f32_value x) <= Z.abs (f64_value y - f32_value z) /\
      (Z.abs (f64_value y - f32_value x) = Z.abs (f64_value y - f32_value z) -> f32_value z = f32_value x \/ Z.even x = true)
  else f32_exp x = 255 /\ f32_frac x = 0.

(** Two patterns are equal as numbers: neither is a NaN, and they are the same infinity or finite and stand for the same number. *)
Definition f64_same (x y : Z) : Prop :=
  if f64_exp x =? 2047 then f64_frac x = 0 /\ x = y
  else f64_exp y <> 2047 /\ f64_value x = f64_value y.
Definition f32_same (x y : Z) : Prop :=
  if f32_exp x =? 255 then f32_frac x = 0 /\ x = y
  else f32_exp y <> 255 /\ f32_value x = f32_value y.
