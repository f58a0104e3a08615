(** IEEE 754 conversions between float32 and float64 on bit patterns.
    Models Go's [float64(x)] for a float32 [x] and [float32(y)] for a float64
    [y], as used by reflect.Value.Float and reflect.Value.SetFloat
    (thrift/arshal_default.go:98, 114).  A float32 is its 32-bit pattern, a
    float64 its 64-bit pattern.  NaN payloads follow the hardware conversions
    Go compiles to: a signalling NaN becomes quiet, the payload's leading bits
    are kept. *)
From Verif Require Import Base.

(** Sign, exponent and fraction fields. *)
Definition f32_sign (x : Z) : Z := x / 2 ^ 31.
Definition f32_exp (x : Z) : Z := (x / 2 ^ 23) mod 2 ^ 8.
Definition f32_frac (x : Z) : Z := x mod 2 ^ 23.
Definition f64_sign (y : Z) : Z := y / 2 ^ 63.
Definition f64_exp (y : Z) : Z := (y / 2 ^ 52) mod 2 ^ 11.
Definition f64_frac (y : Z) : Z := y mod 2 ^ 52.

Definition f32_nan (x : Z) : bool := (f32_exp x =? 255) && negb (f32_frac x =? 0).
Definition f64_nan (y : Z) : bool := (f64_exp y =? 2047) && negb (f64_frac y =? 0).
(** Signalling: the top fraction bit is clear. *)
Definition f32_snan (x : Z) : bool := f32_nan x && (f32_frac x <? 2 ^ 22).

Definition f32_to_f64 (x : Z) : Z :=
  let e := f32_exp x in
  let m := f32_frac x in
  f32_sign x * 2 ^ 63 +
  if e =? 255 then
    2047 * 2 ^ 52 +
    (if m =? 0 then 0 else (if m <? 2 ^ 22 then 2 ^ 51 else 0) + m * 2 ^ 29)
  else if e =? 0 then
    (if m =? 0 then 0
     else let k := Z.log2 m in
          (k - 149 + 1023) * 2 ^ 52 + (m - 2 ^ k) * 2 ^ (52 - k))
  else (e - 127 + 1023) * 2 ^ 52 + m * 2 ^ 29.

(** [a / 2^k] rounded to the nearest integer, ties to even. *)
Definition rne (a k : Z) : Z :=
  let q := a / 2 ^ k in
  let r := a mod 2 ^ k in
  if (2 ^ k <? 2 * r) || ((2 * r =? 2 ^ k) && Z.odd q) then q + 1 else q.

Definition f64_to_f32 (y : Z) : Z :=
  let e := f64_exp y in
  let m := f64_frac y in
  f64_sign y * 2 ^ 31 +
  if e =? 2047 then
    255 * 2 ^ 23 +
    (if m =? 0 then 0 else (if m <? 2 ^ 51 then 2 ^ 22 else 0) + m / 2 ^ 29)
  else if e =? 0 then 0
  else
    let sig := 2 ^ 52 + m in
    if -126 <=? e - 1023 then
      Z.min (255 * 2 ^ 23) ((e - 1023 + 126) * 2 ^ 23 + rne sig 29)
    else rne sig (29 + (-126 - (e - 1023))).

(** Go's [==] on floats: NaN differs from everything, the two zeros are equal. *)
Definition f32_eqb (x y : Z) : bool :=
  negb (f32_nan x) && negb (f32_nan y) &&
  ((x =? y) || ((x mod 2 ^ 31 =? 0) && (y mod 2 ^ 31 =? 0))).
Definition f64_eqb (x y : Z) : bool :=
  negb (f64_nan x) && negb (f64_nan y) &&
  ((x =? y) || ((x mod 2 ^ 63 =? 0) && (y mod 2 ^ 63 =? 0))).
