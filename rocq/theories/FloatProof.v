(** Facts about the float32 / float64 conversions. *)
From Verif Require Import Base BaseLemmas GoFloat.
From Verif Require Export FloatSpec.
Local Open Scope Z_scope.

Lemma f32_split x : is_u32 x ->
  x = f32_sign x * 2 ^ 31 + f32_exp x * 2 ^ 23 + f32_frac x /\
  (f32_sign x = 0 \/ f32_sign x = 1) /\ 0 <= f32_exp x < 256 /\ 0 <= f32_frac x < 2 ^ 23.
Proof.
  unfold is_u32, f32_sign, f32_exp, f32_frac. intros H.
  change (2 ^ 31) with 2147483648. change (2 ^ 23) with 8388608. change (2 ^ 8) with 256.
  change (2 ^ 32) with 4294967296 in H.
  assert (x / 2147483648 = x / 8388608 / 256) by (rewrite Z.div_div by lia; reflexivity).
  assert (0 <= x / 2147483648 < 2) by (split; [apply Z.div_pos; lia|apply Z.div_lt_upper_bound; lia]).
  pose proof (Z.div_mod x 8388608 ltac:(lia)).
  pose proof (Z.div_mod (x / 8388608) 256 ltac:(lia)).
  pose proof (Z.mod_pos_bound x 8388608 ltac:(lia)).
  pose proof (Z.mod_pos_bound (x / 8388608) 256 ltac:(lia)).
  conj; try lia.
Qed.

Lemma f64_fields s e m : (s = 0 \/ s = 1) -> 0 <= e < 2048 -> 0 <= m < 2 ^ 52 ->
  let y := s * 2 ^ 63 + (e * 2 ^ 52 + m) in
  f64_sign y = s /\ f64_exp y = e /\ f64_frac y = m /\ is_u64 y.
Proof.
  intros Hs He Hm. cbn zeta. unfold f64_sign, f64_exp, f64_frac, is_u64.
  change (2 ^ 63) with 9223372036854775808. change (2 ^ 52) with 4503599627370496 in *.
  change (2 ^ 64) with 18446744073709551616. change (2 ^ 11) with 2048.
  replace (s * 9223372036854775808 + (e * 4503599627370496 + m)) with (m + (s * 2048 + e) * 4503599627370496) by lia.
  rewrite Z.div_add, (Z.div_small m) by lia. rewrite Z.mod_add, (Z.mod_small m) by lia.
  replace (0 + (s * 2048 + e)) with (e + s * 2048) by lia. rewrite Z.mod_add, (Z.mod_small e) by lia.
  replace (m + (s * 2048 + e) * 4503599627370496) with ((e * 4503599627370496 + m) + s * 9223372036854775808) by lia.
  rewrite Z.div_add by lia. rewrite (Z.div_small (e * 4503599627370496 + m)) by lia.
  conj; try lia.
Qed.

Lemma f32_fields s e m : (s = 0 \/ s = 1) -> 0 <= e < 256 -> 0 <= m < 2 ^ 23 ->
  let y := s * 2 ^ 31 + (e * 2 ^ 23 + m) in
  f32_sign y = s /\ f32_exp y = e /\ f32_frac y = m /\ is_u32 y.
Proof.
  intros Hs He Hm. cbn zeta. unfold f32_sign, f32_exp, f32_frac, is_u32.
  change (2 ^ 31) with 2147483648. change (2 ^ 23) with 8388608 in *.
  change (2 ^ 32) with 4294967296. change (2 ^ 8) with 256.
  replace (s * 2147483648 + (e * 8388608 + m)) with (m + (s * 256 + e) * 8388608) by lia.
  rewrite Z.div_add, (Z.div_small m) by lia. rewrite Z.mod_add, (Z.mod_small m) by lia.
  replace (0 + (s * 256 + e)) with (e + s * 256) by lia. rewrite Z.mod_add, (Z.mod_small e) by lia.
  replace (m + (s * 256 + e) * 8388608) with ((e * 8388608 + m) + s * 2147483648) by lia.
  rewrite Z.div_add by lia. rewrite (Z.div_small (e * 8388608 + m)) by lia.
  conj; try lia.
Qed.

(** The fields of the double a float32 is written as. *)
Definition f32_exp64 (x : Z) : Z :=
  let e := f32_exp x in let m := f32_frac x in
  if e =? 255 then 2047
  else if e =? 0 then (if m =? 0 then 0 else Z.log2 m - 149 + 1023)
  else e - 127 + 1023.
Definition f32_frac64 (x : Z) : Z :=
  let e := f32_exp x in let m := f32_frac x in
  if e =? 255 then (if m =? 0 then 0 else (if m <? 2 ^ 22 then 2 ^ 51 else 0) + m * 2 ^ 29)
  else if e =? 0 then (if m =? 0 then 0 else (m - 2 ^ Z.log2 m) * 2 ^ (52 - Z.log2 m))
  else m * 2 ^ 29.

Lemma log2_frac m : 0 < m < 2 ^ 23 -> 0 <= Z.log2 m <= 22 /\ 2 ^ Z.log2 m <= m < 2 * 2 ^ Z.log2 m.
Proof.
  intros H. pose proof (Z.log2_spec m ltac:(lia)) as L. rewrite Z.pow_succ_r in L by apply Z.log2_nonneg.
  pose proof (Z.log2_nonneg m). assert (Z.log2 m < 23) by (apply Z.log2_lt_pow2; lia). lia.
Qed.

Lemma f32_to_f64_fields x : is_u32 x ->
  f64_sign (f32_to_f64 x) = f32_sign x /\ f64_exp (f32_to_f64 x) = f32_exp64 x /\
  f64_frac (f32_to_f64 x) = f32_frac64 x /\ is_u64 (f32_to_f64 x).
Proof.
  intros H. destruct (f32_split x H) as (Hx & Hs & He & Hm).
  assert (E : f32_to_f64 x = f32_sign x * 2 ^ 63 + (f32_exp64 x * 2 ^ 52 + f32_frac64 x)).
  { unfold f32_to_f64, f32_exp64, f32_frac64.
    destruct (f32_exp x =? 255); [reflexivity|]. destruct (f32_exp x =? 0); [|reflexivity].
    destruct (f32_frac x =? 0); [|reflexivity]. lia. }
  rewrite E. apply f64_fields; auto.
  - unfold f32_exp64. destruct (Z.eqb_spec (f32_exp x) 255); [lia|].
    destruct (Z.eqb_spec (f32_exp x) 0); [|lia]. destruct (Z.eqb_spec (f32_frac x) 0); [lia|].
    pose proof (log2_frac (f32_frac x) ltac:(lia)). lia.
  - unfold f32_frac64. destruct (Z.eqb_spec (f32_exp x) 255).
    { destruct (Z.eqb_spec (f32_frac x) 0); [lia|]. destruct (Z.ltb_spec (f32_frac x) (2 ^ 22)); lia. }
    destruct (Z.eqb_spec (f32_exp x) 0); [|lia]. destruct (Z.eqb_spec (f32_frac x) 0); [lia|].
    destruct (log2_frac (f32_frac x) ltac:(lia)) as (Hk & Hl).
    set (k := Z.log2 (f32_frac x)) in *.
    assert (P : 2 ^ 52 = 2 ^ k * 2 ^ (52 - k)) by (rewrite <- Z.pow_add_r by lia; f_equal; lia).
    pose proof (Z.pow_pos_nonneg 2 (52 - k) ltac:(lia) ltac:(lia)). rewrite P. nia.
Qed.

Lemma rne_exact a k : 0 <= k -> rne (a * 2 ^ k) k = a.
Proof.
  intros H. unfold rne. pose proof (Z.pow_pos_nonneg 2 k ltac:(lia) H).
  rewrite Z.div_mul, Z.mod_mul by lia.
  destruct (Z.ltb_spec (2 ^ k) (2 * 0)); [lia|]. destruct (Z.eqb_spec (2 * 0) (2 ^ k)); [lia|]. reflexivity.
Qed.

(** Widening then narrowing: only a signalling NaN changes, to the quiet NaN
    with the same payload. *)
Theorem f32_round_trip x : is_u32 x ->
  f64_to_f32 (f32_to_f64 x) = if f32_snan x then x + 2 ^ 22 else x.
Proof.
  intros H. destruct (f32_split x H) as (Hx & Hs & He & Hm).
  destruct (f32_to_f64_fields x H) as (E1 & E2 & E3 & _).
  unfold f64_to_f32. rewrite E1, E2, E3. unfold f32_snan, f32_nan, f32_exp64, f32_frac64.
  destruct (Z.eqb_spec (f32_exp x) 255) as [He5|He5].
  { change (2047 =? 2047) with true. cbn iota. cbn [andb].
    destruct (Z.eqb_spec (f32_frac x) 0) as [Hm0|Hm0].
    { change (0 =? 0) with true. cbn. lia. }
    destruct (Z.ltb_spec (f32_frac x) (2 ^ 22)) as [Hq|Hq]; cbn [negb andb].
    - destruct (Z.eqb_spec (2 ^ 51 + f32_frac x * 2 ^ 29) 0); [lia|].
      destruct (Z.ltb_spec (2 ^ 51 + f32_frac x * 2 ^ 29) (2 ^ 51)); [lia|].
      change (2 ^ 51) with (2 ^ 22 * 2 ^ 29). rewrite <- Z.mul_add_distr_r, Z.div_mul by lia. lia.
    - destruct (Z.eqb_spec (0 + f32_frac x * 2 ^ 29) 0); [lia|].
      destruct (Z.ltb_spec (0 + f32_frac x * 2 ^ 29) (2 ^ 51)); [lia|].
      replace (0 + f32_frac x * 2 ^ 29) with (f32_frac x * 2 ^ 29) by lia.
      rewrite Z.add_0_l, Z.div_mul by lia. lia. }
  cbn [andb]. destruct (Z.eqb_spec (f32_exp x) 0) as [He0|He0].
  { destruct (Z.eqb_spec (f32_frac x) 0) as [Hm0|Hm0].
    { cbn. lia. }
    destruct (log2_frac (f32_frac x) ltac:(lia)) as (Hk & Hl).
    set (k := Z.log2 (f32_frac x)) in *.
    destruct (Z.eqb_spec (k - 149 + 1023) 2047); [lia|]. destruct (Z.eqb_spec (k - 149 + 1023) 0); [lia|].
    destruct (Z.leb_spec (-126) (k - 149 + 1023 - 1023)); [lia|].
    replace (29 + (-126 - (k - 149 + 1023 - 1023))) with (52 - k) by lia.
    assert (P : 2 ^ 52 = 2 ^ k * 2 ^ (52 - k)) by (rewrite <- Z.pow_add_r by lia; f_equal; lia).
    rewrite P. replace (2 ^ k * 2 ^ (52 - k) + (f32_frac x - 2 ^ k) * 2 ^ (52 - k))
      with (f32_frac x * 2 ^ (52 - k)) by ring.
    rewrite rne_exact by lia. lia. }
  destruct (Z.eqb_spec (f32_exp x - 127 + 1023) 2047); [lia|].
  destruct (Z.eqb_spec (f32_exp x - 127 + 1023) 0); [lia|].
  destruct (Z.leb_spec (-126) (f32_exp x - 127 + 1023 - 1023)); [|lia].
  change (2 ^ 52) with (2 ^ 23 * 2 ^ 29). rewrite <- Z.mul_add_distr_r, rne_exact by lia.
  rewrite Z.min_r; lia.
Qed.

(** Widening is exact on every finite float32. *)
Theorem f32_to_f64_value x : is_u32 x -> f32_exp x <> 255 ->
  f64_value (f32_to_f64 x) = f32_value x.
Proof.
  intros H Hf. destruct (f32_split x H) as (Hx & Hs & He & Hm).
  destruct (f32_to_f64_fields x H) as (E1 & E2 & E3 & _).
  unfold f64_value, f32_value. rewrite E1, E2, E3. f_equal. unfold f32_exp64, f32_frac64.
  destruct (Z.eqb_spec (f32_exp x) 255) as [He5|He5]; [lia|].
  destruct (Z.eqb_spec (f32_exp x) 0) as [He0|He0].
  - destruct (Z.eqb_spec (f32_frac x) 0) as [Hm0|Hm0].
    { rewrite Hm0. reflexivity. }
    destruct (log2_frac (f32_frac x) ltac:(lia)) as (Hk & Hl).
    set (k := Z.log2 (f32_frac x)) in *.
    destruct (Z.eqb_spec (k - 149 + 1023) 0); [lia|].
    assert (P : 2 ^ 52 = 2 ^ k * 2 ^ (52 - k)) by (rewrite <- Z.pow_add_r by lia; f_equal; lia).
    rewrite P. replace (2 ^ k * 2 ^ (52 - k) + (f32_frac x - 2 ^ k) * 2 ^ (52 - k))
      with (f32_frac x * 2 ^ (52 - k)) by ring.
    rewrite <- Z.mul_assoc, <- Z.pow_add_r by lia. do 2 f_equal. lia.
  - destruct (Z.eqb_spec (f32_exp x - 127 + 1023) 0); [lia|].
    change (2 ^ 52) with (2 ^ 23 * 2 ^ 29). rewrite <- Z.mul_add_distr_r.
    rewrite <- !Z.mul_assoc, <- !Z.pow_add_r by lia. do 2 f_equal. lia.
Qed.

(** Infinities and NaNs stay what they are. *)
Lemma f32_to_f64_special x : is_u32 x -> f32_exp x = 255 ->
  f64_exp (f32_to_f64 x) = 2047 /\ (f64_frac (f32_to_f64 x) = 0 <-> f32_frac x = 0).
Proof.
  intros H Hf. destruct (f32_split x H) as (Hx & Hs & He & Hm).
  destruct (f32_to_f64_fields x H) as (E1 & E2 & E3 & _).
  rewrite E2, E3. unfold f32_exp64, f32_frac64. rewrite Hf. change (255 =? 255) with true. cbn iota.
  split; [reflexivity|]. destruct (Z.eqb_spec (f32_frac x) 0); [lia|].
  destruct (Z.ltb_spec (f32_frac x) (2 ^ 22)); lia.
Qed.

Lemma f32_quiet x : is_u32 x -> f32_snan x = true ->
  f32_nan (x + 2 ^ 22) = true /\ f32_snan (x + 2 ^ 22) = false /\ is_u32 (x + 2 ^ 22).
Proof.
  intros H Hn. destruct (f32_split x H) as (Hx & Hs & He & Hm).
  unfold f32_snan, f32_nan in Hn. apply andb_prop in Hn as [Hn Hq]. apply andb_prop in Hn as [He5 Hz].
  apply Z.eqb_eq in He5. apply Z.ltb_lt in Hq. apply negb_true_iff in Hz. apply Z.eqb_neq in Hz.
  destruct (f32_fields (f32_sign x) (f32_exp x) (f32_frac x + 2 ^ 22) Hs He) as (F1 & F2 & F3 & F4); [lia|].
  assert (Ex : x + 2 ^ 22 = f32_sign x * 2 ^ 31 + (f32_exp x * 2 ^ 23 + (f32_frac x + 2 ^ 22))) by lia.
  rewrite Ex. unfold f32_snan, f32_nan. rewrite F2, F3, He5.
  change (255 =? 255) with true. cbn [andb].
  destruct (Z.eqb_spec (f32_frac x + 2 ^ 22) 0); [lia|]. destruct (Z.ltb_spec (f32_frac x + 2 ^ 22) (2 ^ 22)); [lia|].
  rewrite He5 in F4. auto.
Qed.
