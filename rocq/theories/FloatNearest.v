(** Narrowing rounds to nearest, ties to even; equality of floats. *)
From Verif Require Import Base BaseLemmas GoFloat FloatSpec FloatProof.
Local Open Scope Z_scope.

(** The number that the magnitude (all bits but the sign) [n] stands for, in units of 2^-149. *)
Definition mag (n : Z) : Z :=
  if n / 2 ^ 23 =? 0 then n mod 2 ^ 23 else (2 ^ 23 + n mod 2 ^ 23) * 2 ^ (n / 2 ^ 23 - 1).

Lemma mag_at c q : 0 <= c -> 0 <= q <= 2 ^ 24 -> c = 0 \/ 2 ^ 23 <= q -> mag (c * 2 ^ 23 + q) = q * 2 ^ c.
Proof.
  intros Hc Hq Hn. unfold mag.
  destruct (Z.eq_dec q (2 ^ 24)) as [->|].
  - replace (c * 2 ^ 23 + 2 ^ 24) with ((c + 2) * 2 ^ 23) by lia. rewrite Z.div_mul, Z.mod_mul by lia.
    destruct (Z.eqb_spec (c + 2) 0); [lia|]. replace (c + 2 - 1) with (Z.succ c) by lia. rewrite Z.pow_succ_r by lia. lia.
  - destruct (Z_lt_dec q (2 ^ 23)).
    + assert (c = 0) as -> by lia. rewrite Z.div_small, Z.mod_small by lia. cbn [Z.eqb]. lia.
    + replace (c * 2 ^ 23 + q) with ((q - 2 ^ 23) + (c + 1) * 2 ^ 23) by lia.
      rewrite Z.div_add, Z.mod_add, Z.div_small, Z.mod_small by lia.
      destruct (Z.eqb_spec (0 + (c + 1)) 0); [lia|]. replace (0 + (c + 1) - 1) with c by lia.
      replace (2 ^ 23 + (q - 2 ^ 23)) with q by lia. reflexivity.
Qed.

Lemma mag_split n : 0 <= n -> exists c q, n = c * 2 ^ 23 + q /\ 0 <= c /\ 0 <= q < 2 ^ 24 /\ (c = 0 \/ 2 ^ 23 <= q).
Proof.
  intros H. destruct (Z_lt_dec n (2 ^ 23)).
  - exists 0, n. lia.
  - exists (n / 2 ^ 23 - 1), (2 ^ 23 + n mod 2 ^ 23). pose proof (Z.div_mod n (2 ^ 23) ltac:(lia)).
    pose proof (Z.mod_pos_bound n (2 ^ 23) ltac:(lia)). lia.
Qed.
Lemma mag_step n : 0 <= n -> mag n < mag (n + 1).
Proof.
  intros H. destruct (mag_split n H) as (c & q & -> & Hc & Hq & Hn).
  replace (c * 2 ^ 23 + q + 1) with (c * 2 ^ 23 + (q + 1)) by lia. rewrite !mag_at by lia.
  pose proof (Z.pow_pos_nonneg 2 c ltac:(lia) Hc). lia.
Qed.
Lemma mag_mono a b : 0 <= a -> a <= b -> mag a <= mag b.
Proof.
  intros Ha Hab. replace b with (a + (b - a)) by lia. remember (b - a) as d eqn:Ed. assert (Hd : 0 <= d) by lia. clear Ed Hab.
  revert d Hd. apply natlike_ind; [replace (a + 0) with a by lia; lia|]. intros d Hd IH.
  replace (a + Z.succ d) with ((a + d) + 1) by lia. pose proof (mag_step (a + d) ltac:(lia)). lia.
Qed.

(** What [rne] does: one of the two neighbours. *)
Lemma rne_cases a k : 0 <= k -> let q := a / 2 ^ k in let r := a mod 2 ^ k in
  (rne a k = q /\ 2 * r <= 2 ^ k /\ (2 * r = 2 ^ k -> Z.even q = true)) \/
  (rne a k = q + 1 /\ 2 ^ k <= 2 * r /\ (2 * r = 2 ^ k -> Z.even (q + 1) = true)).
Proof.
  intros Hk q r. unfold rne. fold q r.
  destruct (Z.ltb_spec (2 ^ k) (2 * r)); cbn [orb]; [right; lia|].
  destruct (Z.eqb_spec (2 * r) (2 ^ k)); cbn [andb]; [|left; lia].
  destruct (Z.odd q) eqn:E; [right|left]; (split; [reflexivity|split; [lia|]]); intros _.
  - rewrite Z.even_add, <- Z.negb_odd, E. reflexivity.
  - now rewrite <- Z.negb_odd, E.
Qed.

Lemma nearest_mag c sig k u : 0 <= c -> 0 <= k -> 0 <= u -> u + k = c + 925 -> 0 <= sig -> sig / 2 ^ k < 2 ^ 24 -> c = 0 \/ 2 ^ 23 <= sig / 2 ^ k ->
  let x := c * 2 ^ 23 + rne sig k in
  forall n, 0 <= n ->
    Z.abs (sig * 2 ^ u - mag x * 2 ^ 925) <= Z.abs (sig * 2 ^ u - mag n * 2 ^ 925) /\
    (Z.abs (sig * 2 ^ u - mag x * 2 ^ 925) = Z.abs (sig * 2 ^ u - mag n * 2 ^ 925) -> mag n = mag x \/ Z.even x = true).
Proof.
  intros Hc Hk Hu Huk Hs Hq1 Hq2 x n Hn. set (q := sig / 2 ^ k) in *. set (r := sig mod 2 ^ k).
  assert (Hq0 : 0 <= q) by (apply Z.div_pos; lia).
  assert (K : 0 < 2 ^ k) by lia. assert (U : 0 < 2 ^ u) by lia.
  assert (Es : sig = q * 2 ^ k + r) by (unfold q, r; pose proof (Z.div_mod sig (2 ^ k)); lia).
  assert (Hr : 0 <= r < 2 ^ k) by (apply Z.mod_pos_bound; lia).
  assert (P : forall m, m * 2 ^ c * 2 ^ 925 = m * 2 ^ k * 2 ^ u).
  { intros m. rewrite <- !Z.mul_assoc, <- !Z.pow_add_r by lia. do 2 f_equal. lia. }
  set (W := 2 ^ 925) in *. assert (HW : 0 < W) by (unfold W; lia).
  assert (M0 : mag (c * 2 ^ 23 + q) * W = q * 2 ^ k * 2 ^ u) by (rewrite mag_at by lia; apply P).
  assert (M1 : mag (c * 2 ^ 23 + (q + 1)) * W = (q + 1) * 2 ^ k * 2 ^ u) by (rewrite mag_at by lia; apply P).
  assert (Low : n <= c * 2 ^ 23 + q -> mag n * W <= q * 2 ^ k * 2 ^ u).
  { intros L. rewrite <- M0. apply Z.mul_le_mono_nonneg_r; [lia|]. apply mag_mono; lia. }
  assert (High : c * 2 ^ 23 + (q + 1) <= n -> (q + 1) * 2 ^ k * 2 ^ u <= mag n * W).
  { intros L. rewrite <- M1. apply Z.mul_le_mono_nonneg_r; [lia|]. apply mag_mono; lia. }
  assert (Even : forall m, Z.even m = true -> Z.even (c * 2 ^ 23 + m) = true).
  { intros m E. rewrite Z.even_add, Z.even_mul, E. change (Z.even (2 ^ 23)) with true. now rewrite orb_true_r. }
  assert (Sig : sig * 2 ^ u = q * 2 ^ k * 2 ^ u + r * 2 ^ u) by (rewrite Es at 1; lia).
  assert (E1 : (q + 1) * 2 ^ k * 2 ^ u = q * 2 ^ k * 2 ^ u + 2 ^ k * 2 ^ u) by lia.
  rewrite Sig. set (A := q * 2 ^ k * 2 ^ u) in *. set (B := 2 ^ k * 2 ^ u) in *. set (R := r * 2 ^ u) in *.
  assert (HR : 0 <= R < B) by (unfold R, B; nia).
  assert (Two : forall (a b : Z), 2 * (a * 2 ^ u) <= b * 2 ^ u <-> 2 * a <= b) by (intros; nia).
  assert (Inj : forall a b, a * W = b * W -> a = b) by (intros; nia).
  destruct (rne_cases sig k Hk) as [(Er & H1 & H2)|(Er & H1 & H2)]; fold q r in Er, H1, H2; unfold x; rewrite Er in *.
  - rewrite M0. assert (HB : 2 * R <= B) by (apply Two; exact H1).
    destruct (Z_le_dec n (c * 2 ^ 23 + q)) as [L|L].
    + specialize (Low L). split; [lia|]. intros E. left. apply Inj. rewrite M0. lia.
    + specialize (High ltac:(lia)). rewrite E1 in High. split; [lia|]. intros E. right. apply Even, H2.
      assert (2 * R = B) by lia. unfold R, B in H. nia.
  - rewrite M1, E1. assert (HB : B <= 2 * R) by (unfold R, B; nia).
    destruct (Z_le_dec n (c * 2 ^ 23 + q)) as [L|L].
    + specialize (Low L). split; [lia|]. intros E. right. apply Even, H2. assert (2 * R = B) by lia. unfold R, B in H. nia.
    + specialize (High ltac:(lia)). rewrite E1 in High. split; [lia|]. intros E. left. apply Inj. rewrite M1, E1. lia.
Qed.

Lemma f32_mag s n : (s = 0 \/ s = 1) -> 0 <= n < 2 ^ 31 ->
  let x := s * 2 ^ 31 + n in
  f32_sign x = s /\ f32_value x = (if s =? 1 then -1 else 1) * (mag n * 2 ^ 925) /\ f32_exp x = n / 2 ^ 23 /\ f32_frac x = n mod 2 ^ 23 /\
  0 <= x < 2 ^ 32.
Proof.
  intros Hs Hn x. pose proof (Z.div_mod n (2 ^ 23) ltac:(lia)) as D. pose proof (Z.mod_pos_bound n (2 ^ 23) ltac:(lia)) as M.
  assert (He : 0 <= n / 2 ^ 23 < 256) by lia.
  destruct (f32_fields s (n / 2 ^ 23) (n mod 2 ^ 23) Hs He M) as (F1 & F2 & F3 & F4).
  replace (s * 2 ^ 31 + (n / 2 ^ 23 * 2 ^ 23 + n mod 2 ^ 23)) with x in * by (unfold x; lia).
  unfold f32_value, mag. rewrite F1, F2, F3. unfold is_u32 in F4. repeat split; auto; lia.
Qed.

Lemma f32_as_mag z : 0 <= z < 2 ^ 32 -> exists s n, z = s * 2 ^ 31 + n /\ (s = 0 \/ s = 1) /\ 0 <= n < 2 ^ 31.
Proof. intros H. exists (z / 2 ^ 31), (z mod 2 ^ 31). pose proof (Z.div_mod z (2 ^ 31) ltac:(lia)). pose proof (Z.mod_pos_bound z (2 ^ 31) ltac:(lia)). lia. Qed.

(** Nearest among the magnitudes is nearest among the numbers. *)
Lemma signed s V x : (s = 0 \/ s = 1) -> 0 <= V -> 0 <= x < 255 * 2 ^ 23 ->
  (forall n, 0 <= n -> Z.abs (V - mag x * 2 ^ 925) <= Z.abs (V - mag n * 2 ^ 925) /\
    (Z.abs (V - mag x * 2 ^ 925) = Z.abs (V - mag n * 2 ^ 925) -> mag n = mag x \/ Z.even x = true)) ->
  let v := (if s =? 1 then -1 else 1) * V in
  let y := s * 2 ^ 31 + x in
  f32_exp y <> 255 /\
  forall z, 0 <= z < 2 ^ 32 -> f32_exp z <> 255 ->
    Z.abs (v - f32_value y) <= Z.abs (v - f32_value z) /\
    (Z.abs (v - f32_value y) = Z.abs (v - f32_value z) -> f32_value z = f32_value y \/ Z.even y = true).
Proof.
  intros Hs HV Hx Near v y. destruct (f32_mag s x Hs ltac:(lia)) as (_ & Vy & Ey & _). fold y in Vy, Ey.
  split. { rewrite Ey. assert (x / 2 ^ 23 < 255) by (apply Z.div_lt_upper_bound; lia). lia. }
  intros z Hz _. destruct (f32_as_mag z Hz) as (s' & n & -> & Hs' & Hn). destruct (f32_mag s' n Hs' Hn) as (_ & Vz & _).
  rewrite Vy, Vz. assert (Ev : Z.even x = true -> Z.even y = true).
  { intros E. unfold y. rewrite Z.even_add, Z.even_mul, E. change (Z.even (2 ^ 31)) with true. now rewrite orb_true_r. }
  destruct (Near n ltac:(lia)) as [N1 N2]. destruct (Near 0 ltac:(lia)) as [Z1 _].
  change (mag 0) with 0 in Z1. pose proof (mag_mono 0 n ltac:(lia) ltac:(lia)) as Pn. pose proof (mag_mono 0 x ltac:(lia) ltac:(lia)) as Px.
  change (mag 0) with 0 in Pn, Px. assert (Inj : forall a b, a * 2 ^ 925 = b * 2 ^ 925 -> a = b) by (intros; apply (Z.mul_reg_r _ _ (2 ^ 925)); lia).
  assert (Pn' : 0 <= mag n * 2 ^ 925) by (apply Z.mul_nonneg_nonneg; lia). assert (Px' : 0 <= mag x * 2 ^ 925) by (apply Z.mul_nonneg_nonneg; lia).
  set (X := mag x * 2 ^ 925) in *. set (N := mag n * 2 ^ 925) in *. unfold v.
  assert (Same : X = N -> mag x = mag n) by apply Inj.
  assert (Same' : mag n = mag x -> N = X) by (intros E; unfold N, X; now rewrite E).
  destruct Hs as [-> | ->], Hs' as [-> | ->]; cbn [Z.eqb Pos.eqb]; (split; [lia|]); intros E.
  - destruct (N2 ltac:(lia)) as [E2|E2]; [left; rewrite (Same' E2)|right; auto]; lia.
  - destruct (N2 ltac:(lia)) as [E2|E2]; [left; specialize (Same' E2)|right; auto]; lia.
  - destruct (N2 ltac:(lia)) as [E2|E2]; [left; specialize (Same' E2)|right; auto]; lia.
  - destruct (N2 ltac:(lia)) as [E2|E2]; [left; rewrite (Same' E2)|right; auto]; lia.
Qed.

Lemma f64_split y : is_u64 y ->
  y = f64_sign y * 2 ^ 63 + f64_exp y * 2 ^ 52 + f64_frac y /\
  (f64_sign y = 0 \/ f64_sign y = 1) /\ 0 <= f64_exp y < 2048 /\ 0 <= f64_frac y < 2 ^ 52.
Proof.
  unfold is_u64, f64_sign, f64_exp, f64_frac. intros H.
  pose proof (Z.div_mod y (2 ^ 52) ltac:(lia)). pose proof (Z.mod_pos_bound y (2 ^ 52) ltac:(lia)).
  pose proof (Z.div_mod (y / 2 ^ 52) (2 ^ 11) ltac:(lia)). pose proof (Z.mod_pos_bound (y / 2 ^ 52) (2 ^ 11) ltac:(lia)).
  assert (y / 2 ^ 63 = y / 2 ^ 52 / 2 ^ 11) by (rewrite Z.div_div by lia; reflexivity). lia.
Qed.

Lemma rne_le a k m : 0 <= k -> a < m * 2 ^ k -> rne a k <= m.
Proof.
  intros Hk H. assert (a / 2 ^ k < m) by (apply Z.div_lt_upper_bound; lia).
  destruct (rne_cases a k Hk) as [(E & _)|(E & _)]; rewrite E; lia.
Qed.
Lemma rne_nonneg a k : 0 <= k -> 0 <= a -> 0 <= rne a k.
Proof. intros Hk H. pose proof (Z.div_pos a (2 ^ k) H ltac:(lia)). destruct (rne_cases a k Hk) as [(E & _)|(E & _)]; rewrite E; lia. Qed.

Theorem narrows y : 0 <= y < 2 ^ 64 -> rounded y (f64_to_f32 y).
Proof.
  intros Hy. destruct (f64_split y Hy) as (_ & Hs & He & Hm). unfold rounded, f64_to_f32.
  set (s := f64_sign y) in *. set (e := f64_exp y) in *. set (m := f64_frac y) in *.
  assert (Abs : Z.abs (f64_value y) = if e =? 0 then m else (2 ^ 52 + m) * 2 ^ (e - 1)).
  { unfold f64_value. fold s e m. rewrite Z.abs_mul. rewrite (Z.abs_eq (if e =? 0 then _ else _)).
    - destruct Hs as [-> | ->]; cbn [Z.eqb Pos.eqb]; lia.
    - destruct (e =? 0); [lia|]. apply Z.mul_nonneg_nonneg; lia. }
  assert (Val : f64_value y = (if s =? 1 then -1 else 1) * (if e =? 0 then m else (2 ^ 52 + m) * 2 ^ (e - 1))) by reflexivity.
  rewrite Abs, Val. destruct (Z.eqb_spec e 2047) as [E|E].
  - (* infinities and NaNs *)
    set (f := if m =? 0 then 0 else (if m <? 2 ^ 51 then 2 ^ 22 else 0) + m / 2 ^ 29).
    assert (Hf : 0 <= f < 2 ^ 23 /\ (f = 0 <-> m = 0)).
    { unfold f. destruct (Z.eqb_spec m 0); [lia|]. pose proof (Z.div_pos m (2 ^ 29) ltac:(lia) ltac:(lia)).
      destruct (Z.ltb_spec m (2 ^ 51)).
      - assert (m / 2 ^ 29 < 2 ^ 22) by (apply Z.div_lt_upper_bound; lia). lia.
      - assert (2 ^ 22 <= m / 2 ^ 29) by (apply Z.div_le_lower_bound; lia).
        assert (m / 2 ^ 29 < 2 ^ 23) by (apply Z.div_lt_upper_bound; lia). lia. }
    destruct (f32_fields s 255 f Hs ltac:(lia) ltac:(lia)) as (F1 & F2 & F3 & F4). unfold is_u32 in F4.
    rewrite F1, F2, F3. repeat split; auto; lia || apply Hf.
  - destruct (Z.eqb_spec e 0) as [E0|E0].
    + (* subnormal doubles *)
      assert (T : m < (2 ^ 128 - 2 ^ 103) * 2 ^ 1074) by lia. destruct (Z.ltb_spec m ((2 ^ 128 - 2 ^ 103) * 2 ^ 1074)); [|lia].
      destruct (f32_mag s 0 Hs ltac:(lia)) as (F1 & _ & _ & _ & F4). split; [exact F4|]. split; [exact F1|].
      apply (signed s m 0 Hs ltac:(lia) ltac:(lia)). intros n Hn. change (mag 0) with 0. rewrite Z.mul_0_l, Z.sub_0_r.
      destruct (Z.eq_dec n 0) as [-> |]; [change (mag 0) with 0; split; [lia|auto]|].
      assert (1 <= mag n) by (change 1 with (mag 1); apply mag_mono; lia).
      assert (1 * 2 ^ 925 <= mag n * 2 ^ 925) by (apply Z.mul_le_mono_nonneg_r; lia).
      split; [lia|]. auto.
    + set (sig := 2 ^ 52 + m). assert (Hsig : 2 ^ 52 <= sig < 2 ^ 53) by (unfold sig; lia).
      assert (HV : 0 <= sig * 2 ^ (e - 1)) by (apply Z.mul_nonneg_nonneg; lia).
      destruct (Z.leb_spec (-126) (e - 1023)) as [N|N].
      * (* normal *)
        replace (e - 1023 + 126) with (e - 897) by lia.
        assert (Q : 2 ^ 23 <= sig / 2 ^ 29 < 2 ^ 24) by (split; [apply Z.div_le_lower_bound|apply Z.div_lt_upper_bound]; lia).
        assert (R : 2 ^ 23 <= rne sig 29 <= 2 ^ 24) by (destruct (rne_cases sig 29 ltac:(lia)) as [(-> & _)|(-> & _)]; lia).
        assert (Big : (sig * 2 ^ (e - 1) < (2 ^ 128 - 2 ^ 103) * 2 ^ 1074) <-> (e - 897) * 2 ^ 23 + rne sig 29 < 255 * 2 ^ 23).
        { destruct (Z_lt_dec e 1150) as [L|L].
          { assert (2 ^ (e - 1) <= 2 ^ 1148) by (apply Z.pow_le_mono_r; lia).
            assert (sig * 2 ^ (e - 1) < 2 ^ 53 * 2 ^ 1148) by nia. lia. }
          destruct (Z_lt_dec 1150 e) as [L'|L'].
          { assert (2 ^ 1150 <= 2 ^ (e - 1)) by (apply Z.pow_le_mono_r; lia).
            assert (2 ^ 52 * 2 ^ 1150 <= sig * 2 ^ (e - 1)) by nia. lia. }
          assert (e = 1150) as Ee by lia. rewrite Ee.
          change ((2 ^ 128 - 2 ^ 103) * 2 ^ 1074) with ((2 ^ 53 - 2 ^ 28) * 2 ^ (1150 - 1)).
          rewrite <- Z.mul_lt_mono_pos_r by lia.
          assert (D : sig = sig / 2 ^ 29 * 2 ^ 29 + sig mod 2 ^ 29) by (pose proof (Z.div_mod sig (2 ^ 29)); lia).
          destruct (rne_cases sig 29 ltac:(lia)) as [(-> & A & B)|(-> & A & B)].
          - split; [lia|]. intros _. destruct (Z_lt_dec (sig / 2 ^ 29) (2 ^ 24 - 1)); [lia|].
            assert (Eq : sig / 2 ^ 29 = 2 ^ 24 - 1) by lia. rewrite Eq in B.
            destruct (Z.eq_dec (2 * (sig mod 2 ^ 29)) (2 ^ 29)); [specialize (B e0); discriminate B|]. lia.
          - pose proof (Z.mod_pos_bound sig (2 ^ 29) ltac:(lia)).
            split; [|lia]. intros Hlt. destruct (Z_lt_dec (sig / 2 ^ 29) (2 ^ 24 - 1)); lia. }
        destruct (Z.ltb_spec (sig * 2 ^ (e - 1)) ((2 ^ 128 - 2 ^ 103) * 2 ^ 1074)) as [H|H].
        -- apply Big in H. rewrite Z.min_r by lia.
           destruct (f32_mag s ((e - 897) * 2 ^ 23 + rne sig 29) Hs ltac:(lia)) as (F1 & _ & _ & _ & F4).
           split; [exact F4|]. split; [exact F1|]. apply (signed s (sig * 2 ^ (e - 1)) ((e - 897) * 2 ^ 23 + rne sig 29) Hs HV ltac:(lia)).
           apply (nearest_mag (e - 897) sig 29 (e - 1)); lia.
        -- rewrite Z.min_l by (destruct (Z_lt_dec ((e - 897) * 2 ^ 23 + rne sig 29) (255 * 2 ^ 23)) as [L|L]; [apply Big in L; lia|lia]).
           destruct (f32_mag s (255 * 2 ^ 23) Hs ltac:(lia)) as (F1 & _ & F2 & F3 & F4). rewrite F1, F2, F3. split; [exact F4|]. auto.
      * (* subnormal float32s *)
        assert (L : 2 ^ (e - 1) <= 2 ^ 895) by (apply Z.pow_le_mono_r; lia).
        assert (sig * 2 ^ (e - 1) < 2 ^ 53 * 2 ^ 895) by nia.
        destruct (Z.ltb_spec (sig * 2 ^ (e - 1)) ((2 ^ 128 - 2 ^ 103) * 2 ^ 1074)); [|lia].
        set (k := 29 + (-126 - (e - 1023))). assert (Hk : 30 <= k) by lia.
        assert (P : 2 ^ 30 <= 2 ^ k) by (apply Z.pow_le_mono_r; lia).
        assert (Q : 0 <= sig / 2 ^ k < 2 ^ 23) by (split; [apply Z.div_pos|apply Z.div_lt_upper_bound]; nia).
        assert (R : 0 <= rne sig k <= 2 ^ 23) by (destruct (rne_cases sig k ltac:(lia)) as [(-> & _)|(-> & _)]; lia).
        destruct (f32_mag s (rne sig k) Hs ltac:(lia)) as (F1 & _ & _ & _ & F4).
        split; [exact F4|]. split; [exact F1|]. apply (signed s (sig * 2 ^ (e - 1)) (rne sig k) Hs HV ltac:(lia)).
        replace (rne sig k) with (0 * 2 ^ 23 + rne sig k) by lia. apply (nearest_mag 0 sig k (e - 1)); lia.
Qed.

(** ** Equality *)
Lemma scaled_inj P e m e' m' : 0 < P -> 0 <= m < P -> 0 <= m' < P -> 0 <= e -> 0 <= e' ->
  (if e =? 0 then m else (P + m) * 2 ^ (e - 1)) = (if e' =? 0 then m' else (P + m') * 2 ^ (e' - 1)) -> e = e' /\ m = m'.
Proof.
  intros HP Hm Hm' He He' E.
  assert (Less : forall a b x y, 0 <= x < P -> 0 <= y < P -> 0 < a < b -> (P + x) * 2 ^ (a - 1) < (P + y) * 2 ^ (b - 1)).
  { intros a b x y Hx Hy Hab. assert (2 ^ a <= 2 ^ (b - 1)) by (apply Z.pow_le_mono_r; lia).
    replace (2 ^ a) with (2 * 2 ^ (a - 1)) in H by (rewrite <- Z.pow_succ_r by lia; f_equal; lia).
    assert (0 < 2 ^ (a - 1)) by lia. nia. }
  assert (Pos : forall a x, 0 <= x < P -> 0 < a -> P <= (P + x) * 2 ^ (a - 1)).
  { intros a x Hx Ha. assert (0 < 2 ^ (a - 1)) by lia. nia. }
  destruct (Z.eqb_spec e 0), (Z.eqb_spec e' 0).
  - lia.
  - specialize (Pos e' m' Hm' ltac:(lia)). lia.
  - specialize (Pos e m Hm ltac:(lia)). lia.
  - destruct (Z.lt_trichotomy e e') as [L|[L|L]].
    + specialize (Less e e' m m' Hm Hm' ltac:(lia)). lia.
    + subst e'. split; [reflexivity|]. apply Z.mul_reg_r in E; lia.
    + specialize (Less e' e m' m Hm' Hm ltac:(lia)). lia.
Qed.

Lemma scaled_nonneg P e m : 0 < P -> 0 <= m < P -> 0 <= e -> 0 <= (if e =? 0 then m else (P + m) * 2 ^ (e - 1)) /\
  ((if e =? 0 then m else (P + m) * 2 ^ (e - 1)) = 0 <-> e = 0 /\ m = 0).
Proof.
  intros HP Hm He. destruct (Z.eqb_spec e 0); [lia|]. assert (0 < 2 ^ (e - 1)) by lia. assert (0 < (P + m) * 2 ^ (e - 1)) by nia. lia.
Qed.

Theorem f64_equal x y : 0 <= x < 2 ^ 64 -> 0 <= y < 2 ^ 64 -> f64_eqb x y = true <-> f64_same x y.
Proof.
  intros Hx Hy. destruct (f64_split x Hx) as (Ex & Sx & Rx & Fx). destruct (f64_split y Hy) as (Ey & Sy & Ry & Fy).
  unfold f64_eqb, f64_same, f64_nan, f64_value.
  set (sx := f64_sign x) in *. set (ex := f64_exp x) in *. set (mx := f64_frac x) in *.
  set (sy := f64_sign y) in *. set (ey := f64_exp y) in *. set (my := f64_frac y) in *.
  assert (Zx : x mod 2 ^ 63 = ex * 2 ^ 52 + mx) by (rewrite Ex, <- Z.add_assoc, Z.add_comm, Z.mod_add, Z.mod_small; lia).
  assert (Zy : y mod 2 ^ 63 = ey * 2 ^ 52 + my) by (rewrite Ey, <- Z.add_assoc, Z.add_comm, Z.mod_add, Z.mod_small; lia).
  rewrite Zx, Zy, !andb_true_iff, !negb_true_iff, orb_true_iff, andb_true_iff, !Z.eqb_eq, !andb_false_iff, !negb_false_iff, !Z.eqb_neq, !Z.eqb_eq.
  destruct (Z.eqb_spec ex 2047) as [E|E].
  - split; [|intros [A B]; rewrite B in *; lia]. lia.
  - split.
    + intros [[A B] [C|[C D]]].
      * assert (sy = sx) as -> by (unfold sy, sx; now rewrite C). assert (ey = ex) as -> by (unfold ey, ex; now rewrite C).
        assert (my = mx) as -> by (unfold my, mx; now rewrite C). split; [lia|]. reflexivity.
      * assert (ex = 0 /\ mx = 0 /\ ey = 0 /\ my = 0) as (-> & -> & -> & ->) by lia. cbn. split; lia.
    + intros [A B].
      pose proof (scaled_nonneg (2 ^ 52) ex mx ltac:(lia) Fx ltac:(lia)) as [P1 P2].
      pose proof (scaled_nonneg (2 ^ 52) ey my ltac:(lia) Fy ltac:(lia)) as [P3 P4].
      pose proof (scaled_inj (2 ^ 52) ex mx ey my ltac:(lia) Fx Fy ltac:(lia) ltac:(lia)) as Inj.
      set (vx := if ex =? 0 then mx else _) in *. set (vy := if ey =? 0 then my else _) in *.
      split; [lia|].
      destruct Sx as [S1|S1], Sy as [S2|S2]; rewrite S1, S2 in *; cbn [Z.eqb Pos.eqb] in B.
      * left. destruct Inj; lia.
      * right. assert (vx = 0 /\ vy = 0) as [V1 V2] by lia. apply P2 in V1. apply P4 in V2. lia.
      * right. assert (vx = 0 /\ vy = 0) as [V1 V2] by lia. apply P2 in V1. apply P4 in V2. lia.
      * left. destruct Inj; lia.
Qed.

Theorem f32_equal x y : 0 <= x < 2 ^ 32 -> 0 <= y < 2 ^ 32 -> f32_eqb x y = true <-> f32_same x y.
Proof.
  intros Hx Hy. destruct (f32_split x Hx) as (Ex & Sx & Rx & Fx). destruct (f32_split y Hy) as (Ey & Sy & Ry & Fy).
  unfold f32_eqb, f32_same, f32_nan, f32_value.
  set (sx := f32_sign x) in *. set (ex := f32_exp x) in *. set (mx := f32_frac x) in *.
  set (sy := f32_sign y) in *. set (ey := f32_exp y) in *. set (my := f32_frac y) in *.
  assert (Zx : x mod 2 ^ 31 = ex * 2 ^ 23 + mx) by (rewrite Ex, <- Z.add_assoc, Z.add_comm, Z.mod_add, Z.mod_small; lia).
  assert (Zy : y mod 2 ^ 31 = ey * 2 ^ 23 + my) by (rewrite Ey, <- Z.add_assoc, Z.add_comm, Z.mod_add, Z.mod_small; lia).
  rewrite Zx, Zy, !andb_true_iff, !negb_true_iff, orb_true_iff, andb_true_iff, !Z.eqb_eq, !andb_false_iff, !negb_false_iff, !Z.eqb_neq, !Z.eqb_eq.
  destruct (Z.eqb_spec ex 255) as [E|E].
  - split; [|intros [A B]; rewrite B in *; lia]. lia.
  - split.
    + intros [[A B] [C|[C D]]].
      * assert (sy = sx) as -> by (unfold sy, sx; now rewrite C). assert (ey = ex) as -> by (unfold ey, ex; now rewrite C).
        assert (my = mx) as -> by (unfold my, mx; now rewrite C). split; [lia|]. reflexivity.
      * assert (ex = 0 /\ mx = 0 /\ ey = 0 /\ my = 0) as (-> & -> & -> & ->) by lia. cbn. split; lia.
    + intros [A B].
      pose proof (scaled_nonneg (2 ^ 23) ex mx ltac:(lia) Fx ltac:(lia)) as [P1 P2].
      pose proof (scaled_nonneg (2 ^ 23) ey my ltac:(lia) Fy ltac:(lia)) as [P3 P4].
      pose proof (scaled_inj (2 ^ 23) ex mx ey my ltac:(lia) Fx Fy ltac:(lia) ltac:(lia)) as Inj.
      set (vx := if ex =? 0 then mx else _) in *. set (vy := if ey =? 0 then my else _) in *.
      split; [lia|]. assert (W : 0 < 2 ^ 925) by lia. set (w := 2 ^ 925) in *. clearbody w.
      destruct Sx as [S1|S1], Sy as [S2|S2]; rewrite S1, S2 in *; cbn [Z.eqb Pos.eqb] in B.
      * left. destruct Inj; [nia|lia].
      * right. assert (vx = 0 /\ vy = 0) as [V1 V2] by nia. apply P2 in V1. apply P4 in V2. lia.
      * right. assert (vx = 0 /\ vy = 0) as [V1 V2] by nia. apply P2 in V1. apply P4 in V2. lia.
      * left. destruct Inj; [nia|lia].
Qed.

(** ** The rounding is unique *)
Lemma f32_sign_mag z : 0 <= z < 2 ^ 32 -> z = f32_sign z * 2 ^ 31 + z mod 2 ^ 31 /\ (f32_sign z = 0 \/ f32_sign z = 1) /\ 0 <= z mod 2 ^ 31 < 2 ^ 31.
Proof. unfold f32_sign. intros H. pose proof (Z.div_mod z (2 ^ 31) ltac:(lia)). pose proof (Z.mod_pos_bound z (2 ^ 31) ltac:(lia)). lia. Qed.

Lemma mag_lt a b : 0 <= a -> a < b -> mag a < mag b.
Proof. intros Ha H. pose proof (mag_step a Ha). pose proof (mag_mono (a + 1) b ltac:(lia) ltac:(lia)). lia. Qed.

Theorem rounded_unique y x x' : f64_exp y <> 2047 \/ f64_frac y = 0 -> rounded y x -> rounded y x' -> x = x'.
Proof.
  unfold rounded. intros Hy (H1 & H2 & H3) (H4 & H5 & H6).
  destruct (f32_sign_mag x H1) as (Ex & Sx & Nx). destruct (f32_sign_mag x' H4) as (Ex' & Sx' & Nx').
  destruct (f32_mag _ _ Sx Nx) as (_ & Vx & Fx & Mx & _). destruct (f32_mag _ _ Sx' Nx') as (_ & Vx' & Fx' & Mx' & _).
  rewrite <- Ex in Vx, Fx, Mx. rewrite <- Ex' in Vx', Fx', Mx'. rewrite H2 in *. rewrite H5 in *.
  set (n := x mod 2 ^ 31) in *. set (n' := x' mod 2 ^ 31) in *. set (s := f64_sign y) in *.
  assert (Special : f32_exp x = 255 -> f32_frac x = 0 -> f32_exp x' = 255 -> f32_frac x' = 0 -> x = x').
  { intros A B C D. pose proof (Z.div_mod n (2 ^ 23) ltac:(lia)). pose proof (Z.div_mod n' (2 ^ 23) ltac:(lia)). lia. }
  destruct (Z.eqb_spec (f64_exp y) 2047) as [E|E]; [destruct Hy as [Hy|Hy]; [congruence|]; apply Special; tauto|].
  destruct (Z.ltb_spec (Z.abs (f64_value y)) ((2 ^ 128 - 2 ^ 103) * 2 ^ 1074)) as [L|L]; [|apply Special; tauto].
  destruct H3 as [X1 X2], H6 as [Y1 Y2]. enough (n = n') by lia.
  assert (Main : forall n n' x x', x = s * 2 ^ 31 + n -> x' = s * 2 ^ 31 + n' -> 0 <= n -> n < n' -> n' < 2 ^ 31 ->
    f32_value x = (if s =? 1 then -1 else 1) * (mag n * 2 ^ 925) -> f32_value x' = (if s =? 1 then -1 else 1) * (mag n' * 2 ^ 925) ->
    f32_exp x' <> 255 -> 0 <= x < 2 ^ 32 -> 0 <= x' < 2 ^ 32 -> f32_exp x <> 255 ->
    (forall z, 0 <= z < 2 ^ 32 -> f32_exp z <> 255 -> Z.abs (f64_value y - f32_value x) <= Z.abs (f64_value y - f32_value z) /\
      (Z.abs (f64_value y - f32_value x) = Z.abs (f64_value y - f32_value z) -> f32_value z = f32_value x \/ Z.even x = true)) ->
    (forall z, 0 <= z < 2 ^ 32 -> f32_exp z <> 255 -> Z.abs (f64_value y - f32_value x') <= Z.abs (f64_value y - f32_value z) /\
      (Z.abs (f64_value y - f32_value x') = Z.abs (f64_value y - f32_value z) -> f32_value z = f32_value x' \/ Z.even x' = true)) -> False).
  { clear - Sx. intros n n' x x' Ex Ex' Hn Hlt Hn' Vx Vx' Fx' Rx Rx' Fx X Y.
    destruct (X x' Rx' Fx') as [A1 A2]. destruct (Y x Rx Fx) as [B1 B2].
    pose proof (mag_lt n n' Hn Hlt) as Lt.
    assert (LtW : mag n * 2 ^ 925 < mag n' * 2 ^ 925) by (apply Z.mul_lt_mono_pos_r; lia).
    assert (Ev : Z.even x = true /\ Z.even x' = true).
    { split; [destruct (A2 ltac:(lia)) as [E|E]|destruct (B2 ltac:(lia)) as [E|E]]; auto; rewrite Vx, Vx' in E; destruct Sx as [S|S]; rewrite S in E; cbn [Z.eqb Pos.eqb] in E; lia. }
    destruct Ev as [Ev Ev'].
    assert (Par : forall m, Z.even (s * 2 ^ 31 + m) = Z.even m).
    { intros m. rewrite Z.even_add, Z.even_mul. change (Z.even (2 ^ 31)) with true. rewrite orb_true_r. destruct (Z.even m); reflexivity. }
    rewrite Ex, Par in Ev. rewrite Ex', Par in Ev'.
    assert (Ne : n + 1 <> n').
    { intros E. rewrite <- E, Z.even_add, Ev in Ev'. discriminate Ev'. }
    set (z := s * 2 ^ 31 + (n + 1)). destruct (f32_mag s (n + 1) Sx ltac:(lia)) as (_ & Vz & Fz & _ & Rz). fold z in Vz, Fz, Rz.
    assert (Fzn : f32_exp z <> 255).
    { rewrite Fz. destruct (f32_mag s n' Sx ltac:(lia)) as (_ & _ & F & _). rewrite <- Ex' in F. rewrite F in Fx'.
      assert ((n + 1) / 2 ^ 23 <= n' / 2 ^ 23) by (apply Z.div_le_mono; lia). assert (n' / 2 ^ 23 < 256) by (apply Z.div_lt_upper_bound; lia). lia. }
    destruct (X z Rz Fzn) as [C1 _]. destruct (Y z Rz Fzn) as [D1 _].
    pose proof (mag_lt n (n + 1) Hn ltac:(lia)) as L1. pose proof (mag_lt (n + 1) n' ltac:(lia) ltac:(lia)) as L2.
    assert (L1W : mag n * 2 ^ 925 < mag (n + 1) * 2 ^ 925) by (apply Z.mul_lt_mono_pos_r; lia).
    assert (L2W : mag (n + 1) * 2 ^ 925 < mag n' * 2 ^ 925) by (apply Z.mul_lt_mono_pos_r; lia).
    rewrite Vx, Vz in C1. rewrite Vx', Vz in D1. rewrite Vx, Vx' in A1. rewrite Vx, Vx' in B1. clear - Sx L1W L2W A1 B1 C1 D1.
    set (a := mag n * 2 ^ 925) in *. set (b := mag (n + 1) * 2 ^ 925) in *. set (c := mag n' * 2 ^ 925) in *. clearbody a b c.
    destruct Sx as [S|S]; rewrite S in *; cbn [Z.eqb Pos.eqb] in *; lia. }
  destruct (Z.lt_trichotomy n n') as [T|[T|T]]; [exfalso|exact T|exfalso].
  - apply (Main n n' x x'); auto; lia.
  - apply (Main n' n x' x); auto; lia.
Qed.
