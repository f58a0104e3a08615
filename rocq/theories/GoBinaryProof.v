(** Facts about encoding/binary: fixed-width and varint codecs. *)
From Verif Require Import Base BaseLemmas Prog Bufio GoBinary.

Local Ltac Zify.zify_post_hook ::= Z.to_euclidean_division_equations.

(** ** Bit tricks *)
Lemma land_disjoint x b s : 0 <= s -> 0 <= x < 2 ^ s -> Z.land x (Z.shiftl b s) = 0.
Proof.
  intros Hs Hx. apply Z.bits_inj'. intros n Hn. rewrite Z.land_spec, Z.bits_0.
  destruct (Z.ltb_spec n s) as [H|H].
  - rewrite (Z.shiftl_spec_low b s n) by lia. apply andb_false_r.
  - replace x with (x mod 2 ^ s) by (apply Z.mod_small; lia).
    rewrite Z.mod_pow2_bits_high by lia. reflexivity.
Qed.

Lemma lor_disjoint x b s : 0 <= s -> 0 <= x < 2 ^ s -> Z.lor x (Z.shiftl b s) = x + b * 2 ^ s.
Proof.
  intros Hs Hx. rewrite <- Z.lxor_lor by (apply land_disjoint; auto).
  rewrite <- Z.add_nocarry_lxor by (apply land_disjoint; auto).
  rewrite Z.shiftl_mul_pow2 by lia. reflexivity.
Qed.

Lemma land_low x n : 0 <= n -> Z.land x (Z.ones n) = x mod 2 ^ n.
Proof. apply Z.land_ones. Qed.

Lemma z2b_lor_80 x : z2b (Z.lor x 0x80) = z2b (128 + x mod 128).
Proof.
  apply z2b_eq. change 256 with (2 ^ 8). rewrite <- !Z.land_ones by lia.
  rewrite Z.land_lor_distr_l. change (Z.land 128 (Z.ones 8)) with 128.
  rewrite !Z.land_ones by lia.
  assert (H : forall y, 0 <= y < 256 -> Z.lor y 128 = (128 + y mod 128)).
  { intros y Hy. apply b2z_z2b_small in Hy. rewrite <- Hy.
    generalize (z2b y). intros b. destruct b; reflexivity. }
  rewrite H by (apply Z.mod_pos_bound; lia). lia.
Qed.

Lemma land_7f b : Z.land (b2z b) 0x7f = b2z b mod 128.
Proof. change 0x7f with (Z.ones 7). apply Z.land_ones; lia. Qed.

(** ** Fixed width *)
Lemma le_value_range l : 0 <= le_value l < 256 ^ zlen l.
Proof.
  induction l as [|b r IH]; cbn [le_value].
  - cbn; lia.
  - rewrite zlen_cons, Z.pow_add_r by (pose proof (zlen_nonneg r); lia).
    pose proof (b2z_range b). lia.
Qed.

Lemma zlen_rev {A} (l : list A) : zlen (rev l) = zlen l.
Proof. unfold zlen; rewrite rev_length; reflexivity. Qed.

Lemma be_value_range l : 0 <= be_value l < 256 ^ zlen l.
Proof. unfold be_value. rewrite <- (zlen_rev l). apply le_value_range. Qed.

Lemma le_bytes_length n v : length (le_bytes n v) = n.
Proof. revert v; induction n; intros; cbn; auto. Qed.
Lemma be_bytes_length n v : length (be_bytes n v) = n.
Proof. induction n; intros; cbn; auto. Qed.
Lemma zlen_le_bytes n v : zlen (le_bytes n v) = Z.of_nat n.
Proof. unfold zlen; rewrite le_bytes_length; reflexivity. Qed.
Lemma zlen_be_bytes n v : zlen (be_bytes n v) = Z.of_nat n.
Proof. unfold zlen; rewrite be_bytes_length; reflexivity. Qed.

Lemma le_bytes_snoc n v :
  le_bytes (S n) v = le_bytes n v ++ [z2b (Z.shiftr v (8 * Z.of_nat n))].
Proof.
  revert v; induction n as [|n IH]; intros v.
  - cbn. reflexivity.
  - change (le_bytes (S (S n)) v) with (z2b v :: le_bytes (S n) (Z.shiftr v 8)).
    rewrite IH. cbn [le_bytes app]. do 4 f_equal.
    rewrite Z.shiftr_shiftr by lia. f_equal. lia.
Qed.

Lemma be_le_bytes n v : be_bytes n v = rev (le_bytes n v).
Proof.
  induction n as [|n IH]; [reflexivity|].
  rewrite le_bytes_snoc, rev_app_distr. cbn [be_bytes rev app]. rewrite IH. reflexivity.
Qed.

Lemma le_value_bytes n v : le_value (le_bytes n v) = v mod 256 ^ Z.of_nat n.
Proof.
  revert v; induction n as [|n IH]; intros v.
  - cbn. rewrite Z.mod_1_r. reflexivity.
  - cbn [le_bytes le_value]. rewrite IH, b2z_z2b, Z.shiftr_div_pow2 by lia.
    rewrite Nat2Z.inj_succ, Z.pow_succ_r by lia. change (2 ^ 8) with 256.
    rewrite (Z.rem_mul_r v 256) by lia. reflexivity.
Qed.

Lemma be_value_bytes n v : be_value (be_bytes n v) = v mod 256 ^ Z.of_nat n.
Proof. unfold be_value. rewrite be_le_bytes, rev_involutive. apply le_value_bytes. Qed.

Lemma le_bytes_value l : le_bytes (length l) (le_value l) = l.
Proof.
  induction l as [|b r IH]; [reflexivity|].
  cbn [length le_bytes le_value]. f_equal.
  - rewrite <- (z2b_b2z b) at 2. apply z2b_eq.
    rewrite Z.mul_comm, Z.mod_add by lia. reflexivity.
  - rewrite Z.shiftr_div_pow2 by lia. change (2 ^ 8) with 256.
    rewrite Z.mul_comm, Z.div_add by lia. rewrite Z.div_small by apply b2z_range. exact IH.
Qed.

Lemma be_bytes_value l : be_bytes (length l) (be_value l) = l.
Proof.
  rewrite be_le_bytes. unfold be_value. rewrite <- (rev_length l), le_bytes_value.
  apply rev_involutive.
Qed.

(** ** zigzag *)
Lemma zigzag_alt x : is_i64 x -> zigzag x = if x <? 0 then -2 * x - 1 else 2 * x.
Proof.
  unfold is_i64, zigzag, u64. intros H. rewrite Z.shiftl_mul_pow2 by lia. unfold Z.lnot.
  destruct (Z.ltb_spec x 0); lia.
Qed.

Lemma zigzag_range x : is_i64 x -> is_u64 (zigzag x).
Proof.
  intros H. rewrite zigzag_alt by auto. unfold is_i64, is_u64 in *.
  destruct (Z.ltb_spec x 0); lia.
Qed.

Lemma unzigzag_alt u : is_u64 u ->
  unzigzag u = if u mod 2 =? 0 then u / 2 else - (u / 2) - 1.
Proof.
  unfold is_u64, unzigzag. intros H. rewrite Z.shiftr_div_pow2 by lia.
  assert (E : Z.land u 1 = u mod 2) by (exact (Z.land_ones u 1 ltac:(lia))). rewrite E.
  rewrite i64_id by (unfold is_i64; lia). unfold Z.lnot.
  change (2 ^ 1) with 2. destruct (Z.eqb_spec (u mod 2) 0); lia.
Qed.

Lemma unzigzag_zigzag x : is_i64 x -> unzigzag (zigzag x) = x.
Proof.
  intros H. rewrite unzigzag_alt by (apply zigzag_range; auto). rewrite zigzag_alt by auto.
  destruct (Z.ltb_spec x 0).
  - destruct (Z.eqb_spec ((-2 * x - 1) mod 2) 0); lia.
  - destruct (Z.eqb_spec ((2 * x) mod 2) 0); lia.
Qed.

Lemma unzigzag_range u : is_u64 u -> is_i64 (unzigzag u).
Proof.
  intros H. rewrite unzigzag_alt by auto. unfold is_u64, is_i64 in *.
  destruct (Z.eqb_spec (u mod 2) 0); lia.
Qed.

Lemma zigzag_unzigzag u : is_u64 u -> zigzag (unzigzag u) = u.
Proof.
  intros H. rewrite zigzag_alt by (apply unzigzag_range; auto). rewrite unzigzag_alt by auto.
  unfold is_u64 in H.
  destruct (Z.eqb_spec (u mod 2) 0);
    match goal with |- context [?a <? 0] => destruct (Z.ltb_spec a 0) end; lia.
Qed.

(** ** Uvarints *)

Lemma put_uvarint_loop_len f x : 1 <= zlen (put_uvarint_loop f x) <= Z.of_nat f + 1.
Proof.
  revert x; induction f as [|f IH]; intros x; cbn [put_uvarint_loop].
  - rewrite zlen_cons, zlen_nil. lia.
  - destruct (x >=? 128).
    + rewrite zlen_cons. specialize (IH (Z.shiftr x 7)). lia.
    + rewrite zlen_cons, zlen_nil. lia.
Qed.

Lemma put_uvarint_len x : 1 <= zlen (put_uvarint x) <= 10.
Proof. apply (put_uvarint_loop_len 9). Qed.

(** Size grows by one byte every 7 bits. *)
Lemma put_uvarint_loop_len_le f x n :
  0 <= x < 2 ^ (7 * n) -> 1 <= n -> zlen (put_uvarint_loop f x) <= n.
Proof.
  revert x n; induction f as [|f IH]; intros x n Hx Hn; cbn [put_uvarint_loop].
  - rewrite zlen_cons, zlen_nil. lia.
  - destruct (Z.geb_spec x 128) as [H|H].
    + rewrite zlen_cons.
      destruct (Z.eq_dec n 1) as [->|Hn1].
      { change (2 ^ (7 * 1)) with 128 in Hx. lia. }
      enough (zlen (put_uvarint_loop f (Z.shiftr x 7)) <= n - 1) by lia.
      apply IH; [|lia]. rewrite Z.shiftr_div_pow2 by lia.
      split; [apply Z.div_pos; lia|].
      apply Z.div_lt_upper_bound; [lia|]. rewrite <- Z.pow_add_r by lia.
      replace (7 + 7 * (n - 1)) with (7 * n) by lia. lia.
    + rewrite zlen_cons, zlen_nil. lia.
Qed.

Lemma lor_u64_step x b s :
  0 <= s -> 0 <= x < 2 ^ s -> 0 <= b -> b * 2 ^ s < 2 ^ 64 ->
  Z.lor x (u64 (Z.shiftl b s)) = x + b * 2 ^ s.
Proof.
  intros Hs Hx Hb Hlt. rewrite u64_id.
  - apply lor_disjoint; auto.
  - unfold is_u64. rewrite Z.shiftl_mul_pow2 by lia. split; [|lia].
    apply Z.mul_nonneg_nonneg; lia.
Qed.

(** The pure decoder both Go functions implement: value and number of bytes, or
    [None] when the input ends first, or overflow. *)
Inductive uvres := UvOk (x n : Z) | UvShort | UvOverflow (n : Z).

(** Reading the encoding back, accumulator version. *)
Lemma read_uvarint_loop_ok size f : forall v x i rest fi,
  0 <= v -> i = 9 - Z.of_nat f -> 0 <= i -> 0 <= x < 2 ^ (7 * i) -> v * 2 ^ (7 * i) < 2 ^ 64 ->
  run (stream_h size) (read_uvarint_loop (S f) i (7 * i) x)
      (mkStream (put_uvarint_loop f v ++ rest) fi)
  = Done (mkStream rest fi) (x + v * 2 ^ (7 * i), None).
Proof.
  induction f as [|f IH]; intros v x i rest fi Hv Hi Hi0 Hx Hlt.
  - (* tenth byte *)
    assert (i = 9) by lia. subst i.
    change (7 * 9) with 63 in *.
    assert (Hv2 : v < 2).
    { destruct (Z.ltb_spec v 2); auto.
      assert (2 * 2 ^ 63 <= v * 2 ^ 63) by (apply Z.mul_le_mono_nonneg_r; lia). lia. }
    cbn [put_uvarint_loop app]. change (7 * 9) with 63.
    cbn [read_uvarint_loop run bind call stream_h sdata sfin].
    rewrite b2z_z2b_small by lia.
    destruct (Z.ltb_spec v 128); [|lia].
    destruct (Z.gtb_spec v 1); [lia|]. rewrite andb_false_r. cbn [run].
    rewrite lor_u64_step by lia. reflexivity.
  - cbn [put_uvarint_loop]. destruct (Z.geb_spec v 128) as [Hbig|Hsmall].
    + rewrite z2b_lor_80, Z.shiftr_div_pow2 by lia. change (2 ^ 7) with 128.
      cbn [app].
      change (read_uvarint_loop (S (S f)) i (7 * i) x) with
        ('(b, e) <- call BReadByte ;;
         match e with
         | Some e => Ret (x, if (i >? 0) && is_eof (Some e) then Some EUnexpectedEOF else Some e)
         | None =>
             if b2z b <? 0x80 then
               if (i =? MaxVarintLen64 - 1) && (b2z b >? 1) then Ret (x, Some EOverflow)
               else Ret (Z.lor x (u64 (Z.shiftl (b2z b) (7 * i))), None)
             else read_uvarint_loop (S f) (i + 1) (7 * i + 7)
                    (Z.lor x (u64 (Z.shiftl (Z.land (b2z b) 0x7f) (7 * i))))
         end).
      cbn [run bind call stream_h sdata sfin].
      rewrite b2z_z2b_small by lia.
      destruct (Z.ltb_spec (128 + v mod 128) 128); [lia|].
      rewrite <- (b2z_z2b_small (128 + v mod 128)) by lia.
      rewrite land_7f, b2z_z2b_small by lia.
      replace ((128 + v mod 128) mod 128) with (v mod 128) by lia.
      assert (H0 : 0 < 2 ^ (7 * i)) by (apply Z.pow_pos_nonneg; lia).
      assert (Hle : v mod 128 * 2 ^ (7 * i) <= v * 2 ^ (7 * i)).
      { apply Z.mul_le_mono_nonneg_r; lia. }
      rewrite lor_u64_step by lia.
      assert (E : 7 * i + 7 = 7 * (i + 1)) by lia. rewrite E.
      assert (Hp : 2 ^ (7 * (i + 1)) = 128 * 2 ^ (7 * i)).
      { rewrite <- E, Z.pow_add_r by lia. change (2 ^ 7) with 128. lia. }
      assert (A1 : 0 <= x + v mod 128 * 2 ^ (7 * i) < 2 ^ (7 * (i + 1))).
      { rewrite Hp. split; [nia|].
        enough (v mod 128 * 2 ^ (7 * i) <= 127 * 2 ^ (7 * i)) by lia.
        apply Z.mul_le_mono_nonneg_r; lia. }
      assert (A2 : v / 128 * 2 ^ (7 * (i + 1)) < 2 ^ 64).
      { rewrite Hp. apply Z.le_lt_trans with (v * 2 ^ (7 * i)); auto.
        rewrite Z.mul_assoc. apply Z.mul_le_mono_nonneg_r; lia. }
      rewrite IH; auto; try lia.
      rewrite Hp. do 2 f_equal.
      rewrite (Z.div_mod v 128) at 3 by lia. ring.
    + cbn [app].
      cbn [read_uvarint_loop run bind call stream_h sdata sfin].
      rewrite b2z_z2b_small by lia.
      destruct (Z.ltb_spec v 128); [|lia].
      destruct (Z.eqb_spec i (MaxVarintLen64 - 1)) as [E|E].
      { unfold MaxVarintLen64 in E. lia. }
      cbn [andb run]. rewrite lor_u64_step by lia. reflexivity.
Qed.

Lemma read_uvarint_ok size v rest fi :
  is_u64 v ->
  run (stream_h size) read_uvarint (mkStream (put_uvarint v ++ rest) fi)
  = Done (mkStream rest fi) (v, None).
Proof.
  intros [H1 H2]. unfold read_uvarint, put_uvarint.
  rewrite (read_uvarint_loop_ok size 9 v 0 0) by (cbn; lia).
  cbn. do 2 f_equal. lia.
Qed.

Lemma read_varint_ok size v rest fi :
  is_i64 v ->
  run (stream_h size) read_varint (mkStream (put_varint v ++ rest) fi)
  = Done (mkStream rest fi) (v, None).
Proof.
  intros H. unfold read_varint, put_varint. rewrite run_bind, read_uvarint_ok by (apply zigzag_range; auto).
  cbn [obind run]. rewrite unzigzag_zigzag by auto. reflexivity.
Qed.
