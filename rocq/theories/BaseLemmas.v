(** Facts about bytes and fixed-width integers (no modelling here). *)
From Coq Require Import NArith.
From Verif Require Import Base.

(** Splits conjunctions only (does not unfold definitions). *)
Ltac conj := repeat match goal with |- _ /\ _ => split end.

Ltac wrapup := conj; auto; try lia; try (intros; conj; solve [auto | congruence | lia]).

Lemma b2z_range b : 0 <= b2z b < 256.
Proof. unfold b2z. pose proof (Byte.to_N_bounded b). lia. Qed.

Lemma z2b_b2z b : z2b (b2z b) = b.
Proof.
  unfold z2b. rewrite Z.mod_small by apply b2z_range.
  unfold b2z. rewrite N2Z.id, Byte.of_to_N. reflexivity.
Qed.

Lemma b2z_z2b z : b2z (z2b z) = z mod 256.
Proof.
  unfold z2b. pose proof (Z.mod_pos_bound z 256 ltac:(lia)) as H.
  destruct (Byte.of_N (Z.to_N (z mod 256))) as [b|] eqn:E.
  - apply Byte.to_of_N in E. unfold b2z. rewrite E. lia.
  - apply Byte.of_N_None_iff in E. lia.
Qed.

Lemma b2z_z2b_small z : 0 <= z < 256 -> b2z (z2b z) = z.
Proof. intros H. rewrite b2z_z2b, Z.mod_small; auto. Qed.

Lemma b2z_inj a b : b2z a = b2z b -> a = b.
Proof. intros H. rewrite <- (z2b_b2z a), <- (z2b_b2z b), H. reflexivity. Qed.

Lemma z2b_mod z : z2b (z mod 256) = z2b z.
Proof. unfold z2b. rewrite Z.mod_mod by lia. reflexivity. Qed.

Lemma z2b_eq a b : a mod 256 = b mod 256 -> z2b a = z2b b.
Proof. intros H. unfold z2b. rewrite H. reflexivity. Qed.

Lemma zlen_nonneg {A} (l : list A) : 0 <= zlen l.
Proof. unfold zlen; lia. Qed.
Lemma zlen_nil {A} : zlen (@nil A) = 0.
Proof. reflexivity. Qed.
Lemma zlen_cons {A} (a : A) l : zlen (a :: l) = 1 + zlen l.
Proof. unfold zlen; cbn [length]; lia. Qed.
Lemma zlen_app {A} (l m : list A) : zlen (l ++ m) = zlen l + zlen m.
Proof. unfold zlen; rewrite app_length; lia. Qed.
Lemma zlen_0 {A} (l : list A) : zlen l = 0 -> l = [].
Proof. destruct l; auto. rewrite zlen_cons. pose proof (zlen_nonneg l). lia. Qed.

Lemma zlen_firstn {A} (l : list A) n :
  0 <= n <= zlen l -> zlen (firstn (Z.to_nat n) l) = n.
Proof. unfold zlen; intros; rewrite firstn_length; lia. Qed.
Lemma zlen_skipn {A} (l : list A) n :
  0 <= n <= zlen l -> zlen (skipn (Z.to_nat n) l) = zlen l - n.
Proof. unfold zlen; intros; rewrite skipn_length; lia. Qed.

Lemma firstn_zlen_app {A} (l m : list A) : firstn (Z.to_nat (zlen l)) (l ++ m) = l.
Proof.
  unfold zlen. rewrite Nat2Z.id, firstn_app, Nat.sub_diag, firstn_all. cbn. apply app_nil_r.
Qed.
Lemma skipn_zlen_app {A} (l m : list A) : skipn (Z.to_nat (zlen l)) (l ++ m) = m.
Proof.
  unfold zlen. rewrite Nat2Z.id, skipn_app, Nat.sub_diag, skipn_all. reflexivity.
Qed.

Lemma skipn_skipn' {A} a b (l : list A) : skipn a (skipn b l) = skipn (b + a) l.
Proof.
  revert l; induction b as [|b IH]; intros l; [reflexivity|].
  destruct l; cbn; [apply skipn_nil|apply IH].
Qed.

(** ** Wraps *)
Lemma i8_range z : is_i8 (i8 z).
Proof. unfold is_i8, i8. pose proof (Z.mod_pos_bound (z + 2^7) (2^8) ltac:(lia)). lia. Qed.
Lemma i16_range z : is_i16 (i16 z).
Proof. unfold is_i16, i16. pose proof (Z.mod_pos_bound (z + 2^15) (2^16) ltac:(lia)). lia. Qed.
Lemma i32_range z : is_i32 (i32 z).
Proof. unfold is_i32, i32. pose proof (Z.mod_pos_bound (z + 2^31) (2^32) ltac:(lia)). lia. Qed.
Lemma i64_range z : is_i64 (i64 z).
Proof. unfold is_i64, i64. pose proof (Z.mod_pos_bound (z + 2^63) (2^64) ltac:(lia)). lia. Qed.
Lemma u8_range z : is_u8 (u8 z).
Proof. apply Z.mod_pos_bound; lia. Qed.
Lemma u16_range z : is_u16 (u16 z).
Proof. apply Z.mod_pos_bound; lia. Qed.
Lemma u32_range z : is_u32 (u32 z).
Proof. apply Z.mod_pos_bound; lia. Qed.
Lemma u64_range z : is_u64 (u64 z).
Proof. apply Z.mod_pos_bound; lia. Qed.

Lemma i8_id z : is_i8 z -> i8 z = z.
Proof. unfold is_i8, i8; intros; rewrite Z.mod_small; lia. Qed.
Lemma i16_id z : is_i16 z -> i16 z = z.
Proof. unfold is_i16, i16; intros; rewrite Z.mod_small; lia. Qed.
Lemma i32_id z : is_i32 z -> i32 z = z.
Proof. unfold is_i32, i32; intros; rewrite Z.mod_small; lia. Qed.
Lemma i64_id z : is_i64 z -> i64 z = z.
Proof. unfold is_i64, i64; intros; rewrite Z.mod_small; lia. Qed.
Lemma u8_id z : is_u8 z -> u8 z = z.
Proof. intros; apply Z.mod_small; auto. Qed.
Lemma u16_id z : is_u16 z -> u16 z = z.
Proof. intros; apply Z.mod_small; auto. Qed.
Lemma u32_id z : is_u32 z -> u32 z = z.
Proof. intros; apply Z.mod_small; auto. Qed.
Lemma u64_id z : is_u64 z -> u64 z = z.
Proof. intros; apply Z.mod_small; auto. Qed.

(** A wrap only depends on the residue. *)
Lemma swrap_eq m a b : 0 < m -> a mod m = b mod m -> forall h, (a + h) mod m = (b + h) mod m.
Proof.
  intros Hm H h. rewrite (Z.add_mod a), (Z.add_mod b), H by lia. reflexivity.
Qed.
Lemma i8_mod a b : a mod 2^8 = b mod 2^8 -> i8 a = i8 b.
Proof. intros H; unfold i8; rewrite (swrap_eq (2^8) a b); auto; lia. Qed.
Lemma i16_mod a b : a mod 2^16 = b mod 2^16 -> i16 a = i16 b.
Proof. intros H; unfold i16; rewrite (swrap_eq (2^16) a b); auto; lia. Qed.
Lemma i32_mod a b : a mod 2^32 = b mod 2^32 -> i32 a = i32 b.
Proof. intros H; unfold i32; rewrite (swrap_eq (2^32) a b); auto; lia. Qed.
Lemma i64_mod a b : a mod 2^64 = b mod 2^64 -> i64 a = i64 b.
Proof. intros H; unfold i64; rewrite (swrap_eq (2^64) a b); auto; lia. Qed.

Lemma swrap_mod m h z : 0 < m -> ((z + h) mod m - h) mod m = z mod m.
Proof.
  intros Hm. rewrite Zminus_mod, Z.mod_mod, <- Zminus_mod by lia.
  f_equal; lia.
Qed.
Lemma i8_mod_eq z : i8 z mod 2^8 = z mod 2^8.
Proof. apply swrap_mod; lia. Qed.
Lemma i16_mod_eq z : i16 z mod 2^16 = z mod 2^16.
Proof. apply swrap_mod; lia. Qed.
Lemma i32_mod_eq z : i32 z mod 2^32 = z mod 2^32.
Proof. apply swrap_mod; lia. Qed.
Lemma i64_mod_eq z : i64 z mod 2^64 = z mod 2^64.
Proof. apply swrap_mod; lia. Qed.

Lemma mod_mod_pow z a b : 0 <= a <= b -> (z mod 2^b) mod 2^a = z mod 2^a.
Proof.
  intros H.
  assert (Hd : (2^a | 2^b)).
  { exists (2^(b-a)). rewrite <- Z.pow_add_r by lia. f_equal; lia. }
  pose proof (Z.pow_pos_nonneg 2 a ltac:(lia) ltac:(lia)).
  pose proof (Z.pow_pos_nonneg 2 b ltac:(lia) ltac:(lia)).
  symmetry. apply Znumtheory.Zmod_div_mod; auto.
Qed.
