(** End-to-end statements: buffered writer, transport, buffered reader. *)
From Verif Require Import Base BaseLemmas Prog Bufio BufioProof BufioW BufioWProof GoBinary GoBinaryProof
  Wire WireProof Spec Clients Reads Binary BinaryProof Compact CompactProof Layers RoundTrip.

Lemma abs_new src : abs (new_breader src) = mkStream (src_bytes src) (src_fin src).
Proof. reflexivity. Qed.

Theorem bin_round_trip sw sr wsize rsize s v :
  0 < wsize -> 8 <= rsize -> ok_sink s -> received s = [] -> wf (2 ^ 31) v ->
  exists b,
    run (over (bin_writer sw) (bufw_h wsize)) (write_val v >>! call WFlush) (tt, new_bwriter s)
      = Done (tt, b) None /\
    forall src rest fuel, good_source src -> src_bytes src = received (wsink b) ++ rest ->
      (vsize v <= fuel)%nat ->
      exists b',
        run (over (bin_reader sr) (bufio_h rsize)) (read_val fuel (val_type v)) (tt, new_breader src)
          = Done (tt, b') (inl v) /\
        binv rsize b' /\ abs b' = mkStream rest (src_fin src).
Proof.
  intros Hw Hr Hs He Hv.
  destruct (bin_write_flush wsize Hw sw s v Hs) as (b & E & R). exists b. split; [exact E|].
  intros src rest fuel Hg Hb Hf. rewrite He in R. cbn [app] in R. rewrite R in Hb.
  destruct (bin_read_back sr rsize (new_breader src) v rest fuel) as (b' & E' & H1 & H2); auto.
  - apply binv_new; [lia|auto].
  - exists b'. auto.
Qed.

Theorem cmp_write_wrap size s v st :
  0 < size -> ok_sink s -> wf (2 ^ 63) v -> fh_type (cw_bool st) = T_Stop ->
  exists b st', run (over cmp_writer (bufw_h size)) (write_val v >>! call WFlush)
              (st, new_bwriter s) = Done (st', b) None /\
    cw_ids st' = cw_ids st /\ cw_last st' = cw_last st /\ fh_type (cw_bool st') = T_Stop /\
    exists l, compact_enc wrap_field v l /\ received (wsink b) = received s ++ l.
Proof.
  intros Hp Hs Hv Hb.
  apply (cmp_write_flush size Hp wrap_field (fun _ _ => True)); auto using steps_true.
  intros. now apply field_hdr_wrap.
Qed.

Theorem cmp_round_trip wsize rsize s v :
  0 < wsize -> 10 <= rsize -> ok_sink s -> received s = [] -> wf (2 ^ 63) v ->
  exists b cw,
    run (over cmp_writer (bufw_h wsize)) (write_val v >>! call WFlush) (cw0, new_bwriter s)
      = Done (cw, b) None /\
    forall src rest fuel e cr, good_source src -> src_bytes src = received (wsink b) ++ rest ->
      src_fin src = FErr e -> (vsize v <= fuel)%nat -> cr_bool cr = BNone ->
      exists b',
        run (over cmp_reader (bufio_h rsize)) (read_val fuel (val_type v)) (cr, new_breader src)
          = Done (cr, b') (inl (canon v)) /\
        binv rsize b' /\ abs b' = mkStream rest (src_fin src).
Proof.
  intros Hw Hr Hs He Hv.
  destruct (cmp_write_wrap wsize s v cw0 Hw Hs Hv eq_refl) as (b & cw & E & _ & _ & _ & l & Hl & R).
  exists b, cw. split; [exact E|].
  intros src rest fuel e cr Hg Hb Hf Hfu Hbl. rewrite He in R. cbn [app] in R. rewrite R in Hb.
  destruct (cmp_read_back rsize (new_breader src) v l rest fuel cr e) as (b' & E' & H1 & H2); auto.
  - apply binv_new; [lia|auto].
  - rewrite abs_new, Hb, Hf. reflexivity.
  - exists b'. rewrite Hf. auto.
Qed.

Theorem cmp_skip_written wsize rsize s v :
  0 < wsize -> 10 <= rsize -> ok_sink s -> received s = [] -> wf (2 ^ 63) v ->
  exists b cw,
    run (over cmp_writer (bufw_h wsize)) (write_val v >>! call WFlush) (cw0, new_bwriter s)
      = Done (cw, b) None /\
    forall src rest fuel e cr, good_source src -> src_bytes src = received (wsink b) ++ rest ->
      src_fin src = FErr e -> (vsize v <= fuel)%nat -> cr_bool cr = BNone ->
      exists b',
        run (over cmp_reader (bufio_h rsize)) (skip fuel (val_type v)) (cr, new_breader src)
          = Done (cr, b') None /\
        binv rsize b' /\ abs b' = mkStream rest (src_fin src).
Proof.
  intros Hw Hr Hs He Hv.
  destruct (cmp_write_wrap wsize s v cw0 Hw Hs Hv eq_refl) as (b & cw & E & _ & _ & _ & l & Hl & R).
  exists b, cw. split; [exact E|].
  intros src rest fuel e cr Hg Hb Hf Hfu Hbl. rewrite He in R. cbn [app] in R. rewrite R in Hb.
  destruct (cmp_skip_back rsize (new_breader src) v l rest fuel cr e) as (b' & E' & H1 & H2); auto.
  - apply binv_new; [lia|auto].
  - rewrite abs_new, Hb, Hf. reflexivity.
  - exists b'. rewrite Hf. auto.
Qed.

(** Conformance of the compact writer away from wrapped field ids. *)
Theorem cmp_conforms size s v st :
  0 < size -> ok_sink s -> wf (2 ^ 63) v -> steps no_wrap v -> fh_type (cw_bool st) = T_Stop ->
  exists b st', run (over cmp_writer (bufw_h size)) (write_val v >>! call WFlush)
              (st, new_bwriter s) = Done (st', b) None /\
    exists l, compact_encoding v l /\ received (wsink b) = received s ++ l.
Proof.
  intros Hp Hs Hv Hst Hb.
  destruct (cmp_write_flush size Hp compact_field no_wrap s v st) as (b & st' & E & _ & _ & _ & H); auto.
  - intros. now apply field_hdr_spec.
  - exists b, st'. auto.
Qed.

(** A field id that follows 32767 and wraps: the writer uses the one-byte form
    although the ids differ by far more than 15. *)
Definition wrap_witness : tval :=
  VStruct [(32767, VByte x07); (-32768, VByte x08)].

Lemma uleb128_inv z l : uleb128 z l -> forall m, uleb128 z m -> l = m.
Proof. intros. eapply uleb128_fun; eauto. Qed.

Lemma cmp_wrap_refuted :
  wf (2 ^ 63) wrap_witness /\
  exists b st, run (over cmp_writer (bufw_h 4096)) (write_val wrap_witness >>! call WFlush)
              (cw0, new_bwriter (mkSink [] false [] false [])) = Done (st, b) None /\
    ~ compact_encoding wrap_witness (received (wsink b)).
Proof.
  split. { cbn. unfold is_i16. repeat split; lia. }
  eexists. eexists. split; [vm_compute; reflexivity|].
  cbn [received wsink s_log map ev_bytes concat app].
  intros H. inversion H; subst; clear H.
  match goal with H : compact_fields _ _ _ _ |- _ => inversion H; subst; clear H end.
  match goal with H : compact_field _ _ _ _ |- _ => inversion H; subst; clear H end; [lia|].
  match goal with H : uleb128 _ ?l |- _ =>
    apply (uleb128_put_varint 32767) in H; [|unfold is_i64; lia]; vm_compute in H; subst l end.
  match goal with H : compact_field_value _ _ _ |- _ => inversion H; subst; clear H end.
  match goal with H : compact_enc _ _ _ |- _ => inversion H; subst; clear H end.
  match goal with H : _ = _ |- _ => cbn [app] in H; injection H as ? end; subst.
  match goal with H : compact_fields _ _ _ _ |- _ => inversion H; subst; clear H end.
  match goal with H : compact_field _ _ _ _ |- _ => inversion H; subst; clear H end; [lia|].
  match goal with H : _ = _ |- _ => cbn [app] in H; discriminate H end.
Qed.

Theorem compact_encoding_unambiguous v w l m r1 r2 :
  wf (2 ^ 63) v -> wf (2 ^ 63) w -> val_type v = val_type w ->
  compact_encoding v l -> compact_encoding w m ->
  l ++ r1 = m ++ r2 -> canon v = canon w /\ r1 = r2.
Proof.
  intros Hv Hw Ht Hl Hm. apply compact_unambiguous; eauto using compact_enc_wrap.
Qed.
