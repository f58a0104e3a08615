(** Properties C01-C04, C07, C21: writing, reading, skipping whole values. *)
From Verif Require Import Base Prog Bufio BufioProof BufioW BufioWProof Wire Spec Clients
  Binary Compact CompactProof RoundTrip EndToEnd Choices.

(** A value with every kind of node, used to show that hypotheses can be met. *)
Definition sample : tval :=
  VStruct [(1, VBool true); (-5, VMap 11 15 [(VString [x61], VList 8 [VI32 (-1); VI32 70000])]);
           (300, VSet 16 [VUUID (repeat xff 16)]); (301, VStruct [(2, VDouble 1); (3, VMap 3 3 [])]);
           (302, VI64 (-9)); (303, VI16 12); (304, VByte xfe); (305, VList 2 [VBool false])].

Definition plain_sink : sink := mkSink [] true [] false [].
(** One byte per Read, empty reads in between, the final error with the last byte. *)
Definition drip (l : list byte) : source :=
  mkSource (flat_map (fun b => [([], None); ([b], None)]) l ++ [([x00], Some EEOF)]) (FErr EEOF).

Example sample_wf : wf (2 ^ 31) sample /\ wf (2 ^ 63) sample.
Proof. cbn; unfold is_i16, is_i32, is_i64, is_u64, is_u8; intuition lia. Qed.
Example sample_steps : steps no_wrap sample.
Proof. cbn; unfold no_wrap; intuition lia. Qed.
Example plain_sink_ok : ok_sink plain_sink /\ received plain_sink = [].
Proof. repeat constructor. Qed.
Example drip_good : good_source (drip (binary_encoding sample)) /\
  src_bytes (drip (binary_encoding sample)) = binary_encoding sample ++ [x00].
Proof. split; [|vm_compute; reflexivity]. split; vm_compute; auto 500. Qed.

(** C01.  Whatever value is written through a fresh binary writer (strict or
    not) with a buffer of any size over a working io.Writer, no call fails and
    after Flush the io.Writer has received exactly the value's encoding.  Each
    string may be written with WriteString or with WriteBytes. *)
Theorem C01_binary_writer_conforms strict size s v p :
  0 < size -> ok_sink s -> with_bytes_w (write_val v) p ->
  exists b,
    run (over (bin_writer strict) (bufw_h size)) (p >>! call WFlush) (tt, new_bwriter s)
      = Done (tt, b) None /\
    received (wsink b) = received s ++ binary_encoding v.
Proof. exact (bin_write_any size strict s v p). Qed.
Print Assumptions C01_binary_writer_conforms.
Example C01_sample : binary_encoding sample <> [].
Proof. discriminate. Qed.
(** Both extremes of the choice: WriteString everywhere, WriteBytes everywhere
    (and the two differ on [sample], which contains a string). *)
Example C01_choices : with_bytes_w (write_val sample) (write_val sample) /\
  with_bytes_w (write_val sample) (all_bytes_w (write_val sample)) /\
  with_bytes_r (read_val 99 12) (read_val 99 12) /\
  with_bytes_r (read_val 99 12) (all_bytes_r (read_val 99 12)).
Proof. auto using with_bytes_w_refl, with_bytes_r_refl, with_all_bytes_w, with_all_bytes_r. Qed.
Example C01_choices_differ : all_bytes_w (write_val (VString [x61])) = call (WBytes [x61]).
Proof. reflexivity. Qed.

(** C02.  What the binary writer wrote, delivered by any transport in any
    fragmentation and followed by any other bytes [rest] (and by any kind of
    end, even silence), is read back as the value written; exactly [rest]
    remains.  Each string may be read with ReadString or ReadBytes. *)
Theorem C02_binary_round_trip strict_w strict_r wsize rsize s v p :
  0 < wsize -> 8 <= rsize -> ok_sink s -> received s = [] -> wf (2 ^ 31) v ->
  with_bytes_w (write_val v) p ->
  exists b,
    run (over (bin_writer strict_w) (bufw_h wsize)) (p >>! call WFlush) (tt, new_bwriter s)
      = Done (tt, b) None /\
    forall src rest fuel q, good_source src -> src_bytes src = received (wsink b) ++ rest ->
      (vsize v <= fuel)%nat -> with_bytes_r (read_val fuel (val_type v)) q ->
      exists b',
        run (over (bin_reader strict_r) (bufio_h rsize)) q (tt, new_breader src)
          = Done (tt, b') (inl v) /\
        binv rsize b' /\ abs b' = mkStream rest (src_fin src).
Proof. exact (bin_round_trip_any strict_w strict_r wsize rsize s v p). Qed.
Print Assumptions C02_binary_round_trip.

(** C03.  As C01 for the compact writer, provided that no field id follows
    another one from which it differs by -65521 or less (such ids exist only at
    the two ends of the int16 range). Missing from the full property: those
    ids, for which it is false (next theorem). *)
Theorem C03_compact_writer_conforms_partial size s v p :
  0 < size -> ok_sink s -> wf (2 ^ 63) v -> steps no_wrap v -> with_bytes_w (write_val v) p ->
  exists b st,
    run (over cmp_writer (bufw_h size)) (p >>! call WFlush) (cw0, new_bwriter s)
      = Done (st, b) None /\
    exists l, compact_encoding v l /\ received (wsink b) = received s ++ l.
Proof.
  exact (fun Hp Hs Hv Hst => cmp_write_any compact_field no_wrap size s v cw0 p
    (fun last id t => field_hdr_spec last id t) Hp Hs Hv Hst eq_refl).
Qed.
Print Assumptions C03_compact_writer_conforms_partial.

(** Field -32768 after field 32767: the int16 subtraction wraps to 1 and the
    one-byte form is used. *)
Theorem C03_compact_writer_conforms_refuted :
  exists v, wf (2 ^ 63) v /\
  exists b st,
    run (over cmp_writer (bufw_h 4096)) (write_val v >>! call WFlush)
        (cw0, new_bwriter (mkSink [] false [] false [])) = Done (st, b) None /\
    ~ compact_encoding v (received (wsink b)).
Proof. exact (ex_intro _ wrap_witness cmp_wrap_refuted). Qed.
Print Assumptions C03_compact_writer_conforms_refuted.

(** C04.  As C02 for the compact protocol, for every value, wrapping ids
    included; an empty map comes back with types 0; the reader's nesting state
    is unchanged.  The transport must end with an error (e.g. io.EOF) rather
    than stay silent: see C12. *)
Theorem C04_compact_round_trip wsize rsize s v p :
  0 < wsize -> 10 <= rsize -> ok_sink s -> received s = [] -> wf (2 ^ 63) v ->
  with_bytes_w (write_val v) p ->
  exists b cw,
    run (over cmp_writer (bufw_h wsize)) (p >>! call WFlush) (cw0, new_bwriter s)
      = Done (cw, b) None /\
    forall src rest fuel e cr q, good_source src -> src_bytes src = received (wsink b) ++ rest ->
      src_fin src = FErr e -> (vsize v <= fuel)%nat -> cr_bool cr = BNone ->
      with_bytes_r (read_val fuel (val_type v)) q ->
      exists b',
        run (over cmp_reader (bufio_h rsize)) q (cr, new_breader src)
          = Done (cr, b') (inl (canon v)) /\
        binv rsize b' /\ abs b' = mkStream rest (src_fin src).
Proof. exact (cmp_round_trip_any wsize rsize s v p). Qed.
Print Assumptions C04_compact_round_trip.

(** C07.  Skip on an encoding consumes exactly that encoding, from any state of
    the buffered reader. *)
Theorem C07_skip_binary strict size b v rest fuel :
  8 <= size -> binv size b -> wf (2 ^ 31) v -> (vsize v <= fuel)%nat ->
  sdata (abs b) = binary_encoding v ++ rest ->
  exists b',
    run (over (bin_reader strict) (bufio_h size)) (skip fuel (val_type v)) (tt, b)
      = Done (tt, b') None /\
    binv size b' /\ abs b' = mkStream rest (sfin (abs b)).
Proof. exact (bin_skip_back strict size b v rest fuel). Qed.
Print Assumptions C07_skip_binary.

Theorem C07_skip_compact size b v l rest fuel st e :
  10 <= size -> binv size b -> wf (2 ^ 63) v -> (vsize v <= fuel)%nat ->
  compact_encoding v l -> cr_bool st = BNone ->
  abs b = mkStream (l ++ rest) (FErr e) ->
  exists b',
    run (over cmp_reader (bufio_h size)) (skip fuel (val_type v)) (st, b) = Done (st, b') None /\
    binv size b' /\ abs b' = mkStream rest (FErr e).
Proof.
  exact (fun Hs Hb Hv Hf Hl Hst Ha =>
    cmp_skip_back size b v l rest fuel st e Hs Hb Hv Hf (compact_enc_wrap v l _ Hv Hl) Hst Ha).
Qed.
Print Assumptions C07_skip_compact.

(** The same for whatever the compact writer emits, wrapping ids included. *)
Theorem C07_skip_compact_written wsize rsize s v :
  0 < wsize -> 10 <= rsize -> ok_sink s -> received s = [] -> wf (2 ^ 63) v ->
  exists b cw,
    run (over cmp_writer (bufw_h wsize)) (write_val v >>! call WFlush) (cw0, new_bwriter s)
      = Done (cw, b) None /\
    forall src rest fuel e cr, good_source src -> src_bytes src = received (wsink b) ++ rest ->
      src_fin src = FErr e -> (vsize v <= fuel)%nat -> cr_bool cr = BNone ->
      exists b',
        run (over cmp_reader (bufio_h rsize)) (skip fuel (val_type v)) (cr, new_breader src)
          = Done (cr, b') None /\
        binv rsize b' /\ abs b' = mkStream rest (src_fin src).
Proof. exact (cmp_skip_written wsize rsize s v). Qed.
Print Assumptions C07_skip_compact_written.

Example C07_sample :
  exists b, binv 4096 b /\ sdata (abs b) = binary_encoding sample ++ [x00] /\ bbuf b <> [].
Proof.
  exists (mkB (firstn 7 (binary_encoding sample)) None (drip (skipn 7 (binary_encoding sample)))).
  split; [|split; [vm_compute; reflexivity|discriminate]].
  split; [split; vm_compute; auto 500|]. split; [vm_compute; discriminate|discriminate].
Qed.

(** C21.  No encoding is a prefix of another one of the same type. *)
Theorem C21_binary_unambiguous v w r1 r2 :
  wf (2 ^ 31) v -> wf (2 ^ 31) w -> val_type v = val_type w ->
  binary_encoding v ++ r1 = binary_encoding w ++ r2 -> v = w /\ r1 = r2.
Proof. exact (binary_unambiguous v w r1 r2). Qed.
Print Assumptions C21_binary_unambiguous.

Theorem C21_compact_unambiguous v w l m r1 r2 :
  wf (2 ^ 63) v -> wf (2 ^ 63) w -> val_type v = val_type w ->
  compact_encoding v l -> compact_encoding w m ->
  l ++ r1 = m ++ r2 -> canon v = canon w /\ r1 = r2.
Proof. exact (compact_encoding_unambiguous v w l m r1 r2). Qed.
Print Assumptions C21_compact_unambiguous.
