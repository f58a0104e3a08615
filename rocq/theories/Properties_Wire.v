(** Properties C05, C06, C11-C20, C22: messages, transports, codecs, nesting,
    faults, Reset, unknown types. *)
From Verif Require Import Base BaseLemmas Prog Bufio BufioProof BufioW BufioWProof GoBinary GoBinaryProof Wire WireProof
  Spec Clients Binary Compact CompactProof Layers RoundTrip EndToEnd Messages Fragment Codec Ideal Faults
  Objects ObjectsProof WireThms Properties_Values Loud.

(** ** C05 *)
(** A header written by either binary writer is read back unchanged by the
    non-strict reader, and a strict one by the strict reader too; the bytes are
    the published ones. *)
Theorem C05_message_round_trip wsize rsize strict_w strict_r s name t id :
  0 < wsize -> 8 <= rsize -> ok_sink s -> received s = [] ->
  is_u8 t -> is_i32 id -> zlen name < 2 ^ 31 -> (strict_r = true -> strict_w = true) ->
  exists b,
    run (over (bin_writer strict_w) (bufw_h wsize)) (call (WMessageBegin (mkMH name t id)) >>! call WFlush)
        (tt, new_bwriter s) = Done (tt, b) None /\
    received (wsink b) = (if strict_w then binary_message_strict name t id else binary_message_old name t id) /\
    forall src rest, good_source src -> src_bytes src = received (wsink b) ++ rest ->
      exists b', run (over (bin_reader strict_r) (bufio_h rsize)) (call RMessageBegin) (tt, new_breader src)
                 = Done (tt, b') (mkMH name t id, None) /\
        binv rsize b' /\ abs b' = mkStream rest (src_fin src).
Proof. exact (bin_message_trip wsize rsize strict_w strict_r s name t id). Qed.
Print Assumptions C05_message_round_trip.

(** The strict reader refuses every header of the old form. *)
Theorem C05_strict_rejects_old size name t id b rest :
  8 <= size -> binv size b -> zlen name < 2 ^ 31 ->
  sdata (abs b) = binary_message_old name t id ++ rest ->
  exists b', run (over (bin_reader true) (bufio_h size)) (call RMessageBegin) (tt, b)
             = Done (tt, b') (mkMH [] 0 0, Some EBinMissingVersion).
Proof. exact (bin_old_rejected size name t id b rest). Qed.
Print Assumptions C05_strict_rejects_old.

(** Both readers refuse a version word (high bit set) other than 0x8001. *)
Theorem C05_bad_version_rejected size strict b b0 b1 b2 b3 rest :
  8 <= size -> binv size b -> 128 <= b2z b0 -> ~ (b0 = x80 /\ b1 = x01) ->
  sdata (abs b) = [b0; b1; b2; b3] ++ rest ->
  exists b', run (over (bin_reader strict) (bufio_h size)) (call RMessageBegin) (tt, b)
             = Done (tt, b') (mkMH [] 0 0, Some (EBinBadVersion ((256 * b2z b0 + b2z b1) * 2 ^ 16))).
Proof. exact (bin_version_rejected size strict b b0 b1 b2 b3 rest). Qed.
Print Assumptions C05_bad_version_rejected.

Example C05_sample : is_u8 255 /\ is_i32 (-7) /\ zlen [x61; x62] < 2 ^ 31 /\
  binary_message_old [x61; x62] 255 (-7) = [x00; x00; x00; x02; x61; x62; xff; xff; xff; xff; xf9] /\
  good_source (drip (binary_message_strict [x61] 1 2)) /\ binv 8 (new_breader (drip [x80; x02; x00; x01])).
Proof.
  split; [unfold is_u8; lia|]. split; [unfold is_i32; lia|]. split; [vm_compute; reflexivity|].
  split; [vm_compute; reflexivity|]. split; [split; vm_compute; auto 50|].
  apply binv_new; [lia|]. split; vm_compute; auto 50.
Qed.

(** ** C06 *)
Theorem C06_message_round_trip wsize rsize s name t id :
  0 < wsize -> 10 <= rsize -> ok_sink s -> received s = [] ->
  is_u8 t -> is_i32 id -> zlen name < 2 ^ 63 ->
  exists b,
    run (over cmp_writer (bufw_h wsize)) (call (WMessageBegin (mkMH name t id)) >>! call WFlush)
        (cw0, new_bwriter s) = Done (cw0, b) None /\
    (0 <= id -> compact_message name t id (received (wsink b))) /\
    forall src rest st, good_source src -> src_bytes src = received (wsink b) ++ rest ->
      (src_fin src = FSilent -> 9 <= zlen rest) ->
      exists b', run (over cmp_reader (bufio_h rsize)) (call RMessageBegin) (st, new_breader src)
                 = Done (st, b') (mkMH name (t mod 8) id, None) /\
        binv rsize b' /\ abs b' = mkStream rest (src_fin src).
Proof. exact (cmp_message_trip wsize rsize s name t id). Qed.
Print Assumptions C06_message_round_trip.

(** A wrong protocol id or version is refused. *)
Theorem C06_bad_header_rejected size b b0 b1 rest st :
  0 < size -> binv size b -> sdata (abs b) = b0 :: b1 :: rest ->
  b0 <> x82 \/ b2z b1 mod 32 <> 1 ->
  exists b' e, run (over cmp_reader (bufio_h size)) (call RMessageBegin) (st, b)
             = Done (st, b') (mkMH [] 0 0, Some e) /\
    (b0 <> x82 -> e = ECmpBadProtocol (b2z b0)) /\
    (b0 = x82 -> e = ECmpBadVersion (b2z b1 mod 32)).
Proof. exact (cmp_message_rejected size b b0 b1 rest st). Qed.
Print Assumptions C06_bad_header_rejected.

(** Not part of C06, noted because it contradicts the published format: a
    negative id is sent as a 64-bit, not a 32-bit, varint. *)
Theorem C06_negative_id_layout :
  exists b st, run (over cmp_writer (bufw_h 4096)) (call (WMessageBegin (mkMH [] 1 (-1))) >>! call WFlush)
        (cw0, new_bwriter plain_sink) = Done (st, b) None /\
    ~ compact_message [] 1 (-1) (received (wsink b)).
Proof.
  eexists. eexists. split; [vm_compute; reflexivity|]. intros H. inversion H as [l m Hl Hm E].
  assert (l = put_uvarint (2 ^ 32 - 1))
    by (eapply uleb128_fun; [exact Hl|]; apply put_uvarint_spec; unfold is_u64; vm_compute; intuition discriminate).
  subst l. vm_compute in E. discriminate.
Qed.
Print Assumptions C06_negative_id_layout.

(** ** C11 *)
(** Any client, any two fragmentations of the same bytes with the same end, any
    two buffer sizes: same results, same protocol state, same bytes left. *)
Theorem C11_fragmentation_binary {A} strict size1 size2 (p : prog wireR A) src1 src2 :
  10 <= size1 -> 10 <= size2 -> good_source src1 -> good_source src2 ->
  src_bytes src1 = src_bytes src2 -> src_fin src1 = src_fin src2 ->
  alike (run (over (bin_reader strict) (bufio_h size1)) p (tt, new_breader src1))
        (run (over (bin_reader strict) (bufio_h size2)) p (tt, new_breader src2)).
Proof.
  exact (fun H1 H2 G1 G2 Eb Ef => bin_alike strict size1 size2 p _ _ H1 H2
    (binv_new size1 src1 ltac:(lia) G1) (binv_new size2 src2 ltac:(lia) G2)
    (f_equal2 mkStream Eb Ef)).
Qed.
Print Assumptions C11_fragmentation_binary.

Theorem C11_fragmentation_compact {A} size1 size2 (p : prog wireR A) st src1 src2 :
  10 <= size1 -> 10 <= size2 -> good_source src1 -> good_source src2 ->
  src_bytes src1 = src_bytes src2 -> src_fin src1 = src_fin src2 ->
  alike (run (over cmp_reader (bufio_h size1)) p (st, new_breader src1))
        (run (over cmp_reader (bufio_h size2)) p (st, new_breader src2)).
Proof.
  exact (fun H1 H2 G1 G2 Eb Ef => cmp_alike size1 size2 p st _ _ H1 H2
    (binv_new size1 src1 ltac:(lia) G1) (binv_new size2 src2 ltac:(lia) G2)
    (f_equal2 mkStream Eb Ef)).
Qed.
Print Assumptions C11_fragmentation_compact.

Example C11_sample :
  let d := binary_encoding sample ++ [x00] in
  good_source (mkSource [(d, Some EEOF)] (FErr EEOF)) /\ good_source (drip (binary_encoding sample)) /\
  src_bytes (mkSource [(d, Some EEOF)] (FErr EEOF)) = src_bytes (drip (binary_encoding sample)).
Proof. split; [split; vm_compute; auto|]. split; [apply drip_good|vm_compute; reflexivity]. Qed.

(** ** C12 *)
(** Binary: whatever follows the value, nothing and a silent peer included,
    reading, skipping and reading a message header complete. *)
Theorem C12_binary_never_waits strict size b v rest fuel :
  8 <= size -> binv size b -> wf (2 ^ 31) v -> (vsize v <= fuel)%nat ->
  abs b = mkStream (binary_encoding v ++ rest) FSilent ->
  (exists b', run (over (bin_reader strict) (bufio_h size)) (read_val fuel (val_type v)) (tt, b)
             = Done (tt, b') (inl v) /\ abs b' = mkStream rest FSilent) /\
  (exists b', run (over (bin_reader strict) (bufio_h size)) (skip fuel (val_type v)) (tt, b)
             = Done (tt, b') None /\ abs b' = mkStream rest FSilent).
Proof.
  intros Hs Hb Hv Hf Ha. split.
  - destruct (bin_read_back strict size b v rest fuel) as (b' & E & _ & E2); rewrite ?Ha; auto.
    exists b'. rewrite Ha in E2. auto.
  - destruct (bin_skip_back strict size b v rest fuel) as (b' & E & _ & E2); rewrite ?Ha; auto.
    exists b'. rewrite Ha in E2. auto.
Qed.
Print Assumptions C12_binary_never_waits.

Theorem C12_binary_message_never_waits strict strict' size b name t id rest :
  8 <= size -> binv size b -> is_u8 t -> is_i32 id -> zlen name < 2 ^ 31 -> (strict = true -> strict' = true) ->
  abs b = mkStream ((if strict' then binary_message_strict name t id else binary_message_old name t id) ++ rest) FSilent ->
  exists b', run (over (bin_reader strict) (bufio_h size)) (call RMessageBegin) (tt, b)
             = Done (tt, b') (mkMH name t id, None) /\ abs b' = mkStream rest FSilent.
Proof.
  intros Hs Hb Ht Hid Hn Hst Ha.
  destruct (bin_read_any size strict (call RMessageBegin) b (mkMH name t id, None) (mkStream rest FSilent))
    as (b' & E & _ & E2); try lia; auto.
  - rewrite Ha. now apply (bin_message_read size Hs strict strict').
  - exists b'. auto.
Qed.
Print Assumptions C12_binary_message_never_waits.

(** Compact: values without strings, and values followed by at least nine more
    bytes.  Missing: a string in the last nine bytes before the peer goes
    silent, where the property is false (next theorem). *)
Theorem C12_compact_never_waits_partial size b v l rest fuel st :
  10 <= size -> binv size b -> wf (2 ^ 63) v -> (vsize v <= fuel)%nat ->
  compact_encoding v l -> cr_bool st = BNone -> (has_string v -> 9 <= zlen rest) ->
  abs b = mkStream (l ++ rest) FSilent ->
  (exists b', run (over cmp_reader (bufio_h size)) (read_val fuel (val_type v)) (st, b)
             = Done (st, b') (inl (canon v)) /\ abs b' = mkStream rest FSilent) /\
  (exists b', run (over cmp_reader (bufio_h size)) (skip fuel (val_type v)) (st, b)
             = Done (st, b') None /\ abs b' = mkStream rest FSilent).
Proof.
  intros Hs Hb Hv Hf Hl Hbf Hstr Ha.
  destruct (cmp_silent size b v l rest fuel st Hs Hb Hv Hf (compact_enc_wrap v l _ Hv Hl) Hbf Hstr) as [R K];
    rewrite ?Ha in *; auto.
  destruct R as (b1 & E1 & _ & A1), K as (b2 & E2 & _ & A2). split; [exists b1|exists b2]; auto.
Qed.
Print Assumptions C12_compact_never_waits_partial.

(** The one-byte string "a" and then silence: the reader has all of it and
    waits for more (ReadUvarint peeks at ten bytes).  The same for skipping it
    and for a message header. *)
Theorem C12_compact_never_waits_refuted :
  compact_encoding (VString [x61]) [x01; x61] /\
  run (over cmp_reader (bufio_h 4096)) (read_val 10 11) (cr0, new_breader (mkSource [([x01; x61], None)] FSilent))
    = Crashed Blocked /\
  run (over cmp_reader (bufio_h 4096)) (skip 10 11) (cr0, new_breader (mkSource [([x01; x61], None)] FSilent))
    = Crashed Blocked /\
  compact_message [x61] 1 0 [x82; x21; x00; x01; x61] /\
  run (over cmp_reader (bufio_h 4096)) (call RMessageBegin)
      (cr0, new_breader (mkSource [([x82; x21; x00; x01; x61], None)] FSilent)) = Crashed Blocked.
Proof.
  split. { apply (ce_string _ [x61] [x01]). apply (uleb_last 1). lia. }
  split; [vm_compute; reflexivity|]. split; [vm_compute; reflexivity|]. split; [|vm_compute; reflexivity].
  apply (cmsg [x61] 1 0 [x00] [x01]); [apply (uleb_last 0)|apply (uleb_last 1)]; lia.
Qed.
Print Assumptions C12_compact_never_waits_refuted.

Example C12_sample :
  abs (new_breader (mkSource [(binary_encoding sample, None)] FSilent)) = mkStream (binary_encoding sample ++ []) FSilent /\
  good_source (mkSource [(binary_encoding sample, None)] FSilent) /\
  ~ has_string (VList 8 [VI32 5; VI32 6]) /\ has_string sample.
Proof.
  split; [vm_compute; reflexivity|]. split; [split; vm_compute; auto|]. cbn. tauto.
Qed.

(** ** C13 *)
(** [seen] hides how much of the stream happens to be buffered. *)
Theorem C13_read_uvarint_drop_in size b d e :
  10 <= size -> binv size b -> abs b = mkStream d (FErr e) ->
  seen (run (bufio_h size) tw_read_uvarint b) = seen (run (bufio_h size) read_uvarint b).
Proof. exact (drop_in_uvarint size b d e). Qed.
Print Assumptions C13_read_uvarint_drop_in.
Theorem C13_read_varint_drop_in size b d e :
  10 <= size -> binv size b -> abs b = mkStream d (FErr e) ->
  seen (run (bufio_h size) tw_read_varint b) = seen (run (bufio_h size) read_varint b).
Proof. exact (drop_in_varint size b d e). Qed.
Print Assumptions C13_read_varint_drop_in.

(** Outside the property's quantifier: on a stream that goes silent instead of
    ending they differ, which is what breaks C12. *)
Theorem C13_silent_differs :
  run (bufio_h 4096) tw_read_uvarint (new_breader (mkSource [([x05], None)] FSilent)) = Crashed Blocked /\
  exists b, run (bufio_h 4096) read_uvarint (new_breader (mkSource [([x05], None)] FSilent)) = Done b (5, None).
Proof. split; [vm_compute; reflexivity|]. eexists. vm_compute. reflexivity. Qed.
Print Assumptions C13_silent_differs.

(** ** C14 *)
Theorem C14_read_bytes_exact size b d fi n buf :
  0 < size -> binv size b -> abs b = mkStream d fi -> 0 <= n <= zlen d ->
  seen (run (bufio_h size) (read_bytes n buf) b)
  = Done (mkStream (skipn (Z.to_nat n) d) fi) (buf ++ firstn (Z.to_nat n) d, None).
Proof.
  intros Hs Hb Ha Hn. rewrite (bufio_read_bytes size n buf b d fi) by assumption. unfold bytes_spec.
  destruct (Z.ltb_spec n 0); [lia|]. destruct (Z.leb_spec n (zlen d)); [reflexivity|lia].
Qed.
Print Assumptions C14_read_bytes_exact.
Theorem C14_read_bytes_short size b d e n buf :
  0 < size -> binv size b -> abs b = mkStream d (FErr e) -> zlen d < n ->
  seen (run (bufio_h size) (read_bytes n buf) b)
  = Done (mkStream [] (FErr e))
      (buf ++ d, Some (match d, e with _ :: _, EEOF => EUnexpectedEOF | _, _ => e end)).
Proof.
  intros Hs Hb Ha Hn. rewrite (bufio_read_bytes size n buf b d (FErr e)) by assumption. unfold bytes_spec.
  pose proof (zlen_nonneg d). destruct (Z.ltb_spec n 0); [lia|]. destruct (Z.leb_spec n (zlen d)); [lia|].
  unfold short_err. destruct d as [|c r]; [destruct e; reflexivity|]. rewrite zlen_cons. pose proof (zlen_nonneg r).
  destruct (Z.ltb_spec 0 (1 + zlen r)); [|lia]. destruct e; reflexivity.
Qed.
Print Assumptions C14_read_bytes_short.
Theorem C14_read_bytes_negative size b d fi n buf :
  0 < size -> binv size b -> abs b = mkStream d fi -> n < 0 ->
  seen (run (bufio_h size) (read_bytes n buf) b) = Done (mkStream d fi) (buf, Some ENegativeCount).
Proof.
  intros Hs Hb Ha Hn. rewrite (bufio_read_bytes size n buf b d fi) by assumption. unfold bytes_spec.
  destruct (Z.ltb_spec n 0); [reflexivity|lia].
Qed.
Print Assumptions C14_read_bytes_negative.
(** ReadString is ReadBytes with an empty prefix. *)
Theorem C14_read_string size b d fi n :
  0 < size -> binv size b -> abs b = mkStream d fi ->
  seen (run (bufio_h size) (read_string n) b) = seen (run (bufio_h size) (read_bytes n []) b).
Proof.
  intros Hs Hb Ha. rewrite (bufio_read_bytes size n [] b d fi), (bufio_read_string size n b d fi); auto.
Qed.
Print Assumptions C14_read_string.

(** ** C15 *)
(** Every complete varint of at most ten bytes whose value fits in 64 bits,
    canonical or not, is read as that value; in particular what PutUvarint
    wrote is. *)
Theorem C15_uvarint_accepted size b l v rest e :
  10 <= size -> binv size b -> leb_value l v -> zlen l <= 10 -> v < 2 ^ 64 ->
  abs b = mkStream (l ++ rest) (FErr e) ->
  seen (run (bufio_h size) tw_read_uvarint b) = Done (mkStream rest (FErr e)) (v, None).
Proof. exact (uvarint_accepts size b l v rest e). Qed.
Print Assumptions C15_uvarint_accepted.
Theorem C15_uvarint_written v : is_u64 v ->
  uleb128 v (put_uvarint v) /\ leb_value (put_uvarint v) v /\ 1 <= zlen (put_uvarint v) <= 10.
Proof.
  exact (fun H => conj (put_uvarint_spec v H) (conj (uleb128_value v _ (put_uvarint_spec v H)) (put_uvarint_len v))).
Qed.
Print Assumptions C15_uvarint_written.
Theorem C15_varint_round_trip size b v rest e :
  10 <= size -> binv size b -> is_i64 v -> abs b = mkStream (put_varint v ++ rest) (FErr e) ->
  seen (run (bufio_h size) tw_read_varint b) = Done (mkStream rest (FErr e)) (v, None).
Proof. exact (varint_round_trip size b v rest e). Qed.
Print Assumptions C15_varint_round_trip.
Theorem C15_varint_written v : is_i64 v ->
  uleb128 (zigzag_spec v) (put_varint v) /\ 1 <= zlen (put_varint v) <= 10.
Proof. exact (put_varint_leb v). Qed.
Print Assumptions C15_varint_written.
(** Ten or more bytes none of whose beginnings (of at most ten bytes) is a
    varint fitting in 64 bits are rejected. *)
Theorem C15_overflow_rejected size b d e :
  10 <= size -> binv size b -> abs b = mkStream d (FErr e) -> 10 <= zlen d ->
  (forall l v rest, d = l ++ rest -> leb_value l v -> zlen l <= 10 -> 2 ^ 64 <= v) ->
  exists s x, seen (run (bufio_h size) tw_read_uvarint b) = Done s (x, Some EOverflow).
Proof. exact (uvarint_overflows size b d e). Qed.
Print Assumptions C15_overflow_rejected.
Example C15_sample : leb_value [x85; x80; x00] 5 /\ leb_value [xff; x01] 255 /\
  (forall l v rest, repeat xff 12 = l ++ rest -> leb_value l v -> zlen l <= 10 -> 2 ^ 64 <= v).
Proof.
  split; [exact (lv_more x85 _ _ ltac:(vm_compute; discriminate)
                  (lv_more x80 _ _ ltac:(vm_compute; discriminate) (lv_last x00 ltac:(vm_compute; reflexivity))))|].
  split; [exact (lv_more xff _ _ ltac:(vm_compute; discriminate) (lv_last x01 ltac:(vm_compute; reflexivity)))|].
  assert (K : forall l v, leb_value l v -> forall n rest, repeat xff n = l ++ rest -> False).
  { induction 1 as [c Hc|c l v Hc Hl IH]; intros [|n] rest E; cbn in E; try discriminate.
    - injection E as <- _. vm_compute in Hc. discriminate.
    - injection E as <- E. exact (IH n rest E). }
  intros l v rest E Hl. exfalso. exact (K l v Hl 12%nat rest E).
Qed.

(** ** C16 *)
Theorem C16_field_header_bound buf h b last : is_i16 (fh_id h) ->
  exists l, fst (append_field_header buf h b last) = buf ++ l /\ zlen l <= MaxFieldHeaderSize.
Proof. exact (append_field_header_bound buf h b last). Qed.
Print Assumptions C16_field_header_bound.
Theorem C16_map_header_bound buf h :
  exists l, fst (append_map_header buf h) = buf ++ l /\ zlen l <= MaxMapHeaderSize.
Proof. exact (append_map_header_bound buf h). Qed.
Print Assumptions C16_map_header_bound.
(** AppendListHeader is AppendSetHeader. *)
Theorem C16_set_list_header_bound buf h :
  exists l, fst (append_set_header buf h) = buf ++ l /\ zlen l <= MaxSetHeaderSize /\
    zlen l <= MaxListHeaderSize.
Proof. destruct (append_set_header_bound buf h) as (l & E & H). exact (ex_intro _ l (conj E (conj H H))). Qed.
Print Assumptions C16_set_list_header_bound.
(** The bounds are attained, but for maps, whose positive sizes need nine bytes. *)
Example C16_tight :
  zlen (fst (append_field_header [] (mkFH [] 8 (-32768)) false 0)) = MaxFieldHeaderSize /\
  zlen (fst (append_map_header [] (mkMapH 8 8 (2 ^ 63 - 1)))) = MaxMapHeaderSize - 1 /\
  zlen (fst (append_set_header [] (mkSetH 8 (-1)))) = MaxSetHeaderSize.
Proof. vm_compute. auto. Qed.

(** ** C17 *)
(** [read_field_head] is ReadFieldBegin and, for a bool field, ReadBool. *)
Theorem C17_field_header_decodes size buf nm t id v last st b rest :
  8 <= size -> binv size b -> In t value_types -> is_i16 id -> cr_bool st = BNone -> cr_last st = last ->
  exists l, append_field_header buf (mkFH nm t id) v last = (buf ++ l, None) /\
    (zlen l = 1 <-> 1 <= i16 (id - last) <= 15) /\
    (sdata (abs b) = l ++ rest ->
     exists b', run (over cmp_reader (bufio_h size)) read_field_head (st, b)
       = Done (mkCR (cr_ids st) id BNone, b')
           (mkFH [] t id, None, if t =? T_Bool then Some (v, None) else None) /\
       binv size b' /\ abs b' = mkStream rest (sfin (abs b))).
Proof. exact (field_head_decodes size buf nm t id v last st b rest). Qed.
Print Assumptions C17_field_header_decodes.
Example C17_sample : In 2 value_types /\ is_i16 (-32768) /\
  append_field_header [xaa] (mkFH [] 2 (-32768)) true 32767 = ([xaa; x11], None).
Proof. vm_compute. intuition discriminate. Qed.

(** ** C18 *)
(** After a complete nested struct (whatever calls it consists of, whether they
    succeed or not) the enclosing nesting and previous field id are back. *)
Theorem C18_nested_reads {B} (h : handler bufR B) l s s' : balanced_r l ->
  do_reads h (existT _ _ RStructBegin :: l ++ [existT _ _ RStructEnd]) s = Done s' tt ->
  cr_ids (fst s') = cr_ids (fst s) /\ cr_last (fst s') = cr_last (fst s).
Proof. exact (nested_reads h l s s'). Qed.
Print Assumptions C18_nested_reads.
Theorem C18_nested_writes {B} (h : handler bufW B) nm l s s' : balanced_w l ->
  do_writes h (existT _ _ (WStructBegin nm) :: l ++ [existT _ _ WStructEnd]) s = Done s' tt ->
  cw_ids (fst s') = cw_ids (fst s) /\ cw_last (fst s') = cw_last (fst s).
Proof. exact (nested_writes h nm l s s'). Qed.
Print Assumptions C18_nested_writes.
(** What that means for the user: the next field header is decoded relative to
    the id that was in force before the nested struct. *)
Theorem C18_next_field {size} l st b st' b' t id v rest : balanced_r l ->
  do_reads (bufio_h size) (existT _ _ RStructBegin :: l ++ [existT _ _ RStructEnd]) (st, b) = Done (st', b') tt ->
  8 <= size -> binv size b' -> In t value_types -> is_i16 id -> cr_bool st' = BNone ->
  exists hd, append_field_header [] (mkFH [] t id) v (cr_last st) = (hd, None) /\
    (sdata (abs b') = hd ++ rest ->
     exists st'' b'' x, run (over cmp_reader (bufio_h size)) read_field_head (st', b') = Done (st'', b'') x /\
       fst x = (mkFH [] t id, None) /\ abs b'' = mkStream rest (sfin (abs b'))).
Proof.
  intros Hl E Hs Hb Ht Hid Hbf. pose proof (proj2 (nested_reads _ l _ _ Hl E)) as Hlast. cbn [fst] in Hlast.
  destruct (field_head_decodes size [] [] t id v (cr_last st) st' b' rest Hs Hb Ht Hid Hbf Hlast) as (hd & E1 & _ & K).
  exists hd. split; [exact E1|]. intros Hd. destruct (K Hd) as (b'' & E2 & _ & E3).
  do 3 eexists. split; [exact E2|]. split; [reflexivity|exact E3].
Qed.
Print Assumptions C18_next_field.
(** StructEnd without StructBegin: an error, and nothing has changed. *)
Theorem C18_unmatched_read_end {B} (h : handler bufR B) st b : cr_ids st = [] ->
  over cmp_reader h _ RStructEnd (st, b) = Done (st, b) (Some EReadStructEnd).
Proof. exact (unmatched_read_end h st b). Qed.
Print Assumptions C18_unmatched_read_end.
Theorem C18_unmatched_write_end {B} (h : handler bufW B) st b : cw_ids st = [] ->
  over cmp_writer h _ WStructEnd (st, b) = Done (st, b) (Some EWriteStructEnd).
Proof. exact (unmatched_write_end h st b). Qed.
Print Assumptions C18_unmatched_write_end.
Example C18_sample :
  balanced_r [existT _ _ RFieldBegin; existT _ _ RStructBegin; existT _ _ RFieldBegin; existT _ _ RStructEnd;
              existT _ _ RFieldBegin].
Proof.
  apply br_other; [cbn; tauto|].
  apply (br_nest [existT _ _ RFieldBegin] [existT _ _ RFieldBegin]); apply br_other; try (cbn; tauto); apply br_nil.
Qed.

(** ** C19 *)
(** The yardstick is the same protocol writer over an ideal transport
    (Ideal.v).  Whatever calls are made and however the io.Writer misbehaves,
    the calls return and the io.Writer has received a prefix of the ideal
    bytes. *)
Theorem C19_prefix_binary size s strict l : 0 < size ->
  exists st b xs st' i ys,
    do_calls (over (bin_writer strict) (bufw_h size)) l (tt, new_bwriter s) = Done (st, b) xs /\
    do_calls (over (bin_writer strict) ideal_h) l (tt, ideal_of s) = Done (st', i) ys /\
    exists rest, received (wsink b) ++ rest = received s ++ i_bytes i.
Proof. exact (fun H => faults_prefix size H s (bin_writer strict) (bin_writer_cf strict) tt l). Qed.
Print Assumptions C19_prefix_binary.
Theorem C19_prefix_compact size s l st0 : 0 < size ->
  exists st b xs st' i ys,
    do_calls (over cmp_writer (bufw_h size)) l (st0, new_bwriter s) = Done (st, b) xs /\
    do_calls (over cmp_writer ideal_h) l (st0, ideal_of s) = Done (st', i) ys /\
    exists rest, received (wsink b) ++ rest = received s ++ i_bytes i.
Proof. exact (fun H => faults_prefix size H s cmp_writer cmp_writer_cf st0 l). Qed.
Print Assumptions C19_prefix_compact.

(** If, after any calls, Flush returns nil then every call so far returned what
    it ideally returns, the io.Writer has received exactly the ideal bytes, and
    an underlying Flusher was flushed last. *)
Theorem C19_flush_delivers_binary size s strict l st b xs st' b' : 0 < size ->
  do_calls (over (bin_writer strict) (bufw_h size)) l (tt, new_bwriter s) = Done (st, b) xs ->
  over (bin_writer strict) (bufw_h size) _ WFlush (st, b) = Done (st', b') None ->
  exists i, do_calls (over (bin_writer strict) ideal_h) l (tt, ideal_of s) = Done (st, i) xs /\
    received (wsink b') = received s ++ i_bytes i /\
    (s_flusher s = true -> exists log, s_log (wsink b') = log ++ [SFlush]).
Proof. exact (fun H => bin_flush_delivers size H s strict l st b xs st' b'). Qed.
Print Assumptions C19_flush_delivers_binary.
(** For compact the last part holds of writers that still know their io.Writer:
    those of NewWriter ([cw_uw cw0 = true]) but not those after Reset, see
    C20_compact_writer_reset_refuted. *)
Theorem C19_flush_delivers_compact size s l st0 st b xs st' b' : 0 < size ->
  do_calls (over cmp_writer (bufw_h size)) l (st0, new_bwriter s) = Done (st, b) xs ->
  over cmp_writer (bufw_h size) _ WFlush (st, b) = Done (st', b') None ->
  exists i, do_calls (over cmp_writer ideal_h) l (st0, ideal_of s) = Done (st, i) xs /\
    received (wsink b') = received s ++ i_bytes i /\
    (cw_uw st0 = true -> s_flusher s = true -> exists log, s_log (wsink b') = log ++ [SFlush]).
Proof. exact (fun H => cmp_flush_delivers size H s l st0 st b xs st' b'). Qed.
Print Assumptions C19_flush_delivers_compact.

(** Once the results differ from the ideal ones (a transport error has been
    reported) nothing changes any more ([b] stays) and every later call that
    ideally emits a byte, and every Flush, returns an error. *)
Theorem C19_error_sticks_binary size s strict l st b xs st' i ys : 0 < size ->
  do_calls (over (bin_writer strict) (bufw_h size)) l (tt, new_bwriter s) = Done (st, b) xs ->
  do_calls (over (bin_writer strict) ideal_h) l (tt, ideal_of s) = Done (st', i) ys ->
  xs <> ys ->
  forall X (e : wireW X), exists st1 x, over (bin_writer strict) (bufw_h size) X e (st, b) = Done (st1, b) x /\
    (errW e x <> None \/
     wc e <> wc WFlush /\
     forall i st2 i2 y, over (bin_writer strict) ideal_h X e (st, i) = Done (st2, i2) y -> i_bytes i2 = i_bytes i).
Proof. exact (fun H => bin_fault_sticky size H s strict l st b xs st' i ys). Qed.
Print Assumptions C19_error_sticks_binary.
Theorem C19_error_sticks_compact size s l st0 st b xs st' i ys : 0 < size ->
  do_calls (over cmp_writer (bufw_h size)) l (st0, new_bwriter s) = Done (st, b) xs ->
  do_calls (over cmp_writer ideal_h) l (st0, ideal_of s) = Done (st', i) ys ->
  xs <> ys ->
  forall X (e : wireW X), exists st1 x, over cmp_writer (bufw_h size) X e (st, b) = Done (st1, b) x /\
    (errW e x <> None \/
     wc e <> wc WFlush /\
     forall i st2 i2 y, over cmp_writer ideal_h X e (st, i) = Done (st2, i2) y -> i_bytes i2 = i_bytes i).
Proof. exact (fun H => cmp_fault_sticky size H s l st0 st b xs st' i ys). Qed.
Print Assumptions C19_error_sticks_compact.

(** The call during which a Write of the io.Writer fails for the first time is
    the one that reports an error: [writes_ok s (wsink b)] says that no Write
    has failed up to [b] (Loud.v). *)
Theorem C19_failing_call_reports_binary size s strict l st b xs X (e : wireW X) st' b' x :
  do_calls (over (bin_writer strict) (bufw_h size)) l (tt, new_bwriter s) = Done (st, b) xs ->
  over (bin_writer strict) (bufw_h size) X e (st, b) = Done (st', b') x ->
  writes_ok s (wsink b) -> ~ writes_ok s (wsink b') -> errW e x <> None.
Proof.
  exact (fault_reported (bin_writer strict) size s (bin_loud strict)
    (fun b er He X e st => match bin_reports size b er He strict X e st with
       ex_intro _ st' (ex_intro _ x (conj H _)) => ex_intro _ st' (ex_intro _ x H) end)
    l tt st b xs X e st' b' x).
Qed.
Print Assumptions C19_failing_call_reports_binary.
Theorem C19_failing_call_reports_compact size s l st0 st b xs X (e : wireW X) st' b' x :
  do_calls (over cmp_writer (bufw_h size)) l (st0, new_bwriter s) = Done (st, b) xs ->
  over cmp_writer (bufw_h size) X e (st, b) = Done (st', b') x ->
  writes_ok s (wsink b) -> ~ writes_ok s (wsink b') -> errW e x <> None.
Proof.
  exact (fault_reported cmp_writer size s cmp_loud
    (fun b er He X e st => match cmp_reports size b er He X e st with
       ex_intro _ st' (ex_intro _ x (conj H _)) => ex_intro _ st' (ex_intro _ x H) end)
    l st0 st b xs X e st' b' x).
Qed.
Print Assumptions C19_failing_call_reports_compact.
(** A 9-byte string through an 8-byte buffer over an io.Writer that fails at
    once: no Write has failed before the call, one has after it. *)
Example C19_failing_call_sample :
  let s := mkSink [Some (3, EIO 7)] false [] false [] in
  exists b', over (bin_writer true) (bufw_h 8) _ (WString (repeat x61 9)) (tt, new_bwriter s)
      = Done (tt, b') (Some (EIO 7)) /\
    writes_ok s (wsink (new_bwriter s)) /\ ~ writes_ok s (wsink b').
Proof.
  eexists. split; [vm_compute; reflexivity|]. split; [apply writes_ok_refl|].
  intros ([|k] & H1 & H2); cbn in H1, H2; [discriminate|]. inversion H2; subst. discriminate.
Qed.

(** Three strings through a 16-byte buffer over an io.Writer that fails after
    20 bytes: the third call reports it. *)
Example C19_sample :
  let s := mkSink [None; Some (4, EIO 7)] true [] false [] in
  let l := [wc (WString (repeat x61 9)); wc (WString (repeat x62 9)); wc (WString (repeat x63 9)); wc WFlush] in
  exists b i, do_calls (over (bin_writer true) (bufw_h 16)) l (tt, new_bwriter s)
      = Done (tt, b) [None; None; Some (EIO 7); Some (EIO 7)] /\
    zlen (received (wsink b)) = 20 /\
    do_calls (over (bin_writer true) ideal_h) l (tt, ideal_of s) = Done (tt, i) [None; None; None; None].
Proof. do 2 eexists. split; [vm_compute; reflexivity|]. split; vm_compute; reflexivity. Qed.

(** ** C20 *)
(** Whatever program [p] was run on an object, after Reset on io.Writer [j] any
    program [q] has the same results and the same effect on all io.Writers as
    on a new object. *)
Theorem C20_binary_writer_reset size strict {A B} (p : prog wireW A) (q : prog wireW B) i j w o w1 x :
  run (wobj_h size binw_layer) p (bin_new_writer strict i, w) = Done (o, w1) x ->
  run (wobj_h size binw_layer) q (bin_reset_writer j o, w1)
  = run (wobj_h size binw_layer) q (bin_new_writer strict j, w1).
Proof. exact (bin_writer_reset_ok size strict p q i j w o w1 x). Qed.
Print Assumptions C20_binary_writer_reset.
Theorem C20_binary_reader_reset size strict {A B} (p : prog wireR A) (q : prog wireR B) i j w o w1 x :
  run (robj_h size binr_layer) p (bin_new_reader strict i, w) = Done (o, w1) x ->
  run (robj_h size binr_layer) q (bin_reset_reader j o, w1)
  = run (robj_h size binr_layer) q (bin_new_reader strict j, w1).
Proof. exact (bin_reader_reset_ok size strict p q i j w o w1 x). Qed.
Print Assumptions C20_binary_reader_reset.
Theorem C20_compact_reader_reset size {A B} (p : prog wireR A) (q : prog wireR B) i j w o w1 x :
  run (robj_h size cmp_reader) p (cmp_new_reader i, w) = Done (o, w1) x ->
  run (robj_h size cmp_reader) q (cmp_reset_reader j o, w1)
  = run (robj_h size cmp_reader) q (cmp_new_reader j, w1).
Proof. exact (fun _ => f_equal (fun o => run (robj_h size cmp_reader) q (o, w1)) (cmp_reset_reader_new j o)). Qed.
Print Assumptions C20_compact_reader_reset.
(** The compact writer, if the new io.Writer is not a Flusher.  Missing:
    Flushers, for which it is false (next theorem). *)
Theorem C20_compact_writer_reset_partial size {A B} (p : prog wireW A) (q : prog wireW B) i j w o w1 x :
  run (wobj_h size cmp_writer) p (cmp_new_writer i, w) = Done (o, w1) x ->
  s_flusher (w1 j) = false ->
  match run (wobj_h size cmp_writer) q (cmp_new_writer j, w1) with
  | Done (_, w2) y => exists o2, run (wobj_h size cmp_writer) q (cmp_reset_writer j o, w1) = Done (o2, w2) y
  | Crashed c => run (wobj_h size cmp_writer) q (cmp_reset_writer j o, w1) = Crashed c
  end.
Proof. exact (fun _ => cmp_writer_reset_ok size q j w1 o). Qed.
Print Assumptions C20_compact_writer_reset_partial.
(** Flush after Reset on a Flusher returns nil without flushing it. *)
Theorem C20_compact_writer_reset_refuted :
  exists o o2 w2 o3 w3,
    let w := fun _ : nat => plain_sink in
    o = cmp_reset_writer 0 (cmp_new_writer 0) /\
    run (wobj_h 4096 cmp_writer) (call (WByte x61) >>! call WFlush) (o, w) = Done (o2, w2) None /\
    s_log (w2 0%nat) = [SWrite [x61]] /\
    run (wobj_h 4096 cmp_writer) (call (WByte x61) >>! call WFlush) (cmp_new_writer 0, w) = Done (o3, w3) None /\
    s_log (w3 0%nat) = [SWrite [x61]; SFlush].
Proof. do 5 eexists. split; [reflexivity|]. vm_compute. auto. Qed.
Print Assumptions C20_compact_writer_reset_refuted.

(** New objects are the readers and writers all other theorems are about, on
    the io.Writer they were given. *)
Theorem C20_objects_are_layers {St A} size (L : layer wireW bufW St) (p : prog wireW A) i st b w :
  w i = wsink b ->
  match run (over L (bufw_h size)) p (st, b) with
  | Done (st', b') x => exists w',
      run (wobj_h size L) p (attached i st b, w) = Done (attached i st' b', w') x /\
      w' i = wsink b' /\ forall j, j <> i -> w' j = w j
  | Crashed c => run (wobj_h size L) p (attached i st b, w) = Crashed c
  end.
Proof. exact (wobj_run size L p i st b w). Qed.
Print Assumptions C20_objects_are_layers.
Example C20_attached i strict s : bin_new_writer strict i = attached i strict (new_bwriter s) /\
  cmp_new_writer i = attached i cw0 (new_bwriter s).
Proof. split; reflexivity. Qed.
(** A history with an error and a half-written struct. *)
Example C20_sample :
  exists o w1 x, run (wobj_h 16 cmp_writer)
    (_ <- call (WStructBegin []) ;; _ <- call (WFieldBegin (mkFH [] 11 4)) ;; call (WString (repeat x61 40)))
    (cmp_new_writer 0, fun _ => mkSink [Some (3, EIO 1)] true [] false []) = Done (o, w1) (Some x).
Proof. do 3 eexists. vm_compute. reflexivity. Qed.

(** ** C22 *)
(** [announces t c]: the writer call [c] announces a value of type [t].  If
    [t] is not a value type the compact writer refuses it and emits nothing. *)
Theorem C22_writer_refuses t c size s st : ~ In t value_types -> announces t c ->
  0 < size -> ok_sink s ->
  exists b, run (over cmp_writer (bufw_h size)) (x <- call c ;; e <- call WFlush ;; Ret (x, e)) (st, new_bwriter s)
              = Done (st, b) (Some (EInvalidType t), None) /\ received (wsink b) = received s.
Proof. exact (cmp_writer_refuses t c size s st). Qed.
Print Assumptions C22_writer_refuses.
(** Type nibbles 14 and 15 are refused in every kind of header. *)
Theorem C22_reader_refuses size b c rest st :
  0 < size -> binv size b -> sdata (abs b) = c :: rest -> 14 <= b2z c mod 16 ->
  (exists b' h, run (over cmp_reader (bufio_h size)) (call RFieldBegin) (st, b)
              = Done (st, b') (h, Some (EInvalidCompactType (b2z c mod 16)))) /\
  (exists b' h, run (over cmp_reader (bufio_h size)) (call RSetBegin) (st, b)
              = Done (st, b') (h, Some (EInvalidCompactType (b2z c mod 16)))) /\
  (exists b' h, run (over cmp_reader (bufio_h size)) (call RListBegin) (st, b)
              = Done (st, b') (h, Some (EInvalidCompactType (b2z c mod 16)))).
Proof. exact (cmp_reader_refuses size b c rest st). Qed.
Print Assumptions C22_reader_refuses.
Theorem C22_reader_refuses_map size b n h c rest st :
  0 < size -> binv size b -> uleb128 n h -> 0 < n < 2 ^ 63 -> sdata (abs b) = h ++ c :: rest ->
  14 <= b2z c / 16 \/ 14 <= b2z c mod 16 ->
  exists b' x e, run (over cmp_reader (bufio_h size)) (call RMapBegin) (st, b) = Done (st, b') (x, Some e).
Proof. exact (cmp_reader_refuses_map size b n h c rest st). Qed.
Print Assumptions C22_reader_refuses_map.
(** Skip refuses every other type number, consuming nothing, whatever the
    Reader is. *)
Theorem C22_skip_refuses {S} (h : handler wireR S) fuel t s : ~ In t value_types ->
  run h (skip (Datatypes.S fuel) t) s = Done s (Some (EInvalidType t)).
Proof. exact (skip_bad h fuel t s). Qed.
Print Assumptions C22_skip_refuses.
(** An empty map may have any types. *)
Theorem C22_empty_map_accepted k v size s st : 0 < size -> ok_sink s ->
  exists b, run (over cmp_writer (bufw_h size)) (call (WMapBegin (mkMapH k v 0)) >>! call WFlush) (st, new_bwriter s)
              = Done (st, b) None /\ received (wsink b) = received s ++ [x00].
Proof. exact (fun Hs Hok => cmp_write_any size s st st (call (WMapBegin (mkMapH k v 0))) [x00] Hs Hok eq_refl). Qed.
Print Assumptions C22_empty_map_accepted.
(** But a set or list header of size zero with element type Stop, documented as
    allowed (encoding/thriftwire/types.go), is refused. *)
Theorem C22_empty_set_accepted_refuted :
  exists b1 b2,
    run (over cmp_writer (bufw_h 4096)) (call (WSetBegin (mkSetH T_Stop 0))) (cw0, new_bwriter plain_sink)
      = Done (cw0, b1) (Some (EInvalidType T_Stop)) /\
    run (over cmp_writer (bufw_h 4096)) (call (WListBegin (mkSetH T_Stop 0))) (cw0, new_bwriter plain_sink)
      = Done (cw0, b2) (Some (EInvalidType T_Stop)).
Proof. do 2 eexists. split; vm_compute; reflexivity. Qed.
Print Assumptions C22_empty_set_accepted_refuted.
Example C22_sample : ~ In 9 value_types /\ announces 9 (WListBegin (mkSetH 9 5)) /\ 14 <= b2z x1e mod 16.
Proof. split; [cbn; lia|]. split; [constructor|vm_compute; discriminate]. Qed.
