(** Message headers of both protocols. *)
From Verif Require Import Base BaseLemmas Prog Bufio BufioProof BufioW BufioWProof GoBinary GoBinaryProof
  Wire WireProof Spec Clients Reads Binary BinaryProof Compact CompactProof Layers RoundTrip EndToEnd.

(** ** Programs over working transports *)
Theorem bin_write_any size strict s (p : prog wireW (option err)) m : 0 < size -> ok_sink s ->
  run (over (bin_writer strict) mem_h) p (tt, received s) = Done (tt, received s ++ m) None ->
  exists b, run (over (bin_writer strict) (bufw_h size)) (p >>! call WFlush) (tt, new_bwriter s)
              = Done (tt, b) None /\ received (wsink b) = received s ++ m.
Proof.
  intros Hp Hs E. rewrite run_and_then.
  pose proof (layer_refines_mem size Hp (bin_writer strict) p tt
                (new_bwriter s) (received s) (wok_new size Hp s Hs)) as H.
  rewrite E in H.
  destruct (run (over (bin_writer strict) (bufw_h size)) p (tt, new_bwriter s))
    as [[[] b] x|c]; [|contradiction].
  destruct H as (_ & -> & Hw). cbn [obind].
  destruct (bin_flush_ok size Hp strict b _ Hw) as (b' & E' & Hr & _). exists b'. auto.
Qed.

Theorem cmp_write_any size s st st' (p : prog wireW (option err)) m : 0 < size -> ok_sink s ->
  run (over cmp_writer mem_h) p (st, received s) = Done (st', received s ++ m) None ->
  exists b, run (over cmp_writer (bufw_h size)) (p >>! call WFlush) (st, new_bwriter s)
              = Done (st', b) None /\ received (wsink b) = received s ++ m.
Proof.
  intros Hp Hs E. rewrite run_and_then.
  pose proof (layer_refines_mem size Hp cmp_writer p st
                (new_bwriter s) (received s) (wok_new size Hp s Hs)) as H.
  rewrite E in H.
  destruct (run (over cmp_writer (bufw_h size)) p (st, new_bwriter s)) as [[st1 b] x|c]; [|contradiction].
  destruct H as (-> & -> & Hw). cbn [obind].
  destruct (cmp_flush_ok size Hp st' b _ Hw) as (b' & E' & Hr & _). exists b'. auto.
Qed.

Theorem bin_read_any size strict {A} (p : prog wireR A) b a rest : 0 < size -> binv size b ->
  run (over (bin_reader strict) (stream_h size)) p (tt, abs b) = Done (tt, rest) a ->
  exists b', run (over (bin_reader strict) (bufio_h size)) p (tt, b) = Done (tt, b') a /\
    binv size b' /\ abs b' = rest.
Proof.
  intros Hs Hb E. pose proof (layer_refines size (bin_reader strict) p tt b Hs Hb (bin_reader_fok strict)) as H.
  rewrite E in H. unfold refines_l in H.
  destruct (run (over (bin_reader strict) (bufio_h size)) p (tt, b)) as [[[] b'] x|c]; [|contradiction].
  destruct H as (_ & -> & H1 & H2). exists b'. auto.
Qed.

Theorem cmp_read_any size {A} (p : prog wireR A) st st' b a rest : 0 < size -> binv size b ->
  run (over cmp_reader (stream_h size)) p (st, abs b) = Done (st', rest) a ->
  exists b', run (over cmp_reader (bufio_h size)) p (st, b) = Done (st', b') a /\
    binv size b' /\ abs b' = rest.
Proof.
  intros Hs Hb E. pose proof (layer_refines size cmp_reader p st b Hs Hb
    (fun X e s => cmp_reader_fok _ X e s tw_read_uvarint_fok)) as H.
  rewrite E in H. unfold refines_l in H.
  destruct (run (over cmp_reader (bufio_h size)) p (st, b)) as [[st1 b'] x|c]; [|contradiction].
  destruct H as (-> & -> & H1 & H2). exists b'. auto.
Qed.

(** ** Binary *)
Definition bin_message (strict : bool) (name : list byte) (mtype id : Z) : list byte :=
  if strict then binary_message_strict name mtype id else binary_message_old name mtype id.

Lemma be4_version t : is_u8 t ->
  be_bytes 4 (u32 (i32 (Z.lor t bin_version1))) = [x80; x01; x00; z2b t].
Proof.
  intros Ht. rewrite be4_i32.
  assert (E : Z.lor t bin_version1 = t + 0x80010000).
  { change bin_version1 with (Z.shiftl 0x800100 8). rewrite lor_disjoint; unfold is_u8 in Ht; lia. }
  rewrite E. cbn [big_endian app]. unfold is_u8 in Ht.
  repeat match goal with |- _ :: _ = _ :: _ => f_equal end; try reflexivity.
  - change x80 with (z2b 0x80). apply z2b_eq. lia.
  - change x01 with (z2b 0x01). apply z2b_eq. lia.
  - change x00 with (z2b 0x00). apply z2b_eq. lia.
  - apply z2b_eq. lia.
Qed.

Lemma bin_message_written strict name t id m : is_u8 t ->
  run (over (bin_writer strict) mem_h) (call (WMessageBegin (mkMH name t id))) (tt, m)
  = Done (tt, m ++ bin_message strict name t id) None.
Proof.
  intros Ht. rewrite run_call, bin_w_step. cbn [bin_write]. unfold bin_write_message_begin, bin_message.
  destruct strict; cbn [mh_type mh_name mh_id].
  - unfold bin_write_string, bin_write_size, bin_write_i32. rewrite be4_version by exact Ht.
    rewrite !run_and_then, !run_call. cbn [mem_h obind]. rewrite !run_and_then, !run_call.
    cbn [mem_h obind]. rewrite !run_call. cbn [mem_h obind]. rewrite !run_call. cbn [mem_h obind].
    unfold binary_message_strict. rewrite be4_i32, be4, <- !app_assoc. reflexivity.
  - unfold bin_write_string, bin_write_size, bin_write_i32, bin_write_type.
    rewrite !run_and_then, !run_call. cbn [mem_h obind]. rewrite !run_call. cbn [mem_h obind].
    rewrite !run_and_then, !run_call. cbn [mem_h obind]. rewrite !run_call. cbn [mem_h obind].
    unfold binary_message_old. rewrite be4_i32, be4, <- !app_assoc. reflexivity.
Qed.

Section BinRead.
Variables (size : Z) (Hsize : 8 <= size).

Lemma be_value4 b0 b1 b2 b3 : be_value [b0; b1; b2; b3]
  = b2z b3 + 256 * (b2z b2 + 256 * (b2z b1 + 256 * b2z b0)).
Proof. unfold be_value. cbn [rev app le_value]. lia. Qed.

Lemma read_i32_raw b0 b1 b2 b3 rest fi :
  run (stream_h size) bin_read_i32 (mkStream ([b0; b1; b2; b3] ++ rest) fi)
  = Done (mkStream rest fi) (i32 (be_value [b0; b1; b2; b3]), None).
Proof.
  unfold bin_read_i32. rewrite run_bind, next_ok; [reflexivity|lia|].
  rewrite zlen_app. change (zlen [b0; b1; b2; b3]) with 4. pose proof (zlen_nonneg rest). lia.
Qed.

Lemma bin_message_read strict strict' name t id rest fi :
  is_u8 t -> is_i32 id -> zlen name < 2 ^ 31 -> (strict = true -> strict' = true) ->
  run (over (bin_reader strict) (stream_h size)) (call RMessageBegin)
    (tt, mkStream (bin_message strict' name t id ++ rest) fi)
  = Done (tt, mkStream rest fi) (mkMH name t id, None).
Proof.
  intros Ht Hid Hn Hst. rewrite run_call, bin_r_step. cbn [bin_read].
  unfold bin_read_message_begin, bin_read_size. pose proof (zlen_nonneg name).
  assert (Hlen : is_i32 (zlen name)) by (unfold is_i32; lia).
  destruct strict'; unfold bin_message.
  - unfold binary_message_strict. rewrite <- !app_assoc. rewrite run_bind, read_i32_raw. cbn [obind].
    rewrite be_value4. change (b2z x80) with 128. change (b2z x01) with 1. change (b2z x00) with 0.
    rewrite b2z_z2b. replace (t mod 256) with t by (unfold is_u8 in Ht; lia).
    replace (t + 256 * (0 + 256 * (1 + 256 * 128))) with (t + 0x80010000) by lia.
    assert (E : i32 (t + 0x80010000) = t - 0x7fff0000) by (unfold i32, is_u8 in *; lia).
    rewrite E. unfold is_u8 in Ht. destruct (Z.ltb_spec (t - 0x7fff0000) 0); [|lia].
    assert (E2 : Z.land (t - 0x7fff0000) versionMask = bin_version1).
    { replace (t - 0x7fff0000) with (t + (-32767) * 2 ^ 16) by lia.
      rewrite <- lor_disjoint by lia. rewrite Z.land_lor_distr_l.
      assert (E3 : Z.land t versionMask = 0).
      { change versionMask with (Z.shiftl 0xffff 16). apply land_disjoint; lia. }
      rewrite E3. reflexivity. }
    rewrite E2. cbn [negb]. rewrite Z.eqb_refl. cbn [negb].
    replace (u8 (t - 0x7fff0000)) with t by (unfold u8; lia).
    unfold bin_read_string, bin_read_size.
    rewrite !run_bind, read_i32_ok by auto. cbn [obind].
    rewrite read_string_spec, bytes_spec_app by (auto; lia). cbn [obind app].
    rewrite run_bind, read_i32_ok by auto. reflexivity.
  - assert (strict = false) as -> by (destruct strict; auto; discriminate Hst; reflexivity).
    unfold binary_message_old. rewrite <- !app_assoc.
    rewrite run_bind, read_i32_ok by auto. cbn [obind].
    destruct (Z.ltb_spec (zlen name) 0); [lia|].
    rewrite run_bind, read_string_spec, bytes_spec_app by (auto; lia). cbn [obind app].
    rewrite run_bind, read_type_ok by auto. cbn [obind].
    rewrite run_bind, read_i32_ok by auto. reflexivity.
Qed.

(** The strict reader refuses every header that starts without the version bit. *)
Lemma bin_message_strict_rejects b0 b1 b2 b3 rest fi : b2z b0 < 128 ->
  run (over (bin_reader true) (stream_h size)) (call RMessageBegin)
    (tt, mkStream ([b0; b1; b2; b3] ++ rest) fi)
  = Done (tt, mkStream rest fi) (mh0, Some EBinMissingVersion).
Proof.
  intros H0. rewrite run_call, bin_r_step. cbn [bin_read].
  unfold bin_read_message_begin, bin_read_size. rewrite run_bind, read_i32_raw, be_value4. cbn [obind].
  pose proof (b2z_range b0); pose proof (b2z_range b1); pose proof (b2z_range b2); pose proof (b2z_range b3).
  match goal with |- context [i32 ?v] => replace (i32 v) with v by (unfold i32; lia) end.
  match goal with |- context [?v <? 0] => destruct (Z.ltb_spec v 0); [lia|] end. reflexivity.
Qed.

Lemma bin_message_version_rejects strict b0 b1 b2 b3 rest fi :
  128 <= b2z b0 -> ~ (b0 = x80 /\ b1 = x01) ->
  run (over (bin_reader strict) (stream_h size)) (call RMessageBegin)
    (tt, mkStream ([b0; b1; b2; b3] ++ rest) fi)
  = Done (tt, mkStream rest fi)
      (mh0, Some (EBinBadVersion ((256 * b2z b0 + b2z b1) * 2 ^ 16))).
Proof.
  intros H0 Hv. rewrite run_call, bin_r_step. cbn [bin_read].
  unfold bin_read_message_begin, bin_read_size. rewrite run_bind, read_i32_raw, be_value4. cbn [obind].
  pose proof (b2z_range b0); pose proof (b2z_range b1); pose proof (b2z_range b2); pose proof (b2z_range b3).
  match goal with |- context [i32 ?v] => set (u := v);
    assert (E : i32 u = u - 2 ^ 32) by (unfold i32, u; lia) end.
  rewrite E. destruct (Z.ltb_spec (u - 2 ^ 32) 0); [|unfold u in *; lia].
  assert (E2 : Z.land (u - 2 ^ 32) versionMask = (256 * b2z b0 + b2z b1) * 2 ^ 16).
  { replace (u - 2 ^ 32) with ((b2z b3 + 256 * b2z b2) + (256 * b2z b0 + b2z b1 - 2 ^ 16) * 2 ^ 16) by (unfold u; lia).
    rewrite <- lor_disjoint by lia. rewrite Z.land_lor_distr_l.
    assert (E3 : Z.land (b2z b3 + 256 * b2z b2) versionMask = 0).
    { change versionMask with (Z.shiftl 0xffff 16). apply land_disjoint; lia. }
    rewrite E3, Z.lor_0_l. change versionMask with (Z.shiftl (Z.ones 16) 16).
    rewrite <- Z.shiftl_land, Z.land_ones, Z.shiftl_mul_pow2 by lia. f_equal. lia. }
  rewrite E2.
  destruct (Z.eqb_spec ((256 * b2z b0 + b2z b1) * 2 ^ 16) bin_version1) as [Hq|Hq]; [|reflexivity].
  exfalso. apply Hv. unfold bin_version1 in Hq.
  assert (b2z b0 = b2z x80 /\ b2z b1 = b2z x01) as [A B] by (change (b2z x80) with 128; change (b2z x01) with 1; lia).
  split; now apply b2z_inj.
Qed.
End BinRead.

(** ** Compact *)
Definition cmp_message (name : list byte) (mtype id : Z) : list byte :=
  [x82; z2b (1 + 32 * mtype)] ++ put_uvarint (u64 id) ++ put_uvarint (u64 (zlen name)) ++ name.

Lemma cmp_message_written name t id st m :
  run (over cmp_writer mem_h) (call (WMessageBegin (mkMH name t id))) (st, m)
  = Done (st, m ++ cmp_message name t id) None.
Proof.
  rewrite run_call. unfold over. cbn [fst snd cmp_writer]. unfold liftw, cmp_write_message_begin.
  cbn [mh_type mh_id mh_name]. unfold cmp_write_string, cmp_write_size, cmp_write_uvarint.
  rewrite run_bind. rewrite !run_and_then, !run_call. cbn [mem_h obind].
  rewrite !run_and_then, !run_call. cbn [mem_h obind].
  rewrite !run_and_then, !run_call. cbn [mem_h obind].
  rewrite !run_and_then, !run_call. cbn [mem_h obind]. rewrite !run_call. cbn [mem_h obind run].
  unfold cmp_message. rewrite <- !app_assoc. cbn [app]. 
  assert (E : z2b (Z.lor cmp_version1 (Z.shiftl t 5)) = z2b (1 + 32 * t)).
  { rewrite lor_disjoint by (unfold cmp_version1; lia). f_equal. unfold cmp_version1. lia. }
  rewrite E. reflexivity.
Qed.

Section CmpRead.
Variables (size : Z) (Hsize : 10 <= size).

Lemma cmp_message_read name t id rest fi st :
  is_u8 t -> is_i32 id -> zlen name < 2 ^ 63 ->
  (fi = FSilent -> 9 <= zlen rest) ->
  run (over cmp_reader (stream_h size)) (call RMessageBegin)
    (st, mkStream (cmp_message name t id ++ rest) fi)
  = Done (st, mkStream rest fi) (mkMH name (t mod 8) id, None).
Proof.
  intros Ht Hid Hn Hfi. pose proof (zlen_nonneg name). unfold is_u8 in Ht.
  rewrite run_call. unfold over. cbn [fst snd]. unfold cmp_reader, cmp_reader_gen, lift.
  rewrite run_bind. unfold cmp_read_message_begin, cmp_message. rewrite <- !app_assoc. cbn [app].
  rewrite run_vis. cbn [stream_h sdata sfin obind].
  change (b2z x82 =? protocolID) with true. cbn [negb].
  rewrite run_vis. cbn [stream_h sdata sfin obind].
  rewrite b2z_z2b.
  assert (E : Z.land ((1 + 32 * t) mod 256) 31 = 1).
  { change 31 with (Z.ones 5). rewrite Z.land_ones by lia. lia. }
  rewrite E. change (1 =? cmp_version1) with true. cbn [negb].
  assert (E2 : Z.shiftr ((1 + 32 * t) mod 256) 5 = t mod 8).
  { rewrite Z.shiftr_div_pow2 by lia. lia. }
  rewrite E2.
  assert (Hu : is_u64 (u64 id)) by (unfold is_u64, u64; lia).
  pose proof (put_uvarint_len (u64 id)). pose proof (put_uvarint_len (u64 (zlen name))).
  rewrite run_bind, tw_read_uvarint_drop_in_gen, read_uvarint_ok
    by (auto; try lia; intros Hs; specialize (Hfi Hs); rewrite !zlen_app; lia). cbn [obind].
  unfold cmp_read_string, cmp_read_size.
  assert (Hu2 : is_u64 (u64 (zlen name))) by (unfold is_u64, u64; lia).
  rewrite !run_bind, tw_read_uvarint_drop_in_gen, read_uvarint_ok
    by (auto; try lia; intros Hs; specialize (Hfi Hs); rewrite !zlen_app; lia). cbn [obind run].
  replace (i64 (u64 (zlen name))) with (zlen name) by (unfold i64, u64; lia).
  rewrite read_string_spec, bytes_spec_app by (auto; lia). cbn [obind app run].
  replace (i32 (u64 id)) with id by (unfold i32, u64, is_i32 in *; lia). reflexivity.
Qed.

Lemma cmp_message_protocol_rejects b0 rest fi st : b0 <> x82 ->
  run (over cmp_reader (stream_h size)) (call RMessageBegin) (st, mkStream (b0 :: rest) fi)
  = Done (st, mkStream rest fi) (mh0, Some (ECmpBadProtocol (b2z b0))).
Proof.
  intros H0. rewrite run_call. unfold over. cbn [fst snd]. unfold cmp_reader, cmp_reader_gen, lift.
  rewrite run_bind. unfold cmp_read_message_begin.
  rewrite run_vis. cbn [stream_h sdata sfin obind].
  destruct (Z.eqb_spec (b2z b0) protocolID) as [E|E]; [|reflexivity].
  exfalso. apply H0. apply b2z_inj. exact E.
Qed.

Lemma cmp_message_version_rejects b1 rest fi st : b2z b1 mod 32 <> 1 ->
  run (over cmp_reader (stream_h size)) (call RMessageBegin) (st, mkStream (x82 :: b1 :: rest) fi)
  = Done (st, mkStream rest fi) (mh0, Some (ECmpBadVersion (b2z b1 mod 32))).
Proof.
  intros H0. rewrite run_call. unfold over. cbn [fst snd]. unfold cmp_reader, cmp_reader_gen, lift.
  rewrite run_bind. unfold cmp_read_message_begin.
  rewrite run_vis. cbn [stream_h sdata sfin obind]. change (b2z x82 =? protocolID) with true. cbn [negb].
  rewrite run_vis. cbn [stream_h sdata sfin obind].
  change 31 with (Z.ones 5). rewrite Z.land_ones by lia. change (2 ^ 5) with 32.
  destruct (Z.eqb_spec (b2z b1 mod 32) cmp_version1) as [E|E]; [contradiction|reflexivity].
Qed.

(** With a non-negative id and a three-bit type the header is the published one. *)
Lemma cmp_message_conforms name t id : 0 <= id < 2 ^ 31 -> zlen name < 2 ^ 63 ->
  compact_message name t id (cmp_message name t id).
Proof.
  intros Hid Hn. pose proof (zlen_nonneg name). unfold cmp_message.
  replace (u64 id) with (id mod 2 ^ 32) by (unfold u64; lia).
  replace (u64 (zlen name)) with (zlen name) by (unfold u64; lia).
  constructor; apply put_uvarint_spec; unfold is_u64; lia.
Qed.
End CmpRead.
