(** Property C71: what the header of a map, a set, a list or a message on the
    wire means. *)
From Verif Require Import Base BaseLemmas Prog GoBinary GoBinaryProof Bufio BufioProof BufioW Wire WireProof Spec Clients
  Binary BinaryProof Compact CompactProof Layers RoundTrip Codec Messages EndToEnd Properties_Values Properties_Headers.

(** The type numbers in the header of a compact collection, and the types they
    stand for.  Unlike in a field header, both 1 and 2 say no more than bool;
    0 is the type Stop, and not an error. *)
Definition compact_element_types : list (Z * Z) := (0, 0) :: compact_field_types.
Ltac elements H := cbn [In compact_element_types compact_field_types] in H;
  repeat match type of H with _ \/ _ => destruct H as [H|H] end; try contradiction; injection H as <- <-.

Lemma element_wire n ty : In (n, ty) compact_element_types -> compact_wire n = (ty, None).
Proof. intros H. elements H; reflexivity. Qed.
Lemma element_range n ty : In (n, ty) compact_element_types -> 0 <= n <= 13.
Proof. intros H. elements H; lia. Qed.
Lemma element_unknown n : 14 <= n -> exists e, compact_wire n = (T_Stop, Some e).
Proof.
  intros H. unfold compact_wire. destruct n as [|p|p]; try lia. do 4 (destruct p as [p|p|]; try lia; try (eexists; reflexivity)).
Qed.

(** ** From the stream to bufio *)
Lemma bin_event strict size b X (c : wireR X) s x : 0 < size -> binv size b ->
  run (stream_h size) (bin_read strict c) (abs b) = Done s x ->
  exists b', over (bin_reader strict) (bufio_h size) _ c (tt, b) = Done (tt, b') x /\ binv size b' /\ abs b' = s.
Proof.
  intros Hs Hb R. pose proof (layer_refines size (bin_reader strict) (call c) tt b Hs Hb (bin_reader_fok strict)) as H.
  rewrite !run_call in H.
  assert (O : over (bin_reader strict) (stream_h size) _ c (tt, abs b) = Done (tt, s) x).
  { unfold over, bin_reader. cbn [fst snd]. rewrite run_bind, R. reflexivity. }
  rewrite O in H.
  destruct (over (bin_reader strict) (bufio_h size) _ c (tt, b)) as [[[] b'] y|k]; [|contradiction].
  destruct H as (_ & -> & H1 & H2). eauto.
Qed.
Lemma cmp_event size b st X (c : wireR X) s st' x : 0 < size -> binv size b ->
  run (stream_h size) (cmp_reader _ c st) (abs b) = Done s (st', x) ->
  exists b', over cmp_reader (bufio_h size) _ c (st, b) = Done (st', b') x /\ binv size b' /\ abs b' = s.
Proof.
  intros Hs Hb R. pose proof (layer_refines size cmp_reader (call c) st b Hs Hb
                (fun X e s => cmp_reader_fok _ X e s tw_read_uvarint_fok)) as H.
  rewrite !run_call in H. unfold over at 2 in H. cbn [fst snd] in H. rewrite R in H. cbn [unpair fst snd] in H.
  destruct (over cmp_reader (bufio_h size) _ c (st, b)) as [[st2 b'] y|k]; [|contradiction].
  destruct H as (-> & -> & H1 & H2). eauto.
Qed.

(** ** Binary *)
(** Two bytes that are taken as the types, whatever they are, and four that are
    taken as a signed size: it may be negative. *)
Theorem C71_binary_map strict size b k v n rest : 8 <= size -> binv size b -> is_i32 n ->
  sdata (abs b) = k :: v :: big_endian 4 n ++ rest ->
  exists b', over (bin_reader strict) (bufio_h size) _ RMapBegin (tt, b) = Done (tt, b') (mkMapH (b2z k) (b2z v) n, None) /\
    binv size b' /\ abs b' = mkStream rest (sfin (abs b)).
Proof.
  intros Hs Hb Hn Hd. apply bin_event; [lia|exact Hb|]. destruct (abs b) as [d fi]. cbn [sdata] in Hd. subst d.
  cbn [bin_read]. unfold bin_read_map_begin, bin_read_type, bin_read_size. rewrite !run_bind. cbn [run call stream_h obind sdata sfin].
  rewrite !run_bind. cbn [run call stream_h obind sdata sfin]. rewrite run_bind, read_i32_ok by (try assumption; lia). reflexivity.
Qed.
Print Assumptions C71_binary_map.
Theorem C71_binary_set_list strict size b c t n rest : 8 <= size -> binv size b -> is_i32 n -> c = RSetBegin \/ c = RListBegin ->
  sdata (abs b) = t :: big_endian 4 n ++ rest ->
  exists b', over (bin_reader strict) (bufio_h size) _ c (tt, b) = Done (tt, b') (mkSetH (b2z t) n, None) /\
    binv size b' /\ abs b' = mkStream rest (sfin (abs b)).
Proof.
  intros Hs Hb Hn Hc Hd. apply bin_event; [lia|exact Hb|]. destruct (abs b) as [d fi]. cbn [sdata] in Hd. subst d.
  assert (E : bin_read strict c = bin_read_set_begin) by (destruct Hc; subst; reflexivity). rewrite E.
  unfold bin_read_set_begin, bin_read_type, bin_read_size. rewrite !run_bind. cbn [run call stream_h obind sdata sfin].
  rewrite run_bind, read_i32_ok by (try assumption; lia). reflexivity.
Qed.
Print Assumptions C71_binary_set_list.

(** A message header of the new form: the bytes 0x80 and 0x01, one that is not
    looked at, and the message type; then the name and the sequence ID. *)
Theorem C71_binary_message strict size b x t name id rest : 8 <= size -> binv size b -> zlen name < 2 ^ 31 -> is_i32 id ->
  sdata (abs b) = [x80; x01; x; t] ++ big_endian 4 (zlen name) ++ name ++ big_endian 4 id ++ rest ->
  exists b', over (bin_reader strict) (bufio_h size) _ RMessageBegin (tt, b) = Done (tt, b') (mkMH name (b2z t) id, None) /\
    binv size b' /\ abs b' = mkStream rest (sfin (abs b)).
Proof.
  intros Hs Hb Hn Hi Hd. apply bin_event; [lia|exact Hb|]. destruct (abs b) as [d fi]. cbn [sdata] in Hd. subst d.
  pose proof (zlen_nonneg name) as N0. pose proof (b2z_range x) as Rx. pose proof (b2z_range t) as Rt.
  cbn [bin_read sfin]. unfold bin_read_message_begin.
  unfold bin_read_size at 1. rewrite run_bind, read_i32_raw, be_value4 by lia. cbn [obind].
  change (b2z x80) with 128. change (b2z x01) with 1.
  set (u := b2z t + 256 * b2z x).
  assert (W : i32 (b2z t + 256 * (b2z x + 256 * (1 + 256 * 128))) = u + (-32767) * 2 ^ 16) by (unfold i32, u; lia). rewrite W.
  assert (Ru : 0 <= u < 2 ^ 16) by (unfold u; lia).
  destruct (Z.ltb_spec (u + (-32767) * 2 ^ 16) 0) as [_|L]; [|lia].
  assert (V : Z.land (u + (-32767) * 2 ^ 16) versionMask = bin_version1).
  { rewrite <- lor_disjoint by lia. rewrite Z.land_lor_distr_l.
    assert (E3 : Z.land u versionMask = 0) by (change versionMask with (Z.shiftl 0xffff 16); apply land_disjoint; lia).
    rewrite E3. reflexivity. }
  assert (U : u8 (u + (-32767) * 2 ^ 16) = b2z t) by (unfold u8, u; lia).
  rewrite V, U, Z.eqb_refl. cbn [negb]. rewrite run_bind. unfold bin_read_string, bin_read_size.
  rewrite run_bind, read_i32_ok by (unfold is_i32; lia). cbn [obind].
  rewrite read_string_spec by lia. rewrite bytes_spec_app by reflexivity. cbn [obind app].
  rewrite run_bind, read_i32_ok by (try assumption; lia). reflexivity.
Qed.
Print Assumptions C71_binary_message.

(** ** Compact *)
Lemma hdr_size_value size l v rest fi : 10 <= size -> leb_value l v -> zlen l <= 10 -> v < 2 ^ 64 ->
  run (stream_h size) cmp_hdr_size (mkStream (l ++ rest) fi) = Done (mkStream rest fi) (i64 v, None).
Proof. intros. unfold cmp_hdr_size. rewrite run_bind, read_uvarint_value with (v := v) by (try assumption; lia). reflexivity. Qed.
Lemma set_or_list c st : c = RSetBegin \/ c = RListBegin -> cmp_reader _ c st = lift st cmp_read_set_begin.
Proof. intros [->| ->]; reflexivity. Qed.
Lemma nibbles c n t : b2z c = 16 * n + t -> 0 <= t < 16 -> Z.land (b2z c) 15 = t /\ Z.shiftr (b2z c) 4 = n.
Proof.
  intros E H. change 15 with (Z.ones 4). rewrite Z.land_ones, Z.shiftr_div_pow2 by lia. change (2 ^ 4) with 16. rewrite E.
  split; [rewrite Z.add_comm, Z.mul_comm, Z_mod_plus_full, Z.mod_small; lia|rewrite Z.add_comm, Z.mul_comm, Z_div_plus_full, Z.div_small by lia; lia].
Qed.

(** Up to fourteen elements: the size is in the high nibble, and the header is
    one byte. *)
Theorem C71_compact_short size b st c h t ty n rest : 0 < size -> binv size b -> c = RSetBegin \/ c = RListBegin ->
  b2z h = 16 * n + t -> n < 15 -> In (t, ty) compact_element_types -> sdata (abs b) = h :: rest ->
  exists b', over cmp_reader (bufio_h size) _ c (st, b) = Done (st, b') (mkSetH ty n, None) /\
    binv size b' /\ abs b' = mkStream rest (sfin (abs b)).
Proof.
  intros Hs Hb Hc Hh Hn Ht Hd. apply cmp_event; [exact Hs|exact Hb|]. rewrite set_or_list by exact Hc.
  destruct (abs b) as [d fi]. cbn [sdata] in Hd. subst d. pose proof (element_range t ty Ht).
  destruct (nibbles h n t Hh ltac:(lia)) as [N1 N2].
  unfold lift, cmp_read_set_begin. rewrite !run_bind. cbn [run call stream_h obind sdata sfin]. rewrite N1, N2, (element_wire t ty Ht).
  destruct (Z.eqb_spec n 15); [lia|]. reflexivity.
Qed.
Print Assumptions C71_compact_short.
(** With fifteen in the high nibble the size follows as a varint.  It is taken
    as a signed number of 64 bits: it may be negative. *)
Theorem C71_compact_long size b st c h t ty l v rest : 10 <= size -> binv size b -> c = RSetBegin \/ c = RListBegin ->
  b2z h = 16 * 15 + t -> In (t, ty) compact_element_types -> leb_value l v -> zlen l <= 10 -> v < 2 ^ 64 ->
  sdata (abs b) = h :: l ++ rest ->
  exists b' n, over cmp_reader (bufio_h size) _ c (st, b) = Done (st, b') (mkSetH ty n, None) /\
    is_i64 n /\ n mod 2 ^ 64 = v /\ binv size b' /\ abs b' = mkStream rest (sfin (abs b)).
Proof.
  intros Hs Hb Hc Hh Ht Hl Hl1 Hv Hd.
  destruct (cmp_event size b st _ c (mkStream rest (sfin (abs b))) st (mkSetH ty (i64 v), None) ltac:(lia) Hb) as (b' & O & B & A).
  { rewrite set_or_list by exact Hc. destruct (abs b) as [d fi]. cbn [sdata sfin] in *. subst d. pose proof (element_range t ty Ht).
    destruct (nibbles h 15 t Hh ltac:(lia)) as [N1 N2].
    unfold lift, cmp_read_set_begin. rewrite !run_bind. cbn [run call stream_h obind sdata sfin]. rewrite N1, N2, (element_wire t ty Ht).
    rewrite Z.eqb_refl. rewrite run_bind, hdr_size_value with (v := v) by assumption. reflexivity. }
  exists b', (i64 v). split; [exact O|]. pose proof (leb_value_nonneg _ _ Hl).
  split; [unfold is_i64, i64; lia|]. split; [unfold i64; lia|auto].
Qed.
Print Assumptions C71_compact_long.
(** The type numbers 14 and 15 are an error, and no more than the first byte is
    read. *)
Theorem C71_compact_unknown size b st c h rest : 0 < size -> binv size b -> c = RSetBegin \/ c = RListBegin ->
  14 <= b2z h mod 16 -> sdata (abs b) = h :: rest ->
  exists b' x e, over cmp_reader (bufio_h size) _ c (st, b) = Done (st, b') (x, Some e) /\
    binv size b' /\ abs b' = mkStream rest (sfin (abs b)).
Proof.
  intros Hs Hb Hc Ht Hd. destruct (element_unknown _ Ht) as (e & W).
  destruct (cmp_event size b st _ c (mkStream rest (sfin (abs b))) st (mkSetH T_Stop 0, Some e) Hs Hb) as (b' & O & B & A); [|do 3 eexists; eauto].
  rewrite set_or_list by exact Hc. destruct (abs b) as [d fi]. cbn [sdata sfin] in *. subst d.
  unfold lift, cmp_read_set_begin. rewrite !run_bind. cbn [run call stream_h obind sdata sfin].
  change 15 with (Z.ones 4). rewrite Z.land_ones by lia. change (2 ^ 4) with 16. rewrite W. reflexivity.
Qed.
Print Assumptions C71_compact_unknown.

(** The empty map is a size of 0 and nothing else; its types are read as
    Stop. *)
Theorem C71_compact_empty_map size b st l rest : 10 <= size -> binv size b -> leb_value l 0 -> zlen l <= 10 ->
  sdata (abs b) = l ++ rest ->
  exists b', over cmp_reader (bufio_h size) _ RMapBegin (st, b) = Done (st, b') (mkMapH T_Stop T_Stop 0, None) /\
    binv size b' /\ abs b' = mkStream rest (sfin (abs b)).
Proof.
  intros Hs Hb Hl Hl1 Hd. apply cmp_event; [lia|exact Hb|]. change (cmp_reader _ RMapBegin st) with (lift st cmp_read_map_begin).
  destruct (abs b) as [d fi]. cbn [sdata sfin] in *. subst d.
  unfold lift, cmp_read_map_begin. rewrite !run_bind, hdr_size_value with (v := 0) by (try assumption; lia). reflexivity.
Qed.
Print Assumptions C71_compact_empty_map.
(** Any other size is followed by one byte with the two types. *)
Theorem C71_compact_map size b st l v h k kt t vt rest : 10 <= size -> binv size b -> leb_value l v -> zlen l <= 10 -> 0 < v < 2 ^ 64 ->
  b2z h = 16 * k + t -> In (k, kt) compact_element_types -> In (t, vt) compact_element_types -> sdata (abs b) = l ++ h :: rest ->
  exists b' n, over cmp_reader (bufio_h size) _ RMapBegin (st, b) = Done (st, b') (mkMapH kt vt n, None) /\
    is_i64 n /\ n mod 2 ^ 64 = v /\ binv size b' /\ abs b' = mkStream rest (sfin (abs b)).
Proof.
  intros Hs Hb Hl Hl1 Hv Hh Hk Ht Hd.
  destruct (cmp_event size b st _ RMapBegin (mkStream rest (sfin (abs b))) st (mkMapH kt vt (i64 v), None) ltac:(lia) Hb) as (b' & O & B & A).
  { change (cmp_reader _ RMapBegin st) with (lift st cmp_read_map_begin). destruct (abs b) as [d fi]. cbn [sdata sfin] in *. subst d.
    pose proof (element_range t vt Ht). destruct (nibbles h k t Hh ltac:(lia)) as [N1 N2].
    unfold lift, cmp_read_map_begin. rewrite !run_bind, hdr_size_value with (v := v) by (try assumption; lia). cbn [obind is_none negb orb].
    destruct (Z.eqb_spec (i64 v) 0) as [E|_]; [unfold i64 in E; lia|].
    rewrite run_bind. cbn [run call stream_h obind sdata sfin]. rewrite N1, N2, (element_wire k kt Hk), (element_wire t vt Ht). reflexivity. }
  exists b', (i64 v). split; [exact O|]. split; [unfold is_i64, i64; lia|]. split; [unfold i64; lia|auto].
Qed.
Print Assumptions C71_compact_map.
(** A type number of 14 or 15, for the keys or the values, is an error. *)
Theorem C71_compact_map_unknown size b st l v h rest : 10 <= size -> binv size b -> leb_value l v -> zlen l <= 10 -> 0 < v < 2 ^ 64 ->
  14 <= b2z h / 16 \/ 14 <= b2z h mod 16 -> sdata (abs b) = l ++ h :: rest ->
  exists b' x e, over cmp_reader (bufio_h size) _ RMapBegin (st, b) = Done (st, b') (x, Some e) /\
    binv size b' /\ abs b' = mkStream rest (sfin (abs b)).
Proof.
  intros Hs Hb Hl Hl1 Hv Hh Hd.
  assert (R : exists x e, run (stream_h size) (cmp_reader _ RMapBegin st) (abs b) = Done (mkStream rest (sfin (abs b))) (st, (x, Some e))).
  { change (cmp_reader _ RMapBegin st) with (lift st cmp_read_map_begin). destruct (abs b) as [d fi]. cbn [sdata sfin] in *. subst d.
    unfold lift, cmp_read_map_begin. rewrite !run_bind, hdr_size_value with (v := v) by (try assumption; lia). cbn [obind is_none negb orb].
    destruct (Z.eqb_spec (i64 v) 0) as [E|_]; [unfold i64 in E; lia|].
    rewrite run_bind. cbn [run call stream_h obind sdata sfin].
    change 15 with (Z.ones 4). rewrite Z.land_ones, Z.shiftr_div_pow2 by lia. change (2 ^ 4) with 16.
    destruct (compact_wire (b2z h / 16)) as [k [e|]] eqn:E1; [do 2 eexists; reflexivity|].
    destruct Hh as [Hh|Hh]; destruct (element_unknown _ Hh) as (e & W); [rewrite W in E1; discriminate|]. rewrite W. do 2 eexists. reflexivity. }
  destruct R as (x & e & R). destruct (cmp_event size b st _ RMapBegin _ st _ ltac:(lia) Hb R) as (b' & O). exists b', x, e. exact O.
Qed.
Print Assumptions C71_compact_map_unknown.

(** A message header: 0x82; the message type in the high three bits of the
    second byte, and the version 1 in the others; the sequence ID, of which the
    low 32 bits count; the name. *)
Theorem C71_compact_message size b st h t i id m name rest e : 10 <= size -> binv size b ->
  b2z h = 32 * t + 1 -> leb_value i id -> zlen i <= 10 -> id < 2 ^ 64 ->
  leb_value m (zlen name) -> zlen m <= 10 -> zlen name < 2 ^ 63 ->
  abs b = mkStream (x82 :: h :: i ++ m ++ name ++ rest) (FErr e) ->
  exists b' n, over cmp_reader (bufio_h size) _ RMessageBegin (st, b) = Done (st, b') (mkMH name t n, None) /\
    is_i32 n /\ n mod 2 ^ 32 = id mod 2 ^ 32 /\ binv size b' /\ abs b' = mkStream rest (FErr e).
Proof.
  intros Hs Hb Hh Hi Hi1 Hi2 Hm Hm1 Hn Hd. pose proof (b2z_range h) as Rh. pose proof (zlen_nonneg name) as N0.
  destruct (cmp_event size b st _ RMessageBegin (mkStream rest (FErr e)) st (mkMH name t (i32 id), None) ltac:(lia) Hb) as (b' & O & B & A).
  { rewrite Hd. change (cmp_reader _ RMessageBegin st) with (lift st (cmp_read_message_begin tw_read_uvarint)).
    unfold lift, cmp_read_message_begin. rewrite !run_bind. cbn [run call stream_h obind sdata sfin].
    change (b2z x82 =? protocolID) with true. cbn [negb]. rewrite run_bind. cbn [run call stream_h obind sdata sfin].
    change 31 with (Z.ones 5). rewrite Z.land_ones, Z.shiftr_div_pow2 by lia. change (2 ^ 5) with 32.
    replace (b2z h mod 32) with 1 by (rewrite Hh, Z.add_comm, Z.mul_comm, Z_mod_plus_full; reflexivity).
    replace (b2z h / 32) with t by (rewrite Hh, Z.add_comm, Z.mul_comm, Z_div_plus_full by lia; reflexivity).
    change (1 =? cmp_version1) with true. cbn [negb].
    rewrite run_bind, tw_read_uvarint_drop_in by lia. rewrite read_uvarint_value with (v := id) by (try assumption; lia). cbn [obind].
    rewrite run_bind. unfold cmp_read_string, cmp_read_size. rewrite !run_bind, tw_read_uvarint_drop_in by lia.
    rewrite read_uvarint_value with (v := zlen name) by (try assumption; lia). cbn [obind run].
    replace (i64 (zlen name)) with (zlen name) by (unfold i64; lia).
    rewrite read_string_spec, bytes_spec_app by (auto; lia). reflexivity. }
  exists b', (i32 id). split; [exact O|]. split; [unfold is_i32, i32; lia|]. split; [unfold i32; lia|auto].
Qed.
Print Assumptions C71_compact_message.

(** A list of -1 elements in binary; in compact, a list of three elements of
    the type Stop, a map whose size has a redundant byte, and a message whose
    ID has bits that are lost. *)
Example C71_sample :
  (exists b, over (bin_reader true) (bufio_h 16) _ RListBegin (tt, new_breader (mkSource [([x0b; xff; xff], None); ([xff; xff; x05], None)] (FErr EEOF))) =
    Done (tt, b) (mkSetH T_String (-1), None) /\ sdata (abs b) = [x05]) /\
  (exists b, over cmp_reader (bufio_h 16) _ RListBegin (cr0, new_breader (mkSource [([x30; x07], None)] (FErr EEOF))) =
    Done (cr0, b) (mkSetH T_Stop 3, None) /\ sdata (abs b) = [x07]) /\
  (exists b, over cmp_reader (bufio_h 16) _ RMapBegin (cr0, new_breader (mkSource [([x82; x00], None); ([x18], None)] (FErr EEOF))) =
    Done (cr0, b) (mkMapH T_Bool T_String 2, None)) /\
  (exists b, over cmp_reader (bufio_h 16) _ RMessageBegin (cr0, new_breader (mkSource [([x82; x21; x83; x80; x80; x80], None); ([x10; x01; x61], None)] (FErr EEOF))) =
    Done (cr0, b) (mkMH [x61] 1 3, None)).
Proof. split; [|split; [|split]]; eexists; vm_compute; try (split; reflexivity); reflexivity. Qed.
