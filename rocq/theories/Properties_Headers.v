(** Property C70: what a field header on the wire means. *)
From Verif Require Import Base BaseLemmas Prog Bufio BufioProof BufioW Wire WireProof Spec Clients
  Binary BinaryProof Compact CompactProof Layers RoundTrip EndToEnd Properties_Values.

(** The type numbers in the low nibble of a compact field header, and the types
    they stand for; 1 and 2 are the bools true and false. *)
Definition compact_field_types : list (Z * Z) :=
  [(1, 2); (2, 2); (3, 3); (4, 6); (5, 8); (6, 10); (7, 4); (8, 11); (9, 15); (10, 14); (11, 13); (12, 12); (13, 16)].
Ltac types H := cbn [In compact_field_types] in H;
  repeat match type of H with _ \/ _ => destruct H as [H|H] end; try contradiction; injection H as <- <-.
(** The value that the header of a bool field carries. *)
Definition carried (n : Z) (before : boolfield) : boolfield :=
  if n =? 1 then BTrue else if n =? 2 then BFalse else before.

(** ** Binary *)
Lemma bin_begin strict size b s x : 0 < size -> binv size b ->
  run (stream_h size) bin_read_field_begin (abs b) = Done s x ->
  exists b', over (bin_reader strict) (bufio_h size) _ RFieldBegin (tt, b) = Done (tt, b') x /\ binv size b' /\ abs b' = s.
Proof.
  intros Hs Hb R. pose proof (layer_refines size (bin_reader strict) (call RFieldBegin) tt b Hs Hb (bin_reader_fok strict)) as H.
  rewrite !run_call in H.
  assert (O : over (bin_reader strict) (stream_h size) _ RFieldBegin (tt, abs b) = Done (tt, s) x).
  { unfold over, bin_reader. cbn [fst snd]. change (bin_read strict RFieldBegin) with bin_read_field_begin. rewrite run_bind, R. reflexivity. }
  rewrite O in H.
  destruct (over (bin_reader strict) (bufio_h size) _ RFieldBegin (tt, b)) as [[[] b'] y|k]; [|contradiction].
  destruct H as (_ & -> & H1 & H2). eauto.
Qed.

(** The byte 0 ends a struct: Stop, with no name and the ID 0. *)
Theorem C70_binary_stop strict size b rest : 0 < size -> binv size b -> sdata (abs b) = x00 :: rest ->
  exists b', over (bin_reader strict) (bufio_h size) _ RFieldBegin (tt, b) = Done (tt, b') (mkFH [] T_Stop 0, None) /\
    binv size b' /\ abs b' = mkStream rest (sfin (abs b)).
Proof.
  intros Hs Hb Hd. apply bin_begin; auto. destruct (abs b) as [d fi]. cbn in Hd. subst d. reflexivity.
Qed.
Print Assumptions C70_binary_stop.
(** Any other byte is a type, and the ID is in the next two. *)
Theorem C70_binary_field strict size b c id rest : 8 <= size -> binv size b -> c <> x00 -> is_i16 id ->
  sdata (abs b) = c :: big_endian 2 id ++ rest ->
  exists b', over (bin_reader strict) (bufio_h size) _ RFieldBegin (tt, b) = Done (tt, b') (mkFH [] (b2z c) id, None) /\
    binv size b' /\ abs b' = mkStream rest (sfin (abs b)).
Proof.
  intros Hs Hb Hc Hi Hd. apply bin_begin; [lia|exact Hb|]. destruct (abs b) as [d fi]. cbn [sdata] in Hd. subst d.
  unfold bin_read_field_begin, bin_read_type. rewrite !run_bind. cbn [run call stream_h obind sdata sfin is_none negb orb].
  destruct (Z.eqb_spec (b2z c) T_Stop) as [E|E]; [exfalso; apply Hc; rewrite <- (z2b_b2z c), E; reflexivity|].
  rewrite run_bind. rewrite read_i16_ok by (try assumption; lia). reflexivity.
Qed.
Print Assumptions C70_binary_field.

(** ** Compact *)
Lemma cmp_begin size b st s x : 0 < size -> binv size b ->
  run (stream_h size) (cmp_read_field_begin st) (abs b) = Done s x ->
  exists b', over cmp_reader (bufio_h size) _ RFieldBegin (st, b) = Done (fst x, b') (snd x) /\ binv size b' /\ abs b' = s.
Proof.
  intros Hs Hb R. pose proof (layer_refines size cmp_reader (call RFieldBegin) st b Hs Hb
                (fun X e s => cmp_reader_fok _ X e s tw_read_uvarint_fok)) as H.
  rewrite !run_call in H. unfold over at 2 in H. cbn [fst snd] in H.
  change (cmp_reader _ RFieldBegin st) with (cmp_read_field_begin st) in H. rewrite R in H. destruct x as [st' x]. cbn [unpair fst snd] in *.
  destruct (over cmp_reader (bufio_h size) _ RFieldBegin (st, b)) as [[st2 b'] y|k]; [|contradiction].
  destruct H as (-> & -> & H1 & H2). eauto.
Qed.

(** Every byte whose low nibble is 0 ends a struct, whatever the high one is. *)
Theorem C70_compact_stop size b st c rest : 0 < size -> binv size b -> b2z c mod 16 = 0 -> sdata (abs b) = c :: rest ->
  exists b', over cmp_reader (bufio_h size) _ RFieldBegin (st, b) = Done (st, b') (mkFH [] T_Stop 0, None) /\
    binv size b' /\ abs b' = mkStream rest (sfin (abs b)).
Proof.
  intros Hs Hb Hc Hd. apply (cmp_begin size b st _ (st, (mkFH [] T_Stop 0, None))); auto. destruct (abs b) as [d fi]. cbn in Hd. subst d.
  destruct c; try discriminate Hc; reflexivity.
Qed.
Print Assumptions C70_compact_stop.

(** A high nibble from 1 on is what the ID is greater by than the one before
    in this struct (modulo 2^16). *)
Theorem C70_compact_delta size b st c n ty delta rest : 0 < size -> binv size b ->
  b2z c = 16 * delta + n -> 1 <= delta -> In (n, ty) compact_field_types -> sdata (abs b) = c :: rest ->
  exists b' id, over cmp_reader (bufio_h size) _ RFieldBegin (st, b) =
      Done (mkCR (cr_ids st) id (carried n (cr_bool st)), b') (mkFH [] ty id, None) /\
    is_i16 id /\ id mod 2 ^ 16 = (cr_last st + delta) mod 2 ^ 16 /\
    binv size b' /\ abs b' = mkStream rest (sfin (abs b)).
Proof.
  intros Hs Hb Hc Hd1 Hn Hd. pose proof (i16_range (cr_last st + delta)) as Ri. pose proof (i16_mod_eq (cr_last st + delta)) as Rm.
  destruct (cmp_begin size b st (mkStream rest (sfin (abs b)))
    (mkCR (cr_ids st) (i16 (cr_last st + delta)) (carried n (cr_bool st)), (mkFH [] ty (i16 (cr_last st + delta)), None)) Hs Hb) as (b' & O & B & A).
  { destruct (abs b) as [d fi]. cbn [sdata sfin] in *. subst d. unfold cmp_read_field_begin. rewrite run_bind. cbn [run call stream_h obind sdata sfin].
    assert (N : 0 <= n < 16) by (types Hn; lia).
    change 15 with (Z.ones 4). rewrite Z.land_ones, Z.shiftr_div_pow2 by lia. change (2 ^ 4) with 16.
    replace (b2z c mod 16) with n by (rewrite Hc, Z.add_comm, Z.mul_comm, Z_mod_plus_full, Z.mod_small; lia).
    replace (b2z c / 16) with delta by (rewrite Hc, Z.add_comm, Z.mul_comm, Z_div_plus_full, Z.div_small by lia; lia).
    destruct (Z.eqb_spec delta 0) as [Z0|_]; [lia|].
    types Hn; reflexivity. }
  exists b', (i16 (cr_last st + delta)). auto.
Qed.
Print Assumptions C70_compact_delta.

(** With the high nibble 0 the ID follows as a varint. *)
Theorem C70_compact_long size b st c ty id l rest : 10 <= size -> binv size b ->
  In (b2z c, ty) compact_field_types -> is_i16 id -> uleb128 (zigzag_spec id) l -> sdata (abs b) = c :: l ++ rest ->
  exists b', over cmp_reader (bufio_h size) _ RFieldBegin (st, b) =
      Done (mkCR (cr_ids st) id (carried (b2z c) (cr_bool st)), b') (mkFH [] ty id, None) /\
    binv size b' /\ abs b' = mkStream rest (sfin (abs b)).
Proof.
  intros Hs Hb Hn Hi Hl Hd.
  assert (R : run (stream_h size) cmp_read_i16 (mkStream (l ++ rest) (sfin (abs b))) = Done (mkStream rest (sfin (abs b))) (id, None)).
  { apply cmp_read_i16_ok; auto. }
  destruct (cmp_begin size b st (mkStream rest (sfin (abs b)))
    (mkCR (cr_ids st) id (carried (b2z c) (cr_bool st)), (mkFH [] ty id, None)) ltac:(lia) Hb) as (b' & O & B & A); [|eauto].
  destruct (abs b) as [d fi]. cbn [sdata sfin] in *. subst d. unfold cmp_read_field_begin. rewrite run_bind. cbn [run call stream_h obind sdata sfin].
  assert (N : 1 <= b2z c < 16) by (revert Hn; generalize (b2z c); intros z Hn; types Hn; lia).
  change 15 with (Z.ones 4). rewrite Z.land_ones, Z.shiftr_div_pow2 by lia. change (2 ^ 4) with 16. rewrite Z.mod_small, Z.div_small by lia.
  
  revert Hn. generalize (b2z c). intros z Hn. types Hn; cbn -[cmp_read_i16 run]; rewrite run_bind, R; reflexivity.
Qed.
Print Assumptions C70_compact_long.

(** The low nibbles 14 and 15 are an error, and nothing more is read. *)
Theorem C70_compact_unknown size b st c rest : 0 < size -> binv size b -> 14 <= b2z c mod 16 -> sdata (abs b) = c :: rest ->
  exists b' h e, over cmp_reader (bufio_h size) _ RFieldBegin (st, b) = Done (st, b') (h, Some e) /\
    binv size b' /\ abs b' = mkStream rest (sfin (abs b)).
Proof.
  intros Hs Hb Hc Hd.
  destruct (cmp_begin size b st (mkStream rest (sfin (abs b))) (st, (mkFH [] T_Stop 0, Some (EInvalidCompactType (b2z c mod 16)))) Hs Hb) as (b' & O & B & A);
    [|do 3 eexists; eauto].
  destruct (abs b) as [d fi]. cbn in *. subst d. destruct c; try (exfalso; vm_compute in Hc; congruence); reflexivity.
Qed.
Print Assumptions C70_compact_unknown.
(** These are all bytes. *)
Theorem C70_compact_all c : b2z c mod 16 = 0 \/ 14 <= b2z c mod 16 \/
  (exists n ty delta, b2z c = 16 * delta + n /\ 1 <= delta /\ In (n, ty) compact_field_types) \/
  (exists ty, In (b2z c, ty) compact_field_types).
Proof.
  destruct (Z.eq_dec (b2z c mod 16) 0) as [E|E]; [now left|]. destruct (Z_le_dec 14 (b2z c mod 16)) as [L|L]; [right; now left|]. right. right.
  pose proof (b2z_range c) as R. pose proof (Z.div_mod (b2z c) 16 ltac:(lia)) as D. pose proof (Z.mod_pos_bound (b2z c) 16 ltac:(lia)) as B.
  assert (T : exists ty, In (b2z c mod 16, ty) compact_field_types).
  { set (n := b2z c mod 16) in *. assert (n = 1 \/ n = 2 \/ n = 3 \/ n = 4 \/ n = 5 \/ n = 6 \/ n = 7 \/ n = 8 \/ n = 9 \/ n = 10 \/ n = 11 \/ n = 12 \/ n = 13) as X by lia.
    cbn [In compact_field_types]. repeat destruct X as [X|X]; rewrite X; eexists; tauto. }
  destruct T as (ty & T). destruct (Z.eq_dec (b2z c / 16) 0) as [Q|Q].
  - right. exists ty. replace (b2z c) with (b2z c mod 16) by lia. exact T.
  - left. exists (b2z c mod 16), ty, (b2z c / 16). repeat split; [lia| |exact T]. assert (0 <= b2z c / 16) by (apply Z.div_pos; lia). lia.
Qed.
Print Assumptions C70_compact_all.

(** Byte 0xF0 ends a struct, and after field 32767 a difference of 1 gives the
    field -32768. *)
Example C70_sample :
  (exists b, over cmp_reader (bufio_h 16) _ RFieldBegin (cr0, new_breader (mkSource [([xf0; x07], None)] (FErr EEOF))) =
    Done (cr0, b) (mkFH [] T_Stop 0, None) /\ sdata (abs b) = [x07]) /\
  (exists b, over cmp_reader (bufio_h 16) _ RFieldBegin (mkCR [] 32767 BNone, new_breader (mkSource [([x11], None); ([x07], None)] (FErr EEOF))) =
    Done (mkCR [] (-32768) BTrue, b) (mkFH [] T_Bool (-32768), None) /\ sdata (abs b) = [x07]) /\
  (exists b, over (bin_reader true) (bufio_h 16) _ RFieldBegin (tt, new_breader (mkSource [([x0b; x00], None); ([x05], None)] (FErr EEOF))) =
    Done (tt, b) (mkFH [] T_String 5, None)).
Proof. split; [|split]; eexists; vm_compute; try (split; reflexivity); reflexivity. Qed.
