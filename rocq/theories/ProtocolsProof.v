(** Names of protocols are different, and message headers are read by those that understand them and refused by others. *)
From Coq Require Import Strings.String.
From Verif Require Import Base BaseLemmas Prog Bufio BufioProof BufioW BufioWProof GoBinary GoBinaryProof Wire WireProof
  Spec Binary Compact CompactProof Layers RoundTrip EndToEnd Messages WireThms ThriftTest Protocols ProtocolsSpec.
Local Open Scope Z_scope.
Local Open Scope list_scope.

(** ** Names *)
Definition no_N (l : list byte) : Prop := match l with "N"%byte :: _ => False | _ => True end.

Lemma name_prefix p : forall q x y, no_N x -> no_N y ->
  protocol_String p ++ x = protocol_String q ++ y -> p = q /\ x = y.
Proof.
  induction p as [| | |r IHr w IHw]; intros q x y Hx Hy E; destruct q; cbn [protocol_String] in E;
    try (rewrite <- ?app_assoc in E; cbn in E; discriminate E).
  - apply app_inv_head in E. auto.
  - cbn in E. inversion E; subst. contradiction.
  - cbn in E. inversion E; subst. contradiction.
  - apply app_inv_head in E. auto.
  - apply app_inv_head in E. auto.
  - rewrite <- !app_assoc in E. apply app_inv_head in E. apply IHr in E as [-> E]; [|exact I..].
    apply app_inv_head in E. apply IHw in E as [-> E]; [|exact I..]. apply app_inv_head in E. auto.
Qed.

Lemma name_injective p q : protocol_String p = protocol_String q -> p = q.
Proof.
  intros E. apply (name_prefix p q [] []); [exact I..|]. now rewrite !app_nil_r.
Qed.

Lemma joined p : protocol_of p = join_protocol (protocol_of (reads_as p)) (protocol_of (writes_as p)).
Proof.
  induction p as [| | |r IHr w IHw]; try reflexivity. cbn [protocol_of reads_as writes_as].
  rewrite IHr at 1. rewrite IHw. reflexivity.
Qed.

Definition basic (p : pval) : Prop := match p with PJoin _ _ => False | _ => True end.
Lemma reads_as_basic p : basic (reads_as p).
Proof. induction p; cbn; auto. Qed.
Lemma writes_as_basic p : basic (writes_as p).
Proof. induction p; cbn; auto. Qed.

Lemma cmp_message_head name t id : exists b2 b3 l,
  cmp_message name t id = [x82; z2b (1 + 32 * t); b2; b3] ++ l.
Proof.
  unfold cmp_message. pose proof (put_uvarint_len (u64 id)) as H1. pose proof (put_uvarint_len (u64 (zlen name))) as H2.
  destruct (put_uvarint (u64 id)) as [|b2 l2]; [cbn in H1; lia|].
  destruct (put_uvarint (u64 (zlen name))) as [|b3 l3]; [cbn in H2; lia|].
  destruct l2 as [|b l2]; [exists b2, b3, (l3 ++ name); reflexivity|].
  exists b2, b, (l2 ++ (b3 :: l3) ++ name). reflexivity.
Qed.

Lemma old_head (name : list byte) : zlen name < 2 ^ 31 -> exists b1 b2 b3,
  big_endian 4 (zlen name) = [z2b (zlen name / 2 ^ 24); b1; b2; b3] /\ b2z (z2b (zlen name / 2 ^ 24)) = zlen name / 2 ^ 24 /\
  zlen name / 2 ^ 24 < 128.
Proof.
  intros H. pose proof (zlen_nonneg name). cbn [big_endian app]. do 3 eexists. split; [|split].
  - f_equal. apply z2b_eq. rewrite !Z.div_div by lia. reflexivity.
  - rewrite b2z_z2b, Z.mod_small; lia.
  - lia.
Qed.

(** A header that both encodings can carry. *)
Definition plain_header (h : mhdr) : Prop := 0 <= mh_type h < 8 /\ is_i32 (mh_id h) /\ zlen (mh_name h) < 2 ^ 31.

Definition message_bytes (w : pval) (h : mhdr) : list byte :=
  match w with
  | PBinary => binary_message_strict (mh_name h) (mh_type h) (mh_id h)
  | PNonStrict => binary_message_old (mh_name h) (mh_type h) (mh_id h)
  | _ => cmp_message (mh_name h) (mh_type h) (mh_id h)
  end.

Lemma basic_written w wsize s h : basic w -> 0 < wsize -> ok_sink s -> received s = [] -> plain_header h ->
  exists st b,
    run (over (p_writer (protocol_of w)) (bufw_h wsize)) (call (WMessageBegin h) >>! call WFlush)
        (p_new_writer (protocol_of w), new_bwriter s) = Done (st, b) None /\
    received (wsink b) = message_bytes w h.
Proof.
  intros B Hw Hs Hs0 (Ht & Hid & Hn). destruct h as [name t id]. cbn [mh_name mh_type mh_id] in *.
  assert (Hu : is_u8 t) by (unfold is_u8; lia).
  destruct w; try contradiction; cbn [protocol_of binary_protocol compact_protocol p_writer p_new_writer p_w message_bytes mh_name mh_type mh_id].
  - destruct (Messages.bin_write_any wsize true s (call (WMessageBegin (mkMH name t id))) (bin_message true name t id) Hw Hs
              (bin_message_written true name t id _ Hu)) as (b & E & Er).
    exists tt, b. rewrite Hs0 in Er. auto.
  - destruct (Messages.bin_write_any wsize false s (call (WMessageBegin (mkMH name t id))) (bin_message false name t id) Hw Hs
              (bin_message_written false name t id _ Hu)) as (b & E & Er).
    exists tt, b. rewrite Hs0 in Er. auto.
  - destruct (Messages.cmp_write_any wsize s cw0 cw0 (call (WMessageBegin (mkMH name t id))) (cmp_message name t id) Hw Hs
              (cmp_message_written name t id _ _)) as (b & E & Er).
    exists cw0, b. rewrite Hs0 in Er. auto.
Qed.

Lemma basic_read r w rsize h src rest : basic r -> basic w -> 10 <= rsize -> plain_header h -> good_source src ->
  src_bytes src = message_bytes w h ++ rest -> (src_fin src = FSilent -> 9 <= zlen rest) ->
  exists st b res,
    run (over (p_reader (protocol_of r)) (bufio_h rsize)) (call RMessageBegin)
        (p_new_reader (protocol_of r), new_breader src) = Done (st, b) res /\
    if understands r w then res = (h, None) /\ binv rsize b /\ abs b = mkStream rest (src_fin src)
    else res = (mkMH [] 0 0, Some (refusal r w h)).
Proof.
  intros Br Bw Hr (Ht & Hid & Hn) G Hb Hfi. destruct h as [name t id]. cbn [mh_name mh_type mh_id] in *.
  assert (Hu : is_u8 t) by (unfold is_u8; lia). pose proof (zlen_nonneg name) as Hn0.
  assert (Hinv : binv rsize (new_breader src)) by (apply binv_new; auto; lia).
  assert (Ha : abs (new_breader src) = mkStream (message_bytes w (mkMH name t id) ++ rest) (src_fin src))
    by (rewrite <- Hb; reflexivity).
  destruct (cmp_message_head name t id) as (c2 & c3 & cl & Ec).
  destruct (old_head name Hn) as (o1 & o2 & o3 & Eo & Eo2 & Eo3).
  assert (Bin : forall strict res st', run (over (bin_reader strict) (stream_h rsize)) (call RMessageBegin)
            (tt, mkStream (message_bytes w (mkMH name t id) ++ rest) (src_fin src)) = Done (tt, st') res ->
          exists b, run (over (bin_reader strict) (bufio_h rsize)) (call RMessageBegin) (tt, new_breader src)
                    = Done (tt, b) res /\ binv rsize b /\ abs b = st').
  { intros strict res st' E. rewrite <- Ha in E.
    destruct (bin_read_any rsize strict (call RMessageBegin) (new_breader src) res st') as (b & E1 & E2 & E3); eauto; lia. }
  assert (Cmp : forall res st', run (over cmp_reader (stream_h rsize)) (call RMessageBegin)
            (cr0, mkStream (message_bytes w (mkMH name t id) ++ rest) (src_fin src)) = Done (cr0, st') res ->
          exists b, run (over cmp_reader (bufio_h rsize)) (call RMessageBegin) (cr0, new_breader src)
                    = Done (cr0, b) res /\ binv rsize b /\ abs b = st').
  { intros res st' E. rewrite <- Ha in E.
    destruct (cmp_read_any rsize (call RMessageBegin) cr0 cr0 (new_breader src) res st') as (b & E1 & E2 & E3); eauto; lia. }
  assert (Ver : (256 * b2z x82 + b2z (z2b (1 + 32 * t))) * 2 ^ 16 = 0x82010000 + t * 2 ^ 21).
  { change (b2z x82) with 0x82. rewrite b2z_z2b, Z.mod_small; lia. }
  destruct r; try contradiction; destruct w; try contradiction;
    cbn [protocol_of binary_protocol compact_protocol p_reader p_new_reader p_r message_bytes understands refusal mh_name mh_type mh_id] in *.
  - destruct (Bin true (mkMH name t id, None) (mkStream rest (src_fin src))) as (b & E & H).
    { apply (bin_message_read rsize ltac:(lia) true true); auto. }
    exists tt, b. eexists. split; [exact E|]. auto.
  - destruct (Bin true (mkMH [] 0 0, Some EBinMissingVersion)
                (mkStream ((name ++ [z2b t] ++ big_endian 4 id) ++ rest) (src_fin src))) as (b & E & H).
    { unfold binary_message_old. rewrite Eo, <- app_assoc. apply (bin_message_strict_rejects rsize); lia. }
    exists tt, b. eexists. split; [exact E|]. auto.
  - destruct (Bin true (mkMH [] 0 0, Some (EBinBadVersion (0x82010000 + t * 2 ^ 21))) (mkStream (cl ++ rest) (src_fin src))) as (b & E & H).
    { rewrite <- Ver, Ec, <- app_assoc. apply (bin_message_version_rejects rsize); [lia|discriminate|intros [X _]; discriminate X]. }
    exists tt, b. eexists. split; [exact E|]. auto.
  - destruct (Bin false (mkMH name t id, None) (mkStream rest (src_fin src))) as (b & E & H).
    { apply (bin_message_read rsize ltac:(lia) false true); auto. }
    exists tt, b. eexists. split; [exact E|]. auto.
  - destruct (Bin false (mkMH name t id, None) (mkStream rest (src_fin src))) as (b & E & H).
    { apply (bin_message_read rsize ltac:(lia) false false); auto. }
    exists tt, b. eexists. split; [exact E|]. auto.
  - destruct (Bin false (mkMH [] 0 0, Some (EBinBadVersion (0x82010000 + t * 2 ^ 21))) (mkStream (cl ++ rest) (src_fin src))) as (b & E & H).
    { rewrite <- Ver, Ec, <- app_assoc. apply (bin_message_version_rejects rsize); [lia|discriminate|intros [X _]; discriminate X]. }
    exists tt, b. eexists. split; [exact E|]. auto.
  - destruct (Cmp (mkMH [] 0 0, Some (ECmpBadProtocol 0x80))
                (mkStream (([x01; x00; z2b t] ++ big_endian 4 (zlen name) ++ name ++ big_endian 4 id) ++ rest) (src_fin src))) as (b & E & H).
    { apply cmp_message_protocol_rejects. discriminate. }
    exists cr0, b. eexists. split; [exact E|]. auto.
  - destruct (Cmp (mkMH [] 0 0, Some (ECmpBadProtocol (zlen name / 2 ^ 24)))
                (mkStream (([o1; o2; o3] ++ name ++ [z2b t] ++ big_endian 4 id) ++ rest) (src_fin src))) as (b & E & H).
    { unfold binary_message_old. rewrite Eo. rewrite <- Eo2 at 2. apply cmp_message_protocol_rejects.
      intros X. rewrite X in Eo2. change (b2z x82) with 0x82 in Eo2. lia. }
    exists cr0, b. eexists. split; [exact E|]. auto.
  - destruct (Cmp (mkMH name t id, None) (mkStream rest (src_fin src))) as (b & E & H).
    { rewrite (cmp_message_read rsize) by (auto; lia). rewrite (Z.mod_small t) by lia. reflexivity. }
    exists cr0, b. eexists. split; [exact E|]. auto.
Qed.
