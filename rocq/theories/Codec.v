(** Varints, compact headers, nesting state and type validation. *)
From Verif Require Import Base BaseLemmas Prog Bufio BufioProof BufioW GoBinary GoBinaryProof
  Wire WireProof Spec Clients Reads Binary BinaryProof Compact CompactProof Layers RoundTrip Messages Fragment.

(** ** Varints on arbitrary bytes *)

Lemma leb_value_nonneg l v : leb_value l v -> 0 <= v.
Proof.
  induction 1 as [b Hb|b l v Hb Hl IH].
  - pose proof (b2z_range b). lia.
  - lia.
Qed.

Lemma leb_value_len l v : leb_value l v -> 1 <= zlen l.
Proof. destruct 1 as [b|b l]; rewrite zlen_cons; [change (zlen []) with 0|pose proof (zlen_nonneg l)]; lia. Qed.

Lemma uleb128_value v l : uleb128 v l -> leb_value l v.
Proof.
  induction 1 as [z Hz|z l Hz Hl IH].
  - rewrite <- (b2z_z2b_small z) at 2 by lia. apply lv_last. rewrite b2z_z2b_small; lia.
  - replace z with (b2z (z2b (128 + z mod 128)) - 128 + 128 * (z / 128)) at 2
      by (rewrite b2z_z2b_small; lia).
    apply lv_more; [rewrite b2z_z2b_small; lia|exact IH].
Qed.

Section Uv.
Variable size : Z.

Lemma read_uvarint_loop_unfold f i s x :
  read_uvarint_loop (S f) i s x =
      ('(b, e) <- call BReadByte ;;
      match e with
      | Some e =>
          Ret (x, if (i >? 0) && is_eof (Some e) then Some EUnexpectedEOF else Some e)
      | None =>
          if b2z b <? 0x80 then
            if (i =? MaxVarintLen64 - 1) && (b2z b >? 1) then Ret (x, Some EOverflow)
            else Ret (Z.lor x (u64 (Z.shiftl (b2z b) s)), None)
          else read_uvarint_loop f (i + 1) (s + 7)
                 (Z.lor x (u64 (Z.shiftl (Z.land (b2z b) 0x7f) s)))
      end).
Proof. reflexivity. Qed.

Lemma pow7 i : 0 <= i -> 2 ^ (7 * (i + 1)) = 128 * 2 ^ (7 * i).
Proof.
  intros Hi. replace (7 * (i + 1)) with (7 + 7 * i) by lia. rewrite Z.pow_add_r by lia.
  change (2 ^ 7) with 128. reflexivity.
Qed.

Lemma uv_value f : forall i x l v rest fi,
  i = 10 - Z.of_nat f -> 0 <= i -> 0 <= x < 2 ^ (7 * i) ->
  leb_value l v -> zlen l <= Z.of_nat f -> x + v * 2 ^ (7 * i) < 2 ^ 64 ->
  run (stream_h size) (read_uvarint_loop f i (7 * i) x) (mkStream (l ++ rest) fi)
  = Done (mkStream rest fi) (x + v * 2 ^ (7 * i), None).
Proof.
  induction f as [|f IH]; intros i x l v rest fi Hi Hi0 Hx Hl Hf Hlt.
  { apply leb_value_len in Hl. lia. }
  assert (H0 : 0 < 2 ^ (7 * i)) by (apply Z.pow_pos_nonneg; lia).
  rewrite read_uvarint_loop_unfold. destruct Hl as [b Hb|b l v Hb Hl]; cbn [app];
    rewrite run_vis; cbn [stream_h sdata sfin obind]; pose proof (b2z_range b).
  - destruct (Z.ltb_spec (b2z b) 128); [|lia].
    assert (E : (i =? MaxVarintLen64 - 1) && (b2z b >? 1) = false).
    { unfold MaxVarintLen64. destruct (Z.eqb_spec i (10 - 1)) as [->|]; [|reflexivity].
      destruct (Z.gtb_spec (b2z b) 1); [|reflexivity].
      change (2 ^ (7 * (10 - 1))) with (2 ^ 63) in *.
      assert (2 * 2 ^ 63 <= b2z b * 2 ^ 63) by (apply Z.mul_le_mono_nonneg_r; lia). lia. }
    rewrite E. cbn [run]. rewrite lor_u64_step by lia. reflexivity.
  - destruct (Z.ltb_spec (b2z b) 128); [lia|].
    pose proof (leb_value_nonneg _ _ Hl).
    rewrite land_7f. replace (b2z b mod 128) with (b2z b - 128) by lia.
    rewrite zlen_cons in Hf.
    assert (Hle : (b2z b - 128) * 2 ^ (7 * i) <= (b2z b - 128 + 128 * v) * 2 ^ (7 * i))
      by (apply Z.mul_le_mono_nonneg_r; lia).
    rewrite lor_u64_step by lia. pose proof (pow7 i Hi0) as Hp.
    replace (7 * i + 7) with (7 * (i + 1)) by lia.
    rewrite (IH (i + 1) _ l v rest fi); try lia.
    + rewrite Hp. do 2 f_equal. ring.
    + rewrite Hp. split; [nia|].
      enough ((b2z b - 128) * 2 ^ (7 * i) <= 127 * 2 ^ (7 * i)) by lia.
      apply Z.mul_le_mono_nonneg_r; lia.
    + exact Hl.
Qed.

Lemma uv_overflow f : forall i x d fi,
  i = 10 - Z.of_nat f -> 0 <= i -> 0 <= x < 2 ^ (7 * i) -> Z.of_nat f <= zlen d ->
  (forall l v rest, d = l ++ rest -> leb_value l v -> zlen l <= Z.of_nat f ->
     2 ^ 64 <= x + v * 2 ^ (7 * i)) ->
  exists s' x', run (stream_h size) (read_uvarint_loop f i (7 * i) x) (mkStream d fi)
  = Done s' (x', Some EOverflow).
Proof.
  induction f as [|f IH]; intros i x d fi Hi Hi0 Hx Hd Hno.
  { cbn [read_uvarint_loop run]. eauto. }
  destruct d as [|b d]; [rewrite zlen_nil in Hd; lia|]. rewrite zlen_cons in Hd.
  assert (H0 : 0 < 2 ^ (7 * i)) by (apply Z.pow_pos_nonneg; lia).
  rewrite read_uvarint_loop_unfold, run_vis. cbn [stream_h sdata sfin obind]. pose proof (b2z_range b).
  pose proof (pow7 i Hi0) as Hp.
  destruct (Z.ltb_spec (b2z b) 128).
  - destruct ((i =? MaxVarintLen64 - 1) && (b2z b >? 1)) eqn:E; cbn [run]; [eauto|].
    exfalso. specialize (Hno [b] (b2z b) d eq_refl (lv_last b ltac:(lia))).
    rewrite zlen_cons, zlen_nil in Hno. specialize (Hno ltac:(lia)).
    unfold MaxVarintLen64 in E. destruct (Z.eqb_spec i (10 - 1)) as [->|Hn]; cbn [andb] in E.
    + change (2 ^ (7 * (10 - 1))) with (2 ^ 63) in *. destruct (Z.gtb_spec (b2z b) 1); [discriminate|].
      assert (b2z b * 2 ^ 63 <= 1 * 2 ^ 63) by (apply Z.mul_le_mono_nonneg_r; lia). lia.
    + assert (b2z b * 2 ^ (7 * i) <= 127 * 2 ^ (7 * i)) by (apply Z.mul_le_mono_nonneg_r; lia).
      assert (2 ^ (7 * (i + 1)) <= 2 ^ 63) by (apply Z.pow_le_mono_r; lia). lia.
  - rewrite land_7f. replace (b2z b mod 128) with (b2z b - 128) by lia.
    assert (Hle : (b2z b - 128) * 2 ^ (7 * i) <= 127 * 2 ^ (7 * i))
      by (apply Z.mul_le_mono_nonneg_r; lia).
    destruct f as [|f].
    { cbn [read_uvarint_loop run]. eauto. }
    assert (2 ^ (7 * (i + 1)) <= 2 ^ 63) by (apply Z.pow_le_mono_r; lia).
    rewrite lor_u64_step by lia. replace (7 * i + 7) with (7 * (i + 1)) by lia.
    apply IH; try lia.
    + rewrite Hp. split; [nia|]. lia.
    + intros l v rest -> Hl Hlen.
      specialize (Hno (b :: l) _ rest eq_refl (lv_more b l v ltac:(lia) Hl)).
      rewrite zlen_cons in Hno. specialize (Hno ltac:(lia)). rewrite Hp.
      replace ((b2z b - 128 + 128 * v) * 2 ^ (7 * i))
        with ((b2z b - 128) * 2 ^ (7 * i) + v * (128 * 2 ^ (7 * i))) in Hno by ring. lia.
Qed.

Lemma read_uvarint_value l v rest fi : leb_value l v -> zlen l <= 10 -> v < 2 ^ 64 ->
  run (stream_h size) read_uvarint (mkStream (l ++ rest) fi) = Done (mkStream rest fi) (v, None).
Proof.
  intros Hl Hn Hv. pose proof (leb_value_nonneg _ _ Hl). unfold read_uvarint.
  pose proof (uv_value 10 0 0 l v rest fi) as H1. change (7 * 0) with 0 in H1. rewrite H1; auto; try lia.
  do 2 f_equal. lia.
Qed.

Lemma read_uvarint_overflow d fi : 10 <= zlen d ->
  (forall l v rest, d = l ++ rest -> leb_value l v -> zlen l <= 10 -> 2 ^ 64 <= v) ->
  exists s' x, run (stream_h size) read_uvarint (mkStream d fi) = Done s' (x, Some EOverflow).
Proof.
  intros Hd Hno. unfold read_uvarint. apply (uv_overflow 10 0 0); try lia.
  intros l v rest E Hl Hn. change (7 * 0) with 0. change (2 ^ 0) with 1.
  specialize (Hno l v rest E Hl Hn). lia.
Qed.
End Uv.

(** ** Header bounds *)
Lemma put_varint_i16_len z : is_i16 z -> zlen (put_varint z) <= 3.
Proof.
  intros Hz. unfold put_varint, put_uvarint. apply put_uvarint_loop_len_le; [|lia].
  rewrite zigzag_alt by (apply i16_i64, Hz). unfold is_i16 in Hz.
  change (2 ^ (7 * 3)) with 2097152. destruct (Z.ltb_spec z 0); lia.
Qed.

Lemma append_field_header_bound buf h b last : is_i16 (fh_id h) ->
  exists l, fst (append_field_header buf h b last) = buf ++ l /\ zlen l <= MaxFieldHeaderSize.
Proof.
  intros Hi. unfold append_field_header, MaxFieldHeaderSize, MaxVarintLen16.
  pose proof (put_varint_i16_len _ Hi).
  destruct (if fh_type h =? T_Bool then _ else _) as [t [e|]].
  - exists []. cbn [fst]. rewrite app_nil_r, zlen_nil. split; [reflexivity|lia].
  - destruct (_ && _); cbn [fst]; eexists; (split; [reflexivity|]); rewrite ?zlen_app, ?zlen_cons, ?zlen_nil; lia.
Qed.

Lemma append_map_header_bound buf h :
  exists l, fst (append_map_header buf h) = buf ++ l /\ zlen l <= MaxMapHeaderSize.
Proof.
  unfold append_map_header, MaxMapHeaderSize, MaxVarintLen64.
  pose proof (put_uvarint_len (u64 (map_size h))).
  destruct (map_size h <=? 0); [exists [x00]; cbn; split; [reflexivity|lia]|].
  destruct (type_compact (map_key h)) as [k [e|]];
    [exists []; cbn [fst]; rewrite app_nil_r, zlen_nil; split; [reflexivity|lia]|].
  destruct (type_compact (map_val h)) as [v [e|]];
    [exists []; cbn [fst]; rewrite app_nil_r, zlen_nil; split; [reflexivity|lia]|].
  cbn [fst]. eexists. split; [reflexivity|]. rewrite zlen_app, zlen_cons, zlen_nil. lia.
Qed.

Lemma append_set_header_bound buf h :
  exists l, fst (append_set_header buf h) = buf ++ l /\ zlen l <= MaxSetHeaderSize.
Proof.
  unfold append_set_header, MaxSetHeaderSize, MaxVarintLen64.
  pose proof (put_uvarint_len (u64 (set_size h))).
  destruct (type_compact (set_elem h)) as [k [e|]];
    [exists []; cbn [fst]; rewrite app_nil_r, zlen_nil; split; [reflexivity|lia]|].
  destruct (_ && _); cbn [fst]; eexists; (split; [reflexivity|]);
    rewrite ?zlen_app, ?zlen_cons, ?zlen_nil; lia.
Qed.

(** ** Field headers *)
(** [wire_kind t b]: the nibble of a field of type [t] (of a bool field with value [b]). *)
Lemma field_header_append buf nm t id b last : In t value_types -> is_i16 id ->
  exists v, val_type v = t /\ (t = 2 -> v = VBool b) /\
    append_field_header buf (mkFH nm t id) b last = (buf ++ field_hdr last id (field_type v), None).
Proof.
  intros Ht Hid.
  assert (exists v, val_type v = t /\ (t = 2 -> v = VBool b)) as (v & Hv & Hb).
  { cbn in Ht. repeat (destruct Ht as [<-|Ht]); [..|contradiction];
    [exists (VBool b)|exists (VByte x00)|exists (VDouble 0)|exists (VI16 0)|exists (VI32 0)|exists (VI64 0)
    |exists (VString [])|exists (VStruct [])|exists (VMap 0 0 [])|exists (VSet 0 [])|exists (VList 0 [])|exists (VUUID [])];
    (split; [reflexivity|intros; (reflexivity || discriminate)]). }
  exists v. conj; auto. rewrite <- Hv. apply append_field_header_spec. now rewrite Hv.
Qed.

Lemma field_hdr_len last id t : is_i16 id ->
  (zlen (field_hdr last id t) = 1 <-> 1 <= i16 (id - last) <= 15).
Proof.
  intros Hid. unfold field_hdr.
  destruct (Z.gtb_spec (i16 (id - last)) 0), (Z.leb_spec (i16 (id - last)) 15); cbn [andb];
    rewrite ?zlen_cons, ?zlen_nil; unfold put_varint;
    try (pose proof (put_uvarint_len (zigzag id))); split; lia.
Qed.

Theorem field_header_decodes size buf nm t id b last st rest fi :
  8 <= size -> In t value_types -> is_i16 id -> cr_bool st = BNone -> cr_last st = last ->
  exists l, append_field_header buf (mkFH nm t id) b last = (buf ++ l, None) /\
    (zlen l = 1 <-> 1 <= i16 (id - last) <= 15) /\
    exists bf,
    run (over cmp_reader (stream_h size)) (call RFieldBegin) (st, mkStream (l ++ rest) fi)
      = Done (mkCR (cr_ids st) id bf, mkStream rest fi) (mkFH [] t id, None) /\
    (t <> 2 -> bf = BNone) /\
    (t = 2 ->
     run (over cmp_reader (stream_h size)) (call RBool) (mkCR (cr_ids st) id bf, mkStream rest fi)
      = Done (mkCR (cr_ids st) id BNone, mkStream rest fi) (b, None)).
Proof.
  intros Hs Ht Hid Hb Hl.
  destruct (field_header_append buf nm t id b last Ht Hid) as (v & Hv & Hvb & E).
  exists (field_hdr last id (field_type v)). split; [exact E|]. split; [now apply field_hdr_len|].
  exists (match v with VBool true => BTrue | VBool false => BFalse | _ => BNone end).
  split; [|split].
  - rewrite run_call. unfold over. cbn [fst snd]. unfold cmp_reader, cmp_reader_gen.
    rewrite (cmp_read_field_begin_ok size read_uvarint fi (fun _ => True) (fun _ _ _ => I)
               (fun v r H _ => read_uvarint_ok size v r fi H) st v id); auto.
    + now rewrite Hv.
    + rewrite Hl. now apply field_hdr_wrap.
  - intros Hn. destruct v; try reflexivity. cbn in Hv. congruence.
  - intros Hn. rewrite (Hvb Hn). rewrite run_call. unfold over. cbn [fst snd].
    unfold cmp_reader, cmp_reader_gen. destruct b; reflexivity.
Qed.

(** ** Nesting *)
Section Nesting.
Context {B : Type} (h : handler bufR B).

Lemma cmp_reader_state X (e : wireR X) st b st' b' x :
  over cmp_reader h X e (st, b) = Done (st', b') x ->
  match e with
  | RStructBegin => cr_ids st' = cr_last st :: cr_ids st
  | RStructEnd =>
      match cr_ids st with
      | [] => st' = st
      | id :: ids => cr_ids st' = ids /\ cr_last st' = id
      end
  | _ => cr_ids st' = cr_ids st
  end.
Proof.
  unfold over. cbn [fst snd]. unfold cmp_reader, cmp_reader_gen.
  assert (HL : forall Y (p : prog bufR Y) s2 y,
    match run h (lift st p) b with Done b0 (s0, x0) => Done (s0, b0) x0 | Crashed c => Crashed c end
      = Done (s2, b') y -> cr_ids s2 = cr_ids st).
  { intros Y p s2 y. unfold lift. rewrite run_bind. destruct (run h p b) as [b1 y1|c]; cbn [obind run];
      [|discriminate]. intros H. injection H as <- _ _. reflexivity. }
  destruct e; try (apply HL);
    try (cbn [run]; intros H; injection H as <- _ _; reflexivity).
  - cbn [run]. destruct (cr_ids st) as [|id ids] eqn:E; cbn [run]; intros H; injection H as <- _ _; auto.
  - unfold cmp_read_field_begin. rewrite run_vis.
    destruct (h _ BReadByte b) as [b1 [dt [er|]]|c]; cbn [obind run]; try discriminate.
    + intros H; injection H as <- _ _; reflexivity.
    + destruct (compact_wire (Z.land (b2z dt) 15)) as [ty eo].
      destruct (negb (is_none eo) || (ty =? T_Stop)); cbn [run].
      { intros H; injection H as <- _ _; reflexivity. }
      destruct (Z.shiftr (b2z dt) 4 =? 0).
      * rewrite run_bind. destruct (run h cmp_read_i16 b1) as [b2 [id [er|]]|c]; cbn [obind run];
          try discriminate; intros H; injection H as <- _ _; reflexivity.
      * cbn [run]. intros H; injection H as <- _ _; reflexivity.
  - destruct (cr_bool st); [rewrite run_vis; destruct (h _ BReadByte b) as [b1 [y er]|c]; cbn [obind run];
      try discriminate|cbn [run]..]; intros H; injection H as <- _ _; reflexivity.
Qed.

(** Calls one after the other, whatever they return. *)
Fixpoint do_reads (l : list {X & wireR X}) (s : creader * B) : outcome (creader * B) unit :=
  match l with
  | [] => Done s tt
  | existT _ X e :: r => obind (over cmp_reader h X e s) (fun s' _ => do_reads r s')
  end.

Lemma do_reads_app l m s : do_reads (l ++ m) s = obind (do_reads l s) (fun s' _ => do_reads m s').
Proof.
  revert s. induction l as [|[X e] l IH]; intros s; cbn [app do_reads obind]; [reflexivity|].
  destruct (over cmp_reader h X e s) as [s' x|c]; cbn [obind]; auto.
Qed.

Lemma balanced_reads l : balanced_r l -> forall s s',
  do_reads l s = Done s' tt -> cr_ids (fst s') = cr_ids (fst s).
Proof.
  induction 1 as [|X e l Hn Hl IH|l m Hl IHl Hm IHm]; intros [st b] s' H.
  - cbn in H. injection H as <-. reflexivity.
  - cbn [do_reads] in H. destruct (over cmp_reader h X e (st, b)) as [[st1 b1] x|c] eqn:E; [|discriminate].
    cbn [obind] in H. apply IH in H. rewrite H. apply cmp_reader_state in E. cbn [fst].
    destruct e; first [exact E | exfalso; apply Hn; exact I].
  - cbn [do_reads] in H. destruct (over cmp_reader h _ RStructBegin (st, b)) as [[st1 b1] x|c] eqn:E; [|discriminate].
    cbn [obind] in H. apply cmp_reader_state in E. rewrite do_reads_app in H.
    destruct (do_reads l (st1, b1)) as [[st2 b2] []|c] eqn:E2; [|discriminate]. cbn [obind do_reads] in H.
    apply IHl in E2. cbn [fst] in *.
    destruct (over cmp_reader h _ RStructEnd (st2, b2)) as [[st3 b3] y|c] eqn:E3; [|discriminate].
    cbn [obind] in H. apply IHm in H. rewrite H. apply cmp_reader_state in E3. rewrite E2, E in E3.
    cbn [fst]. tauto.
Qed.

Theorem nested_reads l s s' : balanced_r l ->
  do_reads (existT _ _ RStructBegin :: l ++ [existT _ _ RStructEnd]) s = Done s' tt ->
  cr_ids (fst s') = cr_ids (fst s) /\ cr_last (fst s') = cr_last (fst s).
Proof.
  intros Hl H. destruct s as [st b]. cbn [do_reads] in H.
  destruct (over cmp_reader h _ RStructBegin (st, b)) as [[st1 b1] x|c] eqn:E; [|discriminate].
  cbn [obind] in H. apply cmp_reader_state in E. rewrite do_reads_app in H.
  destruct (do_reads l (st1, b1)) as [[st2 b2] []|c] eqn:E2; [|discriminate]. cbn [obind do_reads] in H.
  apply (balanced_reads _ Hl) in E2. cbn [fst] in *.
  destruct (over cmp_reader h _ RStructEnd (st2, b2)) as [[st3 b3] y|c] eqn:E3; [|discriminate].
  cbn [obind] in H. injection H as <-. apply cmp_reader_state in E3. rewrite E2, E in E3. exact E3.
Qed.

Lemma unmatched_read_end st b : cr_ids st = [] ->
  over cmp_reader h _ RStructEnd (st, b) = Done (st, b) (Some EReadStructEnd).
Proof. intros H. unfold over. cbn [fst snd]. unfold cmp_reader, cmp_reader_gen. now rewrite H. Qed.
End Nesting.

Section NestingW.
Context {B : Type} (h : handler bufW B).

Lemma field_header_state st hd b0 b st' b' x :
  run h (cmp_write_field_header st hd b0) b = Done b' (st', x) -> cw_ids st' = cw_ids st.
Proof.
  unfold cmp_write_field_header. rewrite run_bind.
  destruct (run h (append_write _ _) b) as [b1 [e|]|c]; cbn [obind run]; try discriminate;
  intros H; injection H as _ <- _; reflexivity.
Qed.

Lemma cmp_writer_state X (e : wireW X) st b st' b' x :
  over cmp_writer h X e (st, b) = Done (st', b') x ->
  match e with
  | WStructBegin _ => cw_ids st' = cw_last st :: cw_ids st
  | WStructEnd =>
      match cw_ids st with
      | [] => st' = st
      | id :: ids => cw_ids st' = ids /\ cw_last st' = id
      end
  | _ => cw_ids st' = cw_ids st
  end.
Proof.
  unfold over. cbn [fst snd]. unfold cmp_writer.
  assert (HL : forall Y (p : prog bufW Y) s1 s2 y,
    match run h (liftw s1 p) b with Done b0 (s0, x0) => Done (s0, b0) x0 | Crashed c => Crashed c end
      = Done (s2, b') y -> s2 = s1).
  { intros Y p s1 s2 y. unfold liftw. rewrite run_bind. destruct (run h p b) as [b1 y1|c]; cbn [obind run];
      [|discriminate]. intros H. injection H as <- _ _. reflexivity. }
  destruct e; try (intros H; apply HL in H; subst; reflexivity);
    try (cbn [run]; intros H; injection H as <- _ _; reflexivity).
  - destruct (cw_ids st) as [|id ids] eqn:E.
    + cbn [run]; intros H; injection H as <- _ _; auto.
    + intros H. apply HL in H. subst. auto.
  - destruct (fh_type h0 =? T_Bool).
    + cbn [run]; intros H; injection H as <- _ _; auto.
    + destruct (run h (cmp_write_field_header st h0 false) b) as [b1 [s1 y]|c] eqn:E; [|discriminate].
      intros H; injection H as <- _ _. eapply field_header_state; eauto.
  - destruct (negb (fh_type (cw_bool st) =? T_Stop)).
    + rewrite run_bind. destruct (run h (cmp_write_field_header st (cw_bool st) v) b) as [b1 [s1 y]|c] eqn:E;
        cbn [obind]; [|discriminate]. apply field_header_state in E.
      destruct y; cbn [run]; intros H; injection H as <- _ _; exact E.
    + intros H. apply HL in H. now subst.
Qed.

Fixpoint do_writes (l : list {X & wireW X}) (s : cwriter * B) : outcome (cwriter * B) unit :=
  match l with
  | [] => Done s tt
  | existT _ X e :: r => obind (over cmp_writer h X e s) (fun s' _ => do_writes r s')
  end.

Lemma do_writes_app l m s : do_writes (l ++ m) s = obind (do_writes l s) (fun s' _ => do_writes m s').
Proof.
  revert s. induction l as [|[X e] l IH]; intros s; cbn [app do_writes obind]; [reflexivity|].
  destruct (over cmp_writer h X e s) as [s' x|c]; cbn [obind]; auto.
Qed.

Lemma balanced_writes l : balanced_w l -> forall s s',
  do_writes l s = Done s' tt -> cw_ids (fst s') = cw_ids (fst s).
Proof.
  induction 1 as [|X e l Hn Hl IH|nm l m Hl IHl Hm IHm]; intros [st b] s' H.
  - cbn in H. injection H as <-. reflexivity.
  - cbn [do_writes] in H. destruct (over cmp_writer h X e (st, b)) as [[st1 b1] x|c] eqn:E; [|discriminate].
    cbn [obind] in H. apply IH in H. rewrite H. apply cmp_writer_state in E. cbn [fst].
    destruct e; first [exact E | exfalso; apply Hn; exact I].
  - cbn [do_writes] in H. destruct (over cmp_writer h _ (WStructBegin nm) (st, b)) as [[st1 b1] x|c] eqn:E; [|discriminate].
    cbn [obind] in H. apply cmp_writer_state in E. rewrite do_writes_app in H.
    destruct (do_writes l (st1, b1)) as [[st2 b2] []|c] eqn:E2; [|discriminate]. cbn [obind do_writes] in H.
    apply IHl in E2. cbn [fst] in *.
    destruct (over cmp_writer h _ WStructEnd (st2, b2)) as [[st3 b3] y|c] eqn:E3; [|discriminate].
    cbn [obind] in H. apply IHm in H. rewrite H. apply cmp_writer_state in E3. rewrite E2, E in E3.
    cbn [fst]. tauto.
Qed.

Theorem nested_writes nm l s s' : balanced_w l ->
  do_writes (existT _ _ (WStructBegin nm) :: l ++ [existT _ _ WStructEnd]) s = Done s' tt ->
  cw_ids (fst s') = cw_ids (fst s) /\ cw_last (fst s') = cw_last (fst s).
Proof.
  intros Hl H. destruct s as [st b]. cbn [do_writes] in H.
  destruct (over cmp_writer h _ (WStructBegin nm) (st, b)) as [[st1 b1] x|c] eqn:E; [|discriminate].
  cbn [obind] in H. apply cmp_writer_state in E. rewrite do_writes_app in H.
  destruct (do_writes l (st1, b1)) as [[st2 b2] []|c] eqn:E2; [|discriminate]. cbn [obind do_writes] in H.
  apply (balanced_writes _ Hl) in E2. cbn [fst] in *.
  destruct (over cmp_writer h _ WStructEnd (st2, b2)) as [[st3 b3] y|c] eqn:E3; [|discriminate].
  cbn [obind] in H. injection H as <-. apply cmp_writer_state in E3. rewrite E2, E in E3. exact E3.
Qed.

Lemma unmatched_write_end st b : cw_ids st = [] ->
  over cmp_writer h _ WStructEnd (st, b) = Done (st, b) (Some EWriteStructEnd).
Proof. intros H. unfold over. cbn [fst snd]. unfold cmp_writer. now rewrite H. Qed.
End NestingW.

(** ** Types *)
Lemma type_compact_bad t : ~ In t value_types -> type_compact t = (C_STOP, Some (EInvalidType t)).
Proof.
  intros H. unfold type_compact. destruct (kind_of t) as [k|] eqn:E; [|reflexivity].
  exfalso. apply H. apply kind_of_some in E. subst. destruct k; cbn; tauto.
Qed.

Lemma kind_of_bad t : ~ In t value_types -> kind_of t = None.
Proof.
  intros H. destruct (kind_of t) as [k|] eqn:E; [|reflexivity].
  exfalso. apply H. apply kind_of_some in E. subst. destruct k; cbn; tauto.
Qed.

Lemma skip_bad {S} (h : handler wireR S) fuel t s : ~ In t value_types ->
  run h (skip (Datatypes.S fuel) t) s = Done s (Some (EInvalidType t)).
Proof. intros H. cbn [skip]. rewrite kind_of_bad by exact H. reflexivity. Qed.

Lemma compact_wire_bad t : 0 <= t < 16 -> (snd (compact_wire t) = None <-> t < 14).
Proof.
  intros H. assert (In t [0;1;2;3;4;5;6;7;8;9;10;11;12;13;14;15]) as Hin by (cbn; lia).
  cbn in Hin. intuition (subst; cbn; try lia; try congruence; discriminate).
Qed.
