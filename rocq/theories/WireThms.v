(** Glue between the lemmas on messages, headers and faulty transports and the
    property statements. *)
From Verif Require Import Base BaseLemmas Prog Bufio BufioProof BufioW BufioWProof GoBinary GoBinaryProof
  Wire WireProof Spec Clients Reads Binary BinaryProof Compact CompactProof Layers RoundTrip EndToEnd
  Messages Fragment Codec Ideal Faults.

(** ** Messages *)
Theorem bin_message_trip wsize rsize sw sr s name t id :
  0 < wsize -> 8 <= rsize -> ok_sink s -> received s = [] ->
  is_u8 t -> is_i32 id -> zlen name < 2 ^ 31 -> (sr = true -> sw = true) ->
  exists b,
    run (over (bin_writer sw) (bufw_h wsize)) (call (WMessageBegin (mkMH name t id)) >>! call WFlush)
        (tt, new_bwriter s) = Done (tt, b) None /\
    received (wsink b) = (if sw then binary_message_strict name t id else binary_message_old name t id) /\
    forall src rest, good_source src -> src_bytes src = received (wsink b) ++ rest ->
      exists b', run (over (bin_reader sr) (bufio_h rsize)) (call RMessageBegin) (tt, new_breader src)
                 = Done (tt, b') (mkMH name t id, None) /\
        binv rsize b' /\ abs b' = mkStream rest (src_fin src).
Proof.
  intros Hw Hr Hs Hs0 Ht Hid Hn Hst.
  destruct (bin_write_any wsize sw s (call (WMessageBegin (mkMH name t id))) (bin_message sw name t id) Hw Hs
              (bin_message_written sw name t id _ Ht)) as (b & E & Er).
  rewrite Hs0 in Er. cbn [app] in Er. exists b. conj; auto.
  intros src rest Hg Hb. rewrite Er in Hb. apply bin_read_any; [lia|apply binv_new; [lia|auto]|].
  rewrite abs_new, Hb. apply bin_message_read; auto.
Qed.


Theorem bin_old_rejected size name t id b rest :
  8 <= size -> binv size b -> zlen name < 2 ^ 31 ->
  sdata (abs b) = binary_message_old name t id ++ rest ->
  exists b', run (over (bin_reader true) (bufio_h size)) (call RMessageBegin) (tt, b)
             = Done (tt, b') (mh0, Some EBinMissingVersion).
Proof.
  intros Hs Hb Hn Hd. pose proof (zlen_nonneg name).
  destruct (bin_read_any size true (call RMessageBegin) b (mh0, Some EBinMissingVersion)
              (mkStream (name ++ [z2b t] ++ big_endian 4 id ++ rest) (sfin (abs b)))) as (b' & E & _); eauto; try lia.
  replace (abs b) with (mkStream (sdata (abs b)) (sfin (abs b))) by reflexivity. rewrite Hd.
  unfold binary_message_old. cbn [sfin]. rewrite <- !app_assoc. rewrite <- be4.
  change (be_bytes 4 (u32 (zlen name))) with
    [z2b (Z.shiftr (u32 (zlen name)) 24); z2b (Z.shiftr (u32 (zlen name)) 16);
     z2b (Z.shiftr (u32 (zlen name)) 8); z2b (Z.shiftr (u32 (zlen name)) 0)].
  apply bin_message_strict_rejects; [lia|].
  rewrite b2z_z2b, Z.shiftr_div_pow2 by lia. unfold u32. change (2 ^ 24) with 16777216. lia.
Qed.

Theorem bin_version_rejected size strict b b0 b1 b2 b3 rest :
  8 <= size -> binv size b -> 128 <= b2z b0 -> ~ (b0 = x80 /\ b1 = x01) ->
  sdata (abs b) = [b0; b1; b2; b3] ++ rest ->
  exists b', run (over (bin_reader strict) (bufio_h size)) (call RMessageBegin) (tt, b)
             = Done (tt, b') (mh0, Some (EBinBadVersion ((256 * b2z b0 + b2z b1) * 2 ^ 16))).
Proof.
  intros Hs Hb H0 H1 Hd.
  destruct (bin_read_any size strict (call RMessageBegin) b
              (mh0, Some (EBinBadVersion ((256 * b2z b0 + b2z b1) * 2 ^ 16)))
              (mkStream rest (sfin (abs b)))) as (b' & E & _); eauto; try lia.
  replace (abs b) with (mkStream (sdata (abs b)) (sfin (abs b))) by reflexivity. rewrite Hd.
  apply bin_message_version_rejects; auto; lia.
Qed.

Theorem cmp_message_trip wsize rsize s name t id :
  0 < wsize -> 10 <= rsize -> ok_sink s -> received s = [] ->
  is_u8 t -> is_i32 id -> zlen name < 2 ^ 63 ->
  exists b,
    run (over cmp_writer (bufw_h wsize)) (call (WMessageBegin (mkMH name t id)) >>! call WFlush)
        (cw0, new_bwriter s) = Done (cw0, b) None /\
    (0 <= id -> compact_message name t id (received (wsink b))) /\
    forall src rest st, good_source src -> src_bytes src = received (wsink b) ++ rest ->
      (src_fin src = FSilent -> 9 <= zlen rest) ->
      exists b', run (over cmp_reader (bufio_h rsize)) (call RMessageBegin) (st, new_breader src)
                 = Done (st, b') (mkMH name (t mod 8) id, None) /\
        binv rsize b' /\ abs b' = mkStream rest (src_fin src).
Proof.
  intros Hw Hr Hs Hs0 Ht Hid Hn.
  destruct (cmp_write_any wsize s cw0 cw0 (call (WMessageBegin (mkMH name t id))) (cmp_message name t id) Hw Hs
              (cmp_message_written name t id _ _)) as (b & E & Er).
  rewrite Hs0 in Er. cbn [app] in Er. exists b. conj; auto.
  - intros H0. rewrite Er. apply cmp_message_conforms; auto. unfold is_i32 in Hid. lia.
  - intros src rest st Hg Hb Hq. rewrite Er in Hb. apply cmp_read_any; [lia|apply binv_new; [lia|auto]|].
    rewrite abs_new, Hb. apply cmp_message_read; auto.
Qed.

Theorem cmp_message_rejected size b b0 b1 rest st :
  0 < size -> binv size b -> sdata (abs b) = b0 :: b1 :: rest ->
  b0 <> x82 \/ b2z b1 mod 32 <> 1 ->
  exists b' e, run (over cmp_reader (bufio_h size)) (call RMessageBegin) (st, b)
             = Done (st, b') (mh0, Some e) /\
    (b0 <> x82 -> e = ECmpBadProtocol (b2z b0)) /\
    (b0 = x82 -> e = ECmpBadVersion (b2z b1 mod 32)).
Proof.
  intros Hs Hb Hd H.
  assert (Ea : abs b = mkStream (b0 :: b1 :: rest) (sfin (abs b))) by (rewrite <- Hd; reflexivity).
  destruct (Z.eq_dec (b2z b0) (b2z x82)) as [E|E].
  - apply b2z_inj in E. subst. destruct H as [H|H]; [congruence|].
    destruct (cmp_read_any size (call RMessageBegin) st st b (mh0, Some (ECmpBadVersion (b2z b1 mod 32)))
                (mkStream rest (sfin (abs b))) Hs Hb) as (b' & E' & _).
    { rewrite Ea. now apply cmp_message_version_rejects. }
    exists b'. eexists. conj; [exact E'|congruence|auto].
  - assert (Hne : b0 <> x82) by congruence.
    destruct (cmp_read_any size (call RMessageBegin) st st b (mh0, Some (ECmpBadProtocol (b2z b0)))
                (mkStream (b1 :: rest) (sfin (abs b))) Hs Hb) as (b' & E' & _).
    { rewrite Ea. now apply cmp_message_protocol_rejects. }
    exists b'. eexists. conj; [exact E'|auto|congruence].
Qed.

(** ** Faults *)
Section Faulty.
Variable size : Z.
Hypothesis Hsize : 0 < size.
Variable s : sink.

Section L.
Context {St : Type} (L : layer wireW bufW St).
Hypothesis HL : forall X (e : wireW X) st, crash_free (L X e st).
Variable st0 : St.

Theorem faults_prefix l :
  exists st b xs st' i ys,
    do_calls (over L (bufw_h size)) l (st0, new_bwriter s) = Done (st, b) xs /\
    do_calls (over L ideal_h) l (st0, ideal_of s) = Done (st', i) ys /\
    exists rest, received (wsink b) ++ rest = received s ++ i_bytes i.
Proof.
  destruct (calls_sim size Hsize s L HL l st0 (new_bwriter s) (ideal_of s) (sim_new size Hsize s) eq_refl)
    as (st & b & xs & st' & i & ys & E1 & E2 & _ & Hp & _). do 6 eexists. conj; eauto.
Qed.

Lemma faults_ok l st b xs : do_calls (over L (bufw_h size)) l (st0, new_bwriter s) = Done (st, b) xs ->
  (exists m, winv size b m) /\
  (werr b = None -> exists i, do_calls (over L ideal_h) l (st0, ideal_of s) = Done (st, i) xs /\
     winv size b (received s ++ i_bytes i) /\ s_flusher (wsink b) = i_flusher i).
Proof.
  intros E.
  destruct (calls_sim size Hsize s L HL l st0 (new_bwriter s) (ideal_of s) (sim_new size Hsize s) eq_refl)
    as (st1 & b1 & xs1 & st' & i & ys & E1 & E2 & Hw & _ & _ & Hn).
  rewrite E in E1. injection E1 as <- <- <-. split; [exact Hw|]. intros He. destruct (Hn He) as (<- & <- & Hs & Hf & _).
  exists i. auto.
Qed.

Lemma faults_werr l st b xs st' i ys :
  do_calls (over L (bufw_h size)) l (st0, new_bwriter s) = Done (st, b) xs ->
  do_calls (over L ideal_h) l (st0, ideal_of s) = Done (st', i) ys ->
  xs <> ys -> exists er, werr b = Some er.
Proof.
  intros E1 E2 Hne. destruct (werr b) as [er|] eqn:He; [eauto|].
  destruct (faults_ok l st b xs E1) as [_ H]. destruct (H He) as (i' & E3 & _).
  rewrite E2 in E3. injection E3 as _ _ E3. exfalso. apply Hne. congruence.
Qed.
End L.

Lemma ideal_flusher_step X (e : bufW X) i i' x : ideal_h X e i = Done i' x -> i_flusher i' = i_flusher i.
Proof.
  destruct e; cbn [ideal_h]; intros H; try (injection H as <- _; reflexivity).
  destruct (i_flusher i) eqn:E; injection H as <- _; [reflexivity|exact E].
Qed.
Lemma ideal_flusher {A} (p : prog bufW A) : forall i i' x, run ideal_h p i = Done i' x -> i_flusher i' = i_flusher i.
Proof.
  induction p as [a|X e k IH|c]; intros i i' x H; cbn [run] in H; [injection H as <- _; reflexivity| |discriminate].
  destruct (ideal_h X e i) as [i1 x1|] eqn:E; [|discriminate].
  apply ideal_flusher_step in E. apply IH in H. congruence.
Qed.
Lemma calls_flusher {St} (L : layer wireW bufW St) l : forall st i st' i' xs,
  do_calls (over L ideal_h) l (st, i) = Done (st', i') xs -> i_flusher i' = i_flusher i.
Proof.
  induction l as [|[X e] l IH]; intros st i st' i' xs H; cbn [do_calls] in H.
  - injection H as _ <- _. reflexivity.
  - unfold over at 1 in H. cbn [fst snd] in H.
    destruct (run ideal_h (L X e st) i) as [i1 [st1 x1]|] eqn:E; cbn [obind] in H; [|discriminate].
    destruct (do_calls (over L ideal_h) l (st1, i1)) as [[st2 i2] ys|] eqn:E2; cbn [obind] in H; [|discriminate].
    injection H as <- <- _. apply IH in E2. apply ideal_flusher in E. congruence.
Qed.

Theorem bin_flush_delivers strict l st b xs st' b' :
  do_calls (over (bin_writer strict) (bufw_h size)) l (tt, new_bwriter s) = Done (st, b) xs ->
  over (bin_writer strict) (bufw_h size) _ WFlush (st, b) = Done (st', b') None ->
  exists i, do_calls (over (bin_writer strict) ideal_h) l (tt, ideal_of s) = Done (st, i) xs /\
    received (wsink b') = received s ++ i_bytes i /\
    (s_flusher s = true -> exists log, s_log (wsink b') = log ++ [SFlush]).
Proof.
  intros E F. destruct (faults_ok _ (bin_writer_cf strict) tt l st b xs E) as ((m & Hm) & Hn).
  destruct (bin_good_flush size strict Hsize st b m st' b' Hm F) as (He & _).
  destruct (Hn He) as (i & Ei & Hw & Hf).
  destruct (bin_good_flush size strict Hsize st b _ st' b' Hw F) as (_ & Hr & Hlog).
  exists i. conj; auto. intros Hsf. apply Hlog. rewrite Hf.
  apply calls_flusher in Ei. rewrite Ei. exact Hsf.
Qed.

Lemma cmp_uw_step {B} (h : handler bufW B) X (e : wireW X) st b st' b' x :
  over cmp_writer h X e (st, b) = Done (st', b') x -> cw_uw st' = cw_uw st.
Proof.
  assert (HF : forall st hd v b b' st' x, run h (cmp_write_field_header st hd v) b = Done b' (st', x) -> cw_uw st' = cw_uw st).
  { intros st1 hd v b1 b1' st1' x1. unfold cmp_write_field_header. rewrite run_bind.
    destruct (run h _ b1) as [b2 [e2|]|]; cbn [obind run]; intros H; try discriminate; injection H as _ <- _; reflexivity. }
  unfold over. cbn [fst snd]. unfold cmp_writer.
  destruct e; unfold liftw; rewrite ?run_bind;
  try (match goal with |- context [run h ?p b] => destruct (run h p b) as [b1 x1|]; cbn [obind run] end;
       intros H; try discriminate; injection H as <- _ _; reflexivity);
  try (cbn [run]; intros H; injection H as <- _ _; reflexivity).
  - destruct (cw_ids st); rewrite ?run_bind; [|destruct (run h _ b) as [b1 x1|]]; cbn [obind run]; intros H;
      try discriminate; injection H as <- _ _; reflexivity.
  - destruct (fh_type h0 =? T_Bool).
    + cbn [run]. intros H; injection H as <- _ _; reflexivity.
    + destruct (run h (cmp_write_field_header st h0 false) b) as [b1 [st1 x1]|] eqn:E; [|discriminate].
      intros H; injection H as <- _ _. now apply HF in E.
  - destruct (negb _).
    + rewrite run_bind.
      destruct (run h (cmp_write_field_header st (cw_bool st) v) b) as [b1 [st1 [x1|]]|] eqn:E; cbn [obind run]; [| |discriminate];
        intros H; injection H as <- _ _; apply HF in E; exact E.
    + rewrite run_bind. destruct (run h _ b); cbn [obind run]; [|discriminate]. intros H; injection H as <- _ _; reflexivity.
Qed.

Lemma cmp_uw_calls {B} (h : handler bufW B) l : forall st b st' b' xs,
  do_calls (over cmp_writer h) l (st, b) = Done (st', b') xs -> cw_uw st' = cw_uw st.
Proof.
  induction l as [|[X e] l IH]; intros st b st' b' xs H; cbn [do_calls] in H.
  - injection H as <- _ _. reflexivity.
  - destruct (over cmp_writer h X e (st, b)) as [[st1 b1] x1|] eqn:E; cbn [obind] in H; [|discriminate].
    destruct (do_calls (over cmp_writer h) l (st1, b1)) as [[st2 b2] ys|] eqn:E2; cbn [obind] in H; [|discriminate].
    injection H as <- <- _. apply IH in E2. apply cmp_uw_step in E. congruence.
Qed.

Theorem cmp_flush_delivers l st0 st b xs st' b' :
  do_calls (over cmp_writer (bufw_h size)) l (st0, new_bwriter s) = Done (st, b) xs ->
  over cmp_writer (bufw_h size) _ WFlush (st, b) = Done (st', b') None ->
  exists i, do_calls (over cmp_writer ideal_h) l (st0, ideal_of s) = Done (st, i) xs /\
    received (wsink b') = received s ++ i_bytes i /\
    (cw_uw st0 = true -> s_flusher s = true -> exists log, s_log (wsink b') = log ++ [SFlush]).
Proof.
  intros E F. destruct (faults_ok _ cmp_writer_cf st0 l st b xs E) as ((m & Hm) & Hn).
  destruct (cmp_good_flush size st b m st' b' Hsize Hm F) as (He & _).
  destruct (Hn He) as (i & Ei & Hw & Hf).
  destruct (cmp_good_flush size st b _ st' b' Hsize Hw F) as (_ & Hr & Hlog).
  exists i. conj; auto. intros Hu Hsf. apply Hlog.
  - apply cmp_uw_calls in Ei. congruence.
  - rewrite Hf. apply calls_flusher in Ei. rewrite Ei. exact Hsf.
Qed.

Theorem bin_fault_sticky strict l st b xs st' i ys :
  do_calls (over (bin_writer strict) (bufw_h size)) l (tt, new_bwriter s) = Done (st, b) xs ->
  do_calls (over (bin_writer strict) ideal_h) l (tt, ideal_of s) = Done (st', i) ys ->
  xs <> ys ->
  forall X (e : wireW X), exists st1 x, over (bin_writer strict) (bufw_h size) X e (st, b) = Done (st1, b) x /\
    (errW e x <> None \/
     wc e <> wc WFlush /\
     forall i st2 i2 y, over (bin_writer strict) ideal_h X e (st, i) = Done (st2, i2) y -> i_bytes i2 = i_bytes i).
Proof.
  intros E1 E2 Hne X e. destruct (faults_werr _ (bin_writer_cf strict) tt l _ _ _ _ _ _ E1 E2 Hne) as [er He].
  exact (bin_reports size b er He strict X e st).
Qed.

Theorem cmp_fault_sticky l st0 st b xs st' i ys :
  do_calls (over cmp_writer (bufw_h size)) l (st0, new_bwriter s) = Done (st, b) xs ->
  do_calls (over cmp_writer ideal_h) l (st0, ideal_of s) = Done (st', i) ys ->
  xs <> ys ->
  forall X (e : wireW X), exists st1 x, over cmp_writer (bufw_h size) X e (st, b) = Done (st1, b) x /\
    (errW e x <> None \/
     wc e <> wc WFlush /\
     forall i st2 i2 y, over cmp_writer ideal_h X e (st, i) = Done (st2, i2) y -> i_bytes i2 = i_bytes i).
Proof.
  intros E1 E2 Hne X e. destruct (faults_werr _ cmp_writer_cf st0 l _ _ _ _ _ _ E1 E2 Hne) as [er He].
  exact (cmp_reports size b er He X e st).
Qed.
End Faulty.

(** ** Unknown types *)
(** What a program of Writer calls gives on a working io.Writer, followed by Flush. *)
Theorem cmp_any_then_flush {A} size s st st' (p : prog wireW A) a m :
  0 < size -> ok_sink s ->
  run (over cmp_writer mem_h) p (st, received s) = Done (st', m) a ->
  exists b, run (over cmp_writer (bufw_h size)) (x <- p ;; e <- call WFlush ;; Ret (x, e)) (st, new_bwriter s)
              = Done (st', b) (a, None) /\ received (wsink b) = m.
Proof.
  intros Hp Hs E.
  rewrite run_bind. pose proof (layer_refines_mem size Hp cmp_writer p st
                (new_bwriter s) (received s) (wok_new size Hp s Hs)) as H.
  rewrite E in H.
  destruct (run (over cmp_writer (bufw_h size)) p (st, new_bwriter s)) as [[st1 b] x|c]; [|contradiction].
  destruct H as (-> & -> & Hw). cbn [obind]. rewrite run_bind.
  destruct (cmp_flush_ok size Hp st' b _ Hw) as (b' & E' & Hr & _). rewrite E'. cbn [obind run]. eauto.
Qed.

(** The calls that announce a value of type [t]. *)
Inductive announces (t : Z) : wireW (option err) -> Prop :=
| an_field nm id : announces t (WFieldBegin (mkFH nm t id))
| an_key v n : 0 < n -> announces t (WMapBegin (mkMapH t v n))
| an_val k n : 0 < n -> In k value_types -> announces t (WMapBegin (mkMapH k t n))
| an_set n : announces t (WSetBegin (mkSetH t n))
| an_list n : announces t (WListBegin (mkSetH t n)).

Theorem cmp_writer_refuses t c size s st : ~ In t value_types -> announces t c ->
  0 < size -> ok_sink s ->
  exists b, run (over cmp_writer (bufw_h size)) (x <- call c ;; e <- call WFlush ;; Ret (x, e)) (st, new_bwriter s)
              = Done (st, b) (Some (EInvalidType t), None) /\ received (wsink b) = received s.
Proof.
  intros Ht Hc Hs Hok. apply cmp_any_then_flush; auto. pose proof (type_compact_bad t Ht) as Hb.
  assert (HA : forall max r (st : cwriter), snd r = Some (EInvalidType t) ->
    run mem_h (append_write max r) (received s) = Done (received s) (Some (EInvalidType t))).
  { intros max r st0 Hr. unfold append_write. rewrite run_and_then, run_call. cbn [mem_h obind]. rewrite Hr. reflexivity. }
  rewrite run_call. unfold over. cbn [fst snd]. unfold cmp_writer.
  destruct Hc as [nm id|v n Hn|k n Hn Hk|n|n]; unfold liftw; rewrite ?run_bind.
  - cbn [fh_type]. destruct (Z.eqb_spec t T_Bool) as [->|Hb2]; [exfalso; apply Ht; cbn; tauto|].
    unfold cmp_write_field_header. rewrite run_bind, HA; auto.
    unfold append_field_header. cbn [fh_type]. destruct (Z.eqb_spec t T_Bool); [contradiction|]. rewrite Hb. reflexivity.
  - rewrite HA; auto. unfold append_map_header. cbn [map_size map_key].
    destruct (Z.leb_spec n 0); [lia|]. rewrite Hb. reflexivity.
  - rewrite HA; auto. unfold append_map_header. cbn [map_size map_key map_val].
    destruct (Z.leb_spec n 0); [lia|]. rewrite Hb.
    destruct (type_compact k) as [k' e] eqn:E.
    assert (e = None) as ->; [|reflexivity].
    change e with (snd (k', e)). rewrite <- E.
    cbn in Hk; intuition (subst; reflexivity).
  - rewrite HA; auto. unfold append_set_header. cbn [set_elem]. rewrite Hb. reflexivity.
  - rewrite HA; auto. unfold append_set_header. cbn [set_elem]. rewrite Hb. reflexivity.
Qed.

(** Header bytes with an unassigned type nibble. *)
Lemma compact_wire_refuses t : 14 <= t < 16 -> snd (compact_wire t) = Some (EInvalidCompactType t).
Proof. intros H. assert (t = 14 \/ t = 15) as [-> | ->] by lia; reflexivity. Qed.

Lemma land15 b : Z.land (b2z b) 15 = b2z b mod 16.
Proof. change 15 with (Z.ones 4). rewrite Z.land_ones by lia. reflexivity. Qed.

Theorem cmp_reader_refuses size b c rest st :
  0 < size -> binv size b -> sdata (abs b) = c :: rest -> 14 <= b2z c mod 16 ->
  (exists b' h, run (over cmp_reader (bufio_h size)) (call RFieldBegin) (st, b)
              = Done (st, b') (h, Some (EInvalidCompactType (b2z c mod 16)))) /\
  (exists b' h, run (over cmp_reader (bufio_h size)) (call RSetBegin) (st, b)
              = Done (st, b') (h, Some (EInvalidCompactType (b2z c mod 16)))) /\
  (exists b' h, run (over cmp_reader (bufio_h size)) (call RListBegin) (st, b)
              = Done (st, b') (h, Some (EInvalidCompactType (b2z c mod 16)))).
Proof.
  intros Hs Hb Hd Hc.
  assert (Ea : abs b = mkStream (c :: rest) (sfin (abs b))) by (rewrite <- Hd; reflexivity).
  assert (Hm : 14 <= b2z c mod 16 < 16) by (pose proof (Z.mod_pos_bound (b2z c) 16); lia).
  pose proof (compact_wire_refuses _ Hm) as Hw. destruct (compact_wire (b2z c mod 16)) as [ty oe] eqn:Ew.
  cbn [snd] in Hw. subst oe.
  conj; [destruct (cmp_read_any size (call RFieldBegin) st st b
            (mkFH [] ty 0, Some (EInvalidCompactType (b2z c mod 16))) (mkStream rest (sfin (abs b))) Hs Hb) as (b' & E & _)
        |destruct (cmp_read_any size (call RSetBegin) st st b
            (mkSetH ty 0, Some (EInvalidCompactType (b2z c mod 16))) (mkStream rest (sfin (abs b))) Hs Hb) as (b' & E & _)
        |destruct (cmp_read_any size (call RListBegin) st st b
            (mkSetH ty 0, Some (EInvalidCompactType (b2z c mod 16))) (mkStream rest (sfin (abs b))) Hs Hb) as (b' & E & _)];
    eauto;
  rewrite Ea, run_call; unfold over; cbn [fst snd]; unfold cmp_reader, cmp_reader_gen, lift, cmp_read_set_begin, cmp_read_field_begin;
  rewrite ?run_bind, ?run_call; cbn [stream_h sdata sfin obind]; rewrite land15, Ew; reflexivity.
Qed.

Theorem cmp_reader_refuses_map size b n h c rest st :
  0 < size -> binv size b -> uleb128 n h -> 0 < n < 2 ^ 63 -> sdata (abs b) = h ++ c :: rest ->
  14 <= b2z c / 16 \/ 14 <= b2z c mod 16 ->
  exists b' x e, run (over cmp_reader (bufio_h size)) (call RMapBegin) (st, b) = Done (st, b') (x, Some e).
Proof.
  intros Hs Hb Hn Hr Hd Hc.
  assert (Ea : abs b = mkStream (h ++ c :: rest) (sfin (abs b))) by (rewrite <- Hd; reflexivity).
  pose proof (b2z_range c).
  assert (H1 : 14 <= b2z c / 16 -> exists e, snd (compact_wire (b2z c / 16)) = Some e)
    by (intros; eexists; apply compact_wire_refuses; lia).
  assert (H2 : 14 <= b2z c mod 16 -> exists e, snd (compact_wire (b2z c mod 16)) = Some e)
    by (intros; eexists; apply compact_wire_refuses; lia).
  assert (exists x e, run (over cmp_reader (stream_h size)) (call RMapBegin) (st, abs b)
             = Done (st, mkStream rest (sfin (abs b))) (x, Some e)) as (x & e & E).
  { rewrite Ea, run_call. unfold over. cbn [fst snd sfin]. unfold cmp_reader, cmp_reader_gen, lift, cmp_read_map_begin, cmp_hdr_size.
    assert (Hl : leb_value h n) by (now apply uleb128_value).
    assert (Hlen : zlen h <= 10).
    { replace h with (put_uvarint n) by (eapply uleb128_fun; eauto; apply put_uvarint_spec; unfold is_u64; lia).
      apply put_uvarint_len. }
    rewrite !run_bind. rewrite (read_uvarint_value size h n) by (auto; lia).
    cbn [obind run]. replace (i64 n) with n by (unfold i64; lia). destruct (Z.eqb_spec n 0); [lia|]. cbn [negb is_none orb].
    rewrite run_bind, run_call. cbn [stream_h sdata sfin obind]. rewrite land15, Z.shiftr_div_pow2 by lia. change (2 ^ 4) with 16.
    destruct (compact_wire (b2z c / 16)) as [k ek] eqn:E1. destruct ek as [ek|].
    - cbn [run obind]. eauto.
    - destruct (compact_wire (b2z c mod 16)) as [v ev] eqn:E2. destruct ev as [ev|].
      + cbn [run obind]. eauto.
      + cbn [snd] in *. destruct Hc as [Hc|Hc]; [destruct (H1 Hc)|destruct (H2 Hc)]; discriminate. }
  destruct (cmp_read_any size _ st st b _ _ Hs Hb E) as (b' & E' & _). eauto.
Qed.

(** ** Varints through the buffered reader *)
Lemma bufio_tw_uvarint size b d e : 10 <= size -> binv size b -> abs b = mkStream d (FErr e) ->
  seen (run (bufio_h size) tw_read_uvarint b) = run (stream_h size) read_uvarint (mkStream d (FErr e)).
Proof.
  intros Hs Hb Ha. rewrite bufio_seen by (auto using tw_read_uvarint_fok; lia).
  rewrite Ha. apply tw_read_uvarint_drop_in; lia.
Qed.
Lemma bufio_tw_varint size b d e : 10 <= size -> binv size b -> abs b = mkStream d (FErr e) ->
  seen (run (bufio_h size) tw_read_varint b) = run (stream_h size) read_varint (mkStream d (FErr e)).
Proof.
  intros Hs Hb Ha. rewrite bufio_seen by (auto using tw_read_varint_fok; lia).
  rewrite Ha. apply tw_read_varint_drop_in; lia.
Qed.

Theorem drop_in_uvarint size b d e : 10 <= size -> binv size b -> abs b = mkStream d (FErr e) ->
  seen (run (bufio_h size) tw_read_uvarint b) = seen (run (bufio_h size) read_uvarint b).
Proof.
  intros Hs Hb Ha. rewrite (bufio_tw_uvarint size b d e) by auto.
  rewrite bufio_seen by (auto using read_uvarint_fok; lia). now rewrite Ha.
Qed.
Theorem drop_in_varint size b d e : 10 <= size -> binv size b -> abs b = mkStream d (FErr e) ->
  seen (run (bufio_h size) tw_read_varint b) = seen (run (bufio_h size) read_varint b).
Proof.
  intros Hs Hb Ha. rewrite (bufio_tw_varint size b d e) by auto.
  rewrite bufio_seen by (auto using read_varint_fok; lia). now rewrite Ha.
Qed.

Theorem uvarint_accepts size b l v rest e : 10 <= size -> binv size b ->
  leb_value l v -> zlen l <= 10 -> v < 2 ^ 64 -> abs b = mkStream (l ++ rest) (FErr e) ->
  seen (run (bufio_h size) tw_read_uvarint b) = Done (mkStream rest (FErr e)) (v, None).
Proof.
  intros Hs Hb Hl Hn Hv Ha. rewrite (bufio_tw_uvarint size b (l ++ rest) e) by auto.
  apply read_uvarint_value; auto.
Qed.

Theorem uvarint_overflows size b d e : 10 <= size -> binv size b -> abs b = mkStream d (FErr e) ->
  10 <= zlen d ->
  (forall l v rest, d = l ++ rest -> leb_value l v -> zlen l <= 10 -> 2 ^ 64 <= v) ->
  exists s x, seen (run (bufio_h size) tw_read_uvarint b) = Done s (x, Some EOverflow).
Proof.
  intros Hs Hb Ha Hd Hno. rewrite (bufio_tw_uvarint size b d e) by auto.
  apply read_uvarint_overflow; auto.
Qed.

Theorem varint_round_trip size b v rest e : 10 <= size -> binv size b -> is_i64 v ->
  abs b = mkStream (put_varint v ++ rest) (FErr e) ->
  seen (run (bufio_h size) tw_read_varint b) = Done (mkStream rest (FErr e)) (v, None).
Proof.
  intros Hs Hb Hv Ha. rewrite (bufio_tw_varint size b (put_varint v ++ rest) e) by auto.
  now apply read_varint_ok.
Qed.

Lemma put_varint_leb v : is_i64 v -> uleb128 (zigzag_spec v) (put_varint v) /\ 1 <= zlen (put_varint v) <= 10.
Proof.
  intros H. split; [now apply put_varint_spec|apply put_uvarint_len].
Qed.

(** ** A field header as a client reads it, with the value of a bool field *)
Definition read_field_head : prog wireR (fhdr * option err * option (bool * option err)) :=
  '(h, e) <- call RFieldBegin ;;
  if fh_type h =? T_Bool then x <- call RBool ;; Ret (h, e, Some x) else Ret (h, e, None).

Theorem field_head_decodes size buf nm t id v last st b rest :
  8 <= size -> binv size b -> In t value_types -> is_i16 id -> cr_bool st = BNone -> cr_last st = last ->
  exists l, append_field_header buf (mkFH nm t id) v last = (buf ++ l, None) /\
    (zlen l = 1 <-> 1 <= i16 (id - last) <= 15) /\
    (sdata (abs b) = l ++ rest ->
     exists b', run (over cmp_reader (bufio_h size)) read_field_head (st, b)
       = Done (mkCR (cr_ids st) id BNone, b')
           (mkFH [] t id, None, if t =? T_Bool then Some (v, None) else None) /\
       binv size b' /\ abs b' = mkStream rest (sfin (abs b))).
Proof.
  intros Hs Hb Ht Hid Hbf Hl.
  destruct (field_header_decodes size buf nm t id v last st rest (sfin (abs b)) Hs Ht Hid Hbf Hl)
    as (l & E1 & E2 & bf & E3 & E4 & E5).
  exists l. conj; auto. intros Hd.
  apply cmp_read_any; [lia|auto|].
  replace (abs b) with (mkStream (sdata (abs b)) (sfin (abs b))) by reflexivity. rewrite Hd.
  unfold read_field_head. rewrite run_bind, E3. cbn [obind fh_type sfin].
  destruct (Z.eqb_spec t T_Bool) as [->|Hn].
  - rewrite run_bind, (E5 eq_refl). reflexivity.
  - rewrite (E4 Hn). reflexivity.
Qed.
