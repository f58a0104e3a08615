(** Writing then reading, through the buffered reader and writer. *)
From Verif Require Import Base BaseLemmas Prog Bufio BufioProof BufioW BufioWProof GoBinary GoBinaryProof
  Wire WireProof Spec Clients Reads Binary BinaryProof Compact CompactProof Layers.

(** ** Canonical values *)
Section Canon.
Variable F : Z -> Z -> Z -> list byte -> Prop.

Lemma canon_canon v : canon (canon v) = canon v.
Proof.
  induction v as [b|b|z|z|z|z|x|u|fs IH|kt vt es IH|et es IH|et es IH] using tval_ind';
    try reflexivity.
  - cbn [canon]. f_equal. rewrite map_map. apply map_ext_Forall. eapply Forall_impl; [|exact IH].
    cbn. intros f Hf. now rewrite Hf.
  - destruct es as [|e0 r0]; [reflexivity|].
    change (canon (VMap kt vt (e0 :: r0))) with
      (VMap kt vt (map (fun e => (canon (fst e), canon (snd e))) (e0 :: r0))).
    change (canon (VMap kt vt (map (fun e => (canon (fst e), canon (snd e))) (e0 :: r0))))
      with (VMap kt vt (map (fun e => (canon (fst e), canon (snd e)))
                          (map (fun e => (canon (fst e), canon (snd e))) (e0 :: r0)))).
    f_equal. rewrite map_map. apply map_ext_Forall. eapply Forall_impl; [|exact IH].
    cbn. intros f [Hk Hv]. now rewrite Hk, Hv.
  - cbn [canon]. f_equal. rewrite map_map. apply map_ext_Forall. exact IH.
  - cbn [canon]. f_equal. rewrite map_map. apply map_ext_Forall. exact IH.
Qed.

Lemma zlen_map {A B} (f : A -> B) l : zlen (map f l) = zlen l.
Proof. unfold zlen. now rewrite map_length. Qed.

Lemma canon_wf lim v : wf lim v -> wf lim (canon v).
Proof.
  induction v as [b|b|z|z|z|z|x|u|fs IH|kt vt es IH|et es IH|et es IH] using tval_ind';
    intros H; cbn [wf canon] in *; auto.
  - induction IH as [|[id v] r Hf Hr IHr]; [exact I|].
    destruct H as ((Hi & Hw) & Hq). exact (conj (conj Hi (Hf Hw)) (IHr Hq)).
  - destruct H as (H1 & H2 & H3 & H4).
    match type of H4 with ?W es =>
      assert (Hg : W (map (fun e => (canon (fst e), canon (snd e))) es)) end.
    { clear H1. induction IH as [|[k v] r [Hk Hv] Hr IHr]; [exact I|].
      destruct H4 as ((Tk & Tv & Wk & Wv) & Hq). cbn [map fst snd] in *.
      split; [rewrite !canon_val_type; auto|exact (IHr Hq)]. }
    destruct es as [|e0 r0].
    + cbn in *. unfold is_u8. intuition lia.
    + cbn [wf]. rewrite zlen_map. exact (conj H1 (conj H2 (conj H3 Hg))).
  - rewrite zlen_map. destruct H as (H1 & H2 & H3). split; [exact H1|]. split; [exact H2|]. clear H1 H2.
    induction IH as [|v r Hf Hr IHr]; [exact I|].
    destruct H3 as ((Tv & Wv) & Hq). cbn [map].
    split; [rewrite canon_val_type; auto|exact (IHr Hq)].
  - rewrite zlen_map. destruct H as (H1 & H2 & H3). split; [exact H1|]. split; [exact H2|]. clear H1 H2.
    induction IH as [|v r Hf Hr IHr]; [exact I|].
    destruct H3 as ((Tv & Wv) & Hq). cbn [map].
    split; [rewrite canon_val_type; auto|exact (IHr Hq)].
Qed.

Lemma canon_vsize v : vsize (canon v) = vsize v.
Proof.
  induction v as [b|b|z|z|z|z|x|u|fs IH|kt vt es IH|et es IH|et es IH] using tval_ind';
    try reflexivity.
  - cbn [canon vsize]. rewrite map_length, map_map. do 3 f_equal.
    apply map_ext_Forall; exact IH.
  - destruct es as [|e0 r0]; [reflexivity|].
    change (vsize (canon (VMap kt vt (e0 :: r0)))) with
      (vsize (VMap kt vt (map (fun e => (canon (fst e), canon (snd e))) (e0 :: r0)))).
    cbn [vsize]. do 2 f_equal. rewrite map_map.
    apply map_ext_Forall. eapply Forall_impl; [|exact IH].
    cbn. intros f [Hk Hv]. now rewrite Hk, Hv.
  - cbn [canon vsize]. do 2 f_equal. rewrite map_map.
    apply map_ext_Forall; exact IH.
  - cbn [canon vsize]. do 2 f_equal. rewrite map_map.
    apply map_ext_Forall; exact IH.
Qed.

Lemma canon_field_type v : field_type (canon v) = field_type v.
Proof. destruct v as [| | | | | | | | |? ? [|]| |]; reflexivity. Qed.

Lemma canon_enc v : forall l, compact_enc F v l -> compact_enc F (canon v) l.
Proof.
  induction v as [b|b|z|z|z|z|x|u|fs IH|kt vt es IH|et es IH|et es IH] using tval_ind';
    intros l H; inversion H; subst; clear H; cbn [canon]; try (constructor; assumption).
  - constructor. match goal with H : compact_fields _ _ _ _ |- _ => revert H end.
    generalize 0. revert l. induction IH as [|[id v] r Hv Hr IHr]; intros l z H; inversion H; subst; cbn [map].
    + constructor.
    + cbn [snd fst] in *. constructor; auto.
      * rewrite canon_field_type. assumption.
      * match goal with H : compact_field_value _ _ _ |- _ => inversion H; subst end.
        -- constructor.
        -- apply cfv_other; [rewrite canon_val_type; assumption|auto].
  - destruct es as [|e0 r0].
    + constructor; [|assumption]. change (zlen []) with 0 in *.
      match goal with H : compact_map _ _ _ _ |- _ => inversion H; subst end; [now constructor|lia].
    + rewrite <- (zlen_map (fun e => (canon (fst e), canon (snd e))) (e0 :: r0)) in *.
      constructor; [assumption|].
      match goal with H : compact_map _ _ _ _ |- _ => clear H end.
      match goal with H : compact_entries _ _ _ |- _ => revert H end.
      generalize dependent (e0 :: r0). intros es IH.
      revert l0. induction IH as [|[k v] r [Hk Hv] Hr IHr]; intros l0 H; inversion H; subst; cbn [map fst snd] in *;
        constructor; auto.
  - rewrite <- (zlen_map canon es) in *. constructor; [assumption|].
    match goal with H : compact_seq _ _ _ |- _ => clear H end.
    match goal with H : compact_elems _ _ _ |- _ => revert H end.
    revert l0. induction IH as [|v r Hv Hr IHr]; intros l0 H; inversion H; subst; cbn [map] in *;
        constructor; auto.
  - rewrite <- (zlen_map canon es) in *. constructor; [assumption|].
    match goal with H : compact_seq _ _ _ |- _ => clear H end.
    match goal with H : compact_elems _ _ _ |- _ => revert H end.
    revert l0. induction IH as [|v r Hv Hr IHr]; intros l0 H; inversion H; subst; cbn [map] in *;
        constructor; auto.
Qed.
End Canon.

Lemma tw_uv_ok size e v rest : 10 <= size -> is_u64 v ->
  run (stream_h size) tw_read_uvarint (mkStream (put_uvarint v ++ rest) (FErr e))
  = Done (mkStream rest (FErr e)) (v, None).
Proof.
  intros Hs Hv. rewrite tw_read_uvarint_drop_in by lia. now apply read_uvarint_ok.
Qed.

(** The spec's field headers are among those the reader understands. *)
Lemma compact_enc_wrap v : forall l lim, wf lim v ->
  compact_enc compact_field v l -> compact_enc wrap_field v l.
Proof.
  induction v as [b|b|z|z|z|z|x|u|fs IH|kt vt es IH|et es IH|et es IH] using tval_ind';
    intros l lim Hwf H; inversion H; subst; clear H; cbn [wf] in Hwf; try (constructor; assumption).
  - constructor. match goal with H : compact_fields _ _ _ _ |- _ => revert H end.
    generalize 0. revert l. induction IH as [|[id v] r Hv Hr IHr]; intros l z H; inversion H; subst.
    + constructor.
    + cbn [snd fst] in *. destruct Hwf as ((Hid & Hw) & Hwr). constructor; auto.
      * now apply compact_field_wrap.
      * match goal with H : compact_field_value _ _ _ |- _ => inversion H; subst end.
        -- constructor.
        -- apply cfv_other; eauto.
  - destruct Hwf as (_ & _ & _ & Hes). constructor; [assumption|].
    match goal with H : compact_map _ _ _ _ |- _ => clear H end.
    match goal with H : compact_entries _ _ _ |- _ => revert H end.
    revert l0. induction IH as [|[k v] r [Hk Hv] Hr IHr]; intros l0 H; inversion H; subst; cbn [fst snd] in *;
      destruct Hes as ((_ & _ & Wk & Wv) & Hes) || idtac; constructor; eauto.
  - destruct Hwf as (_ & _ & Hes). constructor; [assumption|].
    match goal with H : compact_seq _ _ _ |- _ => clear H end.
    match goal with H : compact_elems _ _ _ |- _ => revert H end.
    revert l0. induction IH as [|v r Hv Hr IHr]; intros l0 H; inversion H; subst;
      destruct Hes as ((_ & Wv) & Hes) || idtac; constructor; eauto.
  - destruct Hwf as (_ & _ & Hes). constructor; [assumption|].
    match goal with H : compact_seq _ _ _ |- _ => clear H end.
    match goal with H : compact_elems _ _ _ |- _ => revert H end.
    revert l0. induction IH as [|v r Hv Hr IHr]; intros l0 H; inversion H; subst;
      destruct Hes as ((_ & Wv) & Hes) || idtac; constructor; eauto.
Qed.

Lemma steps_true v : steps (fun _ _ => True) v.
Proof.
  induction v as [b|b|z|z|z|z|x|u|fs IH|kt vt es IH|et es IH|et es IH] using tval_ind';
    cbn [steps]; auto.
  - generalize 0. induction IH as [|[id v] r Hv Hr IHr]; intros z; [exact I|]. exact (conj I (conj Hv (IHr id))).
  - induction IH as [|[k v] r [Hk Hv] Hr IHr]; auto.
  - induction IH as [|v r Hv Hr IHr]; auto.
  - induction IH as [|v r Hv Hr IHr]; auto.
Qed.

(** ** Writing through a buffered writer *)
Section Write.
Variable size : Z.
Hypothesis Hsize : 0 < size.

(** Flushing what is in the buffer (binary). *)
Lemma bin_flush_ok strict b m : wok size b m ->
  exists b', run (over (bin_writer strict) (bufw_h size)) (call WFlush) (tt, b) = Done (tt, b') None /\
    received (wsink b') = m /\ wbuf b' = [] /\ wok size b' m.
Proof.
  intros Hw. rewrite run_call. unfold over, bin_writer. cbn [fst snd bin_write].
  rewrite run_bind, run_and_then, run_call. cbn [bufw_h].
  destruct (wok_flush size Hsize b m Hw) as (b1 & E1 & Hw1 & Hb1 & Hr1). rewrite E1. cbn [obind].
  rewrite run_call.
  destruct (wok_step size Hsize _ BWUnderFlush b1 m Hw1) as (b2 & m2 & x & E2 & E3 & Hw2).
  rewrite E2. cbn [mem_h] in E3. injection E3 as <- <-. cbn [obind run].
  exists b2. split; [reflexivity|].
  assert (wbuf b2 = wbuf b1) by
    (cbn [bufw_h] in E2; destruct (sink_flush (wsink b1)); now injection E2 as <-).
  assert (Hb2 : wbuf b2 = []) by congruence.
  pose proof Hw2 as (_ & He & _ & Hi). rewrite He, Hb2, app_nil_r in Hi. auto.
Qed.

Lemma cmp_flush_ok st b m : wok size b m ->
  exists b', run (over cmp_writer (bufw_h size)) (call WFlush) (st, b) = Done (st, b') None /\
    received (wsink b') = m /\ wbuf b' = [] /\ wok size b' m.
Proof.
  intros Hw. rewrite run_call. unfold over. cbn [fst snd cmp_writer]. unfold liftw.
  rewrite run_bind, run_and_then, run_call. cbn [bufw_h].
  destruct (wok_flush size Hsize b m Hw) as (b1 & E1 & Hw1 & Hb1 & Hr1). rewrite E1. cbn [obind].
  destruct (cw_uw st).
  2:{ cbn [run obind]. exists b1. auto. }
  rewrite run_call.
  destruct (wok_step size Hsize _ BWUnderFlush b1 m Hw1) as (b2 & m2 & x & E2 & E3 & Hw2).
  rewrite E2. cbn [mem_h] in E3. injection E3 as <- <-. cbn [obind run].
  exists b2. split; [reflexivity|].
  assert (wbuf b2 = wbuf b1) by
    (cbn [bufw_h] in E2; destruct (sink_flush (wsink b1)); now injection E2 as <-).
  assert (Hb2 : wbuf b2 = []) by congruence.
  pose proof Hw2 as (_ & He & _ & Hi). rewrite He, Hb2, app_nil_r in Hi. auto.
Qed.

Theorem bin_write_flush strict s v : ok_sink s ->
  exists b, run (over (bin_writer strict) (bufw_h size)) (write_val v >>! call WFlush)
              (tt, new_bwriter s) = Done (tt, b) None /\
    received (wsink b) = received s ++ binary_encoding v.
Proof.
  intros Hs. rewrite run_and_then.
  pose proof (layer_refines_mem size Hsize (bin_writer strict) (write_val v) tt
                (new_bwriter s) (received s) (wok_new size Hsize s Hs)) as H.
  rewrite bin_write_val in H.
  destruct (run (over (bin_writer strict) (bufw_h size)) (write_val v) (tt, new_bwriter s))
    as [[[] b] x|c]; [|contradiction].
  destruct H as (_ & -> & Hw). cbn [obind].
  destruct (bin_flush_ok strict b _ Hw) as (b' & E & Hr & _). exists b'. auto.
Qed.

Theorem cmp_write_flush (F : Z -> Z -> Z -> list byte -> Prop) (C : Z -> Z -> Prop) s v st :
  (forall last id t, is_i16 id -> is_i16 last -> C last id -> F last id t (field_hdr last id t)) ->
  ok_sink s -> wf (2 ^ 63) v -> steps C v -> fh_type (cw_bool st) = T_Stop ->
  exists b st', run (over cmp_writer (bufw_h size)) (write_val v >>! call WFlush)
              (st, new_bwriter s) = Done (st', b) None /\
    cw_ids st' = cw_ids st /\ cw_last st' = cw_last st /\ fh_type (cw_bool st') = T_Stop /\
    exists l, compact_enc F v l /\ received (wsink b) = received s ++ l.
Proof.
  intros HF Hs Hwf Hst Hb. rewrite run_and_then.
  pose proof (layer_refines_mem size Hsize cmp_writer (write_val v) st
                (new_bwriter s) (received s) (wok_new size Hsize s Hs)) as H.
  destruct (cmp_write_val F C HF v Hwf Hst st (received s) Hb) as (l & bb & E1 & E2 & E3).
  rewrite E3 in H.
  destruct (run (over cmp_writer (bufw_h size)) (write_val v) (st, new_bwriter s))
    as [[st1 b] x|c]; [|contradiction].
  destruct H as (-> & -> & Hw). cbn [obind].
  destruct (cmp_flush_ok (mkCW (cw_ids st) (cw_last st) bb (cw_uw st)) b _ Hw) as (b' & E & Hr & _).
  exists b'. eexists. split; [exact E|]. cbn. conj; auto. exists l. auto.
Qed.
End Write.

(** ** Reading through a buffered reader *)
Theorem bin_read_back strict size b v rest fuel :
  8 <= size -> binv size b -> wf (2 ^ 31) v -> (vsize v <= fuel)%nat ->
  sdata (abs b) = binary_encoding v ++ rest ->
  exists b', run (over (bin_reader strict) (bufio_h size)) (read_val fuel (val_type v)) (tt, b)
             = Done (tt, b') (inl v) /\
    binv size b' /\ abs b' = mkStream rest (sfin (abs b)).
Proof.
  intros Hs Hb Hwf Hf Hd.
  pose proof (layer_refines size (bin_reader strict) (read_val fuel (val_type v)) tt b ltac:(lia) Hb
                (bin_reader_fok strict)) as H.
  destruct (abs b) as [d fi] eqn:Ea. cbn [sdata sfin] in *. subst d.
  rewrite (read_val_reads _ v fuel _ _ Hf (bin_reads strict size Hs v rest fi Hwf)) in H.
  destruct (run _ _ (tt, b)) as [[[] b'] x|c]; [|contradiction].
  destruct H as (_ & -> & H1 & H2). exists b'. auto.
Qed.

Theorem bin_skip_back strict size b v rest fuel :
  8 <= size -> binv size b -> wf (2 ^ 31) v -> (vsize v <= fuel)%nat ->
  sdata (abs b) = binary_encoding v ++ rest ->
  exists b', run (over (bin_reader strict) (bufio_h size)) (skip fuel (val_type v)) (tt, b)
             = Done (tt, b') None /\
    binv size b' /\ abs b' = mkStream rest (sfin (abs b)).
Proof.
  intros Hs Hb Hwf Hf Hd.
  pose proof (layer_refines size (bin_reader strict) (skip fuel (val_type v)) tt b ltac:(lia) Hb
                (bin_reader_fok strict)) as H.
  destruct (abs b) as [d fi] eqn:Ea. cbn [sdata sfin] in *. subst d.
  rewrite (skip_reads _ v fuel _ _ Hf (bin_reads strict size Hs v rest fi Hwf)) in H.
  destruct (run _ _ (tt, b)) as [[[] b'] x|c]; [|contradiction].
  destruct H as (_ & -> & H1 & H2). exists b'. auto.
Qed.

Lemma cmp_reads_canon size e v l rest st :
  10 <= size -> wf (2 ^ 63) v -> compact_enc wrap_field v l -> cr_bool st = BNone ->
  reads (over cmp_reader (stream_h size)) (canon v)
    (st, mkStream (l ++ rest) (FErr e)) (st, mkStream rest (FErr e)).
Proof.
  intros Hs Hwf He Hb. apply (cmp_reads size) with (okrest := fun _ => True); auto using canon_wf, canon_canon, canon_enc; try lia.
  - intros. apply tw_uv_ok; auto.
  - apply canon_wf; [exact wrap_field|exact Hwf].
Qed.

Theorem cmp_read_back size b v l rest fuel st e :
  10 <= size -> binv size b -> wf (2 ^ 63) v -> (vsize v <= fuel)%nat ->
  compact_enc wrap_field v l -> cr_bool st = BNone ->
  abs b = mkStream (l ++ rest) (FErr e) ->
  exists b', run (over cmp_reader (bufio_h size)) (read_val fuel (val_type v)) (st, b)
             = Done (st, b') (inl (canon v)) /\
    binv size b' /\ abs b' = mkStream rest (FErr e).
Proof.
  intros Hs Hb Hwf Hf He Hst Ha.
  pose proof (layer_refines size cmp_reader (read_val fuel (val_type v)) st b ltac:(lia) Hb
                (fun X e s => cmp_reader_fok _ X e s tw_read_uvarint_fok)) as H.
  rewrite Ha in H. rewrite <- canon_val_type in H.
  rewrite <- (canon_vsize v) in Hf.
  rewrite (read_val_reads _ (canon v) fuel _ _ Hf (cmp_reads_canon size e v l rest st Hs Hwf He Hst)) in H.
  rewrite canon_val_type in H.
  destruct (run _ _ (st, b)) as [[st' b'] x|c]; [|contradiction].
  destruct H as (-> & -> & H1 & H2). exists b'. auto.
Qed.

Theorem cmp_skip_back size b v l rest fuel st e :
  10 <= size -> binv size b -> wf (2 ^ 63) v -> (vsize v <= fuel)%nat ->
  compact_enc wrap_field v l -> cr_bool st = BNone ->
  abs b = mkStream (l ++ rest) (FErr e) ->
  exists b', run (over cmp_reader (bufio_h size)) (skip fuel (val_type v)) (st, b)
             = Done (st, b') None /\
    binv size b' /\ abs b' = mkStream rest (FErr e).
Proof.
  intros Hs Hb Hwf Hf He Hst Ha.
  pose proof (layer_refines size cmp_reader (skip fuel (val_type v)) st b ltac:(lia) Hb
                (fun X e s => cmp_reader_fok _ X e s tw_read_uvarint_fok)) as H.
  rewrite Ha in H. rewrite <- canon_val_type in H.
  rewrite <- (canon_vsize v) in Hf.
  rewrite (skip_reads _ (canon v) fuel _ _ Hf (cmp_reads_canon size e v l rest st Hs Hwf He Hst)) in H.
  rewrite canon_val_type in H.
  destruct (run _ _ (st, b)) as [[st' b'] x|c]; [|contradiction].
  destruct H as (-> & -> & H1 & H2). exists b'. auto.
Qed.

(** ** Unambiguity *)
Theorem binary_unambiguous v w r1 r2 :
  wf (2 ^ 31) v -> wf (2 ^ 31) w -> val_type v = val_type w ->
  binary_encoding v ++ r1 = binary_encoding w ++ r2 -> v = w /\ r1 = r2.
Proof.
  intros Hv Hw Ht H.
  pose proof (bin_reads true 8 ltac:(lia) v r1 FSilent Hv) as H1.
  pose proof (bin_reads true 8 ltac:(lia) w r2 FSilent Hw) as H2.
  apply (read_val_reads _ v (vsize v + vsize w)) in H1; [|lia].
  apply (read_val_reads _ w (vsize v + vsize w)) in H2; [|lia].
  rewrite H, Ht in H1. rewrite H1 in H2. injection H2 as <- <-. auto.
Qed.

Theorem compact_unambiguous v w l m r1 r2 :
  wf (2 ^ 63) v -> wf (2 ^ 63) w -> val_type v = val_type w ->
  compact_enc wrap_field v l -> compact_enc wrap_field w m ->
  l ++ r1 = m ++ r2 -> canon v = canon w /\ r1 = r2.
Proof.
  intros Hv Hw Ht Hl Hm H.
  pose proof (cmp_reads_canon 10 EEOF v l r1 cr0 ltac:(lia) Hv Hl eq_refl) as H1.
  pose proof (cmp_reads_canon 10 EEOF w m r2 cr0 ltac:(lia) Hw Hm eq_refl) as H2.
  apply (read_val_reads _ (canon v) (vsize v + vsize w)) in H1; [|rewrite canon_vsize; lia].
  apply (read_val_reads _ (canon w) (vsize v + vsize w)) in H2; [|rewrite canon_vsize; lia].
  rewrite canon_val_type in H1, H2.
  rewrite H, Ht in H1. rewrite H1 in H2. injection H2 as -> ->. auto.
Qed.
