(** Property C73: what a reader says when the data is cut off depends on where. *)
From Verif Require Import Base BaseLemmas Prog Bufio BufioProof Layers Wire Spec Clients Binary BinaryProof Compact CompactProof RoundTrip Safety
  PartsSpec PartsRun PartsProof PartsMsg PartsCmp Properties_Values.

(** The parts make up the published encodings. *)
Theorem C73_parts :
  (forall v, bytes_of (binary_parts v) = binary_encoding v) /\
  (forall v l, compact_encoding v l <-> exists ps, compact_parts v ps /\ bytes_of ps = l) /\
  (forall name t id, bytes_of (binary_strict_parts name t id) = binary_message_strict name t id /\
     bytes_of (binary_old_parts name t id) = binary_message_old name t id) /\
  (forall name t id l, compact_message name t id l <-> exists ps, compact_message_parts name t id ps /\ bytes_of ps = l).
Proof.
  split; [exact binary_parts_bytes|]. split; [|split].
  - intros v l. split; [apply parts_of|]. intros (ps & H & <-). now apply parts_bytes.
  - intros. cbn [bytes_of flat_map pbytes binary_strict_parts binary_old_parts]. now rewrite !app_nil_r.
  - intros name t id l. split.
    + intros [a m Ha Hm]. eexists. split; [constructor; eassumption|]. cbn [bytes_of flat_map pbytes app]. now rewrite app_nil_r.
    + intros (ps & [a m Ha Hm] & <-). cbn [bytes_of flat_map pbytes app]. rewrite app_nil_r. now constructor.
Qed.
Print Assumptions C73_parts.

(** A cut determines what is said. *)
Theorem C73_one_answer : forall sk e ps d er er', cut_off sk e ps d er -> cut_off sk e ps d er' -> er = er'.
Proof. exact cut_off_fun. Qed.
Print Assumptions C73_one_answer.

(** Reading and skipping a value of which only the bytes [d] come. *)
Theorem C73_binary_value size strict fuel v b d q e :
  10 <= size -> binv size b -> wf (2 ^ 31) v -> (vsize v <= fuel)%nat ->
  binary_encoding v = d ++ q -> q <> [] -> abs b = mkStream d (FErr e) ->
  (exists b' er, run (over (bin_reader strict) (bufio_h size)) (read_val fuel (val_type v)) (tt, b) = Done (tt, b') (inr er) /\
     cut_off false e (binary_parts v) d er) /\
  (exists b' er, run (over (bin_reader strict) (bufio_h size)) (skip fuel (val_type v)) (tt, b) = Done (tt, b') (Some er) /\
     cut_off true e (binary_parts v) d er).
Proof.
  intros Hs Hb Hv Hf E Hq Ab. split.
  - pose proof (layer_refines size (bin_reader strict) (read_val fuel (val_type v)) tt b ltac:(lia) Hb (bin_reader_fok strict)) as G.
    rewrite Ab in G. destruct (bin_cuts size Hs false e strict v Hv d q (eq_sym E) Hq) as (er & C & F).
    destruct (read_fails _ _ _ _ _ _ eq_refl F fuel Hf) as ([[] s'] & R). rewrite R in G.
    destruct (run _ _ (tt, b)) as [[[] b'] x|]; [|contradiction]. destruct G as (_ & -> & _). eauto.
  - pose proof (layer_refines size (bin_reader strict) (skip fuel (val_type v)) tt b ltac:(lia) Hb (bin_reader_fok strict)) as G.
    rewrite Ab in G. destruct (bin_cuts size Hs true e strict v Hv d q (eq_sym E) Hq) as (er & C & F).
    destruct (skip_fails _ _ _ _ _ _ eq_refl F fuel Hf) as ([[] s'] & R). rewrite R in G.
    destruct (run _ _ (tt, b)) as [[[] b'] x|]; [|contradiction]. destruct G as (_ & -> & _). eauto.
Qed.
Print Assumptions C73_binary_value.

Theorem C73_compact_value size fuel v ps st b d q e :
  10 <= size -> binv size b -> wf (2 ^ 63) v -> (vsize v <= fuel)%nat -> cr_bool st = BNone ->
  compact_parts v ps -> bytes_of ps = d ++ q -> q <> [] -> abs b = mkStream d (FErr e) ->
  (exists st' b' er, run (over cmp_reader (bufio_h size)) (read_val fuel (val_type v)) (st, b) = Done (st', b') (inr er) /\
     cut_off false e ps d er) /\
  (exists st' b' er, run (over cmp_reader (bufio_h size)) (skip fuel (val_type v)) (st, b) = Done (st', b') (Some er) /\
     cut_off true e ps d er).
Proof.
  intros Hs Hb Hv Hf Hst Hp E Hq Ab.
  pose proof (fun X (c : wireR X) s => cmp_reader_fok _ X c s tw_read_uvarint_fok) as HL.
  rewrite <- (canon_vsize v) in Hf. rewrite <- (canon_val_type v). split.
  - pose proof (layer_refines size cmp_reader (read_val fuel (val_type (canon v))) st b ltac:(lia) Hb HL) as G.
    rewrite Ab in G. destruct (cmp_cuts size Hs false e v Hv ps Hp st d q Hst (eq_sym E) Hq) as (er & C & F).
    destruct (read_fails _ _ _ _ _ _ eq_refl F fuel Hf) as ([st' s'] & R). rewrite R in G.
    destruct (run _ _ (st, b)) as [[st1 b'] x|]; [|contradiction]. destruct G as (_ & -> & _). eauto.
  - pose proof (layer_refines size cmp_reader (skip fuel (val_type (canon v))) st b ltac:(lia) Hb HL) as G.
    rewrite Ab in G. destruct (cmp_cuts size Hs true e v Hv ps Hp st d q Hst (eq_sym E) Hq) as (er & C & F).
    destruct (skip_fails _ _ _ _ _ _ eq_refl F fuel Hf) as ([st' s'] & R). rewrite R in G.
    destruct (run _ _ (st, b)) as [[st1 b'] x|]; [|contradiction]. destruct G as (_ & -> & _). eauto.
Qed.
Print Assumptions C73_compact_value.

(** Message headers. *)
Theorem C73_binary_message size strict name t id b d q e :
  10 <= size -> binv size b -> zlen name < 2 ^ 31 ->
  binary_message_strict name t id = d ++ q -> q <> [] -> abs b = mkStream d (FErr e) ->
  exists b' m er, over (bin_reader strict) (bufio_h size) _ RMessageBegin (tt, b) = Done (tt, b') (m, Some er) /\
    cut_off false e (binary_strict_parts name t id) d er.
Proof.
  intros Hs Hb Hn E Hq Ab. rewrite <- (proj1 (proj1 (proj2 (proj2 C73_parts)) name t id)) in E.
  pose proof (layer_refines size (bin_reader strict) (call RMessageBegin) tt b ltac:(lia) Hb (bin_reader_fok strict)) as G.
  rewrite Ab, !run_call in G. destruct (strict_message_cut size Hs e strict name t id d q Hn (eq_sym E) Hq) as (s' & x & er & R & C).
  rewrite (bin_r size e strict _ RMessageBegin _ _ _ R) in G.
  destruct (over (bin_reader strict) (bufio_h size) _ RMessageBegin (tt, b)) as [[[] b'] y|]; [|contradiction].
  destruct G as (_ & -> & _). eauto 6.
Qed.
Print Assumptions C73_binary_message.

Theorem C73_old_message size name t id b d q e :
  10 <= size -> binv size b -> zlen name < 2 ^ 31 -> is_u8 t ->
  binary_message_old name t id = d ++ q -> q <> [] -> abs b = mkStream d (FErr e) ->
  exists b' m er, over (bin_reader false) (bufio_h size) _ RMessageBegin (tt, b) = Done (tt, b') (m, Some er) /\
    cut_off false e (binary_old_parts name t id) d er.
Proof.
  intros Hs Hb Hn Ht E Hq Ab. rewrite <- (proj2 (proj1 (proj2 (proj2 C73_parts)) name t id)) in E.
  pose proof (layer_refines size (bin_reader false) (call RMessageBegin) tt b ltac:(lia) Hb (bin_reader_fok false)) as G.
  rewrite Ab, !run_call in G. destruct (old_message_cut size Hs e name t id d q Hn Ht (eq_sym E) Hq) as (s' & x & er & R & C).
  rewrite (bin_r size e false _ RMessageBegin _ _ _ R) in G.
  destruct (over (bin_reader false) (bufio_h size) _ RMessageBegin (tt, b)) as [[[] b'] y|]; [|contradiction].
  destruct G as (_ & -> & _). eauto 6.
Qed.
Print Assumptions C73_old_message.

Theorem C73_compact_message size name t id ps st b d q e :
  10 <= size -> binv size b -> zlen name < 2 ^ 63 -> 0 <= t < 8 ->
  compact_message_parts name t id ps -> bytes_of ps = d ++ q -> q <> [] -> abs b = mkStream d (FErr e) ->
  exists st' b' m er, over cmp_reader (bufio_h size) _ RMessageBegin (st, b) = Done (st', b') (m, Some er) /\
    cut_off false e ps d er.
Proof.
  intros Hs Hb Hn Ht Hp E Hq Ab.
  pose proof (layer_refines size cmp_reader (call RMessageBegin) st b ltac:(lia) Hb
    (fun X (c : wireR X) s => cmp_reader_fok _ X c s tw_read_uvarint_fok)) as G.
  rewrite Ab, !run_call in G. destruct (cmp_message_cut size Hs e name t id ps d q Hn Ht Hp (eq_sym E) Hq) as (s' & x & er & R & C).
  rewrite (lift_r size e _ RMessageBegin st _ _ _ (cmp_read_message_begin tw_read_uvarint) eq_refl R) in G.
  destruct (over cmp_reader (bufio_h size) _ RMessageBegin (st, b)) as [[st1 b'] y|]; [|contradiction].
  destruct G as (_ & -> & _). eauto 8.
Qed.
Print Assumptions C73_compact_message.

(** So the peer that closes the connection between two messages is told by io.EOF, but
    so is one that closes it after the version, the length of the name or the name. *)
Theorem C73_closed size strict b : 10 <= size -> binv size b -> forall name t id d, zlen name < 2 ^ 31 ->
  abs b = mkStream d (FErr EEOF) -> (exists q, q <> [] /\ binary_message_strict name t id = d ++ q) ->
  exists b' m er, over (bin_reader strict) (bufio_h size) _ RMessageBegin (tt, b) = Done (tt, b') (m, Some er) /\
    (er = EEOF \/ er = EUnexpectedEOF) /\
    (er = EEOF <-> In (zlen d) [0; 4; 8; 8 + zlen name]).
Proof.
  intros Hs Hb name t id d Hn Ab (q & Hq & E).
  destruct (C73_binary_message size strict name t id b d q EEOF Hs Hb Hn E Hq Ab) as (b' & m & er & R & C).
  exists b', m, er. split; [exact R|].
  assert (Len : zlen (big_endian 4 (zlen name)) = 4) by apply zlen_big_endian.
  assert (Len' : zlen (big_endian 4 id) = 4) by apply zlen_big_endian.
  pose proof (zlen_nonneg name) as Pn.
  apply cut_off_view in C. destruct C as (a & p & r & x & Ep & Ed & (y & Hy & Ex) & ->).
  assert (Ly : 0 < zlen y) by (destruct y; [congruence|unfold zlen; cbn [length]; lia]).
  pose proof (zlen_nonneg x) as Px.
  assert (Er : match p with Part _ => stop x EEOF | Body _ => stop x EEOF end = stop x EEOF) by (destruct p; reflexivity).
  rewrite Er. split; [destruct x; cbn; auto|].
  assert (Sx : stop x EEOF = EEOF <-> zlen x = 0).
  { destruct x as [|c x]; cbn; [tauto|]. split; [discriminate|]. unfold zlen; cbn [length]; lia. }
  rewrite Sx. apply (f_equal zlen) in Ex. rewrite zlen_app in Ex. apply (f_equal zlen) in Ed. rewrite zlen_app in Ed.
  unfold binary_strict_parts in Ep. revert Len Len' Ep. generalize (big_endian 4 (zlen name)) (big_endian 4 id). intros n4 i4 Len Len' Ep.
  assert (P4 : zlen [x80; x01; x00; z2b t] = 4) by reflexivity.
  destruct a as [|p1 [|p2 [|p3 [|p4 a]]]]; cbn [app] in Ep; inversion Ep; subst; clear Ep;
    cbn [pbytes bytes_of flat_map] in Ex, Ed; repeat rewrite zlen_app in Ed; rewrite ?Len, ?Len', ?P4 in Ex; rewrite ?Len, ?Len', ?P4 in Ed; try change (zlen (@nil byte)) with 0 in Ed; cbn [In].
  5: { destruct a; discriminate. }
  all: lia.
Qed.
Print Assumptions C73_closed.

(** All three answers: between two parts, inside of one, and inside of a string that is skipped. *)
Example C73_sample :
  let v := VStruct [(1, VString [x41; x42; x43])] in
  let src n := new_breader (mkSource [(firstn n (binary_encoding v), None)] (FErr EEOF)) in
  let rd n := match run (over (bin_reader true) (bufio_h 16)) (read_val 9 12) (tt, src n) with Done _ r => Some r | _ => None end in
  let sk n := match run (over (bin_reader true) (bufio_h 16)) (skip 9 12) (tt, src n) with Done _ r => Some r | _ => None end in
  map rd [0; 1; 2; 3; 7; 8; 10]%nat = map (fun e => Some (inr e)) [EEOF; EEOF; EUnexpectedEOF; EEOF; EEOF; EUnexpectedEOF; EEOF] /\
  map sk [0; 1; 2; 3; 7; 8; 10]%nat = map (fun e => Some (Some e)) [EEOF; EEOF; EUnexpectedEOF; EEOF; EEOF; EEOF; EEOF].
Proof. vm_compute. auto. Qed.
