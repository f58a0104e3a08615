(** Property C66: the end of the data and malformed data are told apart. *)
From Coq Require Import Strings.String.
From Verif Require Import Base Prog Bufio BufioProof GoBinary Layers Wire Spec Clients Binary Compact GoType Fields Arshal ArshalSpec
  EndSpec Ends Relay EndClients Properties_Values.
Local Open Scope list_scope.

(** Each call of a Reader either has its result settled by the bytes that came, and
    then its error is not io.EOF nor io.ErrUnexpectedEOF; or has read all of them
    and returns the transport's error (io.ErrUnexpectedEOF, perhaps, for io.EOF). *)
Theorem C66_call_binary size strict X (c : wireR X) b d e :
  10 <= size -> binv size b -> abs b = mkStream d (FErr e) ->
  exists b' x, over (bin_reader strict) (bufio_h size) X c (tt, b) = Done (tt, b') x /\
  ((settled (bin_reader strict) size (call c) tt d x /\ forall er, errR c x = Some er -> not_eof er) \/
   (abs b' = mkStream [] (FErr e) /\ exists er, errR c x = Some er /\ end_error e er)).
Proof.
  intros Hs Hb Ab.
  destruct (call_bufio size (bin_reader strict) Hs (bin_ends size strict Hs) (bin_reader_fok strict) X c tt b d e Hb Ab)
    as ([] & b' & x & H). eauto.
Qed.
Print Assumptions C66_call_binary.

Theorem C66_call_compact size X (c : wireR X) st b d e :
  10 <= size -> binv size b -> abs b = mkStream d (FErr e) ->
  exists st' b' x, over cmp_reader (bufio_h size) X c (st, b) = Done (st', b') x /\
  ((settled cmp_reader size (call c) st d x /\ forall er, errR c x = Some er -> not_eof er) \/
   (abs b' = mkStream [] (FErr e) /\ exists er, errR c x = Some er /\ end_error e er)).
Proof.
  intros Hs Hb Ab.
  exact (call_bufio size cmp_reader Hs (cmp_ends size Hs) (fun X c s => cmp_reader_fok _ X c s tw_read_uvarint_fok) X c st b d e Hb Ab).
Qed.
Print Assumptions C66_call_compact.

(** Skip returns the very error. *)
Theorem C66_skip_binary size strict fuel t b d e b' r :
  10 <= size -> binv size b -> abs b = mkStream d (FErr e) ->
  run (over (bin_reader strict) (bufio_h size)) (skip fuel t) (tt, b) = Done (tt, b') r ->
  settled (bin_reader strict) size (skip fuel t) tt d r \/ (exists er, r = Some er /\ end_error e er).
Proof.
  intros Hs Hb Ab. exact (relays_bufio size _ Hs (bin_ends size strict Hs) (bin_reader_fok strict) eid _ _ _ _ _ _ _ _ (relays_skip fuel t) Hb Ab).
Qed.
Print Assumptions C66_skip_binary.

Theorem C66_skip_compact size fuel t st b d e st' b' r :
  10 <= size -> binv size b -> abs b = mkStream d (FErr e) ->
  run (over cmp_reader (bufio_h size)) (skip fuel t) (st, b) = Done (st', b') r ->
  settled cmp_reader size (skip fuel t) st d r \/ (exists er, r = Some er /\ end_error e er).
Proof.
  intros Hs Hb Ab. exact (relays_bufio size _ Hs (cmp_ends size Hs) (fun X c s => cmp_reader_fok _ X c s tw_read_uvarint_fok) eid _ _ _ _ _ _ _ _ (relays_skip fuel t) Hb Ab).
Qed.
Print Assumptions C66_skip_compact.

(** Unmarshal returns an error with the Reader's error inside it, or, when it was
    skipping a field the struct does not have, the Reader's error itself. *)
Theorem C66_unmarshal_binary size strict env ln n o b d e b' v r :
  env_ok env -> 10 <= size -> binv size b -> abs b = mkStream d (FErr e) ->
  run (over (bin_reader strict) (bufio_h size)) (Unmarshal env ln n o) (tt, b) = Done (tt, b') (v, r) ->
  settled (bin_reader strict) size (Unmarshal env ln n o) tt d (v, r) \/
  (exists er, end_error e er /\
     (r = Some er \/ exists t a name, r = Some (ESemantic "unmarshal" (wire_type a) (Some t) (Some (EWire name er))))).
Proof.
  intros Hv Hs Hb Ab. exact (unmarshal_bufio size _ Hs (bin_ends size strict Hs) (bin_reader_fok strict) env Hv _ _ _ _ _ _ _ _ _ _ _ Hb Ab).
Qed.
Print Assumptions C66_unmarshal_binary.

Theorem C66_unmarshal_compact size env ln n o st b d e st' b' v r :
  env_ok env -> 10 <= size -> binv size b -> abs b = mkStream d (FErr e) ->
  run (over cmp_reader (bufio_h size)) (Unmarshal env ln n o) (st, b) = Done (st', b') (v, r) ->
  settled cmp_reader size (Unmarshal env ln n o) st d (v, r) \/
  (exists er, end_error e er /\
     (r = Some er \/ exists t a name, r = Some (ESemantic "unmarshal" (wire_type a) (Some t) (Some (EWire name er))))).
Proof.
  intros Hv Hs Hb Ab. exact (unmarshal_bufio size _ Hs (cmp_ends size Hs) (fun X c s => cmp_reader_fok _ X c s tw_read_uvarint_fok) env Hv _ _ _ _ _ _ _ _ _ _ _ Hb Ab).
Qed.
Print Assumptions C66_unmarshal_compact.

(** Both cases occur: a string header of a negative size, and one cut short. *)
Example C66_sample :
  let rd d := over (bin_reader true) (bufio_h 16) _ RString (tt, new_breader (mkSource [(d, None)] (FErr EEOF))) in
  (exists b', rd [xff; xff; xff; xff; x41] = Done (tt, b') ([], Some ENegativeCount)) /\
  (exists b', rd [x00; x00; x00] = Done (tt, b') ([], Some EUnexpectedEOF)) /\
  (exists b', rd [x00; x00; x00; x02; x41] = Done (tt, b') ([x41], Some EUnexpectedEOF)).
Proof. repeat split; eexists; vm_compute; reflexivity. Qed.

Lemma version_word t :
  (i32 (be_value (firstn (Z.to_nat 4) [x80; x01; x00; t])) <? 0) &&
  (Z.land (i32 (be_value (firstn (Z.to_nat 4) [x80; x01; x00; t]))) versionMask =? bin_version1) = true.
Proof. destruct t; vm_compute; reflexivity. Qed.

(** A message cut off where one part of its header ends is reported with plain
    io.EOF, as if the peer had closed the connection between messages. *)
Theorem C66_header_eof : forall size b h,
  10 <= size -> binv size b -> (h = [] \/ exists t, h = [x80; x01; x00; t]) -> abs b = mkStream h (FErr EEOF) ->
  exists b' m, over (bin_reader true) (bufio_h size) _ RMessageBegin (tt, b) = Done (tt, b') (m, Some EEOF).
Proof.
  intros size b h Hs Hb Hh Ab.
  pose proof (layer_refines size (bin_reader true) (call RMessageBegin) tt b ltac:(lia) Hb (bin_reader_fok true)) as G.
  assert (R : exists m, run (over (bin_reader true) (stream_h size)) (call RMessageBegin) (tt, abs b) = Done (tt, mkStream [] (FErr EEOF)) (m, Some EEOF)).
  { rewrite Ab. cbn [run call]. unfold over, bin_reader. cbn [bin_read fst snd]. unfold bin_read_message_begin, bin_read_size, bin_read_i32.
    rewrite !run_bind. destruct Hh as [->|(t & ->)].
    - rewrite WireProof.next_short by (cbn; lia). eexists. reflexivity.
    - rewrite WireProof.next_ok by (cbn; lia). cbn [obind run].
      pose proof (version_word t) as V. apply andb_prop in V. destruct V as [V1 V2].
      rewrite V1, V2. cbn [negb]. change (skipn (Z.to_nat 4) [x80; x01; x00; t]) with (@nil byte).
      rewrite !run_bind. unfold bin_read_string, bin_read_size, bin_read_i32. rewrite !run_bind.
      rewrite WireProof.next_short by (cbn; lia). eexists. reflexivity. }
  destruct R as (m & R). rewrite R in G. cbn [run call] in G. unfold refines_l in G.
  destruct (over (bin_reader true) (bufio_h size) _ RMessageBegin (tt, b)) as [[[] b1] x|]; [|contradiction].
  destruct G as (_ & -> & _). eauto.
Qed.
Print Assumptions C66_header_eof.
