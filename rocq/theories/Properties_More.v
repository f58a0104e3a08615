(** Properties added as the model grew: C47. *)
From Verif Require Import Base BaseLemmas Prog Bufio BufioProof BufioW Wire WireProof Spec Clients
  Binary BinaryProof Compact CompactProof Layers RoundTrip EndToEnd Properties_Values.

(** ** C47 *)
(** Whatever byte stands where a bool is read, and however it is delivered,
    ReadBool takes it, and nothing else, and returns false exactly for 0. *)
Theorem C47_bool_binary strict size b c rest :
  0 < size -> binv size b -> sdata (abs b) = c :: rest ->
  exists b' v, over (bin_reader strict) (bufio_h size) _ RBool (tt, b) = Done (tt, b') (v, None) /\
    (v = false <-> c = x00) /\ binv size b' /\ abs b' = mkStream rest (sfin (abs b)).
Proof.
  intros Hs Hb Hd.
  pose proof (layer_refines size (bin_reader strict) (call RBool) tt b Hs Hb (bin_reader_fok strict)) as H.
  rewrite !run_call in H. destruct (abs b) as [d fi]. cbn [sdata sfin] in *. subst d. cbn in H.
  destruct (over (bin_reader strict) (bufio_h size) _ RBool (tt, b)) as [[[] b'] x|k]; [|contradiction].
  destruct H as (_ & -> & H1 & H2). exists b', (negb (b2z c =? 0)). conj; auto.
  destruct c; cbn; split; congruence.
Qed.
Print Assumptions C47_bool_binary.

(** The compact reader does the same for bools outside fields (list, set and
    map elements); for a bool field the value was in the field header, nothing
    is taken, and the header is used up. *)
Theorem C47_bool_compact size b c rest st :
  0 < size -> binv size b -> sdata (abs b) = c :: rest -> cr_bool st = BNone ->
  exists b' v, over cmp_reader (bufio_h size) _ RBool (st, b) = Done (st, b') (v, None) /\
    (v = false <-> c = x00) /\ binv size b' /\ abs b' = mkStream rest (sfin (abs b)).
Proof.
  intros Hs Hb Hd Hst.
  pose proof (layer_refines size cmp_reader (call RBool) st b Hs Hb
                (fun X e s => cmp_reader_fok _ X e s tw_read_uvarint_fok)) as H.
  rewrite !run_call in H. destruct (abs b) as [d fi]. cbn [sdata sfin] in *. subst d.
  unfold over at 2 in H. cbn [fst snd cmp_reader cmp_reader_gen] in H. rewrite Hst in H. cbn in H.
  destruct (over cmp_reader (bufio_h size) _ RBool (st, b)) as [[st' b'] x|k]; [|contradiction].
  destruct H as (-> & -> & H1 & H2). exists b', (negb (b2z c =? 0)). conj; auto.
  destruct c; cbn; split; congruence.
Qed.
Print Assumptions C47_bool_compact.
Theorem C47_bool_field_compact size b ids last v :
  over cmp_reader (bufio_h size) _ RBool (mkCR ids last (if v : bool then BTrue else BFalse), b)
  = Done (mkCR ids last BNone, b) (v, None).
Proof. destruct v; reflexivity. Qed.
Print Assumptions C47_bool_field_compact.

(** Byte 2 in a compact list of bools, which other implementations write for
    false, is read as true. *)
Example C47_two_is_true :
  exists st b, run (over cmp_reader (bufio_h 16)) (read_val 9 15)
    (cr0, new_breader (mkSource [([x32; x00; x01; x02], None)] (FErr EEOF))) =
    Done (st, b) (inl (VList 2 [VBool false; VBool true; VBool true])).
Proof. do 2 eexists. vm_compute. reflexivity. Qed.
