(** Messages from a Writer of any protocol to a Reader of any other, and TestProtocol on all of them. *)
From Verif Require Import Base BaseLemmas Prog Bufio BufioProof BufioW BufioWProof GoBinary GoBinaryProof Wire WireProof
  Spec Binary BinaryProof Compact CompactProof Layers RoundTrip EndToEnd Messages WireThms GoType Fields Arshal GoTypeProof FieldsProof
  ArshalSpec ArshalEnc ArshalDec ArshalTrip ArshalTotal ArshalThms ArshalGives MapSpec MapProof StoreSpec StoreProof
  Pipeline PipelineProof ThriftTest ThriftTestSpec ThriftTestProof Protocols ProtocolsSpec ProtocolsProof.

Section S.
Context (env : tenv) (P : rtype -> Prop) (Henv : env_ok env) (Hids : unique_ids env) (Hsup : supported env P).

Lemma fits_mono a b v t : a <= b -> fits env a v t -> fits env b v t.
Proof using.
  intros H F x u I. specialize (F x u I). destruct x as [| | | | | | | | |m| | |]; try destruct m; auto; lia.
Qed.

Lemma basic_sends w wsize c h : basic w -> 0 < wsize -> good_case env P (2 ^ 31) c -> plain_header h ->
  exists N, forall n, (N <= n)%nat -> exists s' k l,
    run (over (p_writer (protocol_of w)) (bufw_h wsize))
      (call (WMessageBegin h) >>! Marshal env n n (Some (c_type c, c_val c)) >>! call WMessageEnd >>! call WFlush)
      (p_reset_writer (protocol_of w) (p_new_writer (protocol_of w)), mkBW [] None (buffer_sink []))
    = Done (s', mkBW [] None k) None /\ received k = message_bytes w h ++ l.
Proof using Henv Hsup Hids.
  intros B Hw (Pt & (sid & U) & Ht & _ & Hf & _ & _) (h1 & h2 & h3). destruct h as [nm ty id]. cbn [mh_name mh_type mh_id] in *.
  assert (Hp : passes env (c_type c, c_val c) (c_type c) (c_val c)) by (right; split; [unfold is_ptr; rewrite U; reflexivity|reflexivity]).
  assert (Bin : forall strict, exists N, forall n, (N <= n)%nat -> exists s' k l,
    run (over (bin_writer strict) (bufw_h wsize))
      (call (WMessageBegin (mkMH nm ty id)) >>! Marshal env n n (Some (c_type c, c_val c)) >>! call WMessageEnd >>! call WFlush)
      (tt, mkBW [] None (buffer_sink []))
    = Done (s', mkBW [] None k) None /\ received k = bin_message strict nm ty id ++ l).
  { intros strict. destruct (bin_marshal_mem env P Henv Hsup strict _ _ _ Pt Ht Hp) as (N & tv & S & W).
    exists N. intros n Hn.
    destruct (flush_last (bin_writer strict) wsize (call (WMessageBegin (mkMH nm ty id))) (Marshal env n n (Some (c_type c, c_val c))) (call WMessageEnd) tt [] tt
      (bin_message strict nm ty id ++ binary_encoding tv) Hw) as (k & E & R).
    - intros b m Hb. exact (bin_flush_ok wsize Hw strict b m Hb).
    - rewrite run_and_then, bin_message_written by (unfold is_u8; lia). cbn [obind]. rewrite run_and_then, W by exact Hn. cbn [obind].
      rewrite run_call. reflexivity.
    - exists tt, k. eauto. }
  destruct w; try contradiction.
  - apply (Bin true).
  - apply (Bin false).
  - assert (Hf' : fits env (2 ^ 63) (c_val c) (c_type c)) by (eapply fits_mono; [|exact Hf]; lia).
    destruct (cmp_marshal_mem env P Henv Hsup _ _ _ Pt Ht Hf' Hp) as (N & tv & S & W). exists N. intros n Hn.
    destruct (W (mkCW [] 0 fh0 false) ([] ++ cmp_message nm ty id) eq_refl) as (lc & Hlc & Wn). destruct (Wn n Hn) as (st' & Hst' & E).
    destruct (flush_last cmp_writer wsize (call (WMessageBegin (mkMH nm ty id))) (Marshal env n n (Some (c_type c, c_val c))) (call WMessageEnd) (mkCW [] 0 fh0 false) [] st'
      (cmp_message nm ty id ++ lc) Hw) as (k & Ek & R).
    + intros b m Hb. exact (cmp_flush_ok wsize Hw st' b m Hb).
    + rewrite run_and_then, cmp_message_written. cbn [obind]. rewrite run_and_then, E. cbn [obind].
      rewrite run_call. reflexivity.
    + exists st', k, lc. split; [exact Ek|exact R].
Qed.

Lemma refused_case r w wsize rsize uuid c : basic r -> basic w -> understands r w = false -> 0 < wsize -> 10 <= rsize ->
  good_case env P (2 ^ 31) c -> c_has_uuid c && negb uuid = false ->
  let p := join_protocol (protocol_of r) (protocol_of w) in
  exists N, forall n, (N <= n)%nat -> exists t,
    test_case env p wsize rsize uuid n c (new_bench p) = Done t (Some (FFatal (refusal r w (mkMH (c_name c) 1 1)))).
Proof using Henv Hsup Hids.
  intros Br Bw Hu Hw Hr Hc Hs p. set (h := mkMH (c_name c) 1 1).
  assert (Hh : plain_header h).
  { destruct Hc as (_ & _ & _ & _ & _ & Hn & _). split; [|split]; cbn; unfold is_i32; lia. }
  destruct (basic_sends w wsize c h Bw Hw Hc Hh) as (N & HN). exists N. intros n Hn.
  destruct (HN n Hn) as (s' & k & l & E & R).
  destruct (basic_read r w rsize h (buffer_source (received k)) l Br Bw Hr Hh (buffer_good _)) as (s2 & b2 & res & E2 & H2).
  { now rewrite buffer_bytes. } { destruct (received k); discriminate. }
  rewrite Hu in H2. subst res.
  unfold test_case. rewrite Hs. unfold marshal_msg, writing, p.
  cbn [reset_w next_msg new_bench t_msg t_buf t_w t_wbuf t_werr p_writer p_w p_new_writer p_reset_writer join_protocol mh_type mh_id mh_name].
  change (mkMH (c_name c) (u8 (0 mod 4 + 1)) (i32 (0 + 1))) with h.
  rewrite E. cbn [obind fatal and_next]. unfold read_msg, reading, receive.
  cbn [reset_r t_msg t_buf t_r t_rbuf t_rerr p_reader p_r p_new_reader p_reset_reader join_protocol wsink].
  match goal with |- context [p_reset_reader (protocol_of r) ?x] => change x with (p_new_reader (protocol_of r)) end.
  replace (p_reset_reader (protocol_of r) (p_new_reader (protocol_of r))) with (p_new_reader (protocol_of r)) by (destruct r; try contradiction; reflexivity).
  rewrite run_bind. unfold new_breader in E2.
  rewrite E2.
  cbn [obind run]. eauto.
Qed.

Lemma refused_test r w wsize rsize uuid cs : basic r -> basic w -> understands r w = false -> 0 < wsize -> 10 <= rsize ->
  Forall (good_case env P (2 ^ 31)) cs -> Exists (fun c => c_has_uuid c && negb uuid = false) cs ->
  let p := join_protocol (protocol_of r) (protocol_of w) in
  exists c N, In c cs /\ forall n, (N <= n)%nat -> exists t,
    test_protocol env p wsize rsize uuid n cs = Done t (Some (FFatal (refusal r w (mkMH (c_name c) 1 1)))).
Proof using Henv Hsup Hids.
  intros Br Bw Hu Hw Hr Hcs Hex p. unfold test_protocol. induction cs as [|c cs IH]; [inversion Hex|].
  inversion Hcs; subst. destruct (c_has_uuid c && negb uuid) eqn:Es.
  - inversion Hex; subst; [congruence|]. destruct IH as (c' & N & I & H); auto.
    exists c', N. split; [right; exact I|]. intros n Hn. cbn [test_cases]. unfold test_case at 1. rewrite Es. cbn [and_next obind]. auto.
  - destruct (refused_case r w wsize rsize uuid c Br Bw Hu Hw Hr) as (N & H); auto.
    exists c, N. split; [left; reflexivity|]. intros n Hn. destruct (H n Hn) as (t & E). exists t. cbn [test_cases]. fold p in E. rewrite E. reflexivity.
Qed.
End S.

Lemma good_case_mono env P a b c : a <= b -> good_case env P a c -> good_case env P b c.
Proof. intros H (A & B & C & D & F & G & I). pose proof (fits_mono env a b _ _ H F). split; [exact A|]. split; [exact B|].
  split; [exact C|]. split; [exact D|]. split; [assumption|]. split; [lia|exact I]. Qed.
