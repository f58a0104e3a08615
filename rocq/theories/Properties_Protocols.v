(** Property C64: protocols, and protocols joined of them. *)
From Coq Require Import Strings.String.
From Verif Require Import Base BaseLemmas Prog Bufio BufioProof BufioW BufioWProof GoBinary GoBinaryProof Wire WireProof
  Spec Binary Compact CompactProof Messages GoType Fields Arshal ArshalSpec ArshalTotal ArshalThms MapSpec StoreSpec RemarshalSpec
  Pipeline PipelineProof ThriftTest ThriftTestSpec ThriftTestProof ThriftTestTable Protocols ProtocolsSpec ProtocolsProof ProtocolsTest
  Properties_Pipeline Properties_ThriftTest.
Local Open Scope Z_scope.
Local Open Scope list_scope.

(** A message header written by a Writer of any of the protocols [p], and what a Reader of any of them, [q], makes of it
    ([understands], [refusal], [reads_as] and [writes_as]: Protocols ProtocolsSpec ProtocolsProof.v): it is read as it was written if the one that [q]
    reads understands the one that [p] writes, and is refused otherwise; it is never taken for another.  What is left is what followed it. *)
Theorem C64_headers p q wsize rsize s h :
  0 < wsize -> 10 <= rsize -> ok_sink s -> received s = [] ->
  0 <= mh_type h < 8 -> is_i32 (mh_id h) -> zlen (mh_name h) < 2 ^ 31 ->
  exists st b,
    run (over (p_writer (protocol_of p)) (bufw_h wsize)) (call (WMessageBegin h) >>! call WFlush)
        (p_new_writer (protocol_of p), new_bwriter s) = Done (st, b) None /\
    forall src rest, good_source src -> src_bytes src = received (wsink b) ++ rest ->
      (src_fin src = FSilent -> 9 <= zlen rest) ->
      exists st' b' r,
        run (over (p_reader (protocol_of q)) (bufio_h rsize)) (call RMessageBegin)
            (p_new_reader (protocol_of q), new_breader src) = Done (st', b') r /\
        if understands (reads_as q) (writes_as p)
        then r = (h, None) /\ binv rsize b' /\ abs b' = mkStream rest (src_fin src)
        else r = (mkMH [] 0 0, Some (refusal (reads_as q) (writes_as p) h)).
Proof.
  intros Hw Hr Hs Hs0 H1 H2 H3. assert (Hh : plain_header h) by (split; auto). rewrite (joined p), (joined q).
  destruct (basic_written (writes_as p) wsize s h (writes_as_basic p) Hw Hs Hs0 Hh) as (st & b & E & R).
  exists st, b. split; [exact E|]. intros src rest G Hb Hfi. rewrite R in Hb.
  exact (basic_read (reads_as q) (writes_as p) rsize h src rest (reads_as_basic q) (writes_as_basic p) Hr Hh G Hb Hfi).
Qed.
Print Assumptions C64_headers.

(** Any number of messages arrive, as C55 says, from a Writer of [p] at a Reader of [q]. *)
Theorem C64_messages p q env P wsize rsize s xs :
  understands (reads_as q) (writes_as p) = true ->
  env_ok env -> unique_ids env -> supported env P ->
  0 < wsize -> 10 <= rsize -> ok_sink s -> received s = [] ->
  Forall (fun x => cmp_head (x_head x) /\ zlen (mh_name (x_head x)) < 2 ^ 31 /\ sendable env P (2 ^ 31) x) xs ->
  exists N rs, Forall2 (arrived env) xs rs /\
    forall n, (N <= n)%nat -> exists st b,
      run (over (p_writer (protocol_of p)) (bufw_h wsize)) (send_all env n xs) (p_new_writer (protocol_of p), new_bwriter s) = Done (st, b) None /\
      forall src rest n' e, good_source src -> src_bytes src = received (wsink b) ++ rest -> src_fin src = FErr e -> (N <= n')%nat ->
        exists st' b',
          run (over (p_reader (protocol_of q)) (bufio_h rsize)) (receive_all env n' (map x_plan xs)) (p_new_reader (protocol_of q), new_breader src)
            = Done (st', b') rs /\
          binv rsize b' /\ abs b' = mkStream rest (src_fin src).
Proof.
  intros Hu He Hi Hsu Hw Hr Hs Hs0 Hx.
  assert (Bin : forall sr sw : bool, (sr = true -> sw = true) ->
    exists N rs, Forall2 (arrived env) xs rs /\
    forall n, (N <= n)%nat -> exists st b,
      run (over (bin_writer sw) (bufw_h wsize)) (send_all env n xs) (tt, new_bwriter s) = Done (st, b) None /\
      forall src rest n' e, good_source src -> src_bytes src = received (wsink b) ++ rest -> src_fin src = FErr e -> (N <= n')%nat ->
        exists st' b',
          run (over (bin_reader sr) (bufio_h rsize)) (receive_all env n' (map x_plan xs)) (tt, new_breader src)
            = Done (st', b') rs /\
          binv rsize b' /\ abs b' = mkStream rest (src_fin src)).
  { intros sr sw Hst.
    destruct (C55_binary env P sw sr wsize rsize s xs) as (N & rs & A & B); auto; try lia.
    { eapply Forall_impl; [|exact Hx]. cbn beta. intros x ((h1 & h2 & h3) & Hn & Hse). split; [|exact Hse].
      split; [unfold is_u8; lia|]. auto. }
    exists N, rs. split; [exact A|]. intros n Hn. destruct (B n Hn) as (b & E & R). exists tt, b. split; [exact E|].
    intros src rest n' e G Hb _ Hn'. destruct (R src rest n' G Hb Hn') as (b' & E' & R'). exists tt, b'. auto. }
  rewrite (joined p), (joined q).
  destruct (reads_as q); try discriminate Hu; destruct (writes_as p); try discriminate Hu.
  - apply (Bin true true). auto.
  - apply (Bin false true). discriminate.
  - apply (Bin false false). discriminate.
  - destruct (C55_compact env P wsize rsize s xs) as (N & rs & A & B); auto; try lia.
    { eapply Forall_impl; [|exact Hx]. cbn beta. intros x (Hh & Hn & (S1 & S2 & S3 & S4 & S5)). split; [exact Hh|].
      split; [exact S1|]. split; [exact S2|]. split; [eapply fits_mono; [|exact S3]; lia|]. auto. }
    exists N, rs. split; [exact A|]. intros n Hn. destruct (B n Hn) as (b & cw & E & R). exists cw, b. split; [exact E|].
    intros src rest n' e G Hb Hf Hn'. destruct (R src rest n' e cr0 G Hb Hf eq_refl Hn') as (b' & E' & R'). exists cr0, b'. auto.
Qed.
Print Assumptions C64_messages.

(** TestProtocol tells: it is passed by just those that understand themselves. *)
Theorem C64_test p env P wsize rsize uuid cs :
  env_ok env -> unique_ids env -> supported env P -> no_methods env -> negzero_ok env -> 0 < wsize -> 10 <= rsize ->
  Forall (good_case env P (2 ^ 31)) cs -> Exists (fun c => c_has_uuid c && negb uuid = false) cs ->
  exists c N, In c cs /\ forall n, (N <= n)%nat -> exists t,
    test_protocol env (protocol_of p) wsize rsize uuid n cs =
    Done t (if understands (reads_as p) (writes_as p) then None
            else Some (FFatal (refusal (reads_as p) (writes_as p) (mkMH (c_name c) 1 1)))).
Proof.
  intros He Hi Hsu Hno Hz Hw Hr Hc Hex. rewrite (joined p). pose proof (reads_as_basic p) as Br. pose proof (writes_as_basic p) as Bw.
  destruct (understands (reads_as p) (writes_as p)) eqn:Hu.
  - assert (Ok : exists N, forall n, (N <= n)%nat -> exists t,
      test_protocol env (join_protocol (protocol_of (reads_as p)) (protocol_of (writes_as p))) wsize rsize uuid n cs = Done t None).
    { destruct (reads_as p); try discriminate Hu; destruct (writes_as p); try discriminate Hu; cbn [protocol_of].
      - apply (bin_test env P He Hi Hsu Hno Hz true true wsize rsize uuid cs (fun H => H) Hw Hr Hc).
      - apply (bin_test env P He Hi Hsu Hno Hz false true wsize rsize uuid cs (fun _ => eq_refl) Hw Hr Hc).
      - apply (bin_test env P He Hi Hsu Hno Hz false false wsize rsize uuid cs (fun H => H) Hw Hr Hc).
      - apply (cmp_test env P He Hi Hsu Hno Hz wsize rsize uuid cs Hw Hr).
        eapply Forall_impl; [|exact Hc]. intros c. apply good_case_mono. lia. }
    destruct Ok as (N & Ok). apply Exists_exists in Hex as (c & Ic & _). exists c, N. auto.
  - exact (refused_test env P He Hi Hsu (reads_as p) (writes_as p) wsize rsize uuid cs Br Bw Hu Hw Hr Hc Hex).
Qed.
Print Assumptions C64_test.

(** What String returns tells which protocol it is, however it was joined. *)
Theorem C64_names p q : protocol_String p = protocol_String q -> p = q.
Proof. exact (name_injective p q). Qed.
Print Assumptions C64_names.

(** JoinProtocol(JoinProtocol(ProtocolNonStrict, compact), Protocol) reads as the first and writes as the last. *)
Definition twice : pval := PJoin (PJoin PNonStrict PCompact) PBinary.
Example C64_sample : protocol_String twice =
    lit "thriftwire.JoinProtocol(thriftwire.JoinProtocol(thriftbinary.ProtocolNonStrict, thriftcompact.Protocol), thriftbinary.Protocol)" /\
  understands (reads_as twice) (writes_as twice) = true /\
  understands (reads_as twice) (writes_as PCompact) = false /\
  refusal (reads_as twice) (writes_as PCompact) (mkMH (lit "ping") 1 5) = EBinBadVersion 0x82210000 /\
  Forall (good_case tt_env tt_types (2 ^ 31)) (table (fun _ _ v => v) alphabet) /\
  Exists (fun c => c_has_uuid c && negb true = false) (table (fun _ _ v => v) alphabet).
Proof.
  repeat (split; [reflexivity|]). split.
  - apply table_good; try lia; try (intros; apply sh_same); apply Permutation.Permutation_refl.
  - left. reflexivity.
Qed.
