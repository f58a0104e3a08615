(** Property C75: senders and connections that fail. *)
From Coq Require Import Strings.String.
From Verif Require Import Base BaseLemmas Prog Bufio BufioProof BufioW BufioWProof Wire WireProof Spec Clients
  Binary Compact CompactProof Robust GoFloat Utf8 GoType Fields Arshal GoTypeProof FieldsProof
  ArshalSpec ArshalEnc ArshalDec ArshalTrip ArshalTotal ArshalThms ArshalExample Properties_Arshal
  MapSpec MapProof StoreSpec StoreProof Properties_Store Pipeline PipelineProof Properties_Pipeline LeftSpec CrashSpec CrashProof.

(** ** C75 *)
(** The io.Writer [s] may fail at any Write or Flush, in any way; then [send_all] returns the error.
    [bs] are the bytes of the messages.  The io.Writer has received a beginning of them, all if no
    error was returned.  Whatever beginning reaches the receiver, in whatever pieces and whatever error then comes,
    the receiver gets what [served] says (CrashSpec.v). *)
Theorem C75_binary env P sw sr wsize rsize s xs :
  env_ok env -> unique_ids env -> supported env P ->
  0 < wsize -> 10 <= rsize -> received s = [] -> (sr = true -> sw = true) ->
  Forall (fun x => bin_head (x_head x) /\ sendable env P (2 ^ 31) x) xs ->
  exists N bs, messages env binary_format (binary_head sw) xs bs /\
    forall n, (N <= n)%nat -> exists b r,
      run (over (bin_writer sw) (bufw_h wsize)) (send_all env n xs) (tt, new_bwriter s) = Done (tt, b) r /\
      (exists q, received (wsink b) ++ q = bs /\ (r = None -> q = [])) /\
      forall src e q n', good_source src -> src_bytes src ++ q = bs -> src_fin src = FErr e -> (N <= n')%nat ->
        exists b' ms,
          run (over (bin_reader sr) (bufio_h rsize)) (receive_until env n' (map x_plan xs)) (tt, new_breader src) = Done (tt, b') ms /\
          served env binary_format (binary_head sw) e xs (src_bytes src) ms.
Proof. intros He Hu Hs. exact (bin_crash env P He Hu Hs sw sr wsize rsize s xs). Qed.
Print Assumptions C75_binary.

Theorem C75_compact env P wsize rsize s xs :
  env_ok env -> unique_ids env -> supported env P ->
  0 < wsize -> 10 <= rsize -> received s = [] ->
  Forall (fun x => cmp_head (x_head x) /\ 0 <= mh_id (x_head x) /\ sendable env P (2 ^ 63) x) xs ->
  exists N, forall n, (N <= n)%nat -> exists bs cw b r,
      messages env compact_format compact_head xs bs /\
      run (over cmp_writer (bufw_h wsize)) (send_all env n xs) (cw0, new_bwriter s) = Done (cw, b) r /\
      (exists q, received (wsink b) ++ q = bs /\ (r = None -> q = [])) /\
      forall src e q n' cr, good_source src -> src_bytes src ++ q = bs -> src_fin src = FErr e -> cr_bool cr = BNone -> (N <= n')%nat ->
        exists cr' b' ms,
          run (over cmp_reader (bufio_h rsize)) (receive_until env n' (map x_plan xs)) (cr, new_breader src) = Done (cr', b') ms /\
          served env compact_format compact_head e xs (src_bytes src) ms.
Proof. intros He Hu Hs. exact (cmp_crash env P He Hu Hs wsize rsize s xs). Qed.
Print Assumptions C75_compact.

(** The hypotheses hold of the messages of C55_sample, but for the sequence number -1 in
    compact.  Here the io.Writer fails in its second Write, after 5 bytes of it: two of the
    messages arrive, and of the third only a part of the header. *)
Example C75_hypotheses :
  Forall (fun x => bin_head (x_head x) /\ sendable two_env two_types (2 ^ 31) x) three /\
  Forall (fun x => cmp_head (x_head x) /\ 0 <= mh_id (x_head x) /\ sendable two_env two_types (2 ^ 63) x) (firstn 1 three).
Proof.
  split; [exact (proj1 C55_sample)|]. constructor; [|constructor]. pose proof (Forall_inv (proj2 C55_sample)) as (A & B).
  split; [exact A|]. split; [vm_compute; discriminate|exact B].
Qed.
Example C75_sample :
  let s := mkSink [None; Some (5, EIO 7)] false [] false [] in
  match run (over (bin_writer true) (bufw_h 64)) (send_all two_env 9 three) (tt, new_bwriter s) with
  | Done (_, b) r =>
      r = Some (EIO 7) /\ zlen (received (wsink b)) = 69 /\
      match run (over (bin_reader true) (bufio_h 16)) (receive_until two_env 9 (map x_plan three))
              (tt, new_breader (mkSource [(received (wsink b), None)] (FErr EEOF))) with
      | Done _ ms => map (fun m => (fst (fst m), snd m)) ms =
          [(mkMH (lit "put") 1 7, None); (mkMH [] 4 (-1), None); (mkMH [] 2 0, Some EUnexpectedEOF)]
      | _ => False
      end
  | _ => False
  end.
Proof. vm_compute. auto. Qed.
