(** Property C55: several messages through one Writer and one Reader. *)
From Coq Require Import Strings.String.
From Verif Require Import Base BaseLemmas Prog Bufio BufioProof BufioW BufioWProof Wire WireProof Spec Clients
  Binary Compact CompactProof Robust GoFloat Utf8 GoType Fields Arshal GoTypeProof FieldsProof
  ArshalSpec ArshalEnc ArshalDec ArshalTrip ArshalTotal ArshalThms ArshalExample Properties_Arshal
  MapSpec MapProof StoreSpec StoreProof Properties_Store Pipeline PipelineProof.

(** ** C55 *)
(** [xs] says which messages are sent, of any number, type and value; after which of them the sender
    flushes; and what the receiver does with each ([send_all], [receive_all], Pipeline.v).  All arrive
    in order ([arrived]): the header that was sent, the value unmarshalled as C53 and C54
    say, no error; and what follows the last one has not been touched. *)
Theorem C55_binary env P sw sr wsize rsize s xs :
  env_ok env -> unique_ids env -> supported env P ->
  0 < wsize -> 8 <= rsize -> ok_sink s -> received s = [] -> (sr = true -> sw = true) ->
  Forall (fun x => bin_head (x_head x) /\ sendable env P (2 ^ 31) x) xs ->
  exists N rs, Forall2 (arrived env) xs rs /\
    forall n, (N <= n)%nat -> exists b,
      run (over (bin_writer sw) (bufw_h wsize)) (send_all env n xs) (tt, new_bwriter s) = Done (tt, b) None /\
      forall src rest n', good_source src -> src_bytes src = received (wsink b) ++ rest -> (N <= n')%nat ->
        exists b',
          run (over (bin_reader sr) (bufio_h rsize)) (receive_all env n' (map x_plan xs)) (tt, new_breader src)
            = Done (tt, b') rs /\
          binv rsize b' /\ abs b' = mkStream rest (src_fin src).
Proof. intros He Hu Hs. exact (bin_pipeline env P He Hu Hs sw sr wsize rsize s xs). Qed.
Print Assumptions C55_binary.

Theorem C55_compact env P wsize rsize s xs :
  env_ok env -> unique_ids env -> supported env P ->
  0 < wsize -> 10 <= rsize -> ok_sink s -> received s = [] ->
  Forall (fun x => cmp_head (x_head x) /\ sendable env P (2 ^ 63) x) xs ->
  exists N rs, Forall2 (arrived env) xs rs /\
    forall n, (N <= n)%nat -> exists b cw,
      run (over cmp_writer (bufw_h wsize)) (send_all env n xs) (cw0, new_bwriter s) = Done (cw, b) None /\
      forall src rest n' e cr, good_source src -> src_bytes src = received (wsink b) ++ rest -> src_fin src = FErr e ->
        cr_bool cr = BNone -> (N <= n')%nat ->
        exists b',
          run (over cmp_reader (bufio_h rsize)) (receive_all env n' (map x_plan xs)) (cr, new_breader src)
            = Done (cr, b') rs /\
          binv rsize b' /\ abs b' = mkStream rest (src_fin src).
Proof. intros He Hu Hs. exact (cmp_pipeline env P He Hu Hs wsize rsize s xs). Qed.
Print Assumptions C55_compact.

(** Three messages: an Old read as a New, an int32 skipped, and a pointer to an Old read over another Old. *)
Definition three : list exchange :=
  [ mkX (mkMH (lit "put") 1 7) Old old_value (Old, old_value) false (inl (New, zero two_env New));
    mkX (mkMH [] 4 (-1)) RtInt32 (GInt 5) (RtInt32, GInt 5) true (inr T_I32);
    mkX (mkMH (lit "put") 2 7) Old old_value (RtPtr Old, GPtr (Some old_value)) false
        (inl (Old, GStruct [GInt 3; GString (lit "x"); GSlice true [] []])) ].
Example C55_sample : Forall (fun x => bin_head (x_head x) /\ sendable two_env two_types (2 ^ 31) x) three /\
  Forall (fun x => cmp_head (x_head x) /\ sendable two_env two_types (2 ^ 63) x) three.
Proof.
  assert (To : has_type two_env old_value Old) by (vm_compute; intuition discriminate).
  assert (Self : compatible two_env Old Old) by (apply (C54_reflexive two_env two_types); [exact two_unique|exact two_supported|left; reflexivity]).
  assert (S : forall lim, fits two_env lim old_value Old -> fits two_env lim (GInt 5) RtInt32 ->
    forall x, In x three -> sendable two_env two_types lim x).
  { intros lim Hf Hi x [<-|[<-|[<-|[]]]]; unfold sendable; cbn [x_type x_val x_in x_plan].
    - conj; auto; [left; reflexivity|right; auto|right; left; reflexivity|apply zero_typed, two_ok|exact two_compatible].
    - conj; auto; [right; right; left; reflexivity|cbn; unfold is_i32; lia|right; auto|apply tt_i32; auto].
    - conj; auto; [left; reflexivity|left; exists (RtPtr Old); auto|left; reflexivity|vm_compute; intuition discriminate]. }
  split; apply Forall_forall; intros x Hx; (split; [destruct Hx as [<-|[<-|[<-|[]]]]; vm_compute; intuition discriminate|]);
    apply S; auto; apply fits_check; vm_compute; reflexivity.
Qed.
