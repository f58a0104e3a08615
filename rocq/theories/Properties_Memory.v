(** Property C61: how much memory Unmarshal can be made to use. *)
From Verif Require Import Base BaseLemmas Prog Bufio BufioProof Wire Binary Compact Layers GoType Fields Arshal ArshalTotal ArshalSafe
  ArshalExample MemorySpec MemoryProof.

(** ** C61 *)
(** For every program ([env], [ts]: its types) there is a constant [K] such that whatever bytes the Reader is given, valid or
    not, and whatever is in the destination, Unmarshal comes back and has made the destination larger by at most [K] for every
    byte it consumed, and [K]; also if it returns an error.  Lengths and counts in the input do not matter. *)
Theorem C61_binary env ts : closed env (fun t => In t ts) -> env_ok env -> grows_gently env ->
  exists K, forall size strict t w b d e,
  10 <= size -> In t ts -> has_type env w t -> binv size b -> abs b = mkStream d (FErr e) ->
  exists N b' v r p d',
    (forall n, (N <= n)%nat ->
       run (over (bin_reader strict) (bufio_h size)) (Unmarshal env n n (Some (RtPtr t, GPtr (Some w)))) (tt, b) = Done (tt, b') (Some v, r)) /\
    binv size b' /\ d = p ++ d' /\ abs b' = mkStream d' (FErr e) /\
    (footprint v <= footprint w + K * (length p + 1))%nat.
Proof. exact (bin_bounded env ts). Qed.
Print Assumptions C61_binary.

Theorem C61_compact env ts : closed env (fun t => In t ts) -> env_ok env -> grows_gently env ->
  exists K, forall size t w st b d e,
  10 <= size -> In t ts -> has_type env w t -> binv size b -> abs b = mkStream d (FErr e) ->
  exists N st' b' v r p d',
    (forall n, (N <= n)%nat ->
       run (over cmp_reader (bufio_h size)) (Unmarshal env n n (Some (RtPtr t, GPtr (Some w)))) (st, b) = Done (st', b') (Some v, r)) /\
    binv size b' /\ d = p ++ d' /\ abs b' = mkStream d' (FErr e) /\
    (footprint v <= footprint w + K * (length p + 1))%nat.
Proof. exact (cmp_bounded env ts). Qed.
Print Assumptions C61_compact.

(** The program of [ArshalExample]: a recursive struct with a map, a set and a pointer. *)
Example C61_sample : closed node_env (fun t => In t [RtNamed 0; RtInt32; RtMap RtString RtFloat32; RtString; RtFloat32; RtNamed 1; RtPtr (RtNamed 0)]) /\
  env_ok node_env /\ grows_gently node_env /\ has_type node_env node_value Node.
Proof.
  conj; [exact (supported_closed _ _ node_supported)|exact node_ok|exists O; intros n; cbn; lia|exact node_typed].
Qed.

(** Field 2, a set said to have 2^31-1 elements, of which two are there: there is an error, and the destination has
    grown by an array of three empty strings. *)
Example C61_hostile :
  let b := new_breader (mkSource [([x0e; x00; x02; x0b; x7f; xff; xff; xff; x00; x00; x00; x00; x00; x00; x00; x00], None)] (FErr EEOF)) in
  binv 16 b /\
  match run (over (bin_reader true) (bufio_h 16)) (Unmarshal node_env 9 9 (Some (RtPtr Node, GPtr (Some (zero node_env Node))))) (tt, b) with
  | Done _ (Some v, Some _) => footprint v = (footprint (zero node_env Node) + 3)%nat
  | _ => False
  end.
Proof.
  cbv zeta. split; [repeat split; try discriminate; vm_compute; auto|].
  vm_compute. reflexivity.
Qed.
