(** Property C56: marshalling again what Unmarshal stored. *)
From Coq Require Import Strings.String.
From Verif Require Import Base BaseLemmas Prog Bufio BufioProof BufioW BufioWProof Wire WireProof Spec Clients
  Binary Compact CompactProof Robust GoFloat Utf8 GoType Fields Arshal GoTypeProof FieldsProof
  ArshalSpec ArshalEnc ArshalDec ArshalTrip ArshalTotal ArshalThms ArshalExample Properties_Arshal
  MapSpec MapProof StoreSpec StoreProof RemarshalSpec RemarshalProof.

(** ** C56 *)
(** Marshal writes [v], which is the Thrift value [tv]; Unmarshal reads it back as [v'] (C23).  Marshal writes
    [v'] again, its maps iterated over in any orders ([v2]).  If no field of [v] is sent and comes back
    as one that is not sent ([tidy]), then what is sent now is [tv] again but for the order of map entries
    ([reordered]), and if that order is the same, then so are the bytes.  In any case [v2] is [tidy], so
    that after the first time nothing changes any more. *)
Theorem C56_binary env P sw sr wsize rsize s t v i :
  env_ok env -> unique_ids env -> supported env P -> no_methods env -> negzero_ok env ->
  0 < wsize -> 8 <= rsize -> ok_sink s -> received s = [] ->
  P t -> has_type env v t -> keys_distinct env v t -> fits env (2 ^ 31) v t -> passes env i t v ->
  exists N tv v' tv', stands_for env t v tv /\ trip env t v v' /\ (tidy env v t -> tv' = tv) /\
    forall n, (N <= n)%nat -> exists b,
      run (over (bin_writer sw) (bufw_h wsize)) (Marshal env n n (Some i) >>! call WFlush) (tt, new_bwriter s)
        = Done (tt, b) None /\
      (forall src rest n', good_source src -> src_bytes src = received (wsink b) ++ rest -> (N <= n')%nat ->
        exists b',
          run (over (bin_reader sr) (bufio_h rsize)) (Unmarshal env n' n' (Some (RtPtr t, GPtr (Some (zero env t)))))
              (tt, new_breader src) = Done (tt, b') (Some v', None)) /\
      forall v2 i2 sw2 wsize2 s2, shuffled v' v2 -> passes env i2 t v2 -> 0 < wsize2 -> ok_sink s2 -> received s2 = [] ->
        tidy env v2 t /\
        exists N2 tv2, stands_for env t v2 tv2 /\ reordered tv' tv2 /\
          forall n2, (N2 <= n2)%nat -> exists b2,
            run (over (bin_writer sw2) (bufw_h wsize2)) (Marshal env n2 n2 (Some i2) >>! call WFlush) (tt, new_bwriter s2)
              = Done (tt, b2) None /\
            (tv2 = tv -> received (wsink b2) = received (wsink b)).
Proof. intros He Hu Hs Hn Hz. exact (bin_again env P He Hu Hs Hn Hz sw sr wsize rsize s t v i). Qed.
Print Assumptions C56_binary.

Theorem C56_compact env P wsize rsize s t v i :
  env_ok env -> unique_ids env -> supported env P -> no_methods env -> negzero_ok env ->
  0 < wsize -> 10 <= rsize -> ok_sink s -> received s = [] ->
  P t -> has_type env v t -> keys_distinct env v t -> fits env (2 ^ 63) v t -> passes env i t v ->
  exists N tv v' tv', stands_for env t v tv /\ trip env t v v' /\ (tidy env v t -> tv' = tv) /\
    forall n, (N <= n)%nat -> exists b cw,
      run (over cmp_writer (bufw_h wsize)) (Marshal env n n (Some i) >>! call WFlush) (cw0, new_bwriter s)
        = Done (cw, b) None /\
      (forall src rest n' e cr, good_source src -> src_bytes src = received (wsink b) ++ rest -> src_fin src = FErr e ->
        cr_bool cr = BNone -> (N <= n')%nat ->
        exists b',
          run (over cmp_reader (bufio_h rsize)) (Unmarshal env n' n' (Some (RtPtr t, GPtr (Some (zero env t)))))
              (cr, new_breader src) = Done (cr, b') (Some v', None)) /\
      forall v2 i2 wsize2 s2, shuffled v' v2 -> passes env i2 t v2 -> 0 < wsize2 -> ok_sink s2 -> received s2 = [] ->
        tidy env v2 t /\
        exists N2 tv2, stands_for env t v2 tv2 /\ reordered tv' tv2 /\
          forall n2, (N2 <= n2)%nat -> exists b2 cw2,
            run (over cmp_writer (bufw_h wsize2)) (Marshal env n2 n2 (Some i2) >>! call WFlush) (cw0, new_bwriter s2)
              = Done (cw2, b2) None /\
            (tv2 = tv -> received (wsink b2) = received (wsink b)).
Proof. intros He Hu Hs Hn Hz. exact (cmp_again env P He Hu Hs Hn Hz wsize rsize s t v i). Qed.
Print Assumptions C56_compact.

(** A value in which no map has two entries is not changed by reordering: its bytes are the same. *)
Theorem C56_small_maps tv tv2 : small_maps tv -> reordered tv tv2 -> tv2 = tv.
Proof. exact (small_reordered tv tv2). Qed.
Print Assumptions C56_small_maps.

(** A value is [tidy] if every field that is not required is zero, or a scalar, or a non-nil pointer, or a
    slice or map that is not empty, or a struct with such a field that is sent. *)
Theorem C56_tidy env v t : no_methods env -> has_type env v t ->
  (forall vs u s j sf w id, inside env v t (GStruct vs) u -> under env u = RtStruct s -> nth_error (te_struct env s) j = Some sf ->
     nth_error vs j = Some w -> declares env sf id false -> is_zero env false w = true \/ lasting env false (sf_type sf) w) ->
  tidy env v t.
Proof. intros Hn. exact (lasting_tidy env Hn v t). Qed.
Print Assumptions C56_tidy.

(** C23_sample's value, with two entries in a map. *)
Definition here (x : gval) : bool :=
  match x with
  | GStruct vs => forallb (fun w => is_zero node_env false w ||
      match w with GInt _ | GMap (Some (_ :: _)) | GSlice _ (_ :: _) _ | GPtr (Some _) => true | _ => false end) vs
  | _ => true
  end.
Example C56_sample : no_methods node_env /\ negzero_ok node_env /\ tidy node_env node_value Node.
Proof.
  split; [intros t; reflexivity|]. split; [intros _; reflexivity|].
  apply C56_tidy; [intros t; reflexivity|exact node_typed|].
  intros vs u s j sf w id Hi U Hn Hw D. assert (H : here (GStruct vs) = true) by (apply (everywhere_inside _ _ _ _ _ _ Hi); vm_compute; reflexivity).
  cbn [here] in H. rewrite forallb_forall in H. specialize (H w (nth_error_In _ _ Hw)). destruct (is_zero node_env false w) eqn:Z; [left; reflexivity|right].
  cbn [orb] in H. destruct w as [| | | | | | | |? [|] ?|[[|]|]|[|]| |]; try discriminate; [apply la_scalar; [exact I|exact Z]|first [apply la_slice|apply la_map|apply la_ptr]..].
Qed.

(** [tidy] is needed: a Node with an empty set that is not nil is sent with the set, comes back with a nil set, and is then
    sent without it. *)
Example C56_untidy :
  let v := GStruct [GInt 0; GMap None; GSlice false [] []; GPtr None; GInt 0] in
  has_type node_env v Node /\ trip node_env Node v (zero node_env Node) /\
  stands_for node_env Node v (VStruct [(1, VI32 0); (2, VSet T_String [])]) /\
  stands_for node_env Node (zero node_env Node) (VStruct [(1, VI32 0)]).
Proof.
  assert (T : has_type node_env (GStruct [GInt 0; GMap None; GSlice false [] []; GPtr None; GInt 0]) Node) by (vm_compute; intuition discriminate).
  cbv zeta. split; [exact T|]. split; [|split].
  - change (zero node_env Node) with (GStruct [GInt 0; GMap None; GSlice true [] []; GPtr None; GInt 0]).
    apply (trip_struct node_env Node O); [reflexivity|reflexivity|]. change (te_struct node_env 0) with node_fields.
    intros i sf w w' Hs Hw Hw'.
    destruct i as [|[|[|[|[|i]]]]]; [| | | | |destruct i; discriminate]; injection Hs as <-; injection Hw as <-; injection Hw' as <-;
      (split; [|intros _; reflexivity]); intros W.
    + apply trip_int.
    + apply trip_map_nil.
    + apply (trip_slice node_env (RtNamed 1) RtString); [reflexivity|constructor].
    + exfalso. destruct W as (o & W & H). unfold tagged in W. change (te_uni node_env) with ascii_only in W. vm_compute in W. injection W as <-.
      destruct H as [H|H]; discriminate.
    + apply trip_int.
  - apply (image_stands node_env node_ok 9 9 Node (AStruct Node)); [exists 1%nat; reflexivity|exact T|vm_compute; reflexivity].
  - apply (image_stands node_env node_ok 9 9 Node (AStruct Node)); [exists 1%nat; reflexivity|apply zero_typed, node_ok|vm_compute; reflexivity].
Qed.
