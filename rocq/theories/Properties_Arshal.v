(** Properties C23-C31, C34, C35 and the rest of C43: Marshal and Unmarshal. *)
From Coq Require Import Strings.String Sorting.Permutation Sorting.Sorted.
From Verif Require Import Base BaseLemmas Prog Bufio BufioProof BufioW BufioWProof Wire WireProof Spec Clients
  Binary Compact CompactProof Reads Robust GoFloat Utf8 GoType Fields Arshal GoTypeProof FieldsProof FloatProof
  ArshalSpec ArshalEnc ArshalDec ArshalTrip ArshalTotal ArshalThms ArshalSafe ArshalInput ArshalErr ArshalCalls ArshalReads
  ArshalGives TagProof ArshalMismatch ArshalStrict Relay ArshalExample ArshalRefute Properties_Values.

(** A program is a type environment [env]; [P] is a set of its types that is
    closed under taking parts.  [supported] types are the documented ones,
    [closed] ones may also include types the package refuses. *)

(** ** C23 *)
(** A value of a supported type is written by Marshal, passed by itself or by
    pointer; its bytes, delivered in any fragmentation and followed by anything,
    are read by Unmarshal into a zero value, which becomes the value written up
    to the changes listed in [trip]; exactly the bytes written are consumed. *)
Theorem C23_binary env P sw sr wsize rsize s t v i :
  env_ok env -> unique_ids env -> supported env P ->
  0 < wsize -> 8 <= rsize -> ok_sink s -> received s = [] ->
  P t -> has_type env v t -> keys_distinct env v t -> fits env (2 ^ 31) v t -> passes env i t v ->
  exists N v', trip env t v v' /\
    forall n, (N <= n)%nat -> exists b,
      run (over (bin_writer sw) (bufw_h wsize)) (Marshal env n n (Some i) >>! call WFlush) (tt, new_bwriter s)
        = Done (tt, b) None /\
      forall src rest n', good_source src -> src_bytes src = received (wsink b) ++ rest -> (N <= n')%nat ->
        exists b',
          run (over (bin_reader sr) (bufio_h rsize)) (Unmarshal env n' n' (Some (RtPtr t, GPtr (Some (zero env t)))))
              (tt, new_breader src) = Done (tt, b') (Some v', None) /\
          binv rsize b' /\ abs b' = mkStream rest (src_fin src).
Proof. intros He Hu Hs. exact (bin_arshal_trip env P He Hu Hs sw sr wsize rsize s t v i). Qed.
Print Assumptions C23_binary.

Theorem C23_compact env P wsize rsize s t v i :
  env_ok env -> unique_ids env -> supported env P ->
  0 < wsize -> 10 <= rsize -> ok_sink s -> received s = [] ->
  P t -> has_type env v t -> keys_distinct env v t -> fits env (2 ^ 63) v t -> passes env i t v ->
  exists N v', trip env t v v' /\
    forall n, (N <= n)%nat -> exists b cw,
      run (over cmp_writer (bufw_h wsize)) (Marshal env n n (Some i) >>! call WFlush) (cw0, new_bwriter s)
        = Done (cw, b) None /\
      forall src rest n' e cr, good_source src -> src_bytes src = received (wsink b) ++ rest -> src_fin src = FErr e ->
        cr_bool cr = BNone -> (N <= n')%nat ->
        exists b',
          run (over cmp_reader (bufio_h rsize)) (Unmarshal env n' n' (Some (RtPtr t, GPtr (Some (zero env t)))))
              (cr, new_breader src) = Done (cr, b') (Some v', None) /\
          binv rsize b' /\ abs b' = mkStream rest (src_fin src).
Proof. intros He Hu Hs. exact (cmp_arshal_trip env P He Hu Hs wsize rsize s t v i). Qed.
Print Assumptions C23_compact.

(** [keys_distinct] holds of every Go map whose keys are booleans, numbers,
    strings or UUIDs. *)
Theorem C23_scalar_keys env v t : scalar_maps env v t -> keys_distinct env v t.
Proof. exact (scalar_keys_distinct env v t). Qed.
Print Assumptions C23_scalar_keys.

Example C23_sample : env_ok node_env /\ unique_ids node_env /\ supported node_env node_types /\ node_types Node /\
  has_type node_env node_value Node /\ keys_distinct node_env node_value Node /\
  fits node_env (2 ^ 31) node_value Node /\ fits node_env (2 ^ 63) node_value Node /\
  passes node_env (RtPtr Node, GPtr (Some node_value)) Node node_value /\ ok_sink plain_sink.
Proof.
  conj; try solve [apply plain_sink_ok]; [exact node_ok|exact node_unique|exact node_supported|left; reflexivity|exact node_typed|exact node_keys|exact node_fits| |].
  - apply fits_check. vm_compute. reflexivity.
  - left. now exists (RtPtr Node).
Qed.

(** ** C24 *)
(** [gives env t dst tv v r] says what Unmarshal does on any Reader that delivers
    the Thrift value [tv]: it stores [v] over [dst] and returns [r].  Binary and
    compact readers over bytes that encode [tv] are such Readers. *)
Theorem C24_binary env P strict size b t dst tv v r rest :
  closed env P -> env_ok env -> 8 <= size -> binv size b -> wf (2 ^ 31) tv -> P t -> has_type env dst t ->
  gives env t dst tv v r -> sdata (abs b) = binary_encoding tv ++ rest ->
  exists N, forall n, (N <= n)%nat -> exists b',
    run (over (bin_reader strict) (bufio_h size)) (Unmarshal env n n (Some (RtPtr t, GPtr (Some dst)))) (tt, b)
      = Done (tt, b') (Some v, r) /\ binv size b' /\ (r = None -> abs b' = mkStream rest (sfin (abs b))).
Proof. intros Hc He. exact (gives_binary env P Hc He strict size b t dst tv v r rest). Qed.
Print Assumptions C24_binary.
Theorem C24_compact env P size b t dst tv l v r rest st e :
  closed env P -> env_ok env -> 10 <= size -> binv size b -> wf (2 ^ 63) tv -> P t -> has_type env dst t ->
  gives env t dst tv v r -> compact_enc wrap_field tv l -> cr_bool st = BNone -> abs b = mkStream (l ++ rest) (FErr e) ->
  exists N, forall n, (N <= n)%nat -> exists st' b',
    run (over cmp_reader (bufio_h size)) (Unmarshal env n n (Some (RtPtr t, GPtr (Some dst)))) (st, b)
      = Done (st', b') (Some v, r) /\ binv size b' /\ (r = None -> st' = st /\ abs b' = mkStream rest (FErr e)).
Proof. intros Hc He. exact (gives_compact env P Hc He size b t dst tv l v r rest st e). Qed.
Print Assumptions C24_compact.
(** Any Thrift value whose type is the one [t] asks for gives something, of type [t]. *)
Theorem C24_defined env P lim t dst tv a :
  closed env P -> env_ok env -> wf lim tv -> P t -> has_type env dst t -> codec env t a -> wire_type a = val_type tv ->
  exists v r, gives env t dst tv v r /\ has_type env v t.
Proof. intros Hc He. exact (gives_total env P Hc He lim t dst tv a). Qed.
Print Assumptions C24_defined.

(** Leaving out fields of unknown id, wherever they are, changes nothing. *)
Theorem C24_unknown_ignored env P lim t s dst l l' v r :
  closed env P -> env_ok env -> wf lim (VStruct l) -> P t -> under env t = RtStruct s -> has_type env dst t ->
  thinned env s l l' ->
  gives env t dst (VStruct l) v r <-> gives env t dst (VStruct l') v r.
Proof. intros Hc He. exact (unknown_ignored env P Hc He lim t s dst l l' v r). Qed.
Print Assumptions C24_unknown_ignored.

(** The order of the fields does not matter. *)
Theorem C24_order_irrelevant env P lim t s dst l l' v :
  closed env P -> env_ok env -> wf lim (VStruct l) -> P t -> under env t = RtStruct s -> has_type env dst t ->
  Permutation l l' -> NoDup (map fst l) ->
  gives env t dst (VStruct l) v None -> gives env t dst (VStruct l') v None.
Proof. intros Hc He. exact (order_irrelevant env P Hc He lim t s dst l l' v). Qed.
Print Assumptions C24_order_irrelevant.

Definition c24_wire : list (Z * tval) := [(99, VList T_Bool [VBool true]); (1, VI32 7); (-3, VString []); (2, VSet T_String [VString [x61]])].
Example C24_sample : closed node_env node_types /\ wf (2 ^ 31) (VStruct c24_wire) /\
  under node_env Node = RtStruct 0 /\ has_type node_env (zero node_env Node) Node /\
  thinned node_env 0 c24_wire [(1, VI32 7); (2, VSet T_String [VString [x61]])] /\ NoDup (map fst c24_wire).
Proof.
  assert (K : forall id, ~ In id [1; 2; 3; 4] -> ~ known node_env 0 id).
  { intros id Hn (sf & o & Hin & T & <-). apply Hn. destruct (node_tagged sf o Hin T) as [E|[E|[E|E]]]; injection E as _ -> _; cbn; tauto. }
  conj.
  - apply supported_closed, node_supported.
  - cbn. unfold is_i16, is_i32. repeat split; intuition lia.
  - reflexivity.
  - apply zero_typed, node_ok.
  - unfold c24_wire. apply th_drop; [apply K; cbn; intuition lia|]. apply th_keep. apply th_drop; [apply K; cbn; intuition lia|].
    apply th_keep, th_nil.
  - repeat (constructor; [cbn; intuition lia|]). constructor.
Qed.

(** ** C25 *)
(** At the top level, Unmarshal reads a value as the type the destination needs,
    so a mismatch can only be at a field, an element, a key or a map value.

    A field whose wire type is not the one its Go type needs: nothing is read
    after its header; the other fields are what the fields before it gave. *)
Theorem C25_field env P lim t s dst l vs i sf o a wt :
  closed env P -> env_ok env -> wf lim (VStruct l) -> P t -> under env t = RtStruct s -> has_type env dst t ->
  nth_error (te_struct env s) i = Some sf -> tagged env sf o -> sole env s i (fo_id o) ->
  codec env (sf_type sf) a -> plain env (sf_type sf) ->
  wt <> wire_type a -> wt <> T_Stop ->
  gives env t dst (VStruct l) (GStruct vs) None ->
  exists N, forall n, (N <= n)%nat -> forall St (h : handler wireR St) s0 s1 s2 s3 nm nm',
    h _ RStructBegin s0 = Done s1 (nm, None) -> delivers h l s1 s2 ->
    h _ RFieldBegin s2 = Done s3 (mkFH nm' wt (fo_id o), None) ->
    run h (Unmarshal env n n (Some (RtPtr t, GPtr (Some dst)))) s0 =
      Done s3 (Some (GStruct vs), Some (ESemantic "unmarshal" wt (Some (sf_type sf)) None)).
Proof.
  intros Hc He Hw Pt U Hd Nf Tg So C Hp Hwt Hst G. destruct (given_field env P Hc He lim t s dst l vs i sf Hw Pt U Hd Nf G) as (v & Nv).
  pose proof (field_mismatch env P Hc He lim t s dst l vs i sf o a wt v _ v Hw Pt U Hd Nf Tg So C Nv (lb_plain env _ v Hp) Hwt Hst G) as H.
  now rewrite (set_nth_id v vs _ Nv) in H.
Qed.
Print Assumptions C25_field.

(** An element: the slice has one element, the zero value the element was to be
    stored over. *)
Theorem C25_element env t e (set : bool) a dst :
  has_type env dst t -> under env t = RtSlice e -> codec env t (ASeq t set a) -> plain env e ->
  exists N, forall n, (N <= n)%nat -> forall St (h : handler wireR St) s0 s1 hd,
    h _ (if set then RSetBegin else RListBegin) s0 = Done s1 (hd, None) -> 0 < set_size hd -> set_elem hd <> wire_type a ->
    exists sp, run h (Unmarshal env n n (Some (RtPtr t, GPtr (Some dst)))) s0 =
      Done s1 (Some (GSlice false [zero env e] sp), Some (ESemantic "unmarshal" (set_elem hd) (Some e) None)).
Proof. intros Hd U C Hp. exact (elem_mismatch env t e set a dst e _ Hd U C (lb_plain env e _ Hp)). Qed.
Print Assumptions C25_element.

(** A map's keys: its entries are unchanged. *)
Theorem C25_key env t gk e ka va o :
  under env t = RtMap gk e -> codec env t (AMap t ka va) -> plain env gk ->
  exists N, forall n, (N <= n)%nat -> forall St (h : handler wireR St) s0 s1 hd,
    h _ RMapBegin s0 = Done s1 (hd, None) -> 0 < map_size hd -> map_key hd <> wire_type ka ->
    run h (Unmarshal env n n (Some (RtPtr t, GPtr (Some (GMap o))))) s0 =
      Done s1 (Some (GMap (Some (old_entries o))), Some (ESemantic "unmarshal" (map_key hd) (Some gk) None)).
Proof. intros U C Hp. exact (key_mismatch env t gk e ka va o gk _ U C (lb_plain env gk _ Hp)). Qed.
Print Assumptions C25_key.

(** A map's values: after the first key, whose entry has its old value (a zero
    value if there was none). *)
Theorem C25_value env P lim t gk e ka va o tk k :
  closed env P -> env_ok env ->
  under env t = RtMap gk e -> codec env t (AMap t ka va) -> P gk -> plain env e -> wf lim tk -> gives env gk (zero env gk) tk k None ->
  exists N, forall n, (N <= n)%nat -> forall St (h : handler wireR St) s0 s1 s2 hd,
    h _ RMapBegin s0 = Done s1 (hd, None) -> 0 < map_size hd -> map_key hd = val_type tk -> reads h tk s1 s2 ->
    map_val hd <> wire_type va ->
    run h (Unmarshal env n n (Some (RtPtr t, GPtr (Some (GMap o))))) s0 =
      Done s2 (Some (GMap (Some (map_set (old_entries o) k (match map_get (old_entries o) k with Some v => v | None => zero env e end)))),
               Some (ESemantic "unmarshal" (map_val hd) (Some e) None)).
Proof. intros Hc He U C Pk Hp. exact (value_mismatch env P Hc He lim t gk e ka va o tk k e _ U C Pk (lb_plain env e _ Hp)). Qed.
Print Assumptions C25_value.

(** The binary reader delivering a string for Node.Count, an int32. *)
Example C25_sample_field : exists b,
  run (over (bin_reader true) (bufio_h 4096)) (Unmarshal node_env 9 9 (Some (RtPtr Node, GPtr (Some node_value))))
    (tt, new_breader (drip [x0b; x00; x01; x00; x00; x00; x00; x00]))
  = Done (tt, b) (Some node_value, Some (ESemantic "unmarshal" T_String (Some RtInt32) None)).
Proof. eexists. vm_compute. reflexivity. Qed.
Example C25_sample_hyps : exists sf o a,
  nth_error (te_struct node_env 0) 0 = Some sf /\ tagged node_env sf o /\ sole node_env 0 0 (fo_id o) /\
  codec node_env (sf_type sf) a /\ plain node_env (sf_type sf) /\ T_String <> wire_type a /\
  codec node_env (RtNamed 1) (ASeq (RtNamed 1) true (AString RtString)) /\ plain node_env RtString.
Proof.
  eexists. eexists. exists (AInt RtInt32 W32). conj; [reflexivity|vm_compute; reflexivity| | | |discriminate| |].
  - intros j sf o Nj T E. destruct j as [|j]; [reflexivity|]. exfalso.
    assert (Hi : In sf node_fields) by (eapply nth_error_In; exact Nj).
    unfold tagged in T. change (te_uni node_env) with ascii_only in T. vm_compute in E.
    destruct j as [|[|[|[|j]]]]; [| | | |destruct j; discriminate Nj];
      injection Nj as <-; vm_compute in T; try discriminate T; injection T as <-; discriminate E.
  - exists 1%nat. reflexivity.
  - split; [reflexivity|discriminate].
  - exists 2%nat. reflexivity.
  - split; [reflexivity|discriminate].
Qed.

(** "Unchanged" is false of nil pointers: they are allocated before the mismatch
    is noticed.  Here Node.Next, nil, comes with a wire type string. *)
Theorem C25_pointer_refuted : exists b,
  run (over (bin_reader true) (bufio_h 4096)) (Unmarshal node_env 9 9 (Some (RtPtr Node, GPtr (Some (zero node_env Node)))))
    (tt, new_breader (drip [x0b; x00; x04; x00; x00; x00; x00; x00]))
  = Done (tt, b) (Some (GStruct [GInt 0; GMap None; GSlice true [] []; GPtr (Some (zero node_env Node)); GInt 0]),
                  Some (ESemantic "unmarshal" T_String (Some Node) None)).
Proof. eexists. vm_compute. reflexivity. Qed.
Print Assumptions C25_pointer_refuted.

(** What holds of pointers: the same, except that the variable is [left_behind]: its nil pointers are allocated, down to the
    first type [t'] that is not a pointer, which is the one the error names; the values there are as they were, zero if
    they are new.  Missing: that it is unchanged, which is false. *)
Theorem C25_field_partial env P lim t s dst l vs i sf o a wt v t' v' :
  closed env P -> env_ok env -> wf lim (VStruct l) -> P t -> under env t = RtStruct s -> has_type env dst t ->
  nth_error (te_struct env s) i = Some sf -> tagged env sf o -> sole env s i (fo_id o) ->
  codec env (sf_type sf) a -> nth_error vs i = Some v -> left_behind env (sf_type sf) v t' v' ->
  wt <> wire_type a -> wt <> T_Stop ->
  gives env t dst (VStruct l) (GStruct vs) None ->
  exists N, forall n, (N <= n)%nat -> forall St (h : handler wireR St) s0 s1 s2 s3 nm nm',
    h _ RStructBegin s0 = Done s1 (nm, None) -> delivers h l s1 s2 ->
    h _ RFieldBegin s2 = Done s3 (mkFH nm' wt (fo_id o), None) ->
    run h (Unmarshal env n n (Some (RtPtr t, GPtr (Some dst)))) s0 =
      Done s3 (Some (GStruct (set_nth i v' vs)), Some (ESemantic "unmarshal" wt (Some t') None)).
Proof. intros Hc He. exact (field_mismatch env P Hc He lim t s dst l vs i sf o a wt v t' v'). Qed.
Print Assumptions C25_field_partial.
Theorem C25_element_partial env t e (set : bool) a dst t' w :
  has_type env dst t -> under env t = RtSlice e -> codec env t (ASeq t set a) -> left_behind env e (zero env e) t' w ->
  exists N, forall n, (N <= n)%nat -> forall St (h : handler wireR St) s0 s1 hd,
    h _ (if set then RSetBegin else RListBegin) s0 = Done s1 (hd, None) -> 0 < set_size hd -> set_elem hd <> wire_type a ->
    exists sp, run h (Unmarshal env n n (Some (RtPtr t, GPtr (Some dst)))) s0 =
      Done s1 (Some (GSlice false [w] sp), Some (ESemantic "unmarshal" (set_elem hd) (Some t') None)).
Proof. exact (elem_mismatch env t e set a dst t' w). Qed.
Print Assumptions C25_element_partial.
Theorem C25_key_partial env t gk e ka va o t' w :
  under env t = RtMap gk e -> codec env t (AMap t ka va) -> left_behind env gk (zero env gk) t' w ->
  exists N, forall n, (N <= n)%nat -> forall St (h : handler wireR St) s0 s1 hd,
    h _ RMapBegin s0 = Done s1 (hd, None) -> 0 < map_size hd -> map_key hd <> wire_type ka ->
    run h (Unmarshal env n n (Some (RtPtr t, GPtr (Some (GMap o))))) s0 =
      Done s1 (Some (GMap (Some (old_entries o))), Some (ESemantic "unmarshal" (map_key hd) (Some t') None)).
Proof. exact (key_mismatch env t gk e ka va o t' w). Qed.
Print Assumptions C25_key_partial.
Theorem C25_value_partial env P lim t gk e ka va o tk k t' w :
  closed env P -> env_ok env ->
  under env t = RtMap gk e -> codec env t (AMap t ka va) -> P gk ->
  left_behind env e (match map_get (old_entries o) k with Some v => v | None => zero env e end) t' w ->
  wf lim tk -> gives env gk (zero env gk) tk k None ->
  exists N, forall n, (N <= n)%nat -> forall St (h : handler wireR St) s0 s1 s2 hd,
    h _ RMapBegin s0 = Done s1 (hd, None) -> 0 < map_size hd -> map_key hd = val_type tk -> reads h tk s1 s2 ->
    map_val hd <> wire_type va ->
    run h (Unmarshal env n n (Some (RtPtr t, GPtr (Some (GMap o))))) s0 =
      Done s2 (Some (GMap (Some (map_set (old_entries o) k w))), Some (ESemantic "unmarshal" (map_val hd) (Some t') None)).
Proof. intros Hc He. exact (value_mismatch env P Hc He lim t gk e ka va o tk k t' w). Qed.
Print Assumptions C25_value_partial.
(** Node.Next, nil. *)
Example C25_sample_pointer :
  left_behind node_env (RtPtr Node) (GPtr None) Node (GPtr (Some (zero node_env Node))).
Proof.
  apply (lb_nil node_env (RtPtr Node) Node); [reflexivity|]. apply lb_plain. split; [reflexivity|].
  intros s _. exists 4%nat. eexists. vm_compute. reflexivity.
Qed.

(** ** C26 *)
(** Whatever the old slice, the new one has exactly the elements on the wire,
    each unmarshalled into a zero value. *)
Theorem C26_list env P lim t e (set : bool) ea et tes dst es :
  closed env P -> env_ok env -> wf lim (if set then VSet et tes else VList et tes) ->
  P t -> codec env t (ASeq t set ea) -> under env t = RtSlice e -> has_type env dst t ->
  (exists nl sp, gives env t dst (if set then VSet et tes else VList et tes) (GSlice nl es sp) None) <->
  Forall2 (fun tv v => gives env e (zero env e) tv v None) tes es.
Proof. intros Hc He. exact (list_replaced env P Hc He lim t e set ea et tes dst es). Qed.
Print Assumptions C26_list.

(** A map keeps the entries whose keys are not on the wire, gets no others than
    those and the ones on the wire, and has those of the wire. *)
Theorem C26_map env P lim t gk e kt vt tes o o' :
  closed env P -> env_ok env -> wf lim (VMap kt vt tes) -> P t -> under env t = RtMap gk e ->
  has_type env (GMap o) t -> gives env t (GMap o) (VMap kt vt tes) (GMap o') None ->
  exists ks,
    Forall2 (fun te k => gives env gk (zero env gk) (fst te) k None) tes ks /\
    (forall p, In p (old_entries o) -> (forall k, In k ks -> key_eq k (fst p) = false) -> In p (old_entries o')) /\
    (forall k v, In (k, v) (old_entries o') -> In (k, v) (old_entries o) \/ In k ks) /\
    (ForallOrdPairs (fun a b => key_eq a b = false) ks ->
       exists vs, Forall2 (stored env gk e (old_entries o)) tes (combine ks vs) /\
         forall kv, In kv (combine ks vs) -> In kv (old_entries o')).
Proof. intros Hc He. exact (map_merged env P Hc He lim t gk e kt vt tes o o'). Qed.
Print Assumptions C26_map.

(** Three old elements with two spare ones, replaced by one; a map of two
    entries merged with two. *)
Example C26_sample_list : exists b sp,
  run (over (bin_reader true) (bufio_h 4096))
    (Unmarshal node_env 9 9 (Some (RtPtr (RtNamed 1), GPtr (Some (GSlice false [GString [x61]; GString [x62]; GString [x63]] [GString [x64]; GString [x65]])))))
    (tt, new_breader (drip [x0b; x00; x00; x00; x01; x00; x00; x00; x01; x7a]))
  = Done (tt, b) (Some (GSlice false [GString [x7a]] sp), None).
Proof. eexists. eexists. vm_compute. reflexivity. Qed.
Example C26_sample_map : exists b,
  run (over (bin_reader true) (bufio_h 4096))
    (Unmarshal node_env 9 9 (Some (RtPtr (RtMap RtString RtFloat32), GPtr (Some (GMap (Some [(GString [x61], GF32 1); (GString [x62], GF32 2)]))))))
    (tt, new_breader (drip ([x0b; x04; x00; x00; x00; x02; x00; x00; x00; x01; x62] ++ repeat x00 8 ++ [x00; x00; x00; x01; x63; x3f; xf0] ++ repeat x00 6)))
  = Done (tt, b) (Some (GMap (Some [(GString [x61], GF32 1); (GString [x62], GF32 0); (GString [x63], GF32 0x3F800000)])), None).
Proof. eexists. vm_compute. reflexivity. Qed.

(** ** C27 *)
(** [calls_of env t v cs]: the calls Marshal makes on a Writer that accepts all.
    For a struct: the fields to be written, each once, in ascending id order,
    each as its header, the calls of its value, its end. *)
Theorem C27_fields env P t s vs cs :
  closed env P -> env_ok env -> (forall t, P t -> Acc (demand env) t) ->
  P t -> under env t = RtStruct s -> has_type env (GStruct vs) t -> calls_of env t (GStruct vs) cs ->
  exists l,
    cs = CStructBegin (type_name env t) :: flat_map sel_calls l ++ [CStructEnd] /\
    StronglySorted Z.le (map (fun x => fo_id (s_opts x)) l) /\
    NoDup (map s_index l) /\
    (forall j, In j (map s_index l) <->
       exists sf v, nth_error (te_struct env s) j = Some sf /\ nth_error vs j = Some v /\ written env sf v) /\
    Forall (sel_ok env s vs) l.
Proof. intros Hc He Hd. exact (struct_calls env P Hc He Hd t s vs cs). Qed.
Print Assumptions C27_fields.

(** Node's fields are declared in the order 1, 3, 2, 4; here 3 is nil. *)
Example C27_sample :
  calls_of node_env Node (GStruct [GInt 0; GMap None; GSlice false [] []; GPtr (Some (zero node_env Node)); GInt 5])
    [CStructBegin (lit "Node");
     CFieldBegin (mkFH (lit "Count") T_I32 1); CI32 0; CFieldEnd;
     CFieldBegin (mkFH (lit "Names") T_Set 2); CSetBegin (mkSetH T_String 0); CSetEnd; CFieldEnd;
     CFieldBegin (mkFH (lit "Next") T_Struct 4);
       CStructBegin (lit "Node"); CFieldBegin (mkFH (lit "Count") T_I32 1); CI32 0; CFieldEnd; CStructEnd; CFieldEnd;
     CStructEnd].
Proof.
  exists 9%nat. intros n Hn. replace n with (9 + (n - 9))%nat by lia. generalize (n - 9)%nat. intros m.
  vm_compute. reflexivity.
Qed.

(** Fields with IsZero methods: [Month]'s method holds below 1, [Day] has one with
    a pointer receiver that holds of 7.
<<
type Dates struct {
	From  Month  `thrift:"1"`
	Until *Month `thrift:"2"`
	Rest  Day    `thrift:"3"`
}
>> *)
Definition dates_env : tenv :=
  mkEnv (fun s => match s with
           | O => [mkSF (lit "From") true (Some (lit "1")) (RtNamed 1); mkSF (lit "Until") true (Some (lit "2")) (RtPtr (RtNamed 1));
                   mkSF (lit "Rest") true (Some (lit "3")) (RtNamed 2)]
           | _ => []
           end)
    (fun i => match i with O => mkND (lit "Dates") (RtStruct 0) false false | _ => mkND (lit "Month") RtInt32 false false end)
    (fun t => match t with
       | RtNamed 1 => Some (fun v => match v with GInt z => z <? 1 | _ => false end)
       | RtPtr (RtNamed 1) => Some (fun v => match v with GPtr (Some (GInt z)) => z <? 1 | _ => false end)
       | RtPtr (RtNamed 2) => Some (fun v => match v with GPtr (Some (GInt z)) => z =? 7 | _ => false end)
       | _ => None
       end) (fun _ => true) ex_rank sort_fields (fun n => n) ascii_only.
Example C27_is_zero :
  calls_of dates_env (RtNamed 0) (GStruct [GInt (-1); GPtr None; GInt 0])
    [CStructBegin (lit "Dates"); CFieldBegin (mkFH (lit "Rest") T_I32 3); CI32 0; CFieldEnd; CStructEnd] /\
  calls_of dates_env (RtNamed 0) (GStruct [GInt 1; GPtr (Some (GInt 12)); GInt 7])
    [CStructBegin (lit "Dates"); CFieldBegin (mkFH (lit "From") T_I32 1); CI32 1; CFieldEnd;
     CFieldBegin (mkFH (lit "Until") T_I32 2); CI32 12; CFieldEnd; CStructEnd].
Proof.
  split; exists 9%nat; intros n Hn; replace n with (9 + (n - 9))%nat by lia; generalize (n - 9)%nat; intros m;
  vm_compute; reflexivity.
Qed.

(** ** C28 *)
Theorem C28_accepted u sf id req name :
  parse_field_options u sf = (mkFO id name req, false, None) <->
  sf_exported sf = true /\ name = sf_name sf /\
  exists opts, well_formed_tag u (tag_text sf) id opts /\ (req = true <-> In (lit "required") opts).
Proof. exact (field_accepted u sf id req name). Qed.
Print Assumptions C28_accepted.
Theorem C28_ignored u sf :
  (exists o, parse_field_options u sf = (o, true, None)) <->
  tag_text sf = lit "-" \/ (sf_exported sf = false /\ sf_tag sf = None).
Proof. exact (field_ignored u sf). Qed.
Print Assumptions C28_ignored.
Theorem C28_rejected u sf :
  ((exists id opts, well_formed_tag u (tag_text sf) id opts) -> sf_exported sf = false) ->
  tag_text sf <> lit "-" -> ~ (sf_exported sf = false /\ sf_tag sf = None) ->
  exists o ig e, parse_field_options u sf = (o, ig, Some e).
Proof. exact (field_rejected u sf). Qed.
Print Assumptions C28_rejected.
(** A rejected tag makes Marshal and Unmarshal of the struct fail. *)
Theorem C28_surfaces env ln n t v s sf o ig e :
  under env t = RtStruct s -> In sf (te_struct env s) -> parse_field_options (te_uni env) sf = (o, ig, Some e) ->
  make_struct_fields env ln t <> None ->
  exists what,
    marshal env ln (S n) (AStruct t) v = Ret (Some (ESemantic "marshal" 0 (Some t) (Some (ETag what)))) /\
    forall wt, unmarshal env ln (S n) (AStruct t) v wt = Ret (v, Some (ESemantic "unmarshal" 0 (Some t) (Some (ETag what)))).
Proof.
  intros U Hin Pf Hm. destruct (make_struct_fields env ln t) as [[fs|e']|] eqn:M; [exfalso| |now elim Hm].
  - unfold make_struct_fields, struct_def in M. rewrite U in M.
    destruct (collect_fields env ln t 0 (te_struct env s)) as [[all|]|] eqn:C; try discriminate. clear M.
    revert C Hin. generalize 0%nat as i. generalize all. induction (te_struct env s) as [|x r IH]; intros l i C Hin; [destruct Hin|].
    cbn [collect_fields] in C. destruct Hin as [->|Hin].
    + rewrite Pf in C. destruct ig; discriminate.
    + destruct (parse_field_options (te_uni env) x) as [[o' [|]] [e'|]]; try discriminate; [eapply IH; eauto|].
      destruct (lookup env ln (sf_type x)); [|discriminate]. destruct (collect_fields env ln t (S i) r) as [[l2|]|] eqn:C1; try discriminate.
      eapply IH; eauto.
  - destruct (table_error env _ _ _ M) as (w & ->). exists w. cbn [marshal unmarshal]. rewrite M. split; reflexivity.
Qed.
Print Assumptions C28_surfaces.

Definition c28_field exported tag := mkSF (lit "F") exported tag RtInt32.
Example C28_sample :
  parse_field_options ascii_only (c28_field true (Some (lit "-32768,required,x1"))) = (mkFO (-32768) (lit "F") true, false, None) /\
  (exists o, parse_field_options ascii_only (c28_field true (Some (lit "-"))) = (o, true, None)) /\
  (forall tag, In tag [lit ""; lit "32768"; lit "1,"; lit "1,Required"; lit "1,re_quired"; lit "1,a,a"; lit "1 "; lit "0x1"; lit "1,required "] ->
    exists o ig e, parse_field_options ascii_only (c28_field true (Some tag)) = (o, ig, Some e)).
Proof.
  conj; [vm_compute; reflexivity|eexists; vm_compute; reflexivity|].
  intros tag H. repeat (destruct H as [<-|H]; [do 3 eexists; vm_compute; reflexivity|]). destruct H.
Qed.

(** ** C29 *)
(** It is false: a struct with two fields of id 1 is accepted, and what Marshal
    writes without error Unmarshal reads without error, with one field lost. *)
Theorem C29_refuted : env_ok dup_env /\ has_type dup_env (GStruct [GInt 3; GInt 4]) Dup /\
  exists b b',
    run (over (bin_writer true) (bufw_h 4096)) (Marshal dup_env 9 9 (Some (Dup, GStruct [GInt 3; GInt 4])) >>! call WFlush)
      (tt, new_bwriter plain_sink) = Done (tt, b) None /\
    run (over (bin_reader true) (bufio_h 4096)) (Unmarshal dup_env 9 9 (Some (RtPtr Dup, GPtr (Some (zero dup_env Dup)))))
      (tt, new_breader (drip (received (wsink b)))) = Done (tt, b') (Some (GStruct [GInt 0; GInt 4]), None) /\
    ~ trip dup_env Dup (GStruct [GInt 3; GInt 4]) (GStruct [GInt 0; GInt 4]).
Proof.
  conj; [exact dup_ok|vm_compute; intuition discriminate|].
  eexists. eexists. conj; [vm_compute; reflexivity|vm_compute; reflexivity|].
  intros T. inversion T as [| | | | | | | | | | | | |t s vs vs' U _ H]; subst. cbn in U. injection U as <-.
  destruct (H O _ _ _ eq_refl eq_refl eq_refl) as [H1 _].
  assert (W : written dup_env (mkSF (lit "X") true (Some (lit "1")) RtInt32) (GInt 3)).
  { exists (mkFO 1 (lit "X") false). split; [vm_compute; reflexivity|]. right. reflexivity. }
  apply H1 in W. inversion W.
Qed.
Print Assumptions C29_refuted.

(** ** C30 *)
(** Marshal with any Writer: there are calls [cs] and a result [r] (nil, or a
    SemanticError about a Go type) such that either all calls succeed and [r] is
    returned, or one fails, no call follows it, and what is returned is a
    SemanticError of action "marshal" that wraps the method's name and its error. *)
Theorem C30_marshal env P t v i :
  closed env P -> env_ok env -> (forall t, P t -> Acc (demand env) t) ->
  P t -> has_type env v t -> passes env i t v ->
  exists N cs r, (forall e, r = Some e -> refusal "marshal" e) /\
    forall n, (N <= n)%nat -> forall S (h : handler wireW S) s,
    match run (logW h) (Marshal env n n (Some i)) (s, []) with
    | Done (_, l) res =>
        (l = map done cs /\ res = r) \/
        (exists cs1 c cs2 er e, cs = cs1 ++ c :: cs2 /\
           l = map done cs1 ++ [(existT wireW _ (ArshalEnc.ev c), Some er)] /\ res = Some e /\
           wrapped env "marshal" (wname (ArshalEnc.ev c)) er e)
    | Crashed cr => exists c s', h _ (ArshalEnc.ev c) s' = Crashed cr
    end.
Proof.
  intros Hc He Hd Pt Ht Hp. destruct (lookup_ends env t (cl_eager env P Hc t Pt)) as (a & l0 & C).
  destruct (marshal_played env P Hc He Hd v t a Pt (ex_intro _ l0 C) Ht) as (N & cs & r & H).
  exists (N + l0)%nat, cs, r. split.
  - specialize (H (N + l0)%nat (N + l0)%nat ltac:(lia) ltac:(lia)). clear -H. intros e ->.
    remember (Some e) as x eqn:E. revert E. induction H as [|e' He|c k cs r Hk Hn IH]; intros E; [discriminate|congruence|auto].
  - intros n Hn S h s. rewrite (Marshal_passes env n n i t v a Hp (lookup_more env l0 n _ _ ltac:(lia) C)).
    exact (@plays_run env _ h _ _ _ (H n n ltac:(lia) ltac:(lia)) s []).
Qed.
Print Assumptions C30_marshal.

(** A nil argument or pointer. *)
Theorem C30_marshal_nil env ln n :
  Marshal env ln n None = Ret (Some (ESemantic "marshal" 0 None (Some ENonNilPointer))) /\
  forall t, is_ptr env t = true -> Marshal env ln n (Some (t, GPtr None)) = Ret (Some (ESemantic "marshal" 0 (Some (elem_type env t)) (Some ENonNilPointer))).
Proof. split; [reflexivity|]. intros t H. cbn [Marshal]. now rewrite H. Qed.
Print Assumptions C30_marshal_nil.

(** Unmarshal with any Reader, for every Go type: [told] says that all calls
    succeeded and the error, if any, is about a Go type; or a call failed, it was
    the last one, and its error is returned wrapped, with action "unmarshal"; or
    Skip of a field unknown to the struct failed (see the refutation below). *)
Theorem C30_unmarshal env ln n o {S} (h : handler wireR S) s s' l v r :
  env_ok env ->
  run (logR h) (Unmarshal env ln n o) (s, []) = Done (s', l) (v, r) ->
  told env h [] s' l r \/
  (l = [] /\ exists t, r = Some (ESemantic "unmarshal" 0 t (Some ENonNilPointer))).
Proof. intros He. exact (Unmarshal_told env He ln n o h s s' l v r). Qed.
Print Assumptions C30_unmarshal.

(** So the error of a call that fails is always the one returned, wrapped or, from inside a field unknown to the struct, bare. *)
Theorem C30_unmarshal_returns env ln n o {S} (h : handler wireR S) s s' l v r c er :
  env_ok env ->
  run (logR h) (Unmarshal env ln n o) (s, []) = Done (s', l) (v, r) -> In (c, Some er) l ->
  exists l1, l = l1 ++ [(c, Some er)] /\ Forall (fun x => snd x = None) l1 /\
    (r = Some er \/ exists wt t name, r = Some (ESemantic "unmarshal" wt (Some t) (Some (EWire name er)))).
Proof.
  intros He E Hi.
  assert (Ok : forall l0, Forall ok_call l0 -> ~ In (c, Some er) l0).
  { intros l0 F I. apply (proj1 (Forall_forall _ _) F) in I. discriminate I. }
  assert (Last : forall l0 x, Forall ok_call l0 -> In (c, Some er) (l0 ++ [x]) -> x = (c, Some er)).
  { intros l0 x F I. apply in_app_or in I. destruct I as [I|[I|[]]]; [now elim (Ok l0)|exact I]. }
  destruct (Unmarshal_told env He ln n o h s s' l v r E) as [[(l2 & -> & F & _)|[(l2 & X & c' & er' & e2 & -> & F & -> & W)|T]]|(-> & _)].
  - now elim (Ok _ F).
  - cbn [app] in *. pose proof (Last _ _ F Hi) as Q. rewrite Q. exists l2. split; [reflexivity|]. split; [exact F|]. right.
    injection Q as _ ->. destruct W as (t & a & _ & ->). eauto.
  - destruct T as (l2 & s1 & s2 & nm & ty & id & fuel & t & stt & e2 & F & _ & _ & _ & Sk & ->).
    assert (F2 : Forall ok_call (l2 ++ [(existT wireR _ RFieldBegin, None)])).
    { apply Forall_app. split; [exact F|]. constructor; [reflexivity|constructor]. }
    destruct (relays_log eid _ (relays_skip fuel ty) _ h _ _ _ _ _ Sk) as [(l3 & El & F3)|(l3 & X & c' & er' & El & F3 & Er)]; cbn [app] in El; subst l.
    + exfalso. apply (Ok ((l2 ++ [(existT wireR _ RFieldBegin, None)]) ++ l3)); [apply Forall_app; auto|exact Hi].
    + unfold eid in Er. injection Er as ->. rewrite app_assoc in Hi |- *.
      assert (F4 : Forall ok_call ((l2 ++ [(existT wireR _ RFieldBegin, None)]) ++ l3)) by (apply Forall_app; auto).
      pose proof (Last _ _ F4 Hi) as Q. rewrite Q. injection Q as _ ->. eexists. split; [reflexivity|]. split; [exact F4|now left].
  - destruct Hi.
Qed.
Print Assumptions C30_unmarshal_returns.

(** When Skip fails in an unknown field, its error comes out bare.  Here field 99
    is cut short. *)
Theorem C30_skip_refuted : ~ known node_env 0 99 /\ exists b,
  run (over (bin_reader true) (bufio_h 4096)) (Unmarshal node_env 9 9 (Some (RtPtr Node, GPtr (Some (zero node_env Node)))))
    (tt, new_breader (mkSource [([x03; x00; x63], None)] (FErr EEOF)))
  = Done (tt, b) (Some (zero node_env Node), Some EEOF).
Proof.
  split; [|eexists; vm_compute; reflexivity].
  intros (sf & o & Hin & T & E). destruct (node_tagged sf o Hin T) as [F|[F|[F|F]]]; injection F as _ F _; congruence.
Qed.
Print Assumptions C30_skip_refuted.

(** A Writer that fails at its fourth call; a Reader at the end of its input. *)
Example C30_sample_marshal :
  let h : handler wireW nat := fun X e s =>
    match e in wireW X return outcome nat X with
    | WI32 _ => Done (S s) (Some EShortWrite)
    | WStructBegin _ => Done (S s) None
    | WFieldBegin _ => Done (S s) None
    | _ => Crashed Panicked
    end in
  run h (Marshal node_env 9 9 (Some (Node, node_value))) O
  = Done 3%nat (Some (ESemantic "marshal" T_I32 (Some RtInt32) (Some (EWire "WriteI32" EShortWrite)))).
Proof. vm_compute. reflexivity. Qed.
Example C30_sample_unmarshal : exists b,
  run (over (bin_reader true) (bufio_h 4096)) (Unmarshal node_env 9 9 (Some (RtPtr Node, GPtr (Some (zero node_env Node)))))
    (tt, new_breader (mkSource [([x08; x00; x01; x00], None)] (FErr EEOF)))
  = Done (tt, b) (Some (zero node_env Node), Some (ESemantic "unmarshal" T_I32 (Some RtInt32) (Some (EWire "ReadI32" EUnexpectedEOF)))).
Proof. eexists. vm_compute. reflexivity. Qed.

(** ** C31 *)
(** Building the codec ends for every type in which no chain of pointer, slice
    and map element types is endless; struct fields may refer back freely. *)
Theorem C31_codec env t : Acc (eager env) t -> exists N a, forall n, (N <= n)%nat -> lookup env n t = Some a.
Proof.
  intros H. destruct (lookup_ends env t H) as (a & N & L). exists N, a. intros n Hn. exact (lookup_more env N n _ _ Hn L).
Qed.
Print Assumptions C31_codec.

Lemma run_unlogged {S A} (h : handler wireW S) (p : prog wireW A) : forall s l,
  run h p s = match run (logW h) p (s, l) with Done (s', _) a => Done s' a | Crashed c => Crashed c end.
Proof.
  induction p as [a|X e k IH|c]; intros s l; cbn [run]; [reflexivity| |reflexivity].
  unfold logW at 1. cbn [fst snd]. destruct (h X e s) as [s1 x|]; [apply IH|reflexivity].
Qed.

(** Marshal of any value then ends, with any Writer whose calls end, provided no
    zero value must be written inside itself. *)
Theorem C31_marshal env P t v i :
  closed env P -> env_ok env -> (forall t, P t -> Acc (demand env) t) ->
  P t -> has_type env v t -> passes env i t v ->
  exists N, forall n, (N <= n)%nat -> forall S (h : handler wireW S) s, (forall X (e : wireW X) s c, h X e s <> Crashed c) ->
    exists s' r, run h (Marshal env n n (Some i)) s = Done s' r.
Proof.
  intros Hc He Hd Pt Ht Hp. destruct (C30_marshal env P t v i Hc He Hd Pt Ht Hp) as (N & cs & r & _ & H).
  exists N. intros n Hn S h s Hh. specialize (H n Hn S h s).
  pose proof (run_unlogged h (Marshal env n n (Some i)) s []) as E.
  match type of H with match ?x with _ => _ end => set (out := x) in * end. change (run (logW h) (Marshal env n n (Some i)) (s, [])) with out in E.
  destruct out as [[s' l] res|c]; [eauto|]. destruct H as (c' & s' & H). now apply Hh in H.
Qed.
Print Assumptions C31_marshal.

(** Unmarshal ends on every finite input, valid or not; the calls it makes are
    bounded by the bytes it consumes whatever counts the input contains (C43), and
    what it leaves in the destination is a value of the destination's type. *)
Theorem C31_unmarshal_binary env P size strict o b d e :
  closed env P -> env_ok env -> 10 <= size -> target env P o -> binv size b -> abs b = mkStream d (FErr e) ->
  exists N b' c v r p d',
    (forall n, (N <= n)%nat ->
       run (counted (over (bin_reader strict) (bufio_h size))) (Unmarshal env n n o) (tt, b, O) = Done (tt, b', c) (v, r)) /\
    result_typed env o v /\ binv size b' /\ d = p ++ d' /\ abs b' = mkStream d' (FErr e) /\ (c <= 3 * length p + 3)%nat.
Proof. intros Hc He. exact (bin_Unmarshal_total env P Hc He size strict o b d e). Qed.
Print Assumptions C31_unmarshal_binary.
Theorem C31_unmarshal_compact env P size o st b d e :
  closed env P -> env_ok env -> 10 <= size -> target env P o -> binv size b -> abs b = mkStream d (FErr e) ->
  exists N st' b' c v r p d',
    (forall n, (N <= n)%nat ->
       run (counted (over cmp_reader (bufio_h size))) (Unmarshal env n n o) (st, b, O) = Done (st', b', c) (v, r)) /\
    result_typed env o v /\ binv size b' /\ d = p ++ d' /\ abs b' = mkStream d' (FErr e) /\ (c <= 6 * length p + 6)%nat.
Proof. intros Hc He. exact (cmp_Unmarshal_total env P Hc He size o st b d e). Qed.
Print Assumptions C31_unmarshal_compact.

Example C31_sample : closed node_env node_types /\ env_ok node_env /\ (forall t, node_types t -> Acc (demand node_env) t) /\
  target node_env node_types (Some (RtPtr Node, GPtr (Some node_value))).
Proof.
  conj; [apply supported_closed, node_supported|exact node_ok|exact node_demand|].
  split; [exact node_typed|]. intros _. left. reflexivity.
Qed.

(** C31 is false for [type T []T]: no recursion depth is enough to build its
    codec, so neither Marshal nor Unmarshal of any T ends. *)
Theorem C31_codec_refuted : env_ok knot_env /\ has_type knot_env (GSlice true [] []) Knot /\
  (forall n, lookup knot_env n Knot = None) /\
  (forall n S (h : handler wireW S) s v, run h (Marshal knot_env n n (Some (Knot, v))) s = Crashed OutOfFuel) /\
  (forall n S (h : handler wireR S) s v, run h (Unmarshal knot_env n n (Some (RtPtr Knot, GPtr (Some v)))) s = Crashed OutOfFuel).
Proof.
  conj; [exact knot_ok|vm_compute; auto|exact knot_lookup| |].
  - intros n S h s v. cbn [Marshal]. change (is_ptr knot_env Knot) with false. cbv iota. now rewrite knot_lookup.
  - intros n S h s v. cbn [Unmarshal]. change (is_ptr knot_env (RtPtr Knot)) with true. cbv iota.
    change (elem_type knot_env (RtPtr Knot)) with Knot. now rewrite knot_lookup.
Qed.
Print Assumptions C31_codec_refuted.

(** And for a struct with a required pointer to itself, when that is nil: Marshal
    goes on writing zero values inside zero values. *)
Theorem C31_marshal_refuted : env_ok ring_env /\ has_type ring_env (GStruct [GPtr None]) Ring /\
  (exists a, codec ring_env Ring a) /\
  forall n, run accept (Marshal ring_env n n (Some (RtPtr Ring, GPtr (Some (GStruct [GPtr None]))))) tt = Crashed OutOfFuel.
Proof.
  conj; [exact ring_ok|vm_compute; auto| |exact ring_Marshal]. exists (AStruct Ring), 1%nat. reflexivity.
Qed.
Print Assumptions C31_marshal_refuted.

(** ** C34, C35 *)
(** A type of its own. *)
Lemma supported_scalar env t :
  match under env t with
  | RtInt8 | RtInt16 | RtInt32 | RtInt64 | RtUint8 | RtUint16 | RtUint32 | RtUint64 | RtFloat32 | RtFloat64 => True
  | _ => False
  end -> supported env (fun u => u = t).
Proof.
  intros H. constructor; intros u ->.
  - unfold supported_kind. destruct (under env t); tauto.
  - constructor. intros e He. exfalso. unfold eager in He. destruct (under env t); tauto.
  - constructor. intros e He. exfalso. unfold demand in He. destruct (under env t); tauto.
Qed.

(** [comes_back t v v']: [v] written by Marshal is read back by Unmarshal as
    [v'], under both protocols. *)
Definition comes_back (env : tenv) (t : rtype) (v v' : gval) : Prop :=
  (forall wsize rsize sw sr s, 0 < wsize -> 8 <= rsize -> ok_sink s -> received s = [] ->
     exists N, forall n, (N <= n)%nat -> exists b,
       run (over (bin_writer sw) (bufw_h wsize)) (Marshal env n n (Some (t, v)) >>! call WFlush) (tt, new_bwriter s)
         = Done (tt, b) None /\
       forall src rest, good_source src -> src_bytes src = received (wsink b) ++ rest ->
         exists b', run (over (bin_reader sr) (bufio_h rsize)) (Unmarshal env n n (Some (RtPtr t, GPtr (Some (zero env t)))))
           (tt, new_breader src) = Done (tt, b') (Some v', None)) /\
  (forall wsize rsize s, 0 < wsize -> 10 <= rsize -> ok_sink s -> received s = [] ->
     exists N, forall n, (N <= n)%nat -> exists b cw,
       run (over cmp_writer (bufw_h wsize)) (Marshal env n n (Some (t, v)) >>! call WFlush) (cw0, new_bwriter s)
         = Done (cw, b) None /\
       forall src rest e, good_source src -> src_bytes src = received (wsink b) ++ rest -> src_fin src = FErr e ->
         exists b', run (over cmp_reader (bufio_h rsize)) (Unmarshal env n n (Some (RtPtr t, GPtr (Some (zero env t)))))
           (cr0, new_breader src) = Done (cr0, b') (Some v', None)).

Lemma scalar_back env t v v0 :
  env_ok env -> unique_ids env ->
  match under env t with
  | RtInt8 | RtInt16 | RtInt32 | RtInt64 | RtUint8 | RtUint16 | RtUint32 | RtUint64 | RtFloat32 | RtFloat64 => True
  | _ => False
  end ->
  has_type env v t -> (forall v', trip env t v v' -> v' = v0) -> comes_back env t v v0.
Proof.
  intros He Hu Hk Ht Ev.
  assert (Sc : match v with GInt _ | GF32 _ | GF64 _ => True | _ => False end).
  { destruct v as [| | | | | | | | |[|]|[|]| |]; cbn in Ht; try exact I; destruct (under env t); try contradiction. }
  assert (Hin : forall x u, inside env v t x u -> x = v /\ u = t) by (intros x u H; inversion H; subst; try contradiction; auto).
  assert (Kd : keys_distinct env v t).
  { intros es u k e H. apply Hin in H as [<- _]. contradiction. }
  assert (Hf : forall lim, fits env lim v t).
  { intros lim x u H. apply Hin in H as [-> _]. destruct v; try exact I; contradiction. }
  assert (Hp : passes env (t, v) t v).
  { right. split; [|reflexivity]. unfold is_ptr. destruct (under env t); try reflexivity; contradiction. }
  split.
  - intros wsize rsize sw sr s Hw Hr Hs Hrec.
    destruct (C23_binary env _ sw sr wsize rsize s t v (t, v) He Hu (supported_scalar env t Hk) Hw Hr Hs Hrec eq_refl Ht Kd (Hf _) Hp)
      as (N & v' & T & H). apply Ev in T as ->.
    exists N. intros n Hn. destruct (H n Hn) as (b & E & G). exists b. split; [exact E|].
    intros src rest Hg Hb. destruct (G src rest n Hg Hb Hn) as (b' & E' & _). eauto.
  - intros wsize rsize s Hw Hr Hs Hrec.
    destruct (C23_compact env _ wsize rsize s t v (t, v) He Hu (supported_scalar env t Hk) Hw Hr Hs Hrec eq_refl Ht Kd (Hf _) Hp)
      as (N & v' & T & H). apply Ev in T as ->.
    exists N. intros n Hn. destruct (H n Hn) as (b & cw & E & G). exists b, cw. split; [exact E|].
    intros src rest e Hg Hb Hfin. destruct (G src rest n e cr0 Hg Hb Hfin eq_refl Hn) as (b' & E' & _). eauto.
Qed.

(** Every integer of every width, of a predeclared or defined type, comes back. *)
Theorem C34_integers env t z :
  env_ok env -> unique_ids env ->
  match under env t with RtInt8 | RtInt16 | RtInt32 | RtInt64 | RtUint8 | RtUint16 | RtUint32 | RtUint64 => True | _ => False end ->
  has_type env (GInt z) t -> comes_back env t (GInt z) (GInt z).
Proof.
  intros He Hu Hk Ht. apply scalar_back; auto; [destruct (under env t); tauto|]. intros v' T. inversion T. reflexivity.
Qed.
Print Assumptions C34_integers.
Example C34_sample : has_type node_env (GInt 255) RtUint8 /\ has_type node_env (GInt (2 ^ 64 - 1)) RtUint64 /\ has_type node_env (GInt (- 2 ^ 63)) RtInt64.
Proof. cbn. unfold is_u8, is_u64, is_i64. lia. Qed.

(** Every float32 comes back, a signalling NaN as the quiet one; it is written as
    the double of the same value; every float64 comes back bit for bit. *)
Theorem C35_float32 env t x :
  env_ok env -> unique_ids env -> under env t = RtFloat32 -> 0 <= x < 2 ^ 32 ->
  comes_back env t (GF32 x) (GF32 (if f32_snan x then x + 2 ^ 22 else x)).
Proof.
  intros He Hu U Hx. apply scalar_back; auto; [now rewrite U|cbn; rewrite U; exact Hx|]. intros v' T. inversion T. reflexivity.
Qed.
Print Assumptions C35_float32.
Theorem C35_same_value x : 0 <= x < 2 ^ 32 -> f32_exp x <> 255 -> f64_value (f32_to_f64 x) = f32_value x.
Proof. exact (f32_to_f64_value x). Qed.
Print Assumptions C35_same_value.
Theorem C35_float64 env t x :
  env_ok env -> unique_ids env -> under env t = RtFloat64 -> 0 <= x < 2 ^ 64 -> comes_back env t (GF64 x) (GF64 x).
Proof.
  intros He Hu U Hx. apply scalar_back; auto; [now rewrite U|cbn; rewrite U; exact Hx|]. intros v' T. inversion T. reflexivity.
Qed.
Print Assumptions C35_float64.
(** 0x7f800001 is a signalling NaN; 1 is the smallest subnormal. *)
Example C35_sample : f32_snan 0x7F800001 = true /\ f32_snan 1 = false /\ f32_to_f64 1 = 0x36A0000000000000.
Proof. vm_compute. auto. Qed.

(** ** C43 *)
(** With any Reader, a collection header with a count of at most 0 makes Unmarshal
    go straight to the end of the collection: a slice is cut to length 0, a map
    stays as it is. *)
Theorem C43_unmarshal_list env ln n t (set : bool) ea nl es sp {St} (h : handler wireR St) s s1 hd :
  h _ (if set then RSetBegin else RListBegin) s = Done s1 (hd, None) -> set_size hd <= 0 ->
  run h (unmarshal env ln (S n) (ASeq t set ea) (GSlice nl es sp) (if set then T_Set else T_List)) s =
  obind (h _ (if set then RSetEnd else RListEnd) s1) (fun s2 o =>
    Done s2 (GSlice nl [] (es ++ sp),
             option_map (fun er => ESemantic "unmarshal" (if set then T_Set else T_List) (Some t)
                                     (Some (EWire (if set then "ReadSetEnd" else "ReadListEnd") er))) o)).
Proof. exact (unmarshal_neg_seq env h ln n t set ea nl es sp s s1 hd). Qed.
Print Assumptions C43_unmarshal_list.
Theorem C43_unmarshal_map env ln n t ka va o {St} (h : handler wireR St) s s1 hd :
  h _ RMapBegin s = Done s1 (hd, None) -> map_size hd <= 0 ->
  run h (unmarshal env ln (S n) (AMap t ka va) (GMap o) T_Map) s =
  obind (h _ RMapEnd s1) (fun s2 r =>
    Done s2 (GMap o, option_map (fun er => ESemantic "unmarshal" T_Map (Some t) (Some (EWire "ReadMapEnd" er))) r)).
Proof. exact (unmarshal_neg_map env h ln n t ka va o s s1 hd). Qed.
Print Assumptions C43_unmarshal_map.
(** Huge counts: C31_unmarshal_binary and C31_unmarshal_compact bound the calls by
    the length of the input.  A list of 2^31 - 1 booleans in six bytes: *)
Example C43_sample_huge : exists b sp,
  run (counted (over (bin_reader true) (bufio_h 4096)))
    (Unmarshal node_env 9 9 (Some (RtPtr (RtSlice RtBool), GPtr (Some (GSlice true [] [])))))
    (tt, new_breader (mkSource [([x02; x7f; xff; xff; xff; x01], None)] (FErr EEOF)), O)
  = Done (tt, b, 3%nat) (Some (GSlice false [GBool true; GBool false] sp),
      Some (ESemantic "unmarshal" T_Bool (Some RtBool) (Some (EWire "ReadBool" EEOF)))).
Proof. eexists. eexists. vm_compute. reflexivity. Qed.
