(** Property C74: what a variable holds after an Unmarshal whose data was cut off. *)
From Coq Require Import Strings.String.
From Verif Require Import Base BaseLemmas Prog Bufio BufioProof Layers Wire WireProof Spec Clients Binary BinaryProof Compact CompactProof RoundTrip Reads Safety
  GoFloat Utf8 GoType Fields Arshal GoTypeProof FieldsProof ArshalSpec ArshalEnc ArshalDec ArshalTrip ArshalTotal ArshalThms ArshalSafe ArshalGives TagProof ArshalExample
  PartsSpec PartsRun PartsProof PartsMsg PartsCmp Properties_Values Properties_Arshal MapSpec MapProof StoreSpec StoreProof Properties_Map Properties_Store
  LeftSpec LeftProof LeftBin LeftCmp.

(** [came F p tv d] says in bytes, and [partly env p t dst tv v] in the variable, that
    [p] of the value has come (LeftSpec.v). *)
Theorem C74_binary env P strict size b t dst tv d q e :
  env_ok env -> unique_ids env -> supported env P -> 10 <= size -> binv size b -> wf (2 ^ 31) tv -> P t -> has_type env dst t ->
  conforms env t tv -> binary_encoding tv = d ++ q -> q <> [] -> abs b = mkStream d (FErr e) ->
  (exists p, came binary_format p tv d) /\
  exists N, forall p n, came binary_format p tv d -> (N <= n)%nat -> exists b' v er,
    run (over (bin_reader strict) (bufio_h size)) (Unmarshal env n n (Some (RtPtr t, GPtr (Some dst)))) (tt, b)
      = Done (tt, b') (Some v, Some er) /\ partly env p t dst tv v.
Proof.
  intros He Hu Hs Hz Hb Hw Ht Hd Hf E Hq Ab. split.
  { destruct (bin_lefts size Hz e strict tv Hw d q (eq_sym E) Hq) as (p & C & _). eauto. }
  destruct (Unmarshal_breaks (over (bin_reader strict) (stream_h size)) (fun v => v) env P (2 ^ 31) t dst tv
    ltac:(reflexivity) ltac:(reflexivity) ltac:(reflexivity) Hs He Hu Hw Ht Hd Hf) as (N & H).
  exists N. intros p n C Hn. destruct (H p _ n (bin_came_breaks size Hz e strict p tv d C Hw) Hn) as ([[] s'] & v & er & R & Pt).
  pose proof (layer_refines size (bin_reader strict) (Unmarshal env n n (Some (RtPtr t, GPtr (Some dst)))) tt b ltac:(lia) Hb (bin_reader_fok strict)) as G.
  rewrite Ab, R in G. destruct (run _ _ (tt, b)) as [[[] b'] x|]; [|contradiction]. destruct G as (_ & -> & _). eauto.
Qed.
Print Assumptions C74_binary.

Theorem C74_compact env P size b t dst tv l d q st e :
  env_ok env -> unique_ids env -> supported env P -> 10 <= size -> binv size b -> wf (2 ^ 63) tv -> P t -> has_type env dst t ->
  conforms env t tv -> compact_encoding tv l -> l = d ++ q -> q <> [] -> cr_bool st = BNone -> abs b = mkStream d (FErr e) ->
  (exists p, came compact_format p tv d) /\
  exists N, forall p n, came compact_format p tv d -> (N <= n)%nat -> exists st' b' v er,
    run (over cmp_reader (bufio_h size)) (Unmarshal env n n (Some (RtPtr t, GPtr (Some dst)))) (st, b)
      = Done (st', b') (Some v, Some er) /\ partly env p t dst tv v.
Proof.
  intros He Hu Hs Hz Hb Hw Ht Hd Hf El E Hq Hst Ab. split.
  { destruct (parts_of tv l El) as (ps & Hp & Ep).
    destruct (cmp_lefts size Hz e tv Hw ps Hp st d q Hst ltac:(congruence) Hq) as (p & C & _). eauto. }
  destruct (Unmarshal_breaks (over cmp_reader (stream_h size)) canon env P (2 ^ 63) t dst tv canon_val_type canon_vsize
    (fun ln n => decode_canon env ln n) Hs He Hu Hw Ht Hd Hf) as (N & H).
  exists N. intros p n C Hn. destruct (H p _ n (cmp_came_breaks size Hz e p tv d C Hw st Hst) Hn) as ([st' s'] & v & er & R & Pt).
  pose proof (layer_refines size cmp_reader (Unmarshal env n n (Some (RtPtr t, GPtr (Some dst)))) st b ltac:(lia) Hb
    (fun X (c : wireR X) s => cmp_reader_fok _ X c s tw_read_uvarint_fok)) as G.
  rewrite Ab, R in G. destruct (run _ _ (st, b)) as [[st1 b'] x|]; [|contradiction]. destruct G as (_ & -> & _). eauto 6.
Qed.
Print Assumptions C74_compact.

(** node_update (C53_sample) read over node_value, cut off 3 bytes before the end of the
    score of "c", which has no score yet: what came before is stored, "c" has
    been added with the score 0, and [Count] is as it was. *)
Definition node_cut : list byte := firstn 68 (binary_encoding node_update).
Definition node_place : place := Next (Next (Next (Inside (Next (InValue Start))))).
Definition node_left : gval :=
  GStruct [GInt 7;
           GMap (Some [(GString (lit "a"), GF32 0x40000000); (GString (lit "b"), GF32 0xBF800000); (GString (lit "c"), GF32 0)]);
           GSlice false [GString (lit "z")] [GString (lit "y")];
           GPtr (Some (GStruct [GInt (-1); GMap None; GSlice true [] []; GPtr None; GInt 9]));
           GInt 5].
Example C74_sample :
  let src l := new_breader (mkSource [(l, None)] (FErr EEOF)) in
  match run (over (bin_reader true) (bufio_h 16)) (Unmarshal node_env 9 9 (Some (RtPtr Node, GPtr (Some node_value)))) (tt, src node_cut) with
  | Done _ (v, Some _) => v = Some node_left
  | _ => False
  end.
Proof. vm_compute. reflexivity. Qed.
(** The cut is at [node_place] of node_update, and C74_binary covers it. *)
Lemma split_begins d l : firstn (length d) l = d -> (length d < length l)%nat -> begins d l.
Proof.
  intros E H. exists (skipn (length d) l). split.
  - intros Z. apply (f_equal (@length _)) in Z. rewrite skipn_length in Z. cbn in Z. lia.
  - rewrite <- E at 1. symmetry. apply firstn_skipn.
Qed.
Lemma by_eq {A} (Q : A -> Prop) d d' : d = d' -> Q d' -> Q d.
Proof. intros ->. exact (fun H => H). Qed.
Example C74_place : came binary_format node_place node_update node_cut.
Proof.
  apply cm_struct.
  apply (by_eq _ _ ([x0f; x00; x09] ++ binary_encoding (VList T_I32 [VI32 1]) ++ skipn 12 node_cut)); [vm_compute; reflexivity|].
  apply cmf_next; [vm_compute; reflexivity|reflexivity|].
  apply (by_eq _ _ ([x0e; x00; x02] ++ binary_encoding (VSet T_String [VString (lit "z")]) ++ skipn 25 node_cut)); [vm_compute; reflexivity|].
  apply cmf_next; [vm_compute; reflexivity|reflexivity|].
  apply (by_eq _ _ ([x0c; x00; x04] ++ binary_encoding (VStruct [(1, VI32 (-1))]) ++ skipn 36 node_cut)); [vm_compute; reflexivity|].
  apply cmf_next; [vm_compute; reflexivity|reflexivity|].
  apply (by_eq _ _ ([x0d; x00; x03] ++ skipn 39 node_cut)); [vm_compute; reflexivity|].
  eapply cmf_in; [vm_compute; reflexivity|reflexivity|apply split_begins; vm_compute; [reflexivity|lia]|].
  apply (by_eq _ _ ([x0b; x04; x00; x00; x00; x02] ++ skipn 45 node_cut)); [vm_compute; reflexivity|].
  apply cm_map; [vm_compute; reflexivity|].
  apply (by_eq _ _ (binary_encoding (VString (lit "a")) ++ binary_encoding (VDouble 0x4000000000000000) ++ skipn 58 node_cut)); [vm_compute; reflexivity|].
  apply cme_next; [reflexivity|reflexivity|].
  apply (by_eq _ _ (binary_encoding (VString (lit "c")) ++ skipn 63 node_cut)); [vm_compute; reflexivity|].
  apply cme_value; [reflexivity|].
  eapply cm_scalar; [exact I|discriminate|reflexivity|].
  apply split_begins; vm_compute; [reflexivity|lia].
Qed.
Example C74_applies :
  let b := new_breader (mkSource [(node_cut, None)] (FErr EEOF)) in
  exists n v, partly node_env node_place Node node_value node_update v /\
    match run (over (bin_reader true) (bufio_h 16)) (Unmarshal node_env n n (Some (RtPtr Node, GPtr (Some node_value)))) (tt, b) with
    | Done _ (w, Some _) => w = Some v
    | _ => False
    end.
Proof.
  intros b. destruct C53_sample as (W & _ & Cf & _).
  assert (Hb : binv 16 b) by (apply binv_new; [lia|vm_compute; auto]).
  destruct (C74_binary node_env node_types true 16 b Node node_value node_update node_cut (skipn 68 (binary_encoding node_update)) EEOF
    node_ok node_unique node_supported ltac:(lia) Hb W (or_introl eq_refl) node_typed Cf) as (_ & H).
  - symmetry. apply firstn_skipn.
  - vm_compute. discriminate.
  - vm_compute. reflexivity.
  - destruct H as (N & R). destruct (R _ N C74_place (Nat.le_refl _)) as (b' & v & er & E & Pt).
    exists N, v. split; [exact Pt|]. rewrite E. reflexivity.
Qed.
