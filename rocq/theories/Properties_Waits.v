(** Property C12: exactly when a Compact Reader waits for bytes after the value. *)
From Coq Require Import Strings.String.
From Verif Require Import Base BaseLemmas Prog Bufio BufioProof Layers Wire WireProof Spec Clients Reads Compact CompactProof RoundTrip
  GoFloat Utf8 GoType Fields Arshal GoTypeProof FieldsProof ArshalSpec ArshalEnc ArshalDec ArshalTotal ArshalSafe ArshalThms ArshalGives ArshalTrip
  MapSpec StoreSpec StoreProof Properties_Arshal Properties_Store ArshalExample WaitSpec Waits.
Local Open Scope list_scope.

(** ** C12 *)
(** All of the value, [l], and then [rest] have arrived, and the peer is silent.  If from the start of each string in it
    (where its length stands) there are ten bytes or more, reading and skipping complete; if there is a string where there
    are fewer, they wait for ever. *)
Theorem C12_compact_waits_partial size b v l rest fuel st :
  10 <= size -> binv size b -> wf (2 ^ 63) v -> (vsize v <= fuel)%nat ->
  compact_encoding v l -> cr_bool st = BNone -> abs b = mkStream (l ++ rest) FSilent ->
  ((forall m, from_string v m -> 10 <= zlen (m ++ rest)) ->
   (exists b', run (over cmp_reader (bufio_h size)) (read_val fuel (val_type v)) (st, b)
              = Done (st, b') (inl (canon v)) /\ abs b' = mkStream rest FSilent) /\
   (exists b', run (over cmp_reader (bufio_h size)) (skip fuel (val_type v)) (st, b)
              = Done (st, b') None /\ abs b' = mkStream rest FSilent)) /\
  ((exists m, from_string v m /\ zlen (m ++ rest) < 10) ->
   run (over cmp_reader (bufio_h size)) (read_val fuel (val_type v)) (st, b) = Crashed Blocked /\
   run (over cmp_reader (bufio_h size)) (skip fuel (val_type v)) (st, b) = Crashed Blocked).
Proof.
  intros Hs Hb Hw Hf Hl Hst Ha. destruct (watched_reads size Hs v l rest st true Hw Hl Hst) as (a & I & R).
  rewrite <- (canon_vsize v) in Hf. rewrite <- canon_val_type.
  pose proof (watched_bufio size Hs _ b st _ a st rest _ Hb Ha (read_val_reads _ _ fuel _ _ Hf R)) as A1.
  pose proof (watched_bufio size Hs _ b st _ a st rest _ Hb Ha (skip_reads _ _ fuel _ _ Hf R)) as A2.
  split.
  - intros A. rewrite (proj2 I (conj eq_refl A)) in *. destruct A1 as (b1 & E1 & _ & F1), A2 as (b2 & E2 & _ & F2). split; [exists b1|exists b2]; auto.
  - intros (m & Hm & L). destruct a; [|auto]. destruct (proj1 I eq_refl) as [_ A]. specialize (A m Hm). lia.
Qed.
Print Assumptions C12_compact_waits_partial.

(** Unmarshal of a value that conforms to the type, likewise. *)
Theorem C12_unmarshal_waits_partial env P size b t dst tv l rest st :
  env_ok env -> unique_ids env -> supported env P -> 10 <= size -> binv size b -> wf (2 ^ 63) tv -> P t -> has_type env dst t ->
  conforms env t tv -> compact_encoding tv l -> cr_bool st = BNone -> abs b = mkStream (l ++ rest) FSilent ->
  exists N v, stores env t dst tv v /\ forall n, (N <= n)%nat ->
    ((forall m, from_string tv m -> 10 <= zlen (m ++ rest)) -> exists b',
      run (over cmp_reader (bufio_h size)) (Unmarshal env n n (Some (RtPtr t, GPtr (Some dst)))) (st, b) = Done (st, b') (Some v, None) /\
      abs b' = mkStream rest FSilent) /\
    ((exists m, from_string tv m /\ zlen (m ++ rest) < 10) ->
      run (over cmp_reader (bufio_h size)) (Unmarshal env n n (Some (RtPtr t, GPtr (Some dst)))) (st, b) = Crashed Blocked).
Proof.
  intros He Hu Hs Hz Hb Hw Pt Hd Hc Hl Hst Ha.
  assert (T : thrift_type env t (val_type tv)) by now apply conforms_type.
  destruct (C53_stores env P _ t dst tv He Hu Hs Hw Pt Hd T) as (v & r & G & _ & A & B).
  apply A in Hc. subst r. specialize (B eq_refl).
  pose proof (supported_closed env P Hs) as Hcl.
  destruct (lookup_ends env t (cl_eager env P Hcl t Pt)) as (a & C).
  destruct (gives_settled env P Hcl He _ t dst tv v None a Hw Pt Hd C G) as [W (N & S)].
  destruct C as [k C]. exists (N + k)%nat, v. split; [exact B|]. intros n Hn.
  destruct (watched_reads size Hz tv l rest st true Hw Hl Hst) as (al & I & R).
  pose proof (S n n ltac:(lia) ltac:(lia)) as D. rewrite <- decode_canon in D.
  destruct (unmarshal_reads env n (watched size) n a dst (canon tv) _ _ _ D R) as (s'' & E & La).
  rewrite (La eq_refl) in E. rewrite canon_val_type in E.
  assert (E' : run (watched size) (Unmarshal env n n (Some (RtPtr t, GPtr (Some dst)))) (true, (st, l ++ rest)) = Done (al, (st, rest)) (Some v, None)).
  { rewrite (Unmarshal_ptr env _ n n t dst a) by (apply (lookup_more env k n); [lia|exact C]). rewrite W, E. reflexivity. }
  pose proof (watched_bufio size Hz _ b st _ al st rest _ Hb Ha E') as F. split.
  - intros Am. rewrite (proj2 I (conj eq_refl Am)) in F. destruct F as (b' & F1 & _ & F2). exists b'. auto.
  - intros (m & Hm & L). destruct al; [|exact F]. destruct (proj1 I eq_refl) as [_ Am]. specialize (Am m Hm). lia.
Qed.
Print Assumptions C12_unmarshal_waits_partial.

(** Message headers: [i] is the sequence id, [m] the length of the name. *)
Theorem C12_compact_message_waits_partial size b name t id i m rest st :
  10 <= size -> binv size b -> 0 <= t < 8 -> is_i32 id -> zlen name < 2 ^ 63 -> uleb128 (id mod 2 ^ 32) i -> uleb128 (zlen name) m ->
  abs b = mkStream (([x82; z2b (1 + 32 * t)] ++ i ++ m ++ name) ++ rest) FSilent ->
  (10 <= zlen (m ++ name ++ rest) -> exists b',
    run (over cmp_reader (bufio_h size)) (call RMessageBegin) (st, b) = Done (st, b') (mkMH name t id, None) /\ abs b' = mkStream rest FSilent) /\
  (zlen (m ++ name ++ rest) < 10 -> run (over cmp_reader (bufio_h size)) (call RMessageBegin) (st, b) = Crashed Blocked).
Proof.
  intros Hs Hb Ht Hid Hn Hi Hm Ha.
  pose proof (message_calls size Hs name t id i m rest FSilent st ltac:(unfold is_u8; lia) Hid Hn Hi Hm) as E.
  pose proof (layer_refines size cmp_reader (call RMessageBegin) st b ltac:(lia) Hb (fun X e s => cmp_reader_fok _ X e s tw_read_uvarint_fok)) as R.
  rewrite Ha, E, Z.mod_small in R by lia.
  destruct (Z.leb_spec 10 (zlen (m ++ name ++ rest))); split; try lia; intros _;
    destruct (run (over cmp_reader (bufio_h size)) (call RMessageBegin) (st, b)) as [[st1 b1] x1|c]; cbn [refines_l] in R; try contradiction.
  - destruct R as (-> & -> & R1 & _). exists b1. auto.
  - now rewrite R.
Qed.
Print Assumptions C12_compact_message_waits_partial.

(** A struct that ends with the strings "ab" and "cdefghijk" (its length and nine bytes, and the stop byte) is read; without
    the last two bytes of the second string it is not. *)
Definition waits_struct (s : list byte) : tval := VStruct [(1, VString (lit "ab")); (2, VI64 (-3)); (3, VString s)].
Example C12_sample_waits :
  (exists l, compact_encoding (waits_struct (lit "cdefghijk")) l /\ forall m, from_string (waits_struct (lit "cdefghijk")) m -> 10 <= zlen (m ++ [])) /\
  (exists l, compact_encoding (waits_struct (lit "cdefghi")) l /\ exists m, from_string (waits_struct (lit "cdefghi")) m /\ zlen (m ++ []) < 10).
Proof.
  assert (St : forall s, zlen s < 128 -> compact_encoding (VString s) (z2b (zlen s) :: s)).
  { intros s L. pose proof (zlen_nonneg s). apply (ce_string _ s [z2b (zlen s)]). apply (uleb_last (zlen s)). lia. }
  assert (En : forall s, zlen s < 128 -> compact_fields compact_field 1 [(2, VI64 (-3)); (3, VString s)] ([x16; x05] ++ [x18] ++ (z2b (zlen s) :: s) ++ [x00])).
  { intros s L. apply (cfs_field _ 1 2 (VI64 (-3)) [(3, VString s)] [x16] [x05]).
    - apply (cf_short 1 2 6). lia.
    - apply cfv_other; [discriminate|]. constructor. apply (uleb_last 5). lia.
    - apply (cfs_field _ 2 3 (VString s) [] [x18]); [apply (cf_short 2 3 8); lia| |constructor]. apply cfv_other; [discriminate|]. now apply St. }
  assert (E : forall s, zlen s < 128 -> exists l, compact_encoding (waits_struct s) l).
  { intros s L. eexists. constructor. apply (cfs_field _ 0 1 (VString (lit "ab")) _ [x18]); [apply (cf_short 0 1 8); lia| |now apply En].
    apply cfv_other; [discriminate|]. now apply St. }
  split.
  - destruct (E (lit "cdefghijk") ltac:(reflexivity)) as (l & Hl). exists l. split; [exact Hl|]. intros m Hm. inversion Hm as [|before id v after m' n Hv Hn Eq| | | |]; subst.
    destruct before as [|x before]; [|destruct before as [|y before]; [|destruct before as [|z before]; [|destruct before; discriminate Eq]]].
    + inversion Eq; subst. pose proof (f_equal zlen (compact_fields_fun _ _ _ _ Hn (En (lit "cdefghijk") ltac:(reflexivity)))) as Q. change (zlen n = 14) in Q.
      rewrite !zlen_app. pose proof (zlen_nonneg m'). change (zlen []) with 0. lia.
    + inversion Eq; subst. inversion Hv.
    + inversion Eq; subst. inversion Hv; subst.
      match goal with H : compact_encoding _ m' |- _ => rewrite (ThriftTestProof.compact_fun _ _ _ H (St (lit "cdefghijk") ltac:(reflexivity))) end.
      inversion Hn; subst. vm_compute. discriminate.
  - destruct (E (lit "cdefghi") ltac:(reflexivity)) as (l & Hl). exists l. split; [exact Hl|].
    eexists. split; [apply (fs_field [(1, VString (lit "ab")); (2, VI64 (-3))] 3 _ []); [apply fs_string; now apply St|constructor]|]. reflexivity.
Qed.
