(** Binary data cut off: how much of the value has come (see LeftSpec.v). *)
From Verif Require Import Base BaseLemmas Prog Bufio GoBinary GoBinaryProof Wire WireProof Spec Clients Reads Binary BinaryProof
  Compact CompactProof RoundTrip PartsSpec PartsRun PartsProof StoreSpec LeftSpec LeftProof.

Lemma begins_of d q l : d ++ q = l -> q <> [] -> begins d l.
Proof. intros E Hq. exists q. auto. Qed.

Section Calls.
Variable size : Z.
Hypothesis Hsize : 10 <= size.
Variable e : err.
Notation fin := (FErr e).
Notation sh := (stream_h size).

Lemma read_bytes_cut d q s buf : d ++ q = s -> q <> [] ->
  run sh (read_bytes (zlen s) buf) (mkStream d fin) = Done (mkStream [] fin) (buf ++ d, Some (stop d e)).
Proof using Hsize.
  intros E Hq. pose proof (cut_len _ _ _ E Hq). pose proof (zlen_nonneg d).
  rewrite read_bytes_spec by lia. unfold bytes_spec.
  destruct (Z.ltb_spec (zlen s) 0); [lia|]. destruct (Z.leb_spec (zlen s) (zlen d)); [lia|].
  now rewrite short_stop.
Qed.

Lemma uuid_left d q u old : d ++ q = u -> q <> [] -> length u = 16%nat ->
  exists er, run sh (read_uuid old) (mkStream d fin) = Done (mkStream [] fin) (firstn (length d) u ++ skipn (length d) old, Some er).
Proof using.
  intros E Hq Hu. pose proof (cut_len _ _ _ E Hq). unfold read_uuid. rewrite run_vis. cbn [stream_h sdata sfin].
  destruct (Z.leb_spec 16 (zlen d)); [unfold zlen in *; lia|]. cbn [obind run].
  assert (F : firstn (length d) u = d) by (rewrite <- E, firstn_app, Nat.sub_diag, firstn_O, app_nil_r, firstn_all; reflexivity).
  rewrite F. destruct ((0 <? zlen d) && is_eof (Some e)); eexists; reflexivity.
Qed.
End Calls.

Section Bin.
Variable size : Z.
Hypothesis Hsize : 10 <= size.
Variable e : err.
Variable strict : bool.
Notation fin := (FErr e).
Notation sh := (stream_h size).
Notation rh := (over (bin_reader strict) sh).
Notation cn := (fun v : tval => v).
Notation bin_r := (bin_r size e strict).
Notation F := binary_format.

Definition bin_left (v : tval) : Prop := forall d q, d ++ q = binary_encoding v -> q <> [] ->
  exists p, came F p v d /\ breaks rh cn p v (tt, mkStream d fin).

Lemma bin_bytes_cut s buf : is_i32 (zlen s) -> forall d q, d ++ q = big_endian 4 (zlen s) ++ s -> q <> [] ->
  exists s' x er, run sh (bin_read_bytes buf) (mkStream d fin) = Done s' (x, Some er).
Proof using Hsize.
  intros Hs d q E Hq. unfold bin_read_bytes, bin_read_size.
  destruct (cut_where _ _ _ _ E Hq) as [(q' & Hq' & E')|(d' & -> & E')].
  - rewrite !run_bind, (read_i32_cut size Hsize e d q' _ E' Hq'). cbn [obind run]. do 3 eexists. reflexivity.
  - rewrite !run_bind, read_i32_ok by (assumption || lia). cbn [obind].
    rewrite (read_bytes_cut size Hsize e d' q s buf E' Hq). do 3 eexists. reflexivity.
Qed.

Lemma field_header_ok v id rest : is_i16 id ->
  rh _ RFieldBegin (tt, mkStream (([z2b (val_type v)] ++ big_endian 2 id) ++ rest) fin)
    = Done (tt, mkStream rest fin) (mkFH [] (val_type v) id, None).
Proof using Hsize.
  intros Hid. assert (T8 : is_u8 (val_type v)) by apply val_type_u8.
  assert (T0 : val_type v <> 0) by (destruct v; discriminate).
  rewrite <- app_assoc. apply bin_r. cbn [bin_read app]. unfold bin_read_field_begin.
  rewrite run_bind, read_type_ok by exact T8. cbn [obind is_none negb orb].
  change T_Stop with 0. destruct (Z.eqb_spec (val_type v) 0); [lia|].
  rewrite run_bind, read_i16_ok by (exact Hid || lia). reflexivity.
Qed.

Lemma bin_elems_left et es : Forall (fun v => val_type v = et /\ wf (2 ^ 31) v /\ bin_left v) es ->
  forall d q, d ++ q = flat_map binary_encoding es -> q <> [] ->
  exists p, came_elems F p es d /\ breaks_elems rh cn p et es (tt, mkStream d fin).
Proof using Hsize.
  induction 1 as [|v r (Hv & Hw & Hc) Hr IH]; intros d q E Hq.
  - destruct d; [cbn in E; congruence|discriminate].
  - cbn [flat_map] in *. destruct (cut_where _ _ _ _ E Hq) as [(q' & Hq' & E')|(d' & -> & E')].
    + destruct (Hc d q' E' Hq') as (p & C & B). exists (Inside p). split; [now constructor|]. rewrite <- Hv. now constructor.
    + destruct (IH d' q E' Hq) as (p & C & B). exists (Next p). split; [now constructor|].
      rewrite <- Hv in *. eapply bl_next; [|exact B]. apply bin_reads; auto; lia.
Qed.

Lemma bin_entries_left kt vt es : Forall (fun e => (val_type (fst e) = kt /\ wf (2 ^ 31) (fst e) /\ bin_left (fst e)) /\
    (val_type (snd e) = vt /\ wf (2 ^ 31) (snd e) /\ bin_left (snd e))) es ->
  forall d q, d ++ q = flat_map (fun e => let '(k, v) := e in binary_encoding k ++ binary_encoding v) es -> q <> [] ->
  exists p, came_entries F p es d /\ breaks_entries rh cn p kt vt es (tt, mkStream d fin).
Proof using Hsize.
  induction 1 as [|[k v] r ((Hk & Wk & Ck) & Hv & Wv & Cv) Hr IH]; intros d q E Hq.
  - destruct d; [cbn in E; congruence|discriminate].
  - cbn [flat_map fst snd] in *. rewrite <- app_assoc in E.
    destruct (cut_where _ _ _ _ E Hq) as [(q' & Hq' & E')|(d' & -> & E')].
    + destruct (Ck d q' E' Hq') as (p & C & B). exists (InKey p). split; [now constructor|]. rewrite <- Hk, <- Hv. now constructor.
    + destruct (cut_where _ _ _ _ E' Hq) as [(q' & Hq' & E2)|(d2 & -> & E2)].
      * destruct (Cv d' q' E2 Hq') as (p & C & B). exists (InValue p). split; [now constructor|].
        rewrite <- Hk, <- Hv. eapply be_value; [|exact B]. apply bin_reads; auto; lia.
      * destruct (IH d2 q E2 Hq) as (p & C & B). exists (Next p). split; [now constructor|].
        rewrite <- Hk, <- Hv in *. eapply be_next; [| |exact B]; apply bin_reads; auto; lia.
Qed.

Lemma bin_fields_left fs : Forall (fun f => is_i16 (fst f) /\ wf (2 ^ 31) (snd f) /\ bin_left (snd f)) fs ->
  forall last d q, d ++ q = flat_map (fun f => let '(id, v) := f in [z2b (val_type v)] ++ big_endian 2 id ++ binary_encoding v) fs ++ [x00] -> q <> [] ->
  exists p, came_fields F p last fs d /\ breaks_fields rh cn p fs (tt, mkStream d fin).
Proof using Hsize.
  induction 1 as [|[id v] r (Hid & Hw & Hc) Hr IH]; intros last d q E Hq.
  - cbn [flat_map app] in *. destruct (stop_field_cut size false e d q E Hq) as (s' & x & er & R & _).
    destruct (byte_cut size e d q _ E Hq) as (-> & _).
    exists Between. split; [constructor|]. eapply bf_begin. apply bin_r. exact R.
  - cbn [flat_map fst snd] in *.
    replace ((([z2b (val_type v)] ++ big_endian 2 id ++ binary_encoding v) ++ _) ++ [x00])
      with (([z2b (val_type v)] ++ big_endian 2 id) ++ binary_encoding v ++
        (flat_map (fun f => let '(id, v) := f in [z2b (val_type v)] ++ big_endian 2 id ++ binary_encoding v) r ++ [x00]))
      in E by (rewrite <- !app_assoc; reflexivity).
    assert (T8 : is_u8 (val_type v)) by apply val_type_u8.
    assert (T0 : val_type v <> 0) by (destruct v; discriminate).
    assert (RF := fun rest => field_header_ok v id rest Hid).
    destruct (cut_where _ _ _ _ E Hq) as [(q' & Hq' & E')|(d' & -> & E')].
    + destruct (field_begin_cut size Hsize false e (val_type v) id T8 T0 d q') as (s' & x & er & R & _); [|exact Hq'|].
      { cbn [bytes_of flat_map pbytes]. now rewrite app_nil_r. }
      exists Between. split; [eapply cmf_header; [reflexivity|exact (begins_of _ _ _ E' Hq')]|eapply bf_begin; apply bin_r; exact R].
    + destruct (cut_where _ _ _ _ E' Hq) as [(q' & Hq' & E2)|(d2 & -> & E2)].
      * destruct (Hc d' q' E2 Hq') as (p & C & B). exists (Inside p). split.
        -- eapply cmf_in; [reflexivity|reflexivity|exact (begins_of _ _ _ E2 Hq')|exact C].
        -- eapply bf_value; [apply RF|exact B].
      * destruct (IH id d2 q E2 Hq) as (p & C & B). exists (Next p). split.
        -- eapply cmf_next; [reflexivity|reflexivity|exact C].
        -- eapply bf_next; [apply RF|apply bin_reads; auto; lia| |exact B]. apply bin_r. reflexivity.
Qed.

Ltac leaf E Hq := exists Start; split;
  [eapply cm_scalar; [exact I|discriminate|reflexivity|exact (begins_of _ _ _ E Hq)]|apply b_start].

Theorem bin_lefts v : wf (2 ^ 31) v -> bin_left v.
Proof using Hsize.
  induction v as [b|b|z|z|z|z|x|u|fs IH|kt vt es IH|et es IH|et es IH] using tval_ind';
    intros Hwf d q E Hq; cbn [wf] in Hwf.
  - leaf E Hq. destruct (byte_cut size e d q _ E Hq) as (_ & R).
    do 3 eexists. apply bin_r. cbn [bin_read]. unfold bin_read_bool. rewrite run_bind, R. reflexivity.
  - leaf E Hq. destruct (byte_cut size e d q _ E Hq) as (_ & R). do 3 eexists. apply bin_r. exact R.
  - leaf E Hq. do 3 eexists. apply bin_r. exact (read_double_cut size Hsize e d q z E Hq).
  - leaf E Hq. do 3 eexists. apply bin_r. exact (read_i16_cut size Hsize e d q z E Hq).
  - leaf E Hq. do 3 eexists. apply bin_r. exact (read_i32_cut size Hsize e d q z E Hq).
  - leaf E Hq. do 3 eexists. apply bin_r. exact (read_i64_cut size Hsize e d q z E Hq).
  - leaf E Hq. cbn [binary_encoding] in E.
    assert (is_i32 (zlen x)) by (unfold is_i32; pose proof (zlen_nonneg x); lia).
    destruct (bin_string_cut size Hsize e x H d q) as ((s1 & y1 & er1 & R1 & C1) & (s2 & er2 & R2 & C2)); [|exact Hq|].
    { cbn [bytes_of flat_map pbytes]. now rewrite app_nil_r. }
    cbn [refused]. conj.
    + do 3 eexists. apply bin_r. exact R1.
    + intros buf. destruct (bin_bytes_cut x buf H d q E Hq) as (s3 & y3 & er3 & R3). do 3 eexists. apply bin_r. exact R3.
    + do 2 eexists. apply bin_r. exact R2.
  - cbn [binary_encoding] in E. exists (Uuid (length d)). split; [constructor; exact (begins_of _ _ _ E Hq)|]. apply b_uuid.
    + intros old _. destruct (uuid_left size e d q u old E Hq Hwf) as (er & R). do 2 eexists. apply bin_r. exact R.
    + pose proof (skip_uuid_cut size e d q u E Hq Hwf) as R2. do 2 eexists. apply bin_r. exact R2.
  - cbn [binary_encoding] in E.
    assert (Hfs : Forall (fun f => is_i16 (fst f) /\ wf (2 ^ 31) (snd f) /\ bin_left (snd f)) fs).
    { clear E. induction IH as [|[id v] r Hv Hr IHr]; constructor; cbn [fst snd] in *; destruct Hwf as ((Hi & Hw) & Hwr); auto. }
    destruct (bin_fields_left fs Hfs 0 d q E Hq) as (p & C & B). exists p. split; [now constructor|].
    eapply b_struct; [|exact B]. apply bin_r. reflexivity.
  - cbn [binary_encoding] in E. destruct Hwf as (Hn & Hk & Hv & Hes).
    assert (is_i32 (zlen es)) by (unfold is_i32; pose proof (zlen_nonneg es); lia).
    assert (Hall : Forall (fun e => (val_type (fst e) = kt /\ wf (2 ^ 31) (fst e) /\ bin_left (fst e)) /\
      (val_type (snd e) = vt /\ wf (2 ^ 31) (snd e) /\ bin_left (snd e))) es).
    { clear E Hn H. induction IH as [|[k v] r [Ik Iv] Hr IHr]; constructor; cbn [fst snd] in *;
        destruct Hes as ((? & ? & ? & ?) & ?); auto. }
    rewrite app_assoc in E.
    assert (B : [z2b kt; z2b vt] ++ big_endian 4 (zlen es) = bytes_of [Part [z2b kt]; Part [z2b vt]; Part (big_endian 4 (zlen es))])
      by (cbn [bytes_of flat_map pbytes app]; now rewrite app_nil_r).
    destruct (cut_where _ _ _ _ E Hq) as [(q' & Hq' & E')|(d' & -> & E')].
    + destruct (map_begin_cut size Hsize false e kt vt (zlen es) Hk Hv d q') as (s' & y & er & R & _); [congruence|exact Hq'|].
      exists Start. split; [eapply cm_map0; [reflexivity|exact (begins_of _ _ _ E' Hq')]|].
      apply b_start. do 3 eexists. apply bin_r. exact R.
    + destruct (bin_entries_left kt vt es Hall d' q E' Hq) as (p & C & Br). exists p. split.
      * eapply cm_map; [reflexivity|exact C].
      * eapply b_map; [|exact Br]. apply bin_r. rewrite <- app_assoc. cbn [bin_read app]. unfold bin_read_map_begin.
        rewrite run_bind, read_type_ok by exact Hk. cbn [obind]. rewrite run_bind, read_type_ok by exact Hv. cbn [obind].
        unfold bin_read_size. rewrite run_bind, read_i32_ok by (assumption || lia). reflexivity.
  - cbn [binary_encoding] in E. destruct Hwf as (Hn & Ht & Hes).
    assert (is_i32 (zlen es)) by (unfold is_i32; pose proof (zlen_nonneg es); lia).
    assert (Hall : Forall (fun v => val_type v = et /\ wf (2 ^ 31) v /\ bin_left v) es).
    { clear E Hn H. induction IH as [|v r Iv Hr IHr]; constructor; destruct Hes as ((? & ?) & ?); auto. }
    rewrite app_assoc in E.
    assert (B : [z2b et] ++ big_endian 4 (zlen es) = bytes_of [Part [z2b et]; Part (big_endian 4 (zlen es))])
      by (cbn [bytes_of flat_map pbytes app]; now rewrite app_nil_r).
    destruct (cut_where _ _ _ _ E Hq) as [(q' & Hq' & E')|(d' & -> & E')].
    + destruct (set_begin_cut size Hsize false e et (zlen es) (value_type_u8 _ Ht) d q') as (s' & y & er & R & _); [congruence|exact Hq'|].
      exists Start. split; [eapply cm_set0; [reflexivity|exact (begins_of _ _ _ E' Hq')]|].
      apply b_start. do 3 eexists. apply bin_r. exact R.
    + destruct (bin_elems_left et es Hall d' q E' Hq) as (p & C & Br). exists p. split.
      * eapply cm_set; [reflexivity|exact C].
      * eapply b_set; [|exact Br]. apply bin_r. rewrite <- app_assoc. cbn [bin_read app].
        apply read_set_begin_ok; auto using value_type_u8. lia.
  - cbn [binary_encoding] in E. destruct Hwf as (Hn & Ht & Hes).
    assert (is_i32 (zlen es)) by (unfold is_i32; pose proof (zlen_nonneg es); lia).
    assert (Hall : Forall (fun v => val_type v = et /\ wf (2 ^ 31) v /\ bin_left v) es).
    { clear E Hn H. induction IH as [|v r Iv Hr IHr]; constructor; destruct Hes as ((? & ?) & ?); auto. }
    rewrite app_assoc in E.
    assert (B : [z2b et] ++ big_endian 4 (zlen es) = bytes_of [Part [z2b et]; Part (big_endian 4 (zlen es))])
      by (cbn [bytes_of flat_map pbytes app]; now rewrite app_nil_r).
    destruct (cut_where _ _ _ _ E Hq) as [(q' & Hq' & E')|(d' & -> & E')].
    + destruct (set_begin_cut size Hsize false e et (zlen es) (value_type_u8 _ Ht) d q') as (s' & y & er & R & _); [congruence|exact Hq'|].
      exists Start. split; [eapply cm_list0; [reflexivity|exact (begins_of _ _ _ E' Hq')]|].
      apply b_start. do 3 eexists. apply bin_r. exact R.
    + destruct (bin_elems_left et es Hall d' q E' Hq) as (p & C & Br). exists p. split.
      * eapply cm_list; [reflexivity|exact C].
      * eapply b_list; [|exact Br]. apply bin_r. rewrite <- app_assoc. cbn [bin_read app].
        apply read_set_begin_ok; auto using value_type_u8. lia.
Qed.

(** However much it is called, it is what the Reader delivers. *)
Lemma scalar_place p v d : StoreSpec.scalar v -> val_type v <> T_UUID -> came F p v d -> p = Start.
Proof using. intros S N C. inversion C; subst; try reflexivity; try contradiction. Qed.

Theorem bin_came_breaks p v d : came F p v d -> wf (2 ^ 31) v -> breaks rh cn p v (tt, mkStream d fin).
Proof using Hsize.
  revert p v d.
  enough (G : (forall p v d, came F p v d -> wf (2 ^ 31) v -> breaks rh cn p v (tt, mkStream d fin)) /\
    (forall p last fs d, came_fields F p last fs d -> Forall (fun f => is_i16 (fst f) /\ wf (2 ^ 31) (snd f)) fs ->
       breaks_fields rh cn p fs (tt, mkStream d fin)) /\
    (forall p es d, came_entries F p es d -> forall kt vt,
       Forall (fun e => (val_type (fst e) = kt /\ wf (2 ^ 31) (fst e)) /\ (val_type (snd e) = vt /\ wf (2 ^ 31) (snd e))) es ->
       breaks_entries rh cn p kt vt es (tt, mkStream d fin)) /\
    (forall p es d, came_elems F p es d -> forall et, Forall (fun v => val_type v = et /\ wf (2 ^ 31) v) es ->
       breaks_elems rh cn p et es (tt, mkStream d fin))) by exact (proj1 G).
  apply came_mut.
  - intros v l d S N El (q & Hq & E) Hw. cbn [fm_map fm_seq fm_field fm_enc fm_value binary_format] in El. rewrite El in E. destruct (bin_lefts v Hw d q (eq_sym E) Hq) as (p & C & B).
    now rewrite (scalar_place p v d S N C) in B.
  - intros u d (q & Hq & E) Hw. cbn [wf] in Hw. apply b_uuid.
    + intros old _. destruct (uuid_left size e d q u old (eq_sym E) Hq Hw) as (er & R). do 2 eexists. apply bin_r. exact R.
    + pose proof (skip_uuid_cut size e d q u (eq_sym E) Hq Hw) as R2. do 2 eexists. apply bin_r. exact R2.
  - intros kt vt es h d Eh (q & Hq & E) Hw. cbn [fm_map fm_seq fm_field fm_enc fm_value binary_format] in Eh. subst h. destruct Hw as (Hn & Hk & Hv & Hes).
    destruct (map_begin_cut size Hsize false e kt vt (zlen es) Hk Hv d q) as (s' & y & er & R & _); [|exact Hq|].
    { cbn [bytes_of flat_map pbytes app]. rewrite app_nil_r. now symmetry. }
    apply b_start. do 3 eexists. apply bin_r. exact R.
  - intros p kt vt es h d Eh _ IH Hw. cbn [fm_map fm_seq fm_field fm_enc fm_value binary_format] in Eh. subst h. destruct Hw as (Hn & Hk & Hv & Hes).
    assert (is_i32 (zlen es)) by (unfold is_i32; pose proof (zlen_nonneg es); lia).
    eapply b_map; [|apply IH].
    + apply bin_r. cbn [bin_read app]. unfold bin_read_map_begin.
      rewrite run_bind, read_type_ok by exact Hk. cbn [obind]. rewrite run_bind, read_type_ok by exact Hv. cbn [obind].
      unfold bin_read_size. rewrite run_bind, read_i32_ok by (assumption || lia). reflexivity.
    + clear -Hes. induction es as [|[k v] r IHr]; constructor; cbn [fst snd]; [tauto|]. apply IHr. tauto.
  - intros et es h d Eh (q & Hq & E) Hw. cbn [fm_map fm_seq fm_field fm_enc fm_value binary_format] in Eh. subst h. destruct Hw as (Hn & Ht & Hes).
    destruct (set_begin_cut size Hsize false e et (zlen es) (value_type_u8 _ Ht) d q) as (s' & y & er & R & _); [|exact Hq|].
    { cbn [bytes_of flat_map pbytes app]. rewrite app_nil_r. now symmetry. }
    apply b_start. do 3 eexists. apply bin_r. exact R.
  - intros p et es h d Eh _ IH Hw. cbn [fm_map fm_seq fm_field fm_enc fm_value binary_format] in Eh. subst h. destruct Hw as (Hn & Ht & Hes).
    assert (is_i32 (zlen es)) by (unfold is_i32; pose proof (zlen_nonneg es); lia).
    eapply b_set; [|apply IH].
    + apply bin_r. cbn [bin_read app]. apply read_set_begin_ok; auto using value_type_u8. lia.
    + clear -Hes. induction es as [|v r IHr]; constructor; [tauto|]. apply IHr. tauto.
  - intros et es h d Eh (q & Hq & E) Hw. cbn [fm_map fm_seq fm_field fm_enc fm_value binary_format] in Eh. subst h. destruct Hw as (Hn & Ht & Hes).
    destruct (set_begin_cut size Hsize false e et (zlen es) (value_type_u8 _ Ht) d q) as (s' & y & er & R & _); [|exact Hq|].
    { cbn [bytes_of flat_map pbytes app]. rewrite app_nil_r. now symmetry. }
    apply b_start. do 3 eexists. apply bin_r. exact R.
  - intros p et es h d Eh _ IH Hw. cbn [fm_map fm_seq fm_field fm_enc fm_value binary_format] in Eh. subst h. destruct Hw as (Hn & Ht & Hes).
    assert (is_i32 (zlen es)) by (unfold is_i32; pose proof (zlen_nonneg es); lia).
    eapply b_list; [|apply IH].
    + apply bin_r. cbn [bin_read app]. apply read_set_begin_ok; auto using value_type_u8. lia.
    + clear -Hes. induction es as [|v r IHr]; constructor; [tauto|]. apply IHr. tauto.
  - intros p fs d _ IH Hw. eapply b_struct; [|apply IH].
    + apply bin_r. reflexivity.
    + cbn [wf] in Hw. clear -Hw. induction fs as [|[id v] r IHr]; constructor; cbn [fst snd]; [tauto|]. apply IHr. tauto.
  (* fields *)
  - intros last _. destruct (stop_field_cut size false e [] [x00] eq_refl ltac:(discriminate)) as (s' & x & er & R & _).
    eapply bf_begin. apply bin_r. exact R.
  - intros last id v r h d Eh (q & Hq & E) Hw. cbn [fm_map fm_seq fm_field fm_enc fm_value binary_format] in Eh. subst h.
    assert (T0 : val_type v <> 0) by (destruct v; discriminate).
    destruct (field_begin_cut size Hsize false e (val_type v) id (val_type_u8 v) T0 d q) as (s' & x & er & R & _); [|exact Hq|].
    { cbn [bytes_of flat_map pbytes app]. rewrite app_nil_r. now symmetry. }
    eapply bf_begin; apply bin_r; exact R.
  - intros p last id v r h l d Eh _ _ _ IH Hw. cbn [fm_map fm_seq fm_field fm_enc fm_value binary_format] in Eh. subst h. inversion_clear Hw as [|? ? [Hid Hv] Hr]. cbn [fst snd] in *.
    eapply bf_value; [now apply field_header_ok|now apply IH].
  - intros p last id v r h l d Eh El _ IH Hw. cbn [fm_map fm_seq fm_field fm_enc fm_value binary_format] in Eh, El. subst h l. inversion_clear Hw as [|? ? [Hid Hv] Hr]. cbn [fst snd] in *.
    eapply bf_next; [now apply field_header_ok|apply bin_reads; auto; lia| |now apply IH]. apply bin_r. reflexivity.
  (* entries *)
  - intros p k v r d _ IH kt vt Hw. pose proof (Forall_inv Hw) as [[Ek Hk] [Ev Hv]]. apply Forall_inv_tail in Hw as Hr. cbn [fst snd] in *. subst kt vt. constructor. now apply IH.
  - intros p k v r l d El _ IH kt vt Hw. cbn [fm_map fm_seq fm_field fm_enc fm_value binary_format] in El. subst l. pose proof (Forall_inv Hw) as [[Ek Hk] [Ev Hv]]. apply Forall_inv_tail in Hw as Hr. cbn [fst snd] in *. subst kt vt.
    eapply be_value; [|now apply IH]. apply bin_reads; auto; lia.
  - intros p k v r l m d El Em _ IH kt vt Hw. cbn [fm_map fm_seq fm_field fm_enc fm_value binary_format] in El, Em. subst l m. pose proof (Forall_inv Hw) as [[Ek Hk] [Ev Hv]]. apply Forall_inv_tail in Hw as Hr. cbn [fst snd] in *.
    subst kt vt. eapply be_next; [| |now apply IH]; apply bin_reads; auto; lia.
  (* elements *)
  - intros p v r d _ IH et Hw. pose proof (Forall_inv Hw) as [Ev Hv]. subst et. constructor. now apply IH.
  - intros p v r l d El _ IH et Hw. cbn [fm_map fm_seq fm_field fm_enc fm_value binary_format] in El. subst l. pose proof (Forall_inv Hw) as [Ev Hv]. apply Forall_inv_tail in Hw as Hr. subst et.
    eapply bl_next; [|now apply IH]. apply bin_reads; auto; lia.
Qed.
End Bin.
