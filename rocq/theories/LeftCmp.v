(** Compact data cut off: how much of the value has come (see LeftSpec.v). *)
From Verif Require Import Base BaseLemmas Prog Bufio GoBinary GoBinaryProof Wire WireProof Spec Clients Reads Binary BinaryProof
  Compact CompactProof RoundTrip PartsSpec PartsRun PartsProof PartsMsg PartsCmp StoreSpec LeftSpec LeftProof LeftBin.

Section Cmp.
Variable size : Z.
Hypothesis Hsize : 10 <= size.
Variable e : err.
Notation fin := (FErr e).
Notation sh := (stream_h size).
Notation rh := (over cmp_reader sh).
Notation F := compact_format.
Notation lift_r := (lift_r size e).
Notation tw_hok := tw_hok.
Notation its lem := (lem size tw_read_uvarint fin (fun _ => True) tw_hok (tw_huv size Hsize e)).

Definition cmp_left (v : tval) : Prop := forall ps, compact_parts v ps -> forall st d q, cr_bool st = BNone ->
  d ++ q = bytes_of ps -> q <> [] ->
  exists p, came F p v d /\ breaks rh canon p v (st, mkStream d fin).

Lemma cmp_bytes_cut s l buf : zlen s < 2 ^ 63 -> uleb128 (zlen s) l ->
  forall d q, d ++ q = bytes_of [Part l; Body s] -> q <> [] ->
  exists s' x er, run sh (cmp_read_bytes tw_read_uvarint buf) (mkStream d fin) = Done s' (x, Some er).
Proof using Hsize.
  intros Hs Hl d q E Hq. cbn [bytes_of flat_map pbytes] in E. rewrite app_nil_r in E. pose proof (zlen_nonneg s).
  unfold cmp_read_bytes.
  destruct (cut_where _ _ _ _ E Hq) as [(q' & Hq' & E')|(d' & -> & E')].
  - destruct (size_cut size Hsize e (zlen s) l d q' ltac:(lia) Hl E' Hq') as ((y & R) & _).
    rewrite !run_bind, R. cbn [obind run]. do 3 eexists. reflexivity.
  - rewrite !run_bind, (tw_size_ok size Hsize e (zlen s)) by (assumption || lia). cbn [obind].
    rewrite (read_bytes_cut size Hsize e d' q s buf E' Hq). do 3 eexists. reflexivity.
Qed.

Lemma cmp_elems_left et es : Forall (fun v => val_type v = et /\ wf (2 ^ 63) v /\ cmp_left v) es ->
  forall ps, compact_elems_parts es ps -> forall st d q, cr_bool st = BNone -> d ++ q = bytes_of ps -> q <> [] ->
  exists p, came_elems F p es d /\ breaks_elems rh canon p et es (st, mkStream d fin).
Proof using Hsize.
  induction 1 as [|v r (Hv & Hw & Hc) Hr IH]; intros ps Hp st d q Hb E Hq; inversion Hp as [|? ? l m Hl Hm]; subst.
  - destruct d; [cbn in E; congruence|discriminate].
  - rewrite bytes_of_app in E.
    destruct (cut_where _ _ _ _ E Hq) as [(q' & Hq' & E')|(d' & -> & E')].
    + destruct (Hc l Hl st d q' Hb E' Hq') as (p & C & B). exists (Inside p). split; now constructor.
    + destruct (IH m Hm st d' q Hb E' Hq) as (p & C & B). exists (Next p).
      split; [constructor; [now apply parts_bytes|exact C]|].
      eapply bl_next; [|exact B]. now apply cmp_parts_read.
Qed.

Lemma cmp_entries_left kt vt es : Forall (fun e => (val_type (fst e) = kt /\ wf (2 ^ 63) (fst e) /\ cmp_left (fst e)) /\
    (val_type (snd e) = vt /\ wf (2 ^ 63) (snd e) /\ cmp_left (snd e))) es ->
  forall ps, compact_entries_parts es ps -> forall st d q, cr_bool st = BNone -> d ++ q = bytes_of ps -> q <> [] ->
  exists p, came_entries F p es d /\ breaks_entries rh canon p kt vt es (st, mkStream d fin).
Proof using Hsize.
  induction 1 as [|[k v] r ((Hk & Wk & Ck) & Hv & Wv & Cv) Hr IH]; intros ps Hp st d q Hb E Hq; inversion Hp as [|? ? ? a b m Ha Hb' Hm]; subst.
  - destruct d; [cbn in E; congruence|discriminate].
  - rewrite !bytes_of_app in E. cbn [fst snd] in *.
    destruct (cut_where _ _ _ _ E Hq) as [(q' & Hq' & E')|(d' & -> & E')].
    + destruct (Ck a Ha st d q' Hb E' Hq') as (p & C & B). exists (InKey p). split; now constructor.
    + destruct (cut_where _ _ _ _ E' Hq) as [(q' & Hq' & E2)|(d2 & -> & E2)].
      * destruct (Cv b Hb' st d' q' Hb E2 Hq') as (p & C & B). exists (InValue p).
        split; [constructor; [now apply parts_bytes|exact C]|]. eapply be_value; [|exact B]. now apply cmp_parts_read.
      * destruct (IH m Hm st d2 q Hb E2 Hq) as (p & C & B). exists (Next p).
        split; [constructor; [now apply parts_bytes|now apply parts_bytes|exact C]|].
        eapply be_next; [| |exact B]; now apply cmp_parts_read.
Qed.

Lemma value_parts_bytes v ps : compact_value_parts v ps -> compact_field_value compact_field v (bytes_of ps).
Proof using. intros H. inversion H; subst; constructor; auto. now apply parts_bytes. Qed.

Lemma cmp_fields_left fs : Forall (fun f => is_i16 (fst f) /\ wf (2 ^ 63) (snd f) /\ cmp_left (snd f)) fs ->
  forall last ps, compact_fields_parts last fs ps -> forall ids d q, d ++ q = bytes_of ps -> q <> [] ->
  exists p, came_fields F p last fs d /\ breaks_fields rh canon p fs (mkCR ids last BNone, mkStream d fin).
Proof using Hsize.
  induction 1 as [|[id v] r (Hid & Hw & Hc) Hr IH]; intros last ps Hp ids d q E Hq; inversion Hp as [|? ? ? ? h l m Hh Hl Hm]; subst.
  - destruct (byte_cut size e d q _ E Hq) as (-> & R). exists Between. split; [constructor|]. eapply bf_begin.
    unfold over, cmp_reader. cbn [fst snd cmp_reader_gen]. unfold cmp_read_field_begin. rewrite run_bind, R. reflexivity.
  - rewrite !bytes_of_app in E. cbn [fst snd] in *.
    assert (RF : forall rest, rh _ RFieldBegin (mkCR ids last BNone, mkStream (bytes_of h ++ rest) fin)
        = Done (mkCR ids id (bool_of v), mkStream rest fin) (mkFH [] (val_type v) id, None)).
    { intros rest. unfold over, cmp_reader. cbn [fst snd cmp_reader_gen].
      assert (W : wrap_field last id (field_type v) (bytes_of h)) by (apply compact_field_wrap; [exact Hid|now apply field_parts_bytes]).
      rewrite (its cmp_read_field_begin_ok (mkCR ids last BNone) v id (bytes_of h) rest Hid eq_refl W). reflexivity. }
    pose proof (field_parts_bytes _ _ _ _ Hh) as Fh. pose proof (value_parts_bytes _ _ Hl) as Fv.
    destruct (cut_where _ _ _ _ E Hq) as [(q' & Hq' & E')|(d' & -> & E')].
    + destruct (cmp_field_begin_cut size false e (mkCR ids last BNone) v id h Hid Hh d q' E' Hq') as (s' & st' & x & er & R & _).
      exists Between. split; [eapply cmf_header; [exact Fh|exact (begins_of _ _ _ E' Hq')]|].
      eapply bf_begin. unfold over, cmp_reader. cbn [fst snd cmp_reader_gen]. rewrite R. reflexivity.
    + destruct (cut_where _ _ _ _ E' Hq) as [(q' & Hq' & E2)|(d2 & -> & E2)].
      * inversion Hl as [b Eb|? ? Ht Hx]; subst. { destruct d'; [cbn in E2; congruence|discriminate]. }
        assert (B : bool_of v = BNone) by (destruct v; try reflexivity; cbn in Ht; congruence). rewrite B in RF.
        destruct (Hc l Hx (mkCR ids id BNone) d' q' eq_refl E2 Hq') as (p & C & Br).
        exists (Inside p). split; [eapply cmf_in; [exact Fh|exact Fv|exact (begins_of _ _ _ E2 Hq')|exact C]|].
        eapply bf_value; [apply RF|exact Br].
      * destruct (IH id m Hm ids d2 q E2 Hq) as (p & C & Br). exists (Next p).
        split; [eapply cmf_next; [exact Fh|exact Fv|exact C]|].
        assert (RV : reads rh (canon v) (mkCR ids id (bool_of v), mkStream (bytes_of l ++ d2) fin) (mkCR ids id BNone, mkStream d2 fin)).
        { inversion Hl as [b Eb|? ? Ht Hx]; subst.
          - cbn [bytes_of flat_map app canon reads]. destruct b; reflexivity.
          - assert (B : bool_of v = BNone) by (destruct v; try reflexivity; cbn in Ht; congruence). rewrite B. now apply cmp_parts_read. }
        eapply bf_next; [apply RF|exact RV|reflexivity|exact Br].
Qed.

Ltac leaf E Hq Hp := exists Start; split;
  [eapply cm_scalar; [exact I|discriminate|exact (proj1 parts_bytes _ _ Hp)|exact (begins_of _ _ _ E Hq)]|apply b_start].

Theorem cmp_lefts v : wf (2 ^ 63) v -> cmp_left v.
Proof using Hsize.
  induction v as [b|b|z|z|z|z|x|u|fs IH|kt vt es IH|et es IH|et es IH] using tval_ind';
    intros Hwf ps Hp st d q Hb E Hq; cbn [wf] in Hwf.
  - leaf E Hq Hp. inversion Hp; subst. cbn [bytes_of flat_map pbytes] in E. rewrite app_nil_r in E.
    destruct (byte_cut size e d q _ E Hq) as (_ & R).
    do 3 eexists. unfold over, cmp_reader. cbn [fst snd cmp_reader_gen]. rewrite Hb, run_bind, R. reflexivity.
  - leaf E Hq Hp. inversion Hp; subst. cbn [bytes_of flat_map pbytes] in E. rewrite app_nil_r in E.
    destruct (byte_cut size e d q _ E Hq) as (_ & R). do 3 eexists. eapply lift_r; [reflexivity|exact R].
  - leaf E Hq Hp. inversion Hp; subst. cbn [bytes_of flat_map pbytes] in E. rewrite app_nil_r in E.
    do 3 eexists. eapply lift_r; [reflexivity|].
    unfold cmp_read_double. rewrite run_bind, (next_cut size e 8 d q _ E Hq) by (rewrite <- ?little_endian_eq, ?zlen_le_bytes; lia). reflexivity.
  - leaf E Hq Hp. inversion Hp as [| | |? l Hl| | | | | | | |]; subst. cbn [bytes_of flat_map pbytes] in E. rewrite app_nil_r in E.
    destruct (varint16_cut size e z l d q Hwf Hl E Hq) as (y & R). do 3 eexists. eapply lift_r; [reflexivity|exact R].
  - leaf E Hq Hp. inversion Hp as [| | | |? l Hl| | | | | | |]; subst. cbn [bytes_of flat_map pbytes] in E. rewrite app_nil_r in E.
    destruct (varint32_cut size e z l d q Hwf Hl E Hq) as (y & R). do 3 eexists. eapply lift_r; [reflexivity|exact R].
  - leaf E Hq Hp. inversion Hp as [| | | | |? l Hl| | | | | |]; subst. cbn [bytes_of flat_map pbytes] in E. rewrite app_nil_r in E.
    destruct (varint_cut size e z l d q Hwf Hl E Hq) as (y & R). do 3 eexists. eapply lift_r; [reflexivity|exact R].
  - leaf E Hq Hp. inversion Hp as [| | | | | |? l Hl| | | | |]; subst.
    destruct (cmp_string_cut size Hsize e x l Hwf Hl d q E Hq) as ((s1 & y1 & er1 & R1 & C1) & (s2 & er2 & R2 & C2)).
    cbn [refused]. conj.
    + do 3 eexists. eapply lift_r; [reflexivity|exact R1].
    + intros buf. destruct (cmp_bytes_cut x l buf Hwf Hl d q E Hq) as (s3 & y3 & er3 & R3). do 3 eexists. eapply lift_r; [reflexivity|exact R3].
    + do 2 eexists. eapply lift_r; [reflexivity|exact R2].
  - inversion Hp; subst. cbn [bytes_of flat_map pbytes] in E. rewrite app_nil_r in E.
    exists (Uuid (length d)). split; [constructor; exact (begins_of _ _ _ E Hq)|]. apply b_uuid.
    + intros old _. destruct (uuid_left size e d q u old E Hq Hwf) as (er & R). do 2 eexists. eapply lift_r; [reflexivity|exact R].
    + pose proof (skip_uuid_cut size e d q u E Hq Hwf) as R2. do 2 eexists. eapply lift_r; [reflexivity|exact R2].
  - inversion Hp as [| | | | | | | |? ? Hf| | |]; subst.
    assert (Hfs : Forall (fun f => is_i16 (fst f) /\ wf (2 ^ 63) (snd f) /\ cmp_left (snd f)) fs).
    { clear Hf Hp. induction IH as [|[id v] r Hv Hr IHr]; constructor; cbn [fst snd] in *; destruct Hwf as ((Hi & Hw) & Hwr); auto. }
    destruct (cmp_fields_left fs Hfs 0 ps Hf (cr_last st :: cr_ids st) d q E Hq) as (p & C & B). exists p. split; [now constructor|].
    eapply b_struct; [|exact B]. unfold over, cmp_reader. cbn [fst snd cmp_reader_gen run]. rewrite Hb. reflexivity.
  - inversion Hp as [| | | | | | | | |? ? ? h m Hh Hm| |]; subst.
    pose proof Hwf as Hwf0. destruct Hwf as (Hn & Hk & Hv & Hes). pose proof (zlen_nonneg es).
    assert (Hall : Forall (fun e => (val_type (fst e) = kt /\ wf (2 ^ 63) (fst e) /\ cmp_left (fst e)) /\
      (val_type (snd e) = vt /\ wf (2 ^ 63) (snd e) /\ cmp_left (snd e))) es).
    { clear Hp Hh Hm Hn H Hwf0. induction IH as [|[k v] r [Ik Iv] Hr IHr]; constructor; cbn [fst snd] in *;
        destruct Hes as ((? & ? & ? & ?) & ?); auto. }
    rewrite bytes_of_app in E. pose proof (map_parts_bytes _ _ _ _ Hh) as Fh.
    destruct (cut_where _ _ _ _ E Hq) as [(q' & Hq' & E')|(d' & -> & E')].
    + destruct (cmp_map_begin_cut size Hsize false e kt vt (zlen es) h ltac:(lia) Hh d q' E' Hq') as (s' & y & er & R & _).
      exists Start. split; [eapply cm_map0; [exact Fh|exact (begins_of _ _ _ E' Hq')]|].
      apply b_start. do 3 eexists. eapply lift_r; [reflexivity|exact R].
    + destruct (cmp_entries_left kt vt es Hall m Hm st d' q Hb E' Hq) as (p & C & B). exists p.
      split; [eapply cm_map; [exact Fh|exact C]|].
      destruct es as [|e0 r0]; [inversion Hm; subst; destruct d'; [cbn in E'; congruence|discriminate]|].
      eapply b_map; [|exact B]. eapply lift_r; [reflexivity|].
      apply (its cmp_read_map_begin_ok kt vt); [|eapply first_type; eassumption|lia|now apply map_parts_bytes].
      unfold zlen; cbn [length]; lia.
  - inversion Hp as [| | | | | | | | | |? ? h m Hh Hm|]; subst. destruct Hwf as (Hn & Ht & Hes). pose proof (zlen_nonneg es).
    assert (Hall : Forall (fun v => val_type v = et /\ wf (2 ^ 63) v /\ cmp_left v) es).
    { clear Hp Hh Hm Hn H. induction IH as [|v r Iv Hr IHr]; constructor; destruct Hes as ((? & ?) & ?); auto. }
    rewrite bytes_of_app in E. pose proof (seq_parts_bytes _ _ _ Hh) as Fh.
    destruct (cut_where _ _ _ _ E Hq) as [(q' & Hq' & E')|(d' & -> & E')].
    + destruct (cmp_set_begin_cut size Hsize false e et (zlen es) h Ht ltac:(lia) Hh d q' E' Hq') as (s' & y & er & R & _).
      exists Start. split; [eapply cm_set0; [exact Fh|exact (begins_of _ _ _ E' Hq')]|].
      apply b_start. do 3 eexists. eapply lift_r; [reflexivity|exact R].
    + destruct (cmp_elems_left et es Hall m Hm st d' q Hb E' Hq) as (p & C & B). exists p.
      split; [eapply cm_set; [exact Fh|exact C]|].
      eapply b_set; [|exact B]. eapply lift_r; [reflexivity|].
      apply (its cmp_read_set_begin_ok et); [exact Ht|lia|now apply seq_parts_bytes].
  - inversion Hp as [| | | | | | | | | | |? ? h m Hh Hm]; subst. destruct Hwf as (Hn & Ht & Hes). pose proof (zlen_nonneg es).
    assert (Hall : Forall (fun v => val_type v = et /\ wf (2 ^ 63) v /\ cmp_left v) es).
    { clear Hp Hh Hm Hn H. induction IH as [|v r Iv Hr IHr]; constructor; destruct Hes as ((? & ?) & ?); auto. }
    rewrite bytes_of_app in E. pose proof (seq_parts_bytes _ _ _ Hh) as Fh.
    destruct (cut_where _ _ _ _ E Hq) as [(q' & Hq' & E')|(d' & -> & E')].
    + destruct (cmp_set_begin_cut size Hsize false e et (zlen es) h Ht ltac:(lia) Hh d q' E' Hq') as (s' & y & er & R & _).
      exists Start. split; [eapply cm_list0; [exact Fh|exact (begins_of _ _ _ E' Hq')]|].
      apply b_start. do 3 eexists. eapply lift_r; [reflexivity|exact R].
    + destruct (cmp_elems_left et es Hall m Hm st d' q Hb E' Hq) as (p & C & B). exists p.
      split; [eapply cm_list; [exact Fh|exact C]|].
      eapply b_list; [|exact B]. eapply lift_r; [reflexivity|].
      apply (its cmp_read_set_begin_ok et); [exact Ht|lia|now apply seq_parts_bytes].
Qed.

(** However much it is called, it is what the Reader delivers. *)
Lemma cmp_scalar_place p v d : StoreSpec.scalar v -> val_type v <> T_UUID -> came F p v d -> p = Start.
Proof using. intros S N C. inversion C; subst; try reflexivity; try contradiction. Qed.

Lemma cmp_enc_read v l rest st : wf (2 ^ 63) v -> compact_encoding v l -> cr_bool st = BNone ->
  reads rh (canon v) (st, mkStream (l ++ rest) fin) (st, mkStream rest fin).
Proof using Hsize. intros Hw Hl Hb. destruct (parts_of _ _ Hl) as (ps & Hp & <-). now apply cmp_parts_read. Qed.

Lemma cmp_field_read v id last h ids rest : is_i16 id -> compact_field last id (field_type v) h ->
  rh _ RFieldBegin (mkCR ids last BNone, mkStream (h ++ rest) fin)
    = Done (mkCR ids id (bool_of v), mkStream rest fin) (mkFH [] (val_type v) id, None).
Proof using Hsize.
  intros Hid Fh. unfold over, cmp_reader. cbn [fst snd cmp_reader_gen].
  rewrite (its cmp_read_field_begin_ok (mkCR ids last BNone) v id h rest Hid eq_refl (compact_field_wrap _ _ _ _ Hid Fh)). reflexivity.
Qed.

Theorem cmp_came_breaks p v d : came F p v d -> wf (2 ^ 63) v -> forall st, cr_bool st = BNone ->
  breaks rh canon p v (st, mkStream d fin).
Proof using Hsize.
  revert p v d.
  enough (G : (forall p v d, came F p v d -> wf (2 ^ 63) v -> forall st, cr_bool st = BNone -> breaks rh canon p v (st, mkStream d fin)) /\
    (forall p last fs d, came_fields F p last fs d -> Forall (fun f => is_i16 (fst f) /\ wf (2 ^ 63) (snd f)) fs ->
       forall ids, breaks_fields rh canon p fs (mkCR ids last BNone, mkStream d fin)) /\
    (forall p es d, came_entries F p es d -> forall kt vt,
       Forall (fun e => (val_type (fst e) = kt /\ wf (2 ^ 63) (fst e)) /\ (val_type (snd e) = vt /\ wf (2 ^ 63) (snd e))) es ->
       forall st, cr_bool st = BNone -> breaks_entries rh canon p kt vt es (st, mkStream d fin)) /\
    (forall p es d, came_elems F p es d -> forall et, Forall (fun v => val_type v = et /\ wf (2 ^ 63) v) es ->
       forall st, cr_bool st = BNone -> breaks_elems rh canon p et es (st, mkStream d fin))) by exact (proj1 G).
  apply came_mut.
  - intros v l d S N El (q & Hq & E) Hw st Hb. destruct (parts_of _ _ El) as (ps & Hp & Eb).
    destruct (cmp_lefts v Hw ps Hp st d q Hb) as (p & C & B); [congruence|exact Hq|].
    now rewrite (cmp_scalar_place p v d S N C) in B.
  - intros u d (q & Hq & E) Hw st Hb. cbn [wf] in Hw. apply b_uuid.
    + intros old _. destruct (uuid_left size e d q u old (eq_sym E) Hq Hw) as (er & R). do 2 eexists. eapply lift_r; [reflexivity|exact R].
    + pose proof (skip_uuid_cut size e d q u (eq_sym E) Hq Hw) as R2. do 2 eexists. eapply lift_r; [reflexivity|exact R2].
  - intros kt vt es h d Eh (q & Hq & E) Hw st Hb. destruct Hw as (Hn & Hk & Hv & Hes). pose proof (zlen_nonneg es).
    destruct (map_parts_of _ _ _ _ Eh) as (ps & Hp & Eb).
    destruct (cmp_map_begin_cut size Hsize false e kt vt (zlen es) ps ltac:(lia) Hp d q) as (s' & y & er & R & _); [congruence|exact Hq|].
    apply b_start. do 3 eexists. eapply lift_r; [reflexivity|exact R].
  - intros p kt vt es h d Eh C IH Hw st Hb. pose proof Hw as Hw0. destruct Hw as (Hn & Hk & Hv & Hes). pose proof (zlen_nonneg es).
    eapply b_map; [|apply IH; [|exact Hb]].
    + eapply lift_r; [reflexivity|]. destruct es as [|e0 r0]; [inversion C|].
      apply (its cmp_read_map_begin_ok kt vt); [|eapply first_type; eassumption|lia|exact Eh].
      unfold zlen; cbn [length]; lia.
    + clear -Hes. induction es as [|[k v] r IHr]; constructor; cbn [fst snd]; [tauto|]. apply IHr. tauto.
  - intros et es h d Eh (q & Hq & E) Hw st Hb. destruct Hw as (Hn & Ht & Hes). pose proof (zlen_nonneg es).
    destruct (seq_parts_of _ _ _ Eh) as (ps & Hp & Eb).
    destruct (cmp_set_begin_cut size Hsize false e et (zlen es) ps Ht ltac:(lia) Hp d q) as (s' & y & er & R & _); [congruence|exact Hq|].
    apply b_start. do 3 eexists. eapply lift_r; [reflexivity|exact R].
  - intros p et es h d Eh _ IH Hw st Hb. destruct Hw as (Hn & Ht & Hes). pose proof (zlen_nonneg es).
    eapply b_set; [|apply IH; [|exact Hb]].
    + eapply lift_r; [reflexivity|]. apply (its cmp_read_set_begin_ok et); [exact Ht|lia|exact Eh].
    + clear -Hes. induction es as [|v r IHr]; constructor; [tauto|]. apply IHr. tauto.
  - intros et es h d Eh (q & Hq & E) Hw st Hb. destruct Hw as (Hn & Ht & Hes). pose proof (zlen_nonneg es).
    destruct (seq_parts_of _ _ _ Eh) as (ps & Hp & Eb).
    destruct (cmp_set_begin_cut size Hsize false e et (zlen es) ps Ht ltac:(lia) Hp d q) as (s' & y & er & R & _); [congruence|exact Hq|].
    apply b_start. do 3 eexists. eapply lift_r; [reflexivity|exact R].
  - intros p et es h d Eh _ IH Hw st Hb. destruct Hw as (Hn & Ht & Hes). pose proof (zlen_nonneg es).
    eapply b_list; [|apply IH; [|exact Hb]].
    + eapply lift_r; [reflexivity|]. apply (its cmp_read_set_begin_ok et); [exact Ht|lia|exact Eh].
    + clear -Hes. induction es as [|v r IHr]; constructor; [tauto|]. apply IHr. tauto.
  - intros p fs d _ IH Hw st Hb. eapply b_struct; [|apply (IH)].
    + unfold over, cmp_reader. cbn [fst snd cmp_reader_gen run]. rewrite Hb. reflexivity.
    + cbn [wf] in Hw. clear -Hw. induction fs as [|[id v] r IHr]; constructor; cbn [fst snd]; [tauto|]. apply IHr. tauto.
  (* fields *)
  - intros last _ ids. destruct (byte_cut size e [] [x00] _ eq_refl ltac:(discriminate)) as (_ & R). eapply bf_begin.
    unfold over, cmp_reader. cbn [fst snd cmp_reader_gen]. unfold cmp_read_field_begin. rewrite run_bind, R. reflexivity.
  - intros last id v r h d Eh (q & Hq & E) Hw ids. pose proof (Forall_inv Hw) as [Hid Hv]. cbn [fst snd] in *.
    destruct (field_parts_of _ _ _ _ Eh) as (ps & Hp & Eb).
    destruct (cmp_field_begin_cut size false e (mkCR ids last BNone) v id ps Hid Hp d q) as (s' & st' & x & er & R & _); [congruence|exact Hq|].
    eapply bf_begin. unfold over, cmp_reader. cbn [fst snd cmp_reader_gen]. rewrite R. reflexivity.
  - intros p last id v r h l d Eh El (q & Hq & E) C IH Hw ids. pose proof (Forall_inv Hw) as [Hid Hv]. cbn [fst snd] in *.
    cbn [fm_value compact_format] in El.
    assert (B : bool_of v = BNone).
    { assert (Nl : l <> []) by (rewrite E; destruct d; [exact Hq|discriminate]). clear E.
      inversion El as [b|? ? Ht Hx]; subst; [congruence|]. destruct v; try reflexivity; cbn in Ht; congruence. }
    eapply bf_value; [now apply cmp_field_read|]. rewrite B. now apply IH.
  - intros p last id v r h l d Eh El C IH Hw ids. pose proof (Forall_inv Hw) as [Hid Hv]. apply Forall_inv_tail in Hw as Hr. cbn [fst snd] in *.
    cbn [fm_value compact_format] in El.
    assert (RV : reads rh (canon v) (mkCR ids id (bool_of v), mkStream (l ++ d) fin) (mkCR ids id BNone, mkStream d fin)).
    { inversion El as [b|? ? Ht Hx]; subst.
      - cbn [app canon reads]. destruct b; reflexivity.
      - assert (B : bool_of v = BNone) by (destruct v; try reflexivity; cbn in Ht; congruence). rewrite B. now apply cmp_enc_read. }
    eapply bf_next; [now apply cmp_field_read|exact RV|reflexivity|now apply IH].
  (* entries *)
  - intros p k v r d _ IH kt vt Hw st Hb. pose proof (Forall_inv Hw) as [[Ek Hk] [Ev Hv]]. cbn [fst snd] in *. subst kt vt.
    constructor. now apply IH.
  - intros p k v r l d El _ IH kt vt Hw st Hb. pose proof (Forall_inv Hw) as [[Ek Hk] [Ev Hv]]. cbn [fst snd] in *. subst kt vt.
    eapply be_value; [now apply cmp_enc_read|now apply IH].
  - intros p k v r l m d El Em _ IH kt vt Hw st Hb. pose proof (Forall_inv Hw) as [[Ek Hk] [Ev Hv]]. apply Forall_inv_tail in Hw as Hr.
    cbn [fst snd] in *. subst kt vt. eapply be_next; [now apply cmp_enc_read|now apply cmp_enc_read|now apply IH].
  (* elements *)
  - intros p v r d _ IH et Hw st Hb. pose proof (Forall_inv Hw) as [Ev Hv]. subst et. constructor. now apply IH.
  - intros p v r l d El _ IH et Hw st Hb. pose proof (Forall_inv Hw) as [Ev Hv]. apply Forall_inv_tail in Hw as Hr. subst et.
    eapply bl_next; [now apply cmp_enc_read|now apply IH].
Qed.
End Cmp.
