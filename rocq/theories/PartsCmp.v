(** Compact data cut off. *)
From Verif Require Import Base BaseLemmas Prog Bufio GoBinary GoBinaryProof Wire WireProof Spec Clients Reads Binary BinaryProof
  Compact CompactProof RoundTrip PartsSpec PartsRun PartsProof PartsMsg.

Lemma uleb_high v l : uleb128 v l -> forall d q, d ++ q = l -> q <> [] -> Forall (fun b => 128 <= b2z b) d.
Proof.
  induction 1 as [z Hz|z l Hz H IH]; intros d q E Hq.
  - destruct d as [|b d]; [constructor|]. cbn in E. injection E as _ E. destruct d; [cbn in E; congruence|discriminate].
  - destruct d as [|b d]; [constructor|]. pose proof (f_equal (@hd byte x00) E) as Eb. cbn [app hd] in Eb. injection E as _ E. constructor; [|eapply IH; eauto].
    pose proof (Z.mod_pos_bound z 128 eq_refl) as M. rewrite Eb, b2z_z2b_small by lia. lia.
Qed.

Section Cmp.
Variable size : Z.
Hypothesis Hsize : 10 <= size.
Variable sk : bool.
Variable e : err.
Notation fin := (FErr e).
Notation sh := (stream_h size).
Notation rh := (over cmp_reader sh).

Lemma read_uvarint_loop_cut d : forall f i s x, Forall (fun b => 128 <= b2z b) d -> (length d < f)%nat -> 0 <= i ->
  exists y, run sh (read_uvarint_loop f i s x) (mkStream d fin)
    = Done (mkStream [] fin) (y, Some (if (i + zlen d >? 0) && is_eof (Some e) then EUnexpectedEOF else e)).
Proof using.
  induction d as [|b d IH]; intros f i s x Hd Hf Hi; (destruct f as [|f]; [cbn in Hf; lia|]);
    cbn [read_uvarint_loop]; rewrite run_vis; cbn [stream_h sdata sfin obind].
  - rewrite Z.add_0_r. destruct ((i >? 0) && is_eof (Some e)); cbn [run]; eexists; reflexivity.
  - inversion Hd; subst. destruct (Z.ltb_spec (b2z b) 0x80); [lia|].
    destruct (IH f (i + 1) (s + 7) (Z.lor x (u64 (Z.shiftl (Z.land (b2z b) 0x7f) s))) ltac:(assumption) ltac:(cbn in Hf; lia) ltac:(lia)) as (y & R).
    exists y. rewrite R. replace (i + zlen (b :: d)) with (i + 1 + zlen d) by (unfold zlen; cbn [length]; lia). reflexivity.
Qed.

Lemma uvarint_cut v l d q : is_u64 v -> uleb128 v l -> d ++ q = l -> q <> [] ->
  exists y, run sh read_uvarint (mkStream d fin) = Done (mkStream [] fin) (y, Some (stop d e)).
Proof using.
  intros Hv Hl E Hq. pose proof (uleb_high v l Hl d q E Hq) as Hd.
  pose proof (cut_len _ _ _ E Hq) as L. rewrite (uleb128_put v l Hv Hl) in L. pose proof (put_uvarint_len v) as L'.
  destruct (read_uvarint_loop_cut d 10 0 0 0 Hd) as (y & R); [unfold zlen in *; lia|lia|].
  exists y. unfold read_uvarint. rewrite R. rewrite <- short_stop. unfold short_err.
  rewrite Z.add_0_l. rewrite Z.gtb_ltb. destruct ((0 <? zlen d) && is_eof (Some e)); reflexivity.
Qed.

Lemma tw_uvarint_cut v l d q : is_u64 v -> uleb128 v l -> d ++ q = l -> q <> [] ->
  exists y, run sh tw_read_uvarint (mkStream d fin) = Done (mkStream [] fin) (y, Some (stop d e)).
Proof using Hsize. intros Hv Hl E Hq. rewrite tw_read_uvarint_drop_in by lia. exact (uvarint_cut v l d q Hv Hl E Hq). Qed.

Lemma varint_cut z l d q : is_i64 z -> uleb128 (zigzag_spec z) l -> d ++ q = l -> q <> [] ->
  exists y, run sh cmp_read_i64 (mkStream d fin) = Done (mkStream [] fin) (y, Some (stop d e)).
Proof using.
  intros Hz Hl E Hq. assert (is_u64 (zigzag_spec z)) by (rewrite <- zigzag_spec_eq by exact Hz; apply zigzag_range; exact Hz).
  destruct (uvarint_cut _ l d q H Hl E Hq) as (y & R). unfold cmp_read_i64, read_varint. rewrite run_bind, R. eexists. reflexivity.
Qed.
Lemma varint32_cut z l d q : is_i32 z -> uleb128 (zigzag_spec z) l -> d ++ q = l -> q <> [] ->
  exists y, run sh cmp_read_i32 (mkStream d fin) = Done (mkStream [] fin) (y, Some (stop d e)).
Proof using.
  intros Hz Hl E Hq. destruct (varint_cut z l d q (i32_i64 z Hz) Hl E Hq) as (y & R).
  unfold cmp_read_i32. rewrite run_bind, R. eexists. reflexivity.
Qed.
Lemma varint16_cut z l d q : is_i16 z -> uleb128 (zigzag_spec z) l -> d ++ q = l -> q <> [] ->
  exists y, run sh cmp_read_i16 (mkStream d fin) = Done (mkStream [] fin) (y, Some (stop d e)).
Proof using.
  intros Hz Hl E Hq. destruct (varint_cut z l d q (i16_i64 z Hz) Hl E Hq) as (y & R).
  unfold cmp_read_i16. rewrite run_bind, R. eexists. reflexivity.
Qed.

Lemma size_cut n l d q : 0 <= n < 2 ^ 63 -> uleb128 n l -> d ++ q = l -> q <> [] ->
  (exists y, run sh (cmp_read_size tw_read_uvarint) (mkStream d fin) = Done (mkStream [] fin) (y, Some (stop d e))) /\
  (exists y, run sh cmp_hdr_size (mkStream d fin) = Done (mkStream [] fin) (y, Some (stop d e))).
Proof using Hsize.
  intros Hn Hl E Hq. assert (is_u64 n) by (unfold is_u64; lia). split.
  - destruct (tw_uvarint_cut n l d q H Hl E Hq) as (y & R). unfold cmp_read_size. rewrite run_bind, R. eexists. reflexivity.
  - destruct (uvarint_cut n l d q H Hl E Hq) as (y & R). unfold cmp_hdr_size. rewrite run_bind, R. eexists. reflexivity.
Qed.

Lemma tw_huv : forall v (rest : list byte), is_u64 v -> True ->
  run sh tw_read_uvarint (mkStream (put_uvarint v ++ rest) fin) = Done (mkStream rest fin) (v, None).
Proof using Hsize. intros. apply tw_uv_ok; auto. Qed.
Lemma tw_hok : forall (l rest : list byte), (fun _ => True) rest -> (fun _ : list byte => True) (l ++ rest).
Proof using. auto. Qed.
Notation its lem := (lem size tw_read_uvarint fin (fun _ => True) tw_hok tw_huv).

Lemma tw_size_ok n l rest : 0 <= n < 2 ^ 63 -> uleb128 n l ->
  run sh (cmp_read_size tw_read_uvarint) (mkStream (l ++ rest) fin) = Done (mkStream rest fin) (n, None).
Proof using Hsize.
  intros Hn Hl. apply (cmp_read_size_ok size tw_read_uvarint fin (fun _ => True)); auto.
  intros. apply tw_uv_ok; auto.
Qed.

Lemma cmp_string_cut s l : zlen s < 2 ^ 63 -> uleb128 (zlen s) l ->
  forall d q, d ++ q = bytes_of [Part l; Body s] -> q <> [] ->
  (exists s' x er, run sh (cmp_read_string tw_read_uvarint) (mkStream d fin) = Done s' (x, Some er) /\
     cut_off false e [Part l; Body s] d er) /\
  (exists s' er, run sh (cmp_skip_string tw_read_uvarint) (mkStream d fin) = Done s' (Some er) /\
     cut_off true e [Part l; Body s] d er).
Proof using Hsize.
  intros Hs Hl d q E Hq. cbn [bytes_of flat_map pbytes] in E. rewrite app_nil_r in E. pose proof (zlen_nonneg s).
  unfold cmp_read_string, cmp_skip_string.
  destruct (cut_where _ _ _ _ E Hq) as [(q' & Hq' & E')|(d' & -> & E')].
  - destruct (size_cut (zlen s) l d q' ltac:(lia) Hl E' Hq') as ((y & R) & _).
    rewrite !run_bind, R. cbn [obind run]. split; do 2 eexists.
    + eexists. split; [reflexivity|]. apply cut_cons_l. exact (cut_one _ _ _ _ _ E' Hq').
    + split; [reflexivity|]. apply cut_cons_l. exact (cut_one _ _ _ _ _ E' Hq').
  - rewrite !run_bind, (tw_size_ok (zlen s)) by (assumption || lia). cbn [obind]. split; do 2 eexists.
    + eexists. rewrite (read_string_cut size Hsize e d' q s E' Hq). split; [reflexivity|].
      apply (cut_cons_r false e (Part _)). exact (cut_one_body false _ _ _ _ E' Hq).
    + rewrite run_vis, (discard_cut size e d' q s) by auto. cbn [obind run]. split; [reflexivity|].
      apply (cut_cons_r true e (Part _)). exact (cut_one_body true _ _ _ _ E' Hq).
Qed.

Notation cut_by := (cut_by size sk e).

Lemma cmp_set_begin_cut et n ps : In et value_types -> 0 <= n < 2 ^ 63 -> compact_seq_parts n (compact_type et) ps ->
  cut_by cmp_read_set_begin ps.
Proof using Hsize.
  intros Ht Hn Hp d q E Hq. pose proof (compact_type_range et Ht). unfold cmp_read_set_begin.
  destruct Hp as [Hs|l Hl Hu]; cbn [bytes_of flat_map pbytes] in E; rewrite app_nil_r in E.
  - destruct (byte_cut size e d q _ E Hq) as (_ & R). rewrite run_bind, R. cbn [obind run]. do 3 eexists.
    split; [reflexivity|]. exact (cut_one _ _ _ _ _ E Hq).
  - destruct (cut_where _ _ _ _ E Hq) as [(q' & Hq' & E')|(d' & -> & E')].
    + destruct (byte_cut size e d q' _ E' Hq') as (_ & R). rewrite run_bind, R. cbn [obind run]. do 3 eexists.
      split; [reflexivity|]. apply cut_cons_l. exact (cut_one _ _ _ _ _ E' Hq').
    + rewrite run_vis. cbn [app stream_h sdata sfin obind].
      replace 240 with (16 * 15) by reflexivity.
      rewrite byte_lo, compact_wire_type by (assumption || lia). rewrite byte_hi by lia.
      change (15 =? 15) with true. cbn iota.
      destruct (size_cut n l d' q Hn Hu E' Hq) as (_ & y & R). rewrite run_bind, R. cbn [obind run]. do 3 eexists.
      split; [reflexivity|]. apply (cut_cons_r sk e (Part [_])). exact (cut_one _ _ _ _ _ E' Hq).
Qed.

Lemma cmp_map_begin_cut kt vt n ps : 0 <= n < 2 ^ 63 -> compact_map_parts n kt vt ps -> cut_by cmp_read_map_begin ps.
Proof using Hsize.
  intros Hn Hp d q E Hq. unfold cmp_read_map_begin.
  destruct Hp as [Hs|l Hl Hu]; cbn [bytes_of flat_map pbytes] in E; rewrite app_nil_r in E.
  - assert (U0 : uleb128 0 [x00]) by (apply (uleb_last 0); lia).
    destruct (size_cut 0 [x00] d q ltac:(lia) U0 E Hq) as (_ & y & R).
    rewrite run_bind, R. cbn [obind is_none negb orb run]. do 3 eexists. split; [reflexivity|]. exact (cut_one _ _ _ _ _ E Hq).
  - destruct (cut_where _ _ _ _ E Hq) as [(q' & Hq' & E')|(d' & -> & E')].
    + destruct (size_cut n l d q' Hn Hu E' Hq') as (_ & y & R).
      rewrite run_bind, R. cbn [obind is_none negb orb run]. do 3 eexists. split; [reflexivity|].
      apply cut_cons_l. exact (cut_one _ _ _ _ _ E' Hq').
    + rewrite run_bind, (its cmp_hdr_size_ok n) by assumption. cbn [obind is_none negb orb].
      destruct (Z.eqb_spec n 0); [lia|].
      destruct (byte_cut size e d' q _ E' Hq) as (_ & R). rewrite run_bind, R. cbn [obind run]. do 3 eexists.
      split; [reflexivity|]. apply (cut_cons_r sk e (Part _)). exact (cut_one _ _ _ _ _ E' Hq).
Qed.

Lemma cmp_field_begin_cut st v id ps : is_i16 id -> compact_field_parts (cr_last st) id (field_type v) ps ->
  forall d q, d ++ q = bytes_of ps -> q <> [] ->
  exists s' st' x er, run sh (cmp_read_field_begin st) (mkStream d fin) = Done s' (st', (x, Some er)) /\ cut_off sk e ps d er.
Proof using.
  intros Hid Hp d q E Hq. pose proof (field_type_range v). unfold cmp_read_field_begin.
  destruct Hp as [Hs|l Hl Hu]; cbn [bytes_of flat_map pbytes] in E; rewrite app_nil_r in E.
  - destruct (byte_cut size e d q _ E Hq) as (_ & R). rewrite run_bind, R. cbn [obind run]. do 4 eexists.
    split; [reflexivity|]. exact (cut_one _ _ _ _ _ E Hq).
  - destruct (cut_where _ _ _ _ E Hq) as [(q' & Hq' & E')|(d' & -> & E')].
    + destruct (byte_cut size e d q' _ E' Hq') as (_ & R). rewrite run_bind, R. cbn [obind run]. do 4 eexists.
      split; [reflexivity|]. apply cut_cons_l. exact (cut_one _ _ _ _ _ E' Hq').
    + rewrite run_vis. cbn [app stream_h sdata sfin obind].
      assert (E0 : z2b (field_type v) = z2b (16 * 0 + field_type v)) by (f_equal; lia). rewrite E0.
      rewrite byte_lo, byte_hi, compact_wire_field by lia. cbn [is_none negb orb].
      rewrite val_type_not_stop. change (0 =? 0) with true. cbn iota.
      destruct (varint16_cut id l d' q Hid Hu E' Hq) as (y & R). rewrite run_bind, R. cbn [obind run]. do 4 eexists.
      split; [reflexivity|]. rewrite <- E0. apply (cut_cons_r sk e (Part [_])). exact (cut_one _ _ _ _ _ E' Hq).
Qed.

Lemma lift_r X (c : wireR X) st d s' x (p : prog bufR X) : cmp_reader X c st = lift st p ->
  run sh p (mkStream d fin) = Done s' x -> rh X c (st, mkStream d fin) = Done (st, s') x.
Proof using.
  intros H R. unfold cmp_reader in H. unfold cmp_reader. rewrite (cmp_r_lift size tw_read_uvarint X c st _ p H), R. reflexivity.
Qed.

Definition cmp_cut (v : tval) : Prop := forall ps, compact_parts v ps -> forall st d q, cr_bool st = BNone ->
  d ++ q = bytes_of ps -> q <> [] ->
  exists er, cut_off sk e ps d er /\ fails _ rh sk er (canon v) (st, mkStream d fin).

Lemma cmp_parts_read v ps rest st : wf (2 ^ 63) v -> compact_parts v ps -> cr_bool st = BNone ->
  reads rh (canon v) (st, mkStream (bytes_of ps ++ rest) fin) (st, mkStream rest fin).
Proof using Hsize.
  intros Hw Hp Hb. apply cmp_reads_canon; auto. apply (compact_enc_wrap v _ (2 ^ 63) Hw). apply parts_bytes. exact Hp.
Qed.

Lemma cmp_elems_cut et es : Forall (fun v => val_type v = et /\ wf (2 ^ 63) v /\ cmp_cut v) es ->
  forall ps, compact_elems_parts es ps -> forall st d q, cr_bool st = BNone -> d ++ q = bytes_of ps -> q <> [] ->
  exists er, cut_off sk e ps d er /\ fails_elems _ rh sk er et (map canon es) (st, mkStream d fin).
Proof using Hsize.
  induction 1 as [|v r (Hv & Hw & Hc) Hr IH]; intros ps Hp st d q Hb E Hq; inversion Hp as [|? ? l m Hl Hm]; subst.
  - destruct d; [cbn in E; congruence|discriminate].
  - rewrite bytes_of_app in E. cbn [map]. rewrite <- (canon_val_type v) in *.
    destruct (cut_where _ _ _ _ E Hq) as [(q' & Hq' & E')|(d' & -> & E')].
    + destruct (Hc l Hl st d q' Hb E' Hq') as (er & C & F). exists er. split; [now apply cut_app_l|]. now apply fl_here.
    + destruct (IH m Hm st d' q Hb E' Hq) as (er & C & F). exists er. split; [now apply cut_app_r|].
      eapply fl_next; [|exact F]. now apply cmp_parts_read.
Qed.

Lemma cmp_entries_cut kt vt es : Forall (fun e => (val_type (fst e) = kt /\ wf (2 ^ 63) (fst e) /\ cmp_cut (fst e)) /\
    (val_type (snd e) = vt /\ wf (2 ^ 63) (snd e) /\ cmp_cut (snd e))) es ->
  forall ps, compact_entries_parts es ps -> forall st d q, cr_bool st = BNone -> d ++ q = bytes_of ps -> q <> [] ->
  exists er, cut_off sk e ps d er /\
    fails_entries _ rh sk er kt vt (map (fun e => (canon (fst e), canon (snd e))) es) (st, mkStream d fin).
Proof using Hsize.
  induction 1 as [|[k v] r ((Hk & Wk & Ck) & Hv & Wv & Cv) Hr IH]; intros ps Hp st d q Hb E Hq; inversion Hp as [|? ? ? a b m Ha Hb' Hm]; subst.
  - destruct d; [cbn in E; congruence|discriminate].
  - rewrite !bytes_of_app in E. cbn [map fst snd] in *. rewrite <- (canon_val_type v), <- (canon_val_type k) in *.
    destruct (cut_where _ _ _ _ E Hq) as [(q' & Hq' & E')|(d' & -> & E')].
    + destruct (Ck a Ha st d q' Hb E' Hq') as (er & C & F). exists er. split; [now apply cut_app_l|]. now apply fe_key.
    + destruct (cut_where _ _ _ _ E' Hq) as [(q' & Hq' & E2)|(d2 & -> & E2)].
      * destruct (Cv b Hb' st d' q' Hb E2 Hq') as (er & C & F). exists er. split; [now apply cut_app_r, cut_app_l|].
        eapply fe_value; [|exact F]. now apply cmp_parts_read.
      * destruct (IH m Hm st d2 q Hb E2 Hq) as (er & C & F). exists er. split; [now apply cut_app_r, cut_app_r|].
        eapply fe_next; [| |exact F]; now apply cmp_parts_read.
Qed.

Definition bool_of (v : tval) : boolfield := match v with VBool true => BTrue | VBool false => BFalse | _ => BNone end.

Lemma cmp_fields_cut fs : Forall (fun f => is_i16 (fst f) /\ wf (2 ^ 63) (snd f) /\ cmp_cut (snd f)) fs ->
  forall last ps, compact_fields_parts last fs ps -> forall ids d q, d ++ q = bytes_of ps -> q <> [] ->
  exists er, cut_off sk e ps d er /\
    fails_fields _ rh sk er (map (fun f => (fst f, canon (snd f))) fs) (mkCR ids last BNone, mkStream d fin).
Proof using Hsize.
  induction 1 as [|[id v] r (Hid & Hw & Hc) Hr IH]; intros last ps Hp ids d q E Hq; inversion Hp as [|? ? ? ? h l m Hh Hl Hm]; subst.
  - exists (stop d e). split; [exact (cut_one _ _ _ _ _ E Hq)|].
    destruct (byte_cut size e d q _ E Hq) as (_ & R). eapply ff_begin.
    unfold over, cmp_reader. cbn [fst snd cmp_reader_gen]. unfold cmp_read_field_begin. rewrite run_bind, R. reflexivity.
  - rewrite !bytes_of_app in E. cbn [map fst snd] in *.
    assert (RF : forall rest, rh _ RFieldBegin (mkCR ids last BNone, mkStream (bytes_of h ++ rest) fin)
        = Done (mkCR ids id (bool_of v), mkStream rest fin) (mkFH [] (val_type (canon v)) id, None)).
    { intros rest. unfold over, cmp_reader. cbn [fst snd cmp_reader_gen].
      assert (W : wrap_field last id (field_type v) (bytes_of h)) by (apply compact_field_wrap; [exact Hid|now apply field_parts_bytes]).
      rewrite (its cmp_read_field_begin_ok (mkCR ids last BNone) v id (bytes_of h) rest Hid eq_refl W).
      rewrite canon_val_type. reflexivity. }
    destruct (cut_where _ _ _ _ E Hq) as [(q' & Hq' & E')|(d' & -> & E')].
    + destruct (cmp_field_begin_cut (mkCR ids last BNone) v id h Hid Hh d q' E' Hq') as (s' & st' & x & er & R & C).
      exists er. split; [now apply cut_app_l|]. eapply ff_begin. unfold over, cmp_reader. cbn [fst snd cmp_reader_gen]. rewrite R. reflexivity.
    + destruct (cut_where _ _ _ _ E' Hq) as [(q' & Hq' & E2)|(d2 & -> & E2)].
      * inversion Hl as [b Eb|? ? Ht Hx]; subst. { destruct d'; [cbn in E2; congruence|discriminate]. }
        assert (B : bool_of v = BNone) by (destruct v; try reflexivity; cbn in Ht; congruence). rewrite B in RF.
        destruct (Hc l Hx (mkCR ids id BNone) d' q' eq_refl E2 Hq') as (er & C & F).
        exists er. split; [now apply cut_app_r, cut_app_l|]. eapply ff_value; [apply RF|exact F].
      * destruct (IH id m Hm ids d2 q E2 Hq) as (er & C & F). exists er. split; [now apply cut_app_r, cut_app_r|].
        assert (RV : reads rh (canon v) (mkCR ids id (bool_of v), mkStream (bytes_of l ++ d2) fin) (mkCR ids id BNone, mkStream d2 fin)).
        { inversion Hl as [b Eb|? ? Ht Hx]; subst.
          - cbn [bytes_of flat_map app canon reads]. destruct b; reflexivity.
          - assert (B : bool_of v = BNone) by (destruct v; try reflexivity; cbn in Ht; congruence). rewrite B. now apply cmp_parts_read. }
        eapply ff_next; [apply RF|exact RV|reflexivity|exact F].
Qed.

Theorem cmp_cuts v : wf (2 ^ 63) v -> cmp_cut v.
Proof using Hsize.
  induction v as [b|b|z|z|z|z|x|u|fs IH|kt vt es IH|et es IH|et es IH] using tval_ind';
    intros Hwf ps Hp st d q Hb E Hq; cbn [wf] in Hwf.
  - inversion Hp; subst. cbn [bytes_of flat_map pbytes] in E. rewrite app_nil_r in E.
    exists (stop d e). split; [exact (cut_one _ _ _ _ _ E Hq)|]. destruct (byte_cut size e d q _ E Hq) as (_ & R).
    eapply f_bool. unfold over, cmp_reader. cbn [fst snd cmp_reader_gen]. rewrite Hb, run_bind, R. reflexivity.
  - inversion Hp; subst. cbn [bytes_of flat_map pbytes] in E. rewrite app_nil_r in E.
    exists (stop d e). split; [exact (cut_one _ _ _ _ _ E Hq)|]. destruct (byte_cut size e d q _ E Hq) as (_ & R).
    eapply f_byte. eapply lift_r; [reflexivity|exact R].
  - inversion Hp; subst. cbn [bytes_of flat_map pbytes] in E. rewrite app_nil_r in E.
    exists (stop d e). split; [exact (cut_one _ _ _ _ _ E Hq)|]. eapply f_double. eapply lift_r; [reflexivity|].
    unfold cmp_read_double. rewrite run_bind, (next_cut size e 8 d q _ E Hq) by (rewrite <- ?little_endian_eq, ?zlen_le_bytes; lia). reflexivity.
  - inversion Hp as [| | |? l Hl| | | | | | | |]; subst. cbn [bytes_of flat_map pbytes] in E. rewrite app_nil_r in E.
    exists (stop d e). split; [exact (cut_one _ _ _ _ _ E Hq)|]. destruct (varint16_cut z l d q Hwf Hl E Hq) as (y & R).
    eapply f_i16. eapply lift_r; [reflexivity|exact R].
  - inversion Hp as [| | | |? l Hl| | | | | | |]; subst. cbn [bytes_of flat_map pbytes] in E. rewrite app_nil_r in E.
    exists (stop d e). split; [exact (cut_one _ _ _ _ _ E Hq)|]. destruct (varint32_cut z l d q Hwf Hl E Hq) as (y & R).
    eapply f_i32. eapply lift_r; [reflexivity|exact R].
  - inversion Hp as [| | | | |? l Hl| | | | | |]; subst. cbn [bytes_of flat_map pbytes] in E. rewrite app_nil_r in E.
    exists (stop d e). split; [exact (cut_one _ _ _ _ _ E Hq)|]. destruct (varint_cut z l d q Hwf Hl E Hq) as (y & R).
    eapply f_i64. eapply lift_r; [reflexivity|exact R].
  - inversion Hp as [| | | | | |? l Hl| | | | |]; subst.
    destruct (cmp_string_cut x l Hwf Hl d q E Hq) as ((s1 & y1 & er1 & R1 & C1) & (s2 & er2 & R2 & C2)).
    destruct sk eqn:Esk.
    + exists er2. split; [exact C2|]. eapply f_skip_string; [reflexivity|]. eapply lift_r; [reflexivity|exact R2].
    + exists er1. split; [exact C1|]. eapply f_string; [reflexivity|]. eapply lift_r; [reflexivity|exact R1].
  - inversion Hp; subst. cbn [bytes_of flat_map pbytes] in E. rewrite app_nil_r in E.
    exists (if sk then e else stop d e). split; [exact (cut_one_body _ _ _ _ _ E Hq)|].
    destruct (uuid_cut size e d q u uuid0 E Hq Hwf) as (y & R1). pose proof (skip_uuid_cut size e d q u E Hq Hwf) as R2.
    destruct sk eqn:Esk.
    + eapply f_skip_uuid; [reflexivity|]. eapply lift_r; [reflexivity|exact R2].
    + eapply f_uuid; [reflexivity|]. eapply lift_r; [reflexivity|exact R1].
  - inversion Hp as [| | | | | | | |? ? Hf| | |]; subst.
    assert (Hfs : Forall (fun f => is_i16 (fst f) /\ wf (2 ^ 63) (snd f) /\ cmp_cut (snd f)) fs).
    { clear Hf Hp. induction IH as [|[id v] r Hv Hr IHr]; constructor; cbn [fst snd] in *; destruct Hwf as ((Hi & Hw) & Hwr); auto. }
    destruct (cmp_fields_cut fs Hfs 0 ps Hf (cr_last st :: cr_ids st) d q E Hq) as (er & C & F). exists er. split; [exact C|].
    cbn [canon]. eapply f_struct; [|exact F]. unfold over, cmp_reader. cbn [fst snd cmp_reader_gen run]. rewrite Hb. reflexivity.
  - inversion Hp as [| | | | | | | | |? ? ? h m Hh Hm| |]; subst.
    pose proof Hwf as Hwf0. destruct Hwf as (Hn & Hk & Hv & Hes). pose proof (zlen_nonneg es).
    assert (Hall : Forall (fun e => (val_type (fst e) = kt /\ wf (2 ^ 63) (fst e) /\ cmp_cut (fst e)) /\
      (val_type (snd e) = vt /\ wf (2 ^ 63) (snd e) /\ cmp_cut (snd e))) es).
    { clear Hp Hh Hm Hn H Hwf0. induction IH as [|[k v] r [Ik Iv] Hr IHr]; constructor; cbn [fst snd] in *;
        destruct Hes as ((? & ? & ? & ?) & ?); auto. }
    rewrite bytes_of_app in E.
    destruct (cut_where _ _ _ _ E Hq) as [(q' & Hq' & E')|(d' & -> & E')].
    + destruct (cmp_map_begin_cut kt vt (zlen es) h ltac:(lia) Hh d q' E' Hq') as (s' & y & er & R & C).
      exists er. split; [now apply cut_app_l|]. destruct es; cbn [canon]; eapply f_map0; (eapply lift_r; [reflexivity|exact R]).
    + destruct (cmp_entries_cut kt vt es Hall m Hm st d' q Hb E' Hq) as (er & C & F). exists er. split; [now apply cut_app_r|].
      destruct es as [|e0 r0]; [inversion Hm; subst; destruct d'; [cbn in E'; congruence|discriminate]|].
      cbn [canon]. eapply f_map; [|exact F]. eapply lift_r; [reflexivity|]. rewrite zlen_map.
      apply (its cmp_read_map_begin_ok kt vt); [|eapply first_type; eassumption|lia|now apply map_parts_bytes].
      unfold zlen; cbn [length]; lia.
  - inversion Hp as [| | | | | | | | | |? ? h m Hh Hm|]; subst. destruct Hwf as (Hn & Ht & Hes). pose proof (zlen_nonneg es).
    assert (Hall : Forall (fun v => val_type v = et /\ wf (2 ^ 63) v /\ cmp_cut v) es).
    { clear Hp Hh Hm Hn H. induction IH as [|v r Iv Hr IHr]; constructor; destruct Hes as ((? & ?) & ?); auto. }
    rewrite bytes_of_app in E. cbn [canon].
    destruct (cut_where _ _ _ _ E Hq) as [(q' & Hq' & E')|(d' & -> & E')].
    + destruct (cmp_set_begin_cut et (zlen es) h Ht ltac:(lia) Hh d q' E' Hq') as (s' & y & er & R & C).
      exists er. split; [now apply cut_app_l|]. eapply f_set0. eapply lift_r; [reflexivity|exact R].
    + destruct (cmp_elems_cut et es Hall m Hm st d' q Hb E' Hq) as (er & C & F). exists er. split; [now apply cut_app_r|].
      eapply f_set; [|exact F]. eapply lift_r; [reflexivity|]. rewrite zlen_map.
      apply (its cmp_read_set_begin_ok et); [exact Ht|lia|now apply seq_parts_bytes].
  - inversion Hp as [| | | | | | | | | | |? ? h m Hh Hm]; subst. destruct Hwf as (Hn & Ht & Hes). pose proof (zlen_nonneg es).
    assert (Hall : Forall (fun v => val_type v = et /\ wf (2 ^ 63) v /\ cmp_cut v) es).
    { clear Hp Hh Hm Hn H. induction IH as [|v r Iv Hr IHr]; constructor; destruct Hes as ((? & ?) & ?); auto. }
    rewrite bytes_of_app in E. cbn [canon].
    destruct (cut_where _ _ _ _ E Hq) as [(q' & Hq' & E')|(d' & -> & E')].
    + destruct (cmp_set_begin_cut et (zlen es) h Ht ltac:(lia) Hh d q' E' Hq') as (s' & y & er & R & C).
      exists er. split; [now apply cut_app_l|]. eapply f_list0. eapply lift_r; [reflexivity|exact R].
    + destruct (cmp_elems_cut et es Hall m Hm st d' q Hb E' Hq) as (er & C & F). exists er. split; [now apply cut_app_r|].
      eapply f_list; [|exact F]. eapply lift_r; [reflexivity|]. rewrite zlen_map.
      apply (its cmp_read_set_begin_ok et); [exact Ht|lia|now apply seq_parts_bytes].
Qed.

Theorem cmp_message_cut name mtype id ps d q : zlen name < 2 ^ 63 -> 0 <= mtype < 8 ->
  compact_message_parts name mtype id ps -> d ++ q = bytes_of ps -> q <> [] ->
  exists s' x er, run sh (cmp_read_message_begin tw_read_uvarint) (mkStream d fin) = Done s' (x, Some er) /\
    cut_off false e ps d er.
Proof using Hsize.
  intros Hn Hm [l m Hl Hlen] E Hq. unfold cmp_read_message_begin.
  change [Part [x82]; Part ?a; Part l; Part m; Body name] with (Part [x82] :: Part a :: Part l :: [Part m; Body name]) in *.
  cbn [bytes_of flat_map pbytes] in E. change (m ++ name ++ []) with (bytes_of [Part m; Body name]) in E.
  destruct (cut_where _ _ _ _ E Hq) as [(q' & Hq' & E')|(d1 & -> & E1)].
  - destruct (byte_cut size e d q' _ E' Hq') as (_ & R). rewrite run_bind, R. cbn [obind run]. do 3 eexists.
    split; [reflexivity|]. apply cut_cons_l. exact (cut_one _ _ _ _ _ E' Hq').
  - rewrite run_vis. cbn [app stream_h sdata sfin obind]. change (negb (b2z x82 =? protocolID)) with false. cbn iota.
    destruct (cut_where _ _ _ _ E1 Hq) as [(q' & Hq' & E')|(d2 & -> & E2)].
    + destruct (byte_cut size e d1 q' _ E' Hq') as (_ & R). rewrite run_bind, R. cbn [obind run]. do 3 eexists.
      split; [reflexivity|]. apply (cut_cons_r false e (Part [x82])), cut_cons_l. exact (cut_one _ _ _ _ _ E' Hq').
    + rewrite run_vis. cbn [app stream_h sdata sfin obind].
      assert (Lv : Z.land (b2z (z2b (1 + 32 * mtype))) 0x1f =? cmp_version1 = true).
      { assert (mtype = 0 \/ mtype = 1 \/ mtype = 2 \/ mtype = 3 \/ mtype = 4 \/ mtype = 5 \/ mtype = 6 \/ mtype = 7) as C by lia.
        repeat (destruct C as [->|C]; [reflexivity|]). subst. reflexivity. }
      rewrite Lv. cbn [negb].
      assert (is_u64 (id mod 2 ^ 32)) as Hu by (unfold is_u64; pose proof (Z.mod_pos_bound id (2 ^ 32) eq_refl); lia).
      destruct (cut_where _ _ _ _ E2 Hq) as [(q' & Hq' & E')|(d3 & -> & E3)].
      * destruct (tw_uvarint_cut _ l d2 q' Hu Hl E' Hq') as (y & R). rewrite run_bind, R. cbn [obind run]. do 3 eexists.
        split; [reflexivity|]. apply (cut_cons_r false e (Part [x82])), (cut_cons_r false e (Part [_])), cut_cons_l.
        exact (cut_one _ _ _ _ _ E' Hq').
      * rewrite run_bind, (uleb128_put _ l Hu Hl), tw_huv by auto. cbn [obind].
        destruct (cmp_string_cut name m Hn Hlen d3 q E3 Hq) as ((s1 & y1 & er1 & R1 & C1) & _).
        rewrite run_bind, R1. cbn [obind run]. do 3 eexists. split; [reflexivity|].
        apply (cut_cons_r false e (Part [x82])), (cut_cons_r false e (Part [_])), (cut_cons_r false e (Part _)). exact C1.
Qed.
End Cmp.
