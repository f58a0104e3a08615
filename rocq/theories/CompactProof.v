(** The compact protocol writes the published encoding and reads it back. *)
From Verif Require Import Base BaseLemmas Prog Bufio BufioW GoBinary GoBinaryProof
  Wire WireProof Spec Clients Reads Binary BinaryProof Compact.

(** ** Varints *)
Lemma put_uvarint_loop_spec f : forall v,
  0 <= v < 2 ^ (7 * (Z.of_nat f + 1)) -> uleb128 v (put_uvarint_loop f v).
Proof.
  induction f as [|f IH]; intros v Hv; cbn [put_uvarint_loop].
  - apply uleb_last. change (2 ^ (7 * (Z.of_nat 0 + 1))) with 128 in Hv. lia.
  - destruct (Z.geb_spec v 128).
    + rewrite z2b_lor_80, Z.shiftr_div_pow2 by lia. change (2 ^ 7) with 128.
      apply uleb_more; [lia|]. apply IH.
      replace (7 * (Z.of_nat (S f) + 1)) with (7 * (Z.of_nat f + 1) + 7) in Hv by lia.
      rewrite Z.pow_add_r in Hv by lia. change (2 ^ 7) with 128 in Hv. lia.
    + apply uleb_last. lia.
Qed.

Lemma put_uvarint_spec v : is_u64 v -> uleb128 v (put_uvarint v).
Proof.
  intros [H1 H2]. apply put_uvarint_loop_spec. split; [lia|].
  eapply Z.lt_le_trans; [exact H2|]. apply Z.pow_le_mono_r; lia.
Qed.

Lemma uleb128_fun v l : uleb128 v l -> forall m, uleb128 v m -> l = m.
Proof.
  induction 1 as [z Hz|z l Hz Hl IH]; intros m Hm; inversion Hm; subst; try lia; auto.
  f_equal. auto.
Qed.

Lemma uleb128_put v l : is_u64 v -> uleb128 v l -> l = put_uvarint v.
Proof. intros Hv Hl. eapply uleb128_fun; eauto using put_uvarint_spec. Qed.

Lemma zigzag_spec_eq z : is_i64 z -> zigzag z = zigzag_spec z.
Proof. intros H. rewrite zigzag_alt by exact H. reflexivity. Qed.

Lemma put_varint_spec z : is_i64 z -> uleb128 (zigzag_spec z) (put_varint z).
Proof.
  intros H. unfold put_varint. rewrite <- zigzag_spec_eq by exact H.
  apply put_uvarint_spec, zigzag_range, H.
Qed.

Lemma uleb128_put_varint z l : is_i64 z -> uleb128 (zigzag_spec z) l -> l = put_varint z.
Proof. intros H Hl. eapply uleb128_fun; eauto using put_varint_spec. Qed.

Lemma i16_i64 z : is_i16 z -> is_i64 z.
Proof. unfold is_i16, is_i64. lia. Qed.
Lemma i32_i64 z : is_i32 z -> is_i64 z.
Proof. unfold is_i32, is_i64. lia. Qed.

(** ** Nibbles *)
Lemma nibbles_lor hi lo : 0 <= lo < 16 -> Z.lor (Z.shiftl hi 4) lo = 16 * hi + lo.
Proof.
  intros H. rewrite Z.lor_comm, (lor_disjoint lo hi 4) by (change (2 ^ 4) with 16; lia).
  change (2 ^ 4) with 16. lia.
Qed.

Lemma byte_lo hi lo : 0 <= hi < 16 -> 0 <= lo < 16 ->
  Z.land (b2z (z2b (16 * hi + lo))) 15 = lo.
Proof.
  intros H1 H2. rewrite b2z_z2b_small by lia.
  change 15 with (Z.ones 4). rewrite Z.land_ones by lia. change (2 ^ 4) with 16. lia.
Qed.
Lemma byte_hi hi lo : 0 <= hi < 16 -> 0 <= lo < 16 ->
  Z.shiftr (b2z (z2b (16 * hi + lo))) 4 = hi.
Proof.
  intros H1 H2. rewrite b2z_z2b_small by lia.
  rewrite Z.shiftr_div_pow2 by lia. change (2 ^ 4) with 16. lia.
Qed.

(** ** Types *)
Lemma type_compact_spec t : In t value_types -> type_compact t = (compact_type t, None).
Proof. cbn. intuition subst; reflexivity. Qed.

Lemma val_type_in v : In (val_type v) value_types.
Proof. destruct v; cbn; tauto. Qed.

Lemma compact_type_range t : In t value_types -> 1 <= compact_type t < 16.
Proof. cbn. intuition subst; cbn; lia. Qed.

Lemma compact_wire_type t : In t value_types -> compact_wire (compact_type t) = (t, None).
Proof. cbn. intuition subst; reflexivity. Qed.

Lemma field_type_range v : 1 <= field_type v < 16.
Proof. destruct v as [[|]| | | | | | | | | | |]; cbn; lia. Qed.

Lemma compact_wire_field v : compact_wire (field_type v) = (val_type v, None).
Proof. destruct v as [[|]| | | | | | | | | | |]; reflexivity. Qed.

(** ** Field headers *)
Definition field_hdr (last id t : Z) : list byte :=
  let delta := i16 (id - last) in
  if (delta >? 0) && (delta <=? 15)
  then [z2b (16 * delta + t)]
  else z2b t :: put_varint id.

Lemma append_field_header_spec buf v id nm b last :
  (val_type v = 2 -> v = VBool b) ->
  append_field_header buf (mkFH nm (val_type v) id) b last
  = (buf ++ field_hdr last id (field_type v), None).
Proof.
  intros Hb. unfold append_field_header. cbn [fh_type fh_id].
  assert (E : (if val_type v =? T_Bool
               then (if b then C_BOOLEAN_TRUE else C_BOOLEAN_FALSE, None)
               else type_compact (val_type v)) = (field_type v, @None err)).
  { destruct v; try reflexivity. rewrite (Hb eq_refl). destruct b; reflexivity. }
  rewrite E. pose proof (field_type_range v). unfold field_hdr.
  destruct ((i16 (id - last) >? 0) && (i16 (id - last) <=? 15)); [|reflexivity].
  rewrite nibbles_lor by lia. reflexivity.
Qed.

(** Announcing a field by a wrapped delta is not published, but read back. *)
Inductive wrap_field (last id t : Z) : list byte -> Prop :=
| wf_short d : 1 <= d <= 15 -> id = i16 (last + d) -> wrap_field last id t [z2b (16 * d + t)]
| wf_long l : uleb128 (zigzag_spec id) l -> wrap_field last id t (z2b t :: l).

Lemma field_hdr_wrap last id t : is_i16 id -> wrap_field last id t (field_hdr last id t).
Proof.
  intros Hid. unfold field_hdr.
  destruct (Z.gtb_spec (i16 (id - last)) 0); cbn [andb].
  - destruct (Z.leb_spec (i16 (id - last)) 15).
    + apply wf_short; [lia|]. rewrite <- (i16_id id Hid) at 1. apply i16_mod.
      rewrite <- Z.add_mod_idemp_r, i16_mod_eq, Z.add_mod_idemp_r by lia. f_equal. lia.
    + apply wf_long, put_varint_spec, i16_i64, Hid.
  - apply wf_long, put_varint_spec, i16_i64, Hid.
Qed.

(** The ids for which the code's delta does not wrap around. *)
Definition no_wrap (last id : Z) : Prop := -65521 < id - last < 65537.

Lemma field_hdr_spec last id t : is_i16 id -> is_i16 last -> no_wrap last id ->
  compact_field last id t (field_hdr last id t).
Proof.
  intros Hid Hl Hn. unfold field_hdr, no_wrap, is_i16 in *.
  assert (E : 1 <= id - last <= 15 <-> (i16 (id - last) >? 0) && (i16 (id - last) <=? 15) = true).
  { rewrite andb_true_iff, Z.leb_le, Z.gtb_lt. unfold i16. lia. }
  destruct ((i16 (id - last) >? 0) && (i16 (id - last) <=? 15)).
  - destruct E as [_ E]. specialize (E eq_refl).
    rewrite i16_id by (unfold is_i16; lia). apply cf_short. lia.
  - apply cf_long; [intros Hc; apply E in Hc; discriminate|].
    apply put_varint_spec. unfold is_i64. lia.
Qed.

Lemma compact_field_wrap last id t l : is_i16 id ->
  compact_field last id t l -> wrap_field last id t l.
Proof.
  intros Hid [H|l' H Hl].
  - apply wf_short; [lia|]. rewrite <- (i16_id id Hid) at 1. f_equal. lia.
  - apply wf_long, Hl.
Qed.

(** ** Writing *)
Section Writer.
Notation wh := (over cmp_writer mem_h).

Lemma cmp_w_lift X (e : wireW X) st s (p : prog bufW X) :
  cmp_writer X e st = liftw st p ->
  wh X e (st, s) = obind (run mem_h p s) (fun s' x => Done (st, s') x).
Proof.
  intros H. unfold over. cbn [fst snd]. rewrite H. unfold liftw. rewrite run_bind.
  destruct (run mem_h p s); reflexivity.
Qed.

Lemma append_write_mem max l s :
  run mem_h (append_write max (l, None)) s = Done (s ++ l) None.
Proof. reflexivity. Qed.

Lemma u64_nonneg z : 0 <= z < 2 ^ 63 -> u64 z = z.
Proof. intros H. apply u64_id. unfold is_u64. lia. Qed.

Lemma append_set_header_spec et n : In et value_types -> 0 <= n < 2 ^ 63 ->
  exists l, append_set_header [] (mkSetH et n) = (l, None) /\ compact_seq n (compact_type et) l.
Proof.
  intros Ht Hn. unfold append_set_header. cbn [set_elem set_size].
  rewrite type_compact_spec by exact Ht. pose proof (compact_type_range et Ht).
  destruct (Z.geb_spec n 0); [|lia]. cbn [andb]. destruct (Z.ltb_spec n 15).
  - eexists. split; [reflexivity|]. cbn [app]. rewrite nibbles_lor by lia. now apply cs_short.
  - eexists. split; [reflexivity|]. cbn [app].
    change 0xf0 with (Z.shiftl 15 4). rewrite nibbles_lor by lia.
    change (16 * 15) with 240. apply cs_long; [lia|].
    rewrite u64_nonneg by lia. apply put_uvarint_spec. unfold is_u64. lia.
Qed.

Lemma append_map_header_spec kt vt n : (n <> 0 -> In kt value_types /\ In vt value_types) ->
  0 <= n < 2 ^ 63 ->
  exists l, append_map_header [] (mkMapH kt vt n) = (l, None) /\ compact_map n kt vt l.
Proof.
  intros Ht Hn. unfold append_map_header. cbn [map_key map_val map_size].
  destruct (Z.leb_spec n 0).
  - eexists. split; [reflexivity|]. apply cm_empty. lia.
  - destruct (Ht ltac:(lia)) as [Hk Hv].
    rewrite !type_compact_spec by assumption.
    eexists. split; [reflexivity|]. cbn [app].
    rewrite nibbles_lor by (pose proof (compact_type_range vt Hv); lia).
    apply cm_some; [lia|]. rewrite u64_nonneg by lia. apply put_uvarint_spec. unfold is_u64. lia.
Qed.

Lemma first_type kt vt lim es :
  (fix entries (es : list (tval * tval)) : Prop :=
     match es with
     | [] => True
     | (k, v) :: r =>
         (val_type k = kt /\ val_type v = vt /\ wf lim k /\ wf lim v) /\ entries r
     end) es -> zlen es <> 0 -> In kt value_types /\ In vt value_types.
Proof.
  destruct es as [|[k v] r]; [intros _ H; elim H; reflexivity|].
  intros ((<- & <- & _) & _) _. split; apply val_type_in.
Qed.

Section Headers.
Variable F : Z -> Z -> Z -> list byte -> Prop.
Variable C : Z -> Z -> Prop.
Hypothesis HF : forall last id t, is_i16 id -> is_i16 last -> C last id ->
  F last id t (field_hdr last id t).

(** From a writer state with no pending bool. *)
Definition wrote (v : tval) := forall st s,
  fh_type (cw_bool st) = T_Stop ->
  exists l b, compact_enc F v l /\ fh_type b = T_Stop /\
    run wh (write_val v) (st, s)
    = Done (mkCW (cw_ids st) (cw_last st) b (cw_uw st), s ++ l) None.

Lemma compact_elems_write fin es : forall st s,
  (forall st, cmp_writer _ fin st = Ret (st, None)) ->
  Forall wrote es -> fh_type (cw_bool st) = T_Stop ->
  exists l b, compact_elems F es l /\ fh_type b = T_Stop /\
    run wh ((fix elems (es : list tval) : prog wireW (option err) :=
         match es with
         | [] => call fin
         | v :: r => write_val v >>! elems r
         end) es) (st, s)
    = Done (mkCW (cw_ids st) (cw_last st) b (cw_uw st), s ++ l) None.
Proof.
  induction es as [|v r IHr]; intros st s Hfin HF' Hb.
  - exists [], (cw_bool st). conj; [constructor|exact Hb|].
    rewrite run_call. unfold over. cbn [fst snd]. rewrite Hfin. cbn [run].
    rewrite app_nil_r. destruct st; reflexivity.
  - inversion HF' as [|? ? Hv Hr]; subst.
    destruct (Hv st s Hb) as (l & b & H1 & H2 & H3).
    rewrite run_and_then, H3. cbn [obind].
    destruct (IHr (mkCW (cw_ids st) (cw_last st) b (cw_uw st)) (s ++ l) Hfin Hr H2)
      as (m & b' & H4 & H5 & H6).
    exists (l ++ m), b'. conj; [now constructor|exact H5|].
    rewrite H6, app_assoc. reflexivity.
Qed.

Lemma cmp_field_header_write st v id nm b s :
  (val_type v = 2 -> v = VBool b) ->
  run mem_h (cmp_write_field_header st (mkFH nm (val_type v) id) b) s
  = Done (s ++ field_hdr (cw_last st) id (field_type v))
         (mkCW (cw_ids st) id (cw_bool st) (cw_uw st), None).
Proof.
  intros Hb. unfold cmp_write_field_header. rewrite run_bind.
  rewrite (append_field_header_spec [] v id nm b) by exact Hb.
  rewrite append_write_mem. reflexivity.
Qed.

Theorem cmp_write_val v : wf (2 ^ 63) v -> steps C v -> wrote v.
Proof.
  induction v as [b|b|z|z|z|z|x|u|fs IH|kt vt es IH|et es IH|et es IH] using tval_ind';
    intros Hwf Hst st s Hb; cbn [write_val]; cbn [wf] in Hwf.
  - exists [if b then x01 else x00], (cw_bool st). conj; [constructor|exact Hb|].
    rewrite run_call. unfold over. cbn [fst snd cmp_writer]. rewrite Hb.
    destruct st; reflexivity.
  - exists [b], (cw_bool st). conj; [constructor|exact Hb|].
    rewrite run_call. destruct st; reflexivity.
  - exists (little_endian 8 z), (cw_bool st). conj; [constructor|exact Hb|].
    rewrite <- little_endian_eq. rewrite run_call. destruct st; reflexivity.
  - exists (put_varint z), (cw_bool st).
    conj; [constructor; apply put_varint_spec, i16_i64, Hwf|exact Hb|].
    rewrite run_call. destruct st; reflexivity.
  - exists (put_varint z), (cw_bool st).
    conj; [constructor; apply put_varint_spec, i32_i64, Hwf|exact Hb|].
    rewrite run_call. destruct st; reflexivity.
  - exists (put_varint z), (cw_bool st).
    conj; [constructor; apply put_varint_spec, Hwf|exact Hb|].
    rewrite run_call. destruct st; reflexivity.
  - exists (put_uvarint (zlen x) ++ x), (cw_bool st). pose proof (zlen_nonneg x).
    conj; [constructor; apply put_uvarint_spec; unfold is_u64; lia|exact Hb|].
    rewrite run_call, (cmp_w_lift _ _ st s (cmp_write_string x)) by reflexivity.
    unfold cmp_write_string. rewrite run_and_then. unfold cmp_write_size, cmp_write_uvarint.
    rewrite run_call. cbn [mem_h obind]. rewrite run_call. cbn [mem_h obind].
    rewrite u64_nonneg by lia. rewrite app_assoc. destruct st; reflexivity.
  - exists u, (cw_bool st). conj; [constructor|exact Hb|].
    rewrite run_call. destruct st; reflexivity.
  - (* struct *)
    rewrite run_and_then, run_call. unfold over at 1. cbn [fst snd cmp_writer run obind].
    cbn [steps] in Hst. revert Hst.
    match goal with |- context [run wh ?p] => set (body := p) end.
    enough (Hg : (fix fields (prev : Z) (fs : list (Z * tval)) : Prop :=
         match fs with
         | [] => True
         | (id, v) :: r => C prev id /\ steps C v /\ fields id r
         end) 0 fs -> is_i16 0 -> forall bb, fh_type bb = T_Stop ->
       exists l b, compact_fields F 0 fs l /\ fh_type b = T_Stop /\
         run wh body (mkCW (cw_last st :: cw_ids st) 0 bb (cw_uw st), s)
         = Done (mkCW (cw_ids st) (cw_last st) b (cw_uw st), s ++ l) None).
    { intros Hst. destruct (Hg Hst ltac:(unfold is_i16; lia) (cw_bool st) Hb) as (l & b & H1 & H2 & H3).
      exists l, b. conj; [now constructor|exact H2|exact H3]. }
    subst body. clear Hb. generalize 0 at 1 2 3 4 as last. revert s.
    induction fs as [|[id v] r IHr]; intros s last Hst Hl bb Hb.
    + exists [x00], bb. conj; [constructor|exact Hb|].
      rewrite run_call. unfold over. cbn [fst snd cmp_writer cw_ids cw_bool cw_uw].
      reflexivity.
    + inversion IH as [|? ? Hv Hr]; subst. cbn [snd] in Hv.
      destruct Hwf as ((Hid & Hwv) & Hwr). destruct Hst as (Hc & Hsv & Hsr).
      specialize (Hv Hwv Hsv).
      assert (Hval : exists l b,
        compact_field_value F v l /\ fh_type b = T_Stop /\
        run wh (call (WFieldBegin (mkFH [] (val_type v) id)) >>! write_val v)
          (mkCW (cw_last st :: cw_ids st) last bb (cw_uw st), s)
        = Done (mkCW (cw_last st :: cw_ids st) id b (cw_uw st),
                s ++ field_hdr last id (field_type v) ++ l) None).
      { rewrite run_and_then, run_call. unfold over at 1. cbn [fst snd cmp_writer].
        cbn [fh_type].
        destruct (Z.eq_dec (val_type v) 2) as [E|E].
        - destruct v as [b| | | | | | | | | | |]; try discriminate E.
          change (val_type (VBool b) =? T_Bool) with true. cbn iota. cbn [run obind].
          exists [], (mkFH [] T_Stop id). conj; [constructor|reflexivity|].
          cbn [write_val]. rewrite run_call. unfold over. cbn [fst snd cmp_writer].
          cbn [cw_bool cw_ids cw_last cw_uw fh_type val_type].
          change (negb (2 =? T_Stop)) with true. cbn iota.
          rewrite run_bind.
          change 2 with (val_type (VBool b)).
          rewrite (cmp_field_header_write _ (VBool b) id [] b) by auto.
          cbn [obind run cw_ids cw_last cw_bool cw_uw fh_name fh_id].
          rewrite app_nil_r. reflexivity.
        - change T_Bool with 2. destruct (Z.eqb_spec (val_type v) 2); [contradiction|].
          rewrite (cmp_field_header_write _ v id [] false) by (intros; contradiction).
          cbn [obind cw_ids cw_last cw_bool cw_uw].
          destruct (Hv (mkCW (cw_last st :: cw_ids st) id bb (cw_uw st))
                       (s ++ field_hdr last id (field_type v)) Hb) as (l & b & H1 & H2 & H3).
          cbn [cw_ids cw_last cw_bool cw_uw] in H3.
          exists l, b. conj; [now constructor|exact H2|]. rewrite H3, app_assoc. reflexivity. }
      destruct Hval as (l & b & H1 & H2 & H3).
      rewrite run_and_then in H3 |- *.
      match goal with |- context [obind ?o _] => destruct o as [sa [ea|]|ca] eqn:Eo end;
        cbn [obind] in H3 |- *; try discriminate H3.
      rewrite run_and_then, H3. cbn [obind].
      rewrite run_and_then, run_call. unfold over at 1. cbn [fst snd cmp_writer run obind].
      destruct (IHr Hr Hwr (s ++ field_hdr last id (field_type v) ++ l) id Hsr Hid b H2)
        as (m & b' & H4 & H5 & H6).
      exists (field_hdr last id (field_type v) ++ l ++ m), b'.
      conj; [|exact H5|rewrite H6, <- !app_assoc; reflexivity].
      econstructor; eauto.
  - (* map *)
    destruct Hwf as (Hn & Hk & Hv & Hes). pose proof (zlen_nonneg es).
    rewrite run_and_then, run_call.
    destruct (append_map_header_spec kt vt (zlen es)) as (hd & E1 & E2);
      [eapply first_type; eassumption | lia |].
    rewrite (cmp_w_lift _ _ st s (append_write MaxMapHeaderSize (append_map_header [] (mkMapH kt vt (zlen es))))) by reflexivity.
    rewrite E1, append_write_mem. cbn [obind].
    match goal with |- context [run wh ?p] => set (body := p) end.
    enough (Hg : exists l b, compact_entries F es l /\ fh_type b = T_Stop /\
         run wh body (st, s ++ hd)
         = Done (mkCW (cw_ids st) (cw_last st) b (cw_uw st), (s ++ hd) ++ l) None).
    { destruct Hg as (l & b & H1 & H2 & H3). exists (hd ++ l), b.
      conj; [now constructor|exact H2|]. rewrite H3, app_assoc. reflexivity. }
    subst body. generalize (s ++ hd). clear E1 E2 hd s Hn H. revert st Hb. cbn [steps] in Hst.
    induction es as [|[k v] r IHr]; intros st Hb s.
    + exists [], (cw_bool st). conj; [constructor|exact Hb|].
      rewrite run_call. unfold over. cbn [fst snd cmp_writer run].
      rewrite app_nil_r. destruct st; reflexivity.
    + inversion IH as [|? ? [Ik Iv] Hr]; subst. cbn [fst snd] in Ik, Iv.
      destruct Hes as ((Tk & Tv & Wk & Wv) & Hes). destruct Hst as (Sk & Sv & Sr).
      destruct (Ik Wk Sk st s Hb) as (l & b & H1 & H2 & H3).
      rewrite run_and_then, H3. cbn [obind].
      destruct (Iv Wv Sv (mkCW (cw_ids st) (cw_last st) b (cw_uw st)) (s ++ l) H2)
        as (m & b' & H4 & H5 & H6).
      rewrite run_and_then, H6. cbn [obind].
      destruct (IHr Hr Hes Sr (mkCW (cw_ids st) (cw_last st) b' (cw_uw st)) H5 ((s ++ l) ++ m))
        as (n & b'' & H7 & H8 & H9).
      exists (l ++ m ++ n), b''. conj; [now constructor|exact H8|].
      cbn [cw_ids cw_last cw_uw] in H9 |- *. rewrite H9, <- !app_assoc. reflexivity.
  - (* set *)
    destruct Hwf as (Hn & Ht & Hes). pose proof (zlen_nonneg es).
    rewrite run_and_then, run_call.
    destruct (append_set_header_spec et (zlen es)) as (hd & E1 & E2); [exact Ht|lia|].
    rewrite (cmp_w_lift _ _ st s (append_write MaxSetHeaderSize (append_set_header [] (mkSetH et (zlen es))))) by reflexivity.
    rewrite E1, append_write_mem. cbn [obind].
    destruct (compact_elems_write WSetEnd es st (s ++ hd)) as (l & b & H1 & H2 & H3);
      [reflexivity| |exact Hb|].
    { clear - IH Hes Hst. cbn [steps] in Hst. induction es as [|v r IHr]; constructor.
      - inversion IH; subst. apply H1; tauto.
      - inversion IH; subst. apply IHr; tauto. }
    rewrite H3. exists (hd ++ l), b. conj; [now constructor|exact H2|].
    rewrite app_assoc. reflexivity.
  - (* list *)
    destruct Hwf as (Hn & Ht & Hes). pose proof (zlen_nonneg es).
    rewrite run_and_then, run_call.
    destruct (append_set_header_spec et (zlen es)) as (hd & E1 & E2); [exact Ht|lia|].
    rewrite (cmp_w_lift _ _ st s (append_write MaxSetHeaderSize (append_set_header [] (mkSetH et (zlen es))))) by reflexivity.
    rewrite E1, append_write_mem. cbn [obind].
    destruct (compact_elems_write WListEnd es st (s ++ hd)) as (l & b & H1 & H2 & H3);
      [reflexivity| |exact Hb|].
    { clear - IH Hes Hst. cbn [steps] in Hst. induction es as [|v r IHr]; constructor.
      - inversion IH; subst. apply H1; tauto.
      - inversion IH; subst. apply IHr; tauto. }
    rewrite H3. exists (hd ++ l), b. conj; [now constructor|exact H2|].
    rewrite app_assoc. reflexivity.
Qed.

End Headers.
End Writer.

(** ** Reading *)
Lemma canon_val_type v : val_type (canon v) = val_type v.
Proof. destruct v as [| | | | | | | | |? ? [|]| |]; reflexivity. Qed.

Section Reader.
Variable size : Z.
Hypothesis Hsize : 8 <= size.
Variable uv : prog bufR (Z * option err).
Variable fi : fin.
(** What must hold of the bytes after a string for [uv] to decode its length. *)
Variable okrest : list byte -> Prop.
Hypothesis Hok : forall l rest, okrest rest -> okrest (l ++ rest).
Hypothesis Huv : forall v rest, is_u64 v -> okrest rest ->
  run (stream_h size) uv (mkStream (put_uvarint v ++ rest) fi)
  = Done (mkStream rest fi) (v, None).
Notation rh := (over (cmp_reader_gen uv) (stream_h size)).

Lemma cmp_r_lift X (e : wireR X) st s (p : prog bufR X) :
  cmp_reader_gen uv X e st = lift st p ->
  rh X e (st, s) = obind (run (stream_h size) p s) (fun s' x => Done (st, s') x).
Proof.
  intros H. unfold over. cbn [fst snd]. rewrite H. unfold lift. rewrite run_bind.
  destruct (run (stream_h size) p s); reflexivity.
Qed.

Lemma cmp_read_i64_ok z l rest : is_i64 z -> uleb128 (zigzag_spec z) l ->
  run (stream_h size) cmp_read_i64 (mkStream (l ++ rest) fi) = Done (mkStream rest fi) (z, None).
Proof.
  intros Hz Hl. rewrite (uleb128_put_varint z l) by assumption.
  now apply read_varint_ok.
Qed.

Lemma cmp_read_i32_ok z l rest : is_i32 z -> uleb128 (zigzag_spec z) l ->
  run (stream_h size) cmp_read_i32 (mkStream (l ++ rest) fi) = Done (mkStream rest fi) (z, None).
Proof.
  intros Hz Hl. unfold cmp_read_i32. rewrite run_bind, (cmp_read_i64_ok z) by auto using i32_i64.
  cbn [obind run]. now rewrite i32_id.
Qed.

Lemma cmp_read_i16_ok z l rest : is_i16 z -> uleb128 (zigzag_spec z) l ->
  run (stream_h size) cmp_read_i16 (mkStream (l ++ rest) fi) = Done (mkStream rest fi) (z, None).
Proof.
  intros Hz Hl. unfold cmp_read_i16. rewrite run_bind, (cmp_read_i64_ok z) by auto using i16_i64.
  cbn [obind run]. now rewrite i16_id.
Qed.

Lemma cmp_read_size_ok n l rest : okrest rest -> 0 <= n < 2 ^ 63 -> uleb128 n l ->
  run (stream_h size) (cmp_read_size uv) (mkStream (l ++ rest) fi)
  = Done (mkStream rest fi) (n, None).
Proof.
  intros Hr Hn Hl. assert (is_u64 n) by (unfold is_u64; lia).
  rewrite (uleb128_put n l) by assumption. unfold cmp_read_size.
  rewrite run_bind, Huv by assumption. cbn [obind run].
  rewrite i64_id by (unfold is_i64; lia). reflexivity.
Qed.

Lemma cmp_hdr_size_ok n l rest : 0 <= n < 2 ^ 63 -> uleb128 n l ->
  run (stream_h size) cmp_hdr_size (mkStream (l ++ rest) fi)
  = Done (mkStream rest fi) (n, None).
Proof.
  intros Hn Hl. assert (is_u64 n) by (unfold is_u64; lia).
  rewrite (uleb128_put n l) by assumption. unfold cmp_hdr_size.
  rewrite run_bind, read_uvarint_ok by assumption. cbn [obind run].
  rewrite i64_id by (unfold is_i64; lia). reflexivity.
Qed.

Lemma cmp_read_double_ok z rest : is_u64 z ->
  run (stream_h size) cmp_read_double (mkStream (little_endian 8 z ++ rest) fi)
  = Done (mkStream rest fi) (z, None).
Proof.
  intros Hz. rewrite <- little_endian_eq. unfold cmp_read_double.
  rewrite run_bind, next_ok by (rewrite ?zlen_app, ?zlen_le_bytes; pose proof (zlen_nonneg rest); lia).
  replace 8 with (zlen (le_bytes 8 z)) by apply zlen_le_bytes.
  cbn [obind]. rewrite firstn_zlen_app, skipn_zlen_app. cbn [run].
  rewrite le_value_bytes. change (256 ^ Z.of_nat 8) with (2 ^ 64). now rewrite Z.mod_small.
Qed.

Lemma cmp_read_set_begin_ok et n h rest : In et value_types -> 0 <= n < 2 ^ 63 ->
  compact_seq n (compact_type et) h ->
  run (stream_h size) cmp_read_set_begin (mkStream (h ++ rest) fi)
  = Done (mkStream rest fi) (mkSetH et n, None).
Proof.
  intros Ht Hn Hh. pose proof (compact_type_range et Ht). unfold cmp_read_set_begin.
  rewrite run_vis. destruct Hh as [Hs|l Hl Hu]; cbn [app stream_h sdata obind sfin].
  - rewrite byte_lo, compact_wire_type by (assumption || lia). rewrite byte_hi by lia.
    destruct (Z.eqb_spec n 15); [lia|]. reflexivity.
  - replace 240 with (16 * 15) by reflexivity.
    rewrite byte_lo, compact_wire_type by (assumption || lia). rewrite byte_hi by lia.
    change (15 =? 15) with true. cbn iota.
    rewrite run_bind, (cmp_hdr_size_ok n) by assumption. reflexivity.
Qed.

Lemma cmp_read_map_begin_ok kt vt n h rest :
  (n = 0 -> kt = 0 /\ vt = 0) ->
  (n <> 0 -> In kt value_types /\ In vt value_types) -> 0 <= n < 2 ^ 63 ->
  compact_map n kt vt h ->
  run (stream_h size) cmp_read_map_begin (mkStream (h ++ rest) fi)
  = Done (mkStream rest fi) (mkMapH kt vt n, None).
Proof.
  intros H0 Ht Hn Hh. unfold cmp_read_map_begin. destruct Hh as [Hs|l Hl Hu].
  - subst n. destruct (H0 eq_refl) as [-> ->]. rewrite run_bind.
    rewrite (cmp_hdr_size_ok 0 [x00]) by (lia || (apply uleb_last; lia)). reflexivity.
  - destruct (Ht ltac:(lia)) as [Hk Hv].
    pose proof (compact_type_range kt Hk). pose proof (compact_type_range vt Hv).
    rewrite <- app_assoc, run_bind, (cmp_hdr_size_ok n) by assumption.
    cbn [obind is_none negb orb]. destruct (Z.eqb_spec n 0); [lia|].
    rewrite run_vis. cbn [app stream_h sdata obind sfin].
    rewrite byte_hi, compact_wire_type by (assumption || lia).
    rewrite byte_lo, compact_wire_type by (assumption || lia). reflexivity.
Qed.

Lemma cmp_read_field_begin_ok st v id h rest : is_i16 id -> cr_bool st = BNone ->
  wrap_field (cr_last st) id (field_type v) h ->
  run (stream_h size) (cmp_read_field_begin st) (mkStream (h ++ rest) fi)
  = Done (mkStream rest fi)
      (mkCR (cr_ids st) id
         (match v with VBool true => BTrue | VBool false => BFalse | _ => BNone end),
       (mkFH [] (val_type v) id, None)).
Proof.
  intros Hid Hb Hh. pose proof (field_type_range v).
  assert (Eb : bf_set (cr_bool st) (field_type v) =
    match v with VBool true => BTrue | VBool false => BFalse | _ => BNone end).
  { rewrite Hb. destruct v as [[|]| | | | | | | | | | |]; reflexivity. }
  unfold cmp_read_field_begin. rewrite run_vis.
  destruct Hh as [d Hd E|l Hu]; cbn [app stream_h sdata obind sfin].
  - rewrite byte_lo, byte_hi, compact_wire_field by lia. cbn [is_none negb orb].
    rewrite val_type_not_stop. destruct (Z.eqb_spec d 0); [lia|].
    cbn [run]. rewrite <- E, Eb. reflexivity.
  - assert (E0 : z2b (field_type v) = z2b (16 * 0 + field_type v)) by (f_equal; lia). rewrite E0.
    rewrite byte_lo, byte_hi, compact_wire_field by lia. cbn [is_none negb orb].
    rewrite val_type_not_stop. change (0 =? 0) with true. cbn iota.
    rewrite run_bind, (cmp_read_i16_ok id) by assumption. cbn [obind run].
    rewrite Eb. reflexivity.
Qed.

(** A value whose empty maps have types 0. *)
Theorem cmp_reads v : forall l rest st,
  wf (2 ^ 63) v -> canon v = v -> compact_enc wrap_field v l -> cr_bool st = BNone ->
  (has_string v -> okrest rest) ->
  reads rh v (st, mkStream (l ++ rest) fi) (st, mkStream rest fi).
Proof.
  induction v as [b|b|z|z|z|z|x|u|fs IH|kt vt es IH|et es IH|et es IH] using tval_ind';
    intros l rest st Hwf Hc He Hb Hs; cbn [reads]; cbn [has_string] in Hs; cbn [wf] in Hwf; inversion He; subst; clear He.
  - unfold over. cbn [fst snd cmp_reader_gen]. rewrite Hb. rewrite run_vis.
    cbn [app stream_h sdata obind sfin run]. destruct b; reflexivity.
  - rewrite (cmp_r_lift _ _ st _ (call BReadByte)) by reflexivity. reflexivity.
  - rewrite (cmp_r_lift _ _ st _ cmp_read_double) by reflexivity.
    now rewrite cmp_read_double_ok.
  - rewrite (cmp_r_lift _ _ st _ cmp_read_i16) by reflexivity.
    now rewrite (cmp_read_i16_ok z).
  - rewrite (cmp_r_lift _ _ st _ cmp_read_i32) by reflexivity.
    now rewrite (cmp_read_i32_ok z).
  - rewrite (cmp_r_lift _ _ st _ cmp_read_i64) by reflexivity.
    now rewrite (cmp_read_i64_ok z).
  - pose proof (zlen_nonneg x). rewrite <- app_assoc. conj.
    + rewrite (cmp_r_lift _ _ st _ (cmp_read_string uv)) by reflexivity.
      unfold cmp_read_string.
      rewrite run_bind, (cmp_read_size_ok (zlen x)) by (auto || lia). cbn [obind].
      rewrite read_string_spec by lia. now rewrite bytes_spec_app.
    + intros buf. rewrite (cmp_r_lift _ _ st _ (cmp_read_bytes uv buf)) by reflexivity.
      unfold cmp_read_bytes.
      rewrite run_bind, (cmp_read_size_ok (zlen x)) by (auto || lia). cbn [obind].
      rewrite read_bytes_spec by lia. now rewrite bytes_spec_app.
    + rewrite (cmp_r_lift _ _ st _ (cmp_skip_string uv)) by reflexivity.
      unfold cmp_skip_string.
      rewrite run_bind, (cmp_read_size_ok (zlen x)) by (auto || lia). cbn [obind].
      rewrite run_vis, discard_app by reflexivity. reflexivity.
  - split.
    + intros old Ho. rewrite (cmp_r_lift _ _ st _ (read_uuid old)) by reflexivity.
      now rewrite uuid_ok.
    + rewrite (cmp_r_lift _ _ st _ skip_uuid) by reflexivity.
      now rewrite skip_uuid_ok.
  - unfold over at 1. cbn [fst snd cmp_reader_gen run]. eexists _, _. split; [reflexivity|].
    match goal with H : compact_fields _ _ _ _ |- _ => rename H into Hf end.
    match goal with |- ?G => change (reads_fields rh (st, mkStream rest fi) fs
       (mkCR (cr_last st :: cr_ids st) 0 (cr_bool st), mkStream (l ++ rest) fi)) end.
    assert (Hc' : Forall (fun f => canon (snd f) = snd f) fs).
    { cbn [canon] in Hc. injection Hc as Hc. clear - Hc. induction fs as [|f r IHr]; constructor.
      - cbn [map] in Hc. injection Hc as H1 H2. destruct f; cbn in *. congruence.
      - cbn [map] in Hc. injection Hc as H1 H2. auto. }
    clear Hc. rewrite Hb. revert Hf. generalize 0 as last. revert l.
    induction fs as [|[id v] r IHr]; intros l last Hf; inversion Hf; subst; cbn [reads_fields].
    + eexists _, _. unfold over at 1. cbn [fst snd cmp_reader_gen run].
      unfold cmp_read_field_begin. rewrite run_vis. cbn. split; [reflexivity|].
      split; [reflexivity|]. rewrite <- Hb. destruct st; reflexivity.
    + inversion IH as [|? ? Hv Hr]; subst. cbn [snd] in Hv.
      inversion Hc' as [|? ? Cv Cr]; subst. cbn [snd] in Cv.
      destruct Hwf as ((Hid & Hwv) & Hwr).
      do 3 eexists. exists []. rewrite <- !app_assoc.
      conj.
      * unfold over. cbn [fst snd cmp_reader_gen].
        rewrite (cmp_read_field_begin_ok _ v id) by (assumption || reflexivity). reflexivity.
      * match goal with H : compact_field_value _ _ _ |- _ => inversion H; subst; clear H end.
        -- cbn [reads app]. unfold over. cbn [fst snd cmp_reader_gen cr_bool].
           instantiate (1 := (mkCR (cr_last st :: cr_ids st) id BNone, _)).
           destruct b; reflexivity.
        -- replace (match v with VBool true => BTrue | VBool false => BFalse | _ => BNone end)
             with BNone by (destruct v; try reflexivity; cbn in *; congruence).
           apply Hv; try (assumption || reflexivity). auto.
      * unfold over at 1. cbn [fst snd cmp_reader_gen run]. reflexivity.
      * apply IHr; auto.
  - match goal with H : compact_entries _ _ _ |- _ => rename H into Hen end.
    match goal with H : compact_map _ _ _ _ |- _ => rename H into Hh end.
    destruct Hwf as (Hn & Hk & Hv & Hes). pose proof (zlen_nonneg es).
    rewrite (cmp_r_lift _ _ st _ cmp_read_map_begin) by reflexivity.
    rewrite <- app_assoc, (cmp_read_map_begin_ok kt vt (zlen es)); auto.
    2:{ intros E. apply zlen_0 in E. subst es. cbn in Hc. injection Hc as <- <-. auto. }
    2:{ eapply first_type; eassumption. }
    cbn [obind]. eexists. split; [reflexivity|].
    match goal with |- ?G => change (reads_entries rh kt vt (st, mkStream rest fi) es
      (st, mkStream (l0 ++ rest) fi)) end.
    assert (Hc' : Forall (fun e => canon (fst e) = fst e /\ canon (snd e) = snd e) es).
    { clear - Hc. destruct es as [|e0 r0]; [constructor|]. cbn [canon] in Hc.
      apply (f_equal (fun v => match v with VMap _ _ l => l | _ => [] end)) in Hc. cbn iota in Hc.
      revert Hc. generalize (e0 :: r0) as es. intros es Hc. induction es as [|[k v] r IHr]; constructor.
      - cbn [map fst snd] in Hc |- *. injection Hc as H1 H2 H3. auto.
      - cbn [map] in Hc. injection Hc as H1 H2 H3. auto. }
    clear Hn H Hh Hc. revert l0 Hen.
    induction es as [|[k v] r IHr]; intros l0 Hen; inversion Hen; subst; cbn [reads_entries].
    + unfold over. cbn [fst snd cmp_reader_gen run]. reflexivity.
    + inversion IH as [|? ? [Ik Iv] Hr]; subst. cbn [fst snd] in *.
      inversion Hc' as [|? ? [Ck Cv] Cr]; subst. cbn [fst snd] in *.
      destruct Hes as ((Tk & Tv & Wk & Wv) & Hes). split; [exact Tk|]. split; [exact Tv|].
      do 2 eexists. rewrite <- !app_assoc.
      split; [apply Ik; auto|]. split; [apply Iv; auto|]. apply IHr; auto.
  - match goal with H : compact_elems _ _ _ |- _ => rename H into Hen end.
    match goal with H : compact_seq _ _ _ |- _ => rename H into Hh end.
    destruct Hwf as (Hn & Ht & Hes). pose proof (zlen_nonneg es).
    rewrite (cmp_r_lift _ _ st _ cmp_read_set_begin) by reflexivity.
    rewrite <- app_assoc, (cmp_read_set_begin_ok et (zlen es)); auto.
    cbn [obind]. eexists. split; [reflexivity|].
    match goal with |- ?G => change (reads_elems rh RSetEnd et (st, mkStream rest fi) es
      (st, mkStream (l0 ++ rest) fi)) end.
    cbn [canon] in Hc. injection Hc as Hc.
    clear Hn H Hh Ht. revert l0 Hen.
    induction es as [|v r IHr]; intros l0 Hen; inversion Hen; subst; cbn [reads_elems].
    + unfold over. cbn [fst snd cmp_reader_gen run]. reflexivity.
    + inversion IH as [|? ? Iv Hr]; subst. cbn [map] in Hc. injection Hc as Cv Cr.
      destruct Hes as ((Tv & Wv) & Hes). split; [exact Tv|].
      eexists. rewrite <- !app_assoc. split; [apply Iv; auto|]. apply IHr; auto.
  - match goal with H : compact_elems _ _ _ |- _ => rename H into Hen end.
    match goal with H : compact_seq _ _ _ |- _ => rename H into Hh end.
    destruct Hwf as (Hn & Ht & Hes). pose proof (zlen_nonneg es).
    rewrite (cmp_r_lift _ _ st _ cmp_read_set_begin) by reflexivity.
    rewrite <- app_assoc, (cmp_read_set_begin_ok et (zlen es)); auto.
    cbn [obind]. eexists. split; [reflexivity|].
    match goal with |- ?G => change (reads_elems rh RListEnd et (st, mkStream rest fi) es
      (st, mkStream (l0 ++ rest) fi)) end.
    cbn [canon] in Hc. injection Hc as Hc.
    clear Hn H Hh Ht. revert l0 Hen.
    induction es as [|v r IHr]; intros l0 Hen; inversion Hen; subst; cbn [reads_elems].
    + unfold over. cbn [fst snd cmp_reader_gen run]. reflexivity.
    + inversion IH as [|? ? Iv Hr]; subst. cbn [map] in Hc. injection Hc as Cv Cr.
      destruct Hes as ((Tv & Wv) & Hes). split; [exact Tv|].
      eexists. rewrite <- !app_assoc. split; [apply Iv; auto|]. apply IHr; auto.
Qed.

End Reader.
