(** The marshalling round trip through buffered writers and readers. *)
From Coq Require Import Strings.String Sorting.Permutation.
From Verif Require Import Base BaseLemmas Prog Bufio BufioProof BufioW BufioWProof GoBinary Wire WireProof
  Binary BinaryProof Compact CompactProof Spec Clients Reads Layers RoundTrip EndToEnd Messages GoFloat FloatProof Utf8
  GoType Fields Arshal GoTypeProof FieldsProof ArshalSpec ArshalEnc ArshalDec ArshalTrip ArshalTotal.

Lemma Forall2_nth {A B} (R : A -> B -> Prop) l m : Forall2 R l m -> forall i a b,
  nth_error l i = Some a -> nth_error m i = Some b -> R a b.
Proof.
  induction 1 as [|x y l m Hx Hl IH]; intros [|i] a b Ha Hb; try discriminate; [|eauto].
  injection Ha as <-. injection Hb as <-. exact Hx.
Qed.

(** ** Names make no difference to the two protocols *)
Lemma bin_nameless strict : nameless (over (bin_writer strict) mem_h) (over (bin_writer strict) mem_h) eq.
Proof.
  intros c [[] m] s' <-.
  assert (A : forall X (o : outcome X (option err)), same_out eq o o) by (intros X [?|?]; cbn; auto).
  destruct c; cbn [plain ev]; apply A.
Qed.

Definition cw_sim (a b : cwriter * list byte) : Prop :=
  snd a = snd b /\ cw_ids (fst a) = cw_ids (fst b) /\ cw_last (fst a) = cw_last (fst b) /\
  cw_uw (fst a) = cw_uw (fst b) /\ fh_type (cw_bool (fst a)) = fh_type (cw_bool (fst b)) /\
  fh_id (cw_bool (fst a)) = fh_id (cw_bool (fst b)).

Lemma cmp_nameless : nameless (over cmp_writer mem_h) (over cmp_writer mem_h) cw_sim.
Proof.
  intros c [[ids last bh uw] m] [[ids' last' bh' uw'] m'] (E1 & E2 & E3 & E4 & E5 & E6). cbn in E1, E2, E3, E4, E5, E6. subst m' ids' last' uw'.
  destruct bh as [bn bt bi], bh' as [bn' bt' bi']. cbn in E5, E6. subst bt' bi'.
  set (stl := mkCW ids last (mkFH bn bt bi) uw). set (str := mkCW ids last (mkFH bn' bt bi) uw).
  assert (L : forall (q : prog bufW (option err)),
    same_out cw_sim (match run mem_h (liftw stl q) m with Done b' (s', x) => Done (s', b') x | Crashed c => Crashed c end)
      (match run mem_h (liftw str q) m with Done b' (s', x) => Done (s', b') x | Crashed c => Crashed c end)).
  { intros q. unfold liftw. rewrite !run_bind. destruct (run mem_h q m) as [m1 x|c1]; cbn; auto.
    split; [|reflexivity]. unfold cw_sim. cbn. auto 10. }
  assert (F : forall nm nm' t id b,
    same_out cw_sim
      (match run mem_h (cmp_write_field_header stl (mkFH nm t id) b) m with Done b' (s', x) => Done (s', b') x | Crashed c => Crashed c end)
      (match run mem_h (cmp_write_field_header str (mkFH nm' t id) b) m with Done b' (s', x) => Done (s', b') x | Crashed c => Crashed c end)).
  { intros nm nm' t id b. unfold cmp_write_field_header. subst stl str. cbn [cw_last]. rewrite !run_bind.
    change (append_field_header [] (mkFH nm t id) b last) with (append_field_header [] (mkFH [] t id) b last).
    change (append_field_header [] (mkFH nm' t id) b last) with (append_field_header [] (mkFH [] t id) b last).
    destruct (run mem_h _ m) as [m1 [x|]|c1]; cbn; auto; (split; [|reflexivity]); unfold cw_sim; cbn; auto 10. }
  destruct c; cbn [plain ev]; try exact (L _); try (cbn; split; [unfold cw_sim; cbn; auto 10|reflexivity]).
  - subst stl str. clear L F. unfold over. cbn [fst snd cmp_writer cw_ids]. destruct ids as [|id ids]; cbn; (split; [|reflexivity]); unfold cw_sim; cbn; auto 10.
  - unfold over. cbn [fst snd cmp_writer fh_type]. destruct (fh_type h =? T_Bool).
    + cbn. split; [|reflexivity]. unfold cw_sim. cbn. auto 10.
    + destruct h as [nm t id]. exact (F _ _ _ _ _).
  - subst stl str. unfold over. cbn [fst snd cmp_writer cw_bool fh_type]. destruct (negb (bt =? T_Stop)).
    + rewrite !run_bind. unfold cmp_write_field_header. cbn [cw_last]. rewrite !run_bind.
      change (append_field_header [] (mkFH bn bt bi) b last) with (append_field_header [] (mkFH [] bt bi) b last).
      change (append_field_header [] (mkFH bn' bt bi) b last) with (append_field_header [] (mkFH [] bt bi) b last).
      destruct (run mem_h _ m) as [m1 [x|]|c]; cbn; auto; (split; [|reflexivity]); unfold cw_sim; cbn; auto 10.
    + exact (L (call (BWWriteByte (if b then x01 else x00)))).
Qed.

(** ** Everything Marshal writes is a well-formed value *)
Section Wf.
Context (env : tenv) (ln : nat).
Hypothesis Henv : env_ok env.

Lemma wire_value a : wire_type a <> T_Stop -> In (wire_type a) value_types.
Proof.
  induction a; cbn [wire_type]; intros H; try (now elim H); auto; try (cbn; tauto);
    try (destruct w; cbn; tauto); try (destruct set; cbn; tauto).
Qed.

Lemma image_wf lim n : 0 < lim -> forall t a v tv, codec env t a -> has_type env v t -> fits env lim v t ->
  image env ln n a v = Some tv -> wf lim tv.
Proof using Henv.
  intros Hlim. induction n as [|n IH]; intros t a v tv Hc Ht Hf H; [discriminate|].
  pose proof (codec_inv env t a Hc) as Hi. pose proof (Hf v t (in_self env v t)) as H0.
  destruct a as [t'|t'|t' single|t' w|t' w|t'|t'|t'|t'|t' ka va|t' set ea|t' ea];
    destruct v as [b|z|z|z|z|nl x sp|u|es|nl es sp|o|o|vs|k]; try discriminate; cbn [image] in H;
    try (injection H as <-; exact I); try (injection H as <-; exact H0); try (destruct single; discriminate).
  - destruct Hi as [-> U]. destruct single; [|discriminate]. injection H as <-. cbn [wf].
    cbn [has_type] in Ht. rewrite U in Ht. now apply f32_to_f64_fields.
  - destruct Hi as [-> U]. destruct single; [discriminate|]. injection H as <-. cbn [wf].
    cbn [has_type] in Ht. rewrite U in Ht. exact Ht.
  - injection H as <-. destruct w; cbn [width_val wf]; auto using i16_range, i32_range, i64_range.
  - injection H as <-. destruct w; cbn [width_val wf]; auto using i16_range, i32_range, i64_range.
  - destruct Hi as [-> U]. injection H as <-. cbn [wf has_type] in *. rewrite U in Ht. exact Ht.
  - destruct Hi as (-> & s & U). destruct (make_struct_fields env ln t) as [[fs|]|] eqn:M; try discriminate.
    destruct (image_fields env (image env ln n) vs fs) as [l|] eqn:E; [|discriminate]. injection H as <-.
    apply type_struct in Ht as (s' & U' & Ht). rewrite U in U'. injection U' as <-.
    destruct (fields_spec env Henv ln t fs M) as (F1 & _ & _).
    assert (SD : struct_def env t = te_struct env s) by (unfold struct_def; now rewrite U). rewrite SD in F1.
    assert (Hsub : forall f, In f fs -> exists sf o, nth_error (te_struct env s) (f_index f) = Some sf /\ tagged env sf o /\
        codec env (sf_type sf) (f_fncs f) /\ f_id f = fo_id o).
    { intros f Hin. apply F1 in Hin as (j & sf & o & a & N & S & L & ->). exists sf, o. cbn. conj; auto. now exists ln. }
    clear M F1 H0 Hc. cbn [wf]. revert l E. induction fs as [|f r IHr]; intros l E; cbn [image_fields] in E.
    { injection E as <-. exact I. }
    destruct (wire_type (f_fncs f) =? T_Stop); [discriminate|]. destruct (nth_error vs (f_index f)) as [v|] eqn:Nv; [|discriminate].
    destruct (negb (f_required f) && field_zero env f v); [apply IHr; auto; intros; apply Hsub; now right|].
    destruct (image env ln n (f_fncs f) v) as [tw|] eqn:Ev; [|discriminate].
    destruct (image_fields env (image env ln n) vs r) as [l'|] eqn:Er; [|discriminate]. injection E as <-.
    destruct (Hsub f (or_introl eq_refl)) as (sf & o & N & Tg & C & Eid).
    split; [split|apply IHr; auto; intros; apply Hsub; now right].
    + rewrite Eid. eapply tagged_id; eauto.
    + apply (IH (sf_type sf) (f_fncs f) v tw); auto.
      * now apply (Forall2_nth _ _ _ Ht _ _ _ Nv N).
      * intros x u Hin. apply (Hf x u). eapply in_field; eauto.
  - destruct Hi as (-> & kt & e & U & Hka & Hva).
    destruct (_ || _) eqn:W; [discriminate|]. apply orb_false_iff in W as [W1 W2]. apply Z.eqb_neq in W1, W2.
    destruct (image_entries (image env ln n) ka va (match o with Some es => es | None => [] end)) as [l|] eqn:E; [|discriminate].
    injection H as <-. cbn [wf].
    assert (B1 : is_u8 (wire_type ka)).
    { pose proof (wire_value ka W1) as Hv. unfold is_u8. cbn in Hv.
      repeat (destruct Hv as [<-|Hv]; [lia|]). contradiction. }
    assert (B2 : is_u8 (wire_type va)).
    { pose proof (wire_value va W2) as Hv. unfold is_u8. cbn in Hv.
      repeat (destruct Hv as [<-|Hv]; [lia|]). contradiction. }
    destruct o as [es|]; [|cbn in E; injection E as <-; auto].
    apply type_map in Ht as (k' & e' & U' & Ht). rewrite U in U'. injection U' as <- <-.
    assert (L : zlen l = zlen es).
    { clear -E. revert l E. induction es as [|[k v] r IHr]; intros l E; cbn [image_entries] in E; [now injection E as <-|].
      destruct (image env ln n ka k), (image env ln n va v), (image_entries (image env ln n) ka va r); try discriminate.
      injection E as <-. now rewrite !zlen_cons, (IHr _ eq_refl). }
    split; [rewrite L; exact H0|]. split; [exact B1|]. split; [exact B2|]. clear L H0.
    assert (Hk : forall k w x u, In (k, w) es -> inside env k kt x u -> inside env (GMap (Some es)) t x u)
      by (intros; eapply in_key; eauto).
    assert (Hw : forall k w x u, In (k, w) es -> inside env w e x u -> inside env (GMap (Some es)) t x u)
      by (intros; eapply in_val; eauto).
    revert Hk Hw. generalize (GMap (Some es)) at 1 2. intros g Hk Hw.
    assert (Hg : fits env lim (GMap (Some es)) t) by exact Hf.
    assert (Hfk : forall k w, In (k, w) es -> fits env lim k kt).
    { intros k w Hin x u Hx. apply (Hf x u). eapply in_key; eauto. }
    assert (Hfw : forall k w, In (k, w) es -> fits env lim w e).
    { intros k w Hin x u Hx. apply (Hf x u). eapply in_val; eauto. }
    clear Hk Hw Hg Hf g. revert l E. induction es as [|[k w] r IHr]; intros l E; cbn [image_entries] in E.
    { injection E as <-. exact I. }
    destruct (image env ln n ka k) as [tk|] eqn:Ek; [|discriminate].
    destruct (image env ln n va w) as [tw|] eqn:Ew; [|discriminate].
    destruct (image_entries (image env ln n) ka va r) as [l'|] eqn:Er; [|discriminate]. injection E as <-.
    inversion_clear Ht as [|? ? [Hv1 Hv2] Hl]. cbn [fst snd] in *.
    split; [|apply IHr; auto; intros; [eapply Hfk|eapply Hfw]; right; eauto].
    conj; eauto using image_type.
    + apply (IH kt ka k tk); auto. apply (Hfk k w). now left.
    + apply (IH e va w tw); auto. apply (Hfw k w). now left.
  - destruct Hi as (-> & e & U & B & Hea & Hset).
    destruct (wire_type ea =? T_Stop) eqn:W; [discriminate|]. apply Z.eqb_neq in W.
    destruct (image_elems (image env ln n) ea es) as [l|] eqn:E; [|discriminate].
    apply type_slice in Ht as (e' & U' & _ & _ & Ht & _). rewrite U in U'. injection U' as <-.
    assert (L : zlen l = zlen es).
    { clear -E. revert l E. induction es as [|v r IHr]; intros l E; cbn [image_elems] in E; [now injection E as <-|].
      destruct (image env ln n ea v), (image_elems (image env ln n) ea r); try discriminate.
      injection E as <-. now rewrite !zlen_cons, (IHr _ eq_refl). }
    assert (Hfw : forall w, In w es -> fits env lim w e).
    { intros w Hin x u Hx. apply (Hf x u). eapply in_slice; eauto. }
    assert (G : (fix elems (es : list tval) : Prop :=
         match es with
         | [] => True
         | v :: r => (val_type v = wire_type ea /\ wf lim v) /\ elems r
         end) l).
    { clear L H0 Hf H. revert l E. induction es as [|w r IHr]; intros l E; cbn [image_elems] in E.
      { injection E as <-. exact I. }
      destruct (image env ln n ea w) as [tw|] eqn:Ew; [|discriminate].
      destruct (image_elems (image env ln n) ea r) as [l'|] eqn:Er; [|discriminate]. injection E as <-.
      inversion_clear Ht as [|? ? Hv Hl].
      split; [|apply IHr; auto; intros; apply Hfw; now right].
      split; eauto using image_type. apply (IH e ea w tw); auto. apply Hfw. now left. }
    assert (L' : zlen l < lim) by (rewrite L; exact H0).
    injection H as <-. destruct set; cbn [wf]; auto using wire_value.
  - destruct Hi as (-> & e & U & Hea). assert (Et : elem_type env t = e) by (unfold elem_type; now rewrite U). rewrite Et in H.
    destruct o as [w|].
    + apply (IH e ea w tv); auto.
      * cbn [has_type] in Ht. rewrite U in Ht. exact Ht.
      * intros x u Hin. apply (Hf x u). eapply in_ptr; eauto.
    + apply (IH e ea (zero env e) tv); auto; [apply (zero_typed env Henv)|now apply zero_fits].
Qed.
End Wf.

Section More.
Context (env : tenv).

Lemma decode_more2 n : forall m ln ln' a dst tv r, (n <= m)%nat -> (ln <= ln')%nat ->
  decode env ln n a dst tv = Some r -> decode env ln' m a dst tv = Some r.
Proof.
  induction n as [|n IH]; intros m ln ln' a dst tv r Hm Hl H; [discriminate|].
  destruct m as [|m]; [lia|].
  assert (R : forall a d tv r, decode env ln n a d tv = Some r -> decode env ln' m a d tv = Some r)
    by (intros; eapply IH; eauto; lia).
  destruct a as [t|t|t single|t w|t w|t|t|t|t|t ka va|t set ea|t ea]; cbn [decode] in *; try exact H.
  - destruct (make_struct_fields env ln t) as [[fs|e]|] eqn:M; try discriminate;
      rewrite (make_fields_more env ln ln' _ _ Hl M); try exact H.
    destruct tv; try exact H. destruct dst; try exact H.
    destruct (Nat.ltb_spec (length fields) (S n)); [|discriminate].
    destruct (Nat.ltb_spec (length fields) (S m)); [|lia].
    apply (decode_fields_more _ _ R n m); [lia|exact H].
  - destruct tv; try exact H. destruct dst; try exact H. destruct entries as [|e0 r0]; [exact H|].
    destruct (decode_entries _ (decode env ln n) _ _ _ _ _) as [[es e]|] eqn:E; [|discriminate].
    erewrite decode_entries_more by eauto. exact H.
  - destruct (match tv, set with VSet _ tes, true | VList _ tes, false => Some tes | _, _ => None end) as [tes|]; [|exact H].
    destruct dst; try exact H. destruct tes; [exact H|]. eapply decode_elems_more; eauto.
  - destruct dst; try exact H. destruct (decode env ln n ea _ tv) as [[v e]|] eqn:E; [|discriminate].
    now rewrite (R _ _ _ _ E).
Qed.

(** [i] passes the value [v] of type [t] to Marshal: by itself, or by a pointer
    (whose type may be a defined one). *)
Definition passes (i : rtype * gval) (t : rtype) (v : gval) : Prop :=
  (exists pt, under env pt = RtPtr t /\ i = (pt, GPtr (Some v))) \/ (is_ptr env t = false /\ i = (t, v)).

Lemma Marshal_passes ln n i t v a : passes i t v -> lookup env ln t = Some a ->
  Marshal env ln n (Some i) = marshal env ln n a v.
Proof.
  intros [(pt & Hu & ->)|[Hp ->]] L; cbn [Marshal].
  - unfold is_ptr, elem_type. rewrite Hu, L. reflexivity.
  - rewrite Hp, L. reflexivity.
Qed.

Lemma Unmarshal_ptr {S} (h : handler wireR S) ln n t v a s : lookup env ln t = Some a ->
  run h (Unmarshal env ln n (Some (RtPtr t, GPtr (Some v)))) s =
  obind (run h (unmarshal env ln n a v (wire_type a)) s) (fun s' r => Done s' (Some (fst r), snd r)).
Proof.
  intros L. cbn [Unmarshal]. unfold is_ptr, elem_type. cbn [under]. rewrite L, run_bind.
  destruct (run h _ s) as [s' [v' e]|c]; reflexivity.
Qed.

(** ** Unmarshal on a delivered value *)
Theorem bin_unmarshal strict size b ln n a dst tv r rest : 8 <= size -> binv size b -> wf (2 ^ 31) tv ->
  decode env ln n a dst tv = Some r -> sdata (abs b) = binary_encoding tv ++ rest ->
  exists b', run (over (bin_reader strict) (bufio_h size)) (unmarshal env ln n a dst (val_type tv)) (tt, b) = Done (tt, b') r /\
    binv size b' /\ (snd r = None -> abs b' = mkStream rest (sfin (abs b))).
Proof.
  intros Hs Hb Hwf Hd He.
  pose proof (layer_refines size (bin_reader strict) (unmarshal env ln n a dst (val_type tv)) tt b ltac:(lia) Hb
                (bin_reader_fok strict)) as H.
  destruct (abs b) as [d fi] eqn:Ea. cbn [sdata sfin] in *. subst d.
  destruct (unmarshal_reads env ln (over (bin_reader strict) (stream_h size)) n a dst tv r _ _ Hd (bin_reads strict size Hs tv rest fi Hwf)) as (s'' & E & L).
  rewrite E in H. destruct (run _ _ (tt, b)) as [[[] b'] x|c]; [|contradiction].
  destruct s'' as [[] str]. destruct H as (_ & -> & H1 & H2). exists b'. conj; auto.
  intros Hn. specialize (L Hn). injection L as ->. auto.
Qed.

Theorem cmp_unmarshal size b ln n a dst tv l r rest st e : 10 <= size -> binv size b -> wf (2 ^ 63) tv ->
  compact_enc wrap_field tv l -> cr_bool st = BNone ->
  decode env ln n a dst tv = Some r -> abs b = mkStream (l ++ rest) (FErr e) ->
  exists st' b', run (over cmp_reader (bufio_h size)) (unmarshal env ln n a dst (val_type tv)) (st, b) = Done (st', b') r /\
    binv size b' /\ (snd r = None -> st' = st /\ abs b' = mkStream rest (FErr e)).
Proof.
  intros Hs Hb Hwf Hl Hst Hd He.
  pose proof (layer_refines size cmp_reader (unmarshal env ln n a dst (val_type tv)) st b ltac:(lia) Hb
                (fun X e s => cmp_reader_fok _ X e s tw_read_uvarint_fok)) as H.
  rewrite He in H. rewrite <- decode_canon in Hd.
  destruct (unmarshal_reads env ln (over cmp_reader (stream_h size)) n a dst (canon tv) r _ _ Hd
              (cmp_reads_canon size e tv l rest st Hs Hwf Hl Hst)) as (s'' & E & L).
  rewrite canon_val_type in E.
  rewrite E in H. destruct (run _ _ (st, b)) as [[st' b'] x|c]; [|contradiction].
  destruct s'' as [st1 str]. destruct H as (-> & -> & H1 & H2). exists st1, b'. conj; auto.
  intros Hn. specialize (L Hn). injection L as -> ->. auto.
Qed.
End More.

(** ** The round trip *)
Section RT.
Context (env : tenv) (P : rtype -> Prop) (Henv : env_ok env) (Hids : unique_ids env) (Hsup : supported env P).

Lemma image_exists t v : P t -> has_type env v t -> keys_distinct env v t ->
  exists N a tv v', trip env t v v' /\ codec env t a /\
    forall ln n, (N <= ln)%nat -> (N <= n)%nat ->
      lookup env ln t = Some a /\ image env ln n a v = Some tv /\
      decode env ln n a (zero env t) tv = Some (v', None).
Proof using Henv Hids Hsup.
  intros Pt Ht Hk. destruct (lookup_ends env t (sup_eager env P Hsup t Pt)) as (a & l0 & Hl0).
  assert (Hc : codec env t a) by (now exists l0).
  destruct (image_total env P Hsup Henv v t a Pt Hc Ht) as (n & tv & E).
  destruct (decode_image env n Henv Hids n t a v tv Hc Ht Hk E) as (m & v' & D & T).
  exists (l0 + n + m)%nat, a, tv, v'. conj; auto. intros ln n' H1 H2. conj.
  - apply (lookup_more env l0); [lia|exact Hl0].
  - eapply image_more; [| |exact E]; lia.
  - eapply decode_more2; [| |exact D]; lia.
Qed.

Theorem bin_arshal_trip sw sr wsize rsize s t v i : 0 < wsize -> 8 <= rsize -> ok_sink s -> received s = [] ->
  P t -> has_type env v t -> keys_distinct env v t -> fits env (2 ^ 31) v t -> passes env i t v ->
  exists N v', trip env t v v' /\
    forall n, (N <= n)%nat -> exists b,
      run (over (bin_writer sw) (bufw_h wsize)) (Marshal env n n (Some i) >>! call WFlush) (tt, new_bwriter s)
        = Done (tt, b) None /\
      forall src rest n', good_source src -> src_bytes src = received (wsink b) ++ rest -> (N <= n')%nat ->
        exists b',
          run (over (bin_reader sr) (bufio_h rsize))
              (Unmarshal env n' n' (Some (RtPtr t, GPtr (Some (zero env t))))) (tt, new_breader src)
            = Done (tt, b') (Some v', None) /\
          binv rsize b' /\ abs b' = mkStream rest (src_fin src).
Proof using Henv Hids Hsup.
  intros Hw Hr Hs He Pt Ht Hk Hf Hp.
  destruct (image_exists t v Pt Ht Hk) as (N & a & tv & v' & T & Hc & HN).
  assert (Hwf : wf (2 ^ 31) tv).
  { destruct (HN N N (le_n _) (le_n _)) as (_ & E & _). now apply (image_wf env N Henv (2 ^ 31) N ltac:(lia) t a v). }
  exists N, v'. split; [exact T|]. intros n Hn. destruct (HN n n Hn Hn) as (L & E & _).
  assert (W : run (over (bin_writer sw) mem_h) (Marshal env n n (Some i)) (tt, received s)
      = Done (tt, received s ++ binary_encoding tv) None).
  { rewrite (Marshal_passes env n n i t v a Hp L).
    pose proof (marshal_image env n _ _ eq (bin_nameless sw) n a v tv (tt, received s) (tt, received s) E eq_refl) as M.
    rewrite bin_write_val in M. destruct (run _ _ _) as [s1 [e|]|c]; cbn in M; try tauto; try (destruct M; discriminate).
    now destruct M as [-> _]. }
  destruct (bin_write_any wsize sw s _ _ Hw Hs W) as (b & E0 & R). rewrite He in R. cbn [app] in R.
  exists b. split; [exact E0|]. intros src rest n' Hg Hb Hn'. rewrite R in Hb.
  destruct (HN n' n' Hn' Hn') as (L' & _ & D). rewrite (Unmarshal_ptr env _ n' n' t _ a _ L').
  rewrite <- (image_type env n n a v tv E).
  destruct (bin_unmarshal env sr rsize (new_breader src) n' n' a _ tv _ rest Hr (binv_new rsize src ltac:(lia) Hg) Hwf D) as (b' & E' & H1 & H2).
  { rewrite abs_new. exact Hb. }
  exists b'. rewrite E'. cbn [obind fst snd]. conj; auto.
Qed.

Theorem cmp_arshal_trip wsize rsize s t v i : 0 < wsize -> 10 <= rsize -> ok_sink s -> received s = [] ->
  P t -> has_type env v t -> keys_distinct env v t -> fits env (2 ^ 63) v t -> passes env i t v ->
  exists N v', trip env t v v' /\
    forall n, (N <= n)%nat -> exists b cw,
      run (over cmp_writer (bufw_h wsize)) (Marshal env n n (Some i) >>! call WFlush) (cw0, new_bwriter s)
        = Done (cw, b) None /\
      forall src rest n' e cr, good_source src -> src_bytes src = received (wsink b) ++ rest -> src_fin src = FErr e ->
        cr_bool cr = BNone -> (N <= n')%nat ->
        exists b',
          run (over cmp_reader (bufio_h rsize))
              (Unmarshal env n' n' (Some (RtPtr t, GPtr (Some (zero env t))))) (cr, new_breader src)
            = Done (cr, b') (Some v', None) /\
          binv rsize b' /\ abs b' = mkStream rest (src_fin src).
Proof using Henv Hids Hsup.
  intros Hw Hr Hs He Pt Ht Hk Hf Hp.
  destruct (image_exists t v Pt Ht Hk) as (N & a & tv & v' & T & Hc & HN).
  assert (Hwf : wf (2 ^ 63) tv).
  { destruct (HN N N (le_n _) (le_n _)) as (_ & E & _). now apply (image_wf env N Henv (2 ^ 63) N ltac:(lia) t a v). }
  exists N, v'. split; [exact T|]. intros n Hn. destruct (HN n n Hn Hn) as (L & E & _).
  destruct (cmp_write_val wrap_field (fun _ _ => True) (fun last id t Hid _ _ => field_hdr_wrap last id t Hid) tv Hwf (steps_true tv) cw0 (received s) eq_refl)
    as (l & bb & Hl & _ & Wv).
  assert (W : exists st, run (over cmp_writer mem_h) (Marshal env n n (Some i)) (cw0, received s)
      = Done (st, received s ++ l) None).
  { rewrite (Marshal_passes env n n i t v a Hp L).
    pose proof (marshal_image env n _ _ cw_sim cmp_nameless n a v tv (cw0, received s) (cw0, received s) E) as M.
    assert (R0 : cw_sim (cw0, received s) (cw0, received s)) by (unfold cw_sim; cbn; auto 10).
    specialize (M R0). rewrite Wv in M. clear Wv. destruct (run _ _ _) as [[st m] [e|]|c]; cbn in M.
    - destruct M as [_ M]. discriminate M.
    - destruct M as [(M & _) _]. cbn in M. exists st. now rewrite M.
    - contradiction. }
  destruct W as (st & W).
  destruct (cmp_write_any wsize s cw0 st _ _ Hw Hs W) as (b & E0 & R). rewrite He in R. cbn [app] in R.
  exists b, st. split; [exact E0|]. intros src rest n' e cr Hg Hb Hfin Hcr Hn'. rewrite R in Hb.
  destruct (HN n' n' Hn' Hn') as (L' & _ & D). rewrite (Unmarshal_ptr env _ n' n' t _ a _ L').
  rewrite <- (image_type env n n a v tv E).
  destruct (cmp_unmarshal env rsize (new_breader src) n' n' a _ tv l _ rest cr e Hr (binv_new rsize src ltac:(lia) Hg) Hwf Hl Hcr D) as (st' & b' & E' & H1 & H2).
  { rewrite abs_new, Hb, Hfin. reflexivity. }
  destruct H2 as [-> H2]; [reflexivity|].
  exists b'. rewrite E'. cbn [obind fst snd]. rewrite Hfin. conj; auto.
Qed.
End RT.
