(** Message headers cut off, and the compact protocol. *)
From Verif Require Import Base BaseLemmas Prog Bufio GoBinary GoBinaryProof Wire WireProof Spec Clients Reads Binary BinaryProof
  Compact CompactProof RoundTrip PartsSpec PartsRun PartsProof.

(** ** Binary messages *)
Section BinMsg.
Variable size : Z.
Hypothesis Hsize : 10 <= size.
Variable e : err.
Notation fin := (FErr e).
Notation sh := (stream_h size).

Lemma version_word_read t rest : exists n,
  run sh bin_read_i32 (mkStream ([x80; x01; x00; t] ++ rest) fin) = Done (mkStream rest fin) (n, None) /\
  (n <? 0) = true /\ (Z.land n versionMask =? bin_version1) = true.
Proof using Hsize.
  unfold bin_read_i32. rewrite run_bind, next_ok by (rewrite ?zlen_app; change (zlen [x80; x01; x00; t]) with 4; pose proof (zlen_nonneg rest); lia).
  cbn [obind run]. change (Z.to_nat 4) with 4%nat. cbn [firstn skipn app]. eexists. split; [reflexivity|].
  destruct t; vm_compute; auto.
Qed.

Lemma name_id_cut (F : list byte -> Z -> mhdr) name id d q : is_i32 (zlen name) ->
  d ++ q = bytes_of [Part (big_endian 4 (zlen name)); Body name; Part (big_endian 4 id)] -> q <> [] ->
  exists s' x er, run sh ('(nm, eo) <- bin_read_string ;;
      match eo with Some _ => Ret (F nm 0, eo) | None => '(i, eo) <- bin_read_i32 ;; Ret (F nm i, eo) end) (mkStream d fin)
    = Done s' (x, Some er) /\
    cut_off false e [Part (big_endian 4 (zlen name)); Body name; Part (big_endian 4 id)] d er.
Proof using Hsize.
  intros Hn E Hq. change [Part ?a; Body ?b; Part ?c] with ([Part a; Body b] ++ [Part c]) in *.
  rewrite bytes_of_app in E. rewrite run_bind.
  destruct (cut_where _ _ _ _ E Hq) as [(q' & Hq' & E')|(d' & -> & E')].
  - destruct (bin_string_cut size Hsize e name Hn d q' E' Hq') as ((s1 & y1 & er1 & R1 & C1) & _).
    rewrite R1. cbn [obind run]. do 3 eexists. split; [reflexivity|]. now apply cut_app_l.
  - cbn [bytes_of flat_map pbytes] in E'. rewrite app_nil_r in E'.
    assert (R : run sh bin_read_string (mkStream (bytes_of [Part (big_endian 4 (zlen name)); Body name] ++ d') fin)
      = Done (mkStream d' fin) (name, None)).
    { cbn [bytes_of flat_map pbytes]. rewrite app_nil_r, <- app_assoc. unfold bin_read_string, bin_read_size.
      rewrite run_bind, read_i32_ok by (assumption || lia). cbn [obind].
      rewrite read_string_spec by lia. now rewrite bytes_spec_app. }
    rewrite R. cbn [obind]. rewrite run_bind, (read_i32_cut size Hsize e d' q id E' Hq). cbn [obind run].
    do 3 eexists. split; [reflexivity|]. apply cut_app_r. exact (cut_one _ _ _ _ _ E' Hq).
Qed.

Theorem strict_message_cut strict name mtype id d q : zlen name < 2 ^ 31 ->
  d ++ q = bytes_of (binary_strict_parts name mtype id) -> q <> [] ->
  exists s' x er, run sh (bin_read_message_begin strict) (mkStream d fin) = Done s' (x, Some er) /\
    cut_off false e (binary_strict_parts name mtype id) d er.
Proof using Hsize.
  intros Hn E Hq. assert (is_i32 (zlen name)) by (unfold is_i32; pose proof (zlen_nonneg name); lia).
  unfold binary_strict_parts in *. cbn [bytes_of flat_map] in E. fold (bytes_of [Part (big_endian 4 (zlen name)); Body name; Part (big_endian 4 id)]) in E.
  cbn [pbytes] in E. unfold bin_read_message_begin, bin_read_size.
  destruct (cut_where _ _ _ _ E Hq) as [(q' & Hq' & E')|(d' & -> & E')].
  - pose proof (next_cut size e 4 d q' _ E' Hq' eq_refl ltac:(lia)) as R.
    rewrite run_bind. unfold bin_read_i32 at 1. rewrite run_bind, R. cbn [obind run].
    do 3 eexists. split; [reflexivity|]. apply cut_cons_l. exact (cut_one _ _ _ _ _ E' Hq').
  - destruct (version_word_read (z2b mtype) d') as (n & R & Ln & Lv).
    rewrite run_bind, R. cbn [obind]. rewrite Ln, Lv. cbn [negb].
    destruct (name_id_cut (fun nm i => mkMH nm (u8 n) i) name id d' q H E' Hq) as (s' & x & er & R2 & C).
    rewrite R2. do 3 eexists. split; [reflexivity|]. now apply (cut_cons_r false e (Part _)).
Qed.

Theorem old_message_cut name mtype id d q : zlen name < 2 ^ 31 -> is_u8 mtype ->
  d ++ q = bytes_of (binary_old_parts name mtype id) -> q <> [] ->
  exists s' x er, run sh (bin_read_message_begin false) (mkStream d fin) = Done s' (x, Some er) /\
    cut_off false e (binary_old_parts name mtype id) d er.
Proof using Hsize.
  intros Hn Hm E Hq. assert (is_i32 (zlen name)) by (unfold is_i32; pose proof (zlen_nonneg name); lia).
  unfold binary_old_parts in *. cbn [bytes_of flat_map pbytes] in E. rewrite app_nil_r in E.
  unfold bin_read_message_begin, bin_read_size.
  destruct (cut_where _ _ _ _ E Hq) as [(q' & Hq' & E')|(d1 & -> & E1)].
  - rewrite run_bind, (read_i32_cut size Hsize e d q' _ E' Hq'). cbn [obind run].
    do 3 eexists. split; [reflexivity|]. apply cut_cons_l. exact (cut_one _ _ _ _ _ E' Hq').
  - rewrite run_bind, read_i32_ok by (assumption || lia). cbn [obind].
    pose proof (zlen_nonneg name). destruct (Z.ltb_spec (zlen name) 0); [lia|].
    destruct (cut_where _ _ _ _ E1 Hq) as [(q' & Hq' & E')|(d2 & -> & E2)].
    + rewrite run_bind, (read_string_cut size Hsize e d1 q' name E' Hq'). cbn [obind run].
      do 3 eexists. split; [reflexivity|]. apply (cut_cons_r false e (Part _)). apply cut_cons_l. exact (cut_one_body _ _ _ _ _ E' Hq').
    + rewrite run_bind, read_string_spec, bytes_spec_app by (reflexivity || lia). cbn [obind app].
      destruct (cut_where _ _ _ _ E2 Hq) as [(q' & Hq' & E')|(d3 & -> & E3)].
      * rewrite run_bind, (read_type_cut size e d2 q' _ E' Hq'). cbn [obind run].
        do 3 eexists. split; [reflexivity|]. apply (cut_cons_r false e (Part _)), (cut_cons_r false e (Body _)), cut_cons_l.
        exact (cut_one _ _ _ _ _ E' Hq').
      * cbn [app]. rewrite run_bind, read_type_ok by exact Hm. cbn [obind].
        rewrite run_bind, (read_i32_cut size Hsize e d3 q _ E3 Hq). cbn [obind run].
        do 3 eexists. split; [reflexivity|].
        apply (cut_cons_r false e (Part _)), (cut_cons_r false e (Body _)), (cut_cons_r false e (Part [z2b mtype])).
        exact (cut_one _ _ _ _ _ E3 Hq).
Qed.
End BinMsg.

(** ** Compact: the parts are the encoding *)
Lemma field_parts_bytes last id t ps : compact_field_parts last id t ps -> compact_field last id t (bytes_of ps).
Proof. intros [H|l H U]; cbn [bytes_of flat_map pbytes app]; rewrite ?app_nil_r; [now constructor 1|now constructor 2]. Qed.
Lemma seq_parts_bytes n t ps : compact_seq_parts n t ps -> compact_seq n t (bytes_of ps).
Proof. intros [H|l H U]; cbn [bytes_of flat_map pbytes app]; rewrite ?app_nil_r; [now constructor 1|now constructor 2]. Qed.
Lemma map_parts_bytes n k v ps : compact_map_parts n k v ps -> compact_map n k v (bytes_of ps).
Proof. intros [H|l H U]; cbn [bytes_of flat_map pbytes app]; rewrite ?app_nil_r; [now constructor 1|now constructor 2]. Qed.

Scheme cp_m := Minimality for compact_parts Sort Prop
  with cfp_m := Minimality for compact_fields_parts Sort Prop
  with cvp_m := Minimality for compact_value_parts Sort Prop
  with cep_m := Minimality for compact_elems_parts Sort Prop
  with cnp_m := Minimality for compact_entries_parts Sort Prop.
Combined Scheme cp_mut from cp_m, cfp_m, cvp_m, cep_m, cnp_m.

Lemma parts_bytes :
  (forall v ps, compact_parts v ps -> compact_encoding v (bytes_of ps)) /\
  (forall last fs ps, compact_fields_parts last fs ps -> compact_fields compact_field last fs (bytes_of ps)) /\
  (forall v ps, compact_value_parts v ps -> compact_field_value compact_field v (bytes_of ps)) /\
  (forall es ps, compact_elems_parts es ps -> compact_elems compact_field es (bytes_of ps)) /\
  (forall es ps, compact_entries_parts es ps -> compact_entries compact_field es (bytes_of ps)).
Proof.
  apply cp_mut; intros; rewrite ?bytes_of_app; cbn [bytes_of flat_map pbytes app]; rewrite ?app_nil_r;
    try (constructor; auto using field_parts_bytes, seq_parts_bytes, map_parts_bytes; fail).
Qed.

Lemma field_parts_of last id t l : compact_field last id t l -> exists ps, compact_field_parts last id t ps /\ bytes_of ps = l.
Proof. intros [H|m H U]; eexists; (split; [constructor; eassumption|]); cbn [bytes_of flat_map pbytes app]; now rewrite ?app_nil_r. Qed.
Lemma seq_parts_of n t l : compact_seq n t l -> exists ps, compact_seq_parts n t ps /\ bytes_of ps = l.
Proof. intros [H|m H U]; eexists; (split; [constructor; eassumption|]); cbn [bytes_of flat_map pbytes app]; now rewrite ?app_nil_r. Qed.
Lemma map_parts_of n k v l : compact_map n k v l -> exists ps, compact_map_parts n k v ps /\ bytes_of ps = l.
Proof. intros [H|m H U]; eexists; (split; [constructor; eassumption|]); cbn [bytes_of flat_map pbytes app]; now rewrite ?app_nil_r. Qed.

Lemma elems_parts_of es : Forall (fun v => forall l, compact_enc compact_field v l -> exists ps, compact_parts v ps /\ bytes_of ps = l) es ->
  forall l, compact_elems compact_field es l -> exists ps, compact_elems_parts es ps /\ bytes_of ps = l.
Proof.
  induction 1 as [|v r Hv Hr IHr]; intros l H.
  - inversion H; subst. eexists. split; [constructor|reflexivity].
  - inversion H as [|? ? lv lr Ev Er]; subst. destruct (Hv _ Ev) as (pa & Ca & <-). destruct (IHr _ Er) as (pc & Cc & <-).
    exists (pa ++ pc). split; [now constructor|]. now rewrite !bytes_of_app.
Qed.

Lemma parts_of v : forall l, compact_encoding v l -> exists ps, compact_parts v ps /\ bytes_of ps = l.
Proof.
  unfold compact_encoding.
  induction v as [b|b|z|z|z|z|x|u|fs IH|kt vt es IH|et es IH|et es IH] using tval_ind'; intros l H.
  1-8: inversion H; subst; eexists; (split; [constructor; eassumption|]); cbn [bytes_of flat_map pbytes app]; now rewrite ?app_nil_r.
  - inversion H as [| | | | | | | |? ? Hf| | |]; subst.
    enough (G : forall last, compact_fields compact_field last fs l -> exists ps, compact_fields_parts last fs ps /\ bytes_of ps = l).
    { destruct (G 0 Hf) as (ps & C & E). exists ps. split; [now constructor|exact E]. }
    clear H Hf. revert l. induction IH as [|[id v] r Hv Hr IHr]; intros l last H.
    + inversion H; subst. eexists. split; [constructor|reflexivity].
    + inversion H as [|? ? ? ? h lv m Hh Hl Hm]; subst. cbn [snd] in Hv. destruct (field_parts_of _ _ _ _ Hh) as (p1 & C1 & <-).
      destruct (IHr _ _ Hm) as (p3 & C3 & <-).
      assert (G : exists ps, compact_value_parts v ps /\ bytes_of ps = lv).
      { inversion Hl as [|? ? Ht Hx]; subst. { eexists. split; [constructor|reflexivity]. }
        destruct (Hv _ Hx) as (ps & C & E). exists ps. split; [now constructor|exact E]. }
      destruct G as (p2 & C2 & <-). exists (p1 ++ p2 ++ p3). split; [now constructor|]. now rewrite !bytes_of_app.
  - inversion H as [| | | | | | | | |? ? ? h m Hh Hm| |]; subst. destruct (map_parts_of _ _ _ _ Hh) as (p1 & C1 & <-).
    enough (G : exists ps, compact_entries_parts es ps /\ bytes_of ps = m).
    { destruct G as (p2 & C2 & <-). exists (p1 ++ p2). split; [now constructor|]. now rewrite !bytes_of_app. }
    clear - Hm IH. revert m Hm. induction IH as [|[k v] r [Hk Hv] Hr IHr]; intros l H.
    + inversion H; subst. eexists. split; [constructor|reflexivity].
    + inversion H as [|? ? ? a b c Ha Hb Hc]; subst. cbn [fst snd] in *.
      destruct (Hk _ Ha) as (pa & Ca & <-). destruct (Hv _ Hb) as (pb & Cb & <-). destruct (IHr _ Hc) as (pc & Cc & <-).
      exists (pa ++ pb ++ pc). split; [now constructor|]. now rewrite !bytes_of_app.
  - inversion H as [| | | | | | | | | |? ? h m Hh Hm|]; subst. destruct (seq_parts_of _ _ _ Hh) as (p1 & C1 & <-).
    destruct (elems_parts_of es IH m Hm) as (p2 & C2 & <-). exists (p1 ++ p2). split; [now constructor|]. now rewrite !bytes_of_app.
  - inversion H as [| | | | | | | | | | |? ? h m Hh Hm]; subst. destruct (seq_parts_of _ _ _ Hh) as (p1 & C1 & <-).
    destruct (elems_parts_of es IH m Hm) as (p2 & C2 & <-). exists (p1 ++ p2). split; [now constructor|]. now rewrite !bytes_of_app.
Qed.

Lemma canon_elems_parts es : Forall (fun v => forall ps, compact_parts v ps -> compact_parts (canon v) ps) es ->
  forall ps, compact_elems_parts es ps -> compact_elems_parts (map canon es) ps.
Proof. induction 1 as [|v r Hv Hr IHr]; intros l H; inversion H; subst; cbn [map]; constructor; auto. Qed.

Lemma canon_parts v : forall ps, compact_parts v ps -> compact_parts (canon v) ps.
Proof.
  induction v as [b|b|z|z|z|z|x|u|fs IH|kt vt es IH|et es IH|et es IH] using tval_ind'; intros ps H.
  1-8: inversion H; subst; cbn [canon]; constructor; assumption.
  - inversion H as [| | | | | | | |? ? Hf| | |]; subst. cbn [canon]. constructor. clear H. revert Hf. generalize 0 as last. revert ps.
    induction IH as [|[id v] r Hv Hr IHr]; intros ps last H.
    + inversion H; subst. constructor.
    + inversion H as [|? ? ? ? h lv m Hh Hl Hm]; subst. cbn [map snd] in *. constructor; [now rewrite canon_field_type| |now apply IHr].
      inversion Hl as [|? ? Ht Hx]; subst; [constructor|]. constructor; [now rewrite canon_val_type|auto].
  - inversion H as [| | | | | | | | |? ? ? h m Hh Hm| |]; subst.
    assert (G : compact_entries_parts (map (fun e => (canon (fst e), canon (snd e))) es) m).
    { clear - Hm IH. revert m Hm. induction IH as [|[k v] r [Hk Hv] Hr IHr]; intros l H; inversion H; subst; cbn [map fst snd] in *; constructor; auto. }
    destruct es as [|e0 r0].
    + cbn [canon]. constructor; [|exact G]. inversion Hh; subst; [now constructor|]. cbn in *. lia.
    + cbn [canon]. constructor.
      * rewrite zlen_map. exact Hh.
      * revert G. generalize (e0 :: r0) as es. intros es G. erewrite map_ext; [exact G|]. intros [k v]. reflexivity.
  - inversion H as [| | | | | | | | | |? ? h m Hh Hm|]; subst. cbn [canon]. constructor; [now rewrite zlen_map|now apply canon_elems_parts].
  - inversion H as [| | | | | | | | | | |? ? h m Hh Hm]; subst. cbn [canon]. constructor; [now rewrite zlen_map|now apply canon_elems_parts].
Qed.
