(** Where the data is cut off and what is said about it. *)
From Verif Require Import Base BaseLemmas Prog Bufio GoBinary GoBinaryProof Wire WireProof Spec Clients Reads Binary BinaryProof
  Compact CompactProof RoundTrip PartsSpec PartsRun.

(** ** Cuts *)
Lemma bytes_of_app a b : bytes_of (a ++ b) = bytes_of a ++ bytes_of b.
Proof. apply flat_map_app. Qed.

Lemma cut_app_l sk e P Q d er : cut_off sk e P d er -> cut_off sk e (P ++ Q) d er.
Proof. intros H. inversion H; subst; rewrite <- app_assoc; cbn [app]; constructor; assumption. Qed.

Lemma cut_app_r sk e P Q d er : cut_off sk e Q d er -> cut_off sk e (P ++ Q) (bytes_of P ++ d) er.
Proof.
  intros H. inversion H; subst; rewrite ?app_assoc, <- bytes_of_app; rewrite <- ?app_assoc; rewrite app_assoc; constructor; assumption.
Qed.

Lemma cut_cons_l sk e p Q d er : cut_off sk e [p] d er -> cut_off sk e (p :: Q) d er.
Proof. exact (cut_app_l sk e [p] Q d er). Qed.

Lemma cut_cons_r sk e p Q d er : cut_off sk e Q d er -> cut_off sk e (p :: Q) (pbytes p ++ d) er.
Proof. intros H. apply (cut_app_r sk e [p] Q) in H. cbn [bytes_of flat_map app] in H. now rewrite app_nil_r in H. Qed.

(** A cut lies in the first part or behind it. *)
Lemma cut_where {A} (d q a b : list A) : d ++ q = a ++ b -> q <> [] ->
  (exists q', q' <> [] /\ d ++ q' = a) \/ (exists d', d = a ++ d' /\ d' ++ q = b).
Proof.
  revert d. induction a as [|x a IH]; intros d E Hq.
  - right. exists d. auto.
  - destruct d as [|y d].
    + left. exists (x :: a). split; [discriminate|reflexivity].
    + cbn in E. injection E as -> E. destruct (IH d E Hq) as [(q' & Hq' & E')|(d' & -> & E')].
      * left. exists q'. split; [exact Hq'|]. cbn. now rewrite E'.
      * right. exists d'. auto.
Qed.

Definition stop (d : list byte) (e : err) : err := match d with [] => e | _ => unexpected e end.

Lemma short_stop d e : short_err d e = stop d e.
Proof.
  unfold short_err. destruct d as [|b d]; [reflexivity|].
  replace (0 <? zlen (b :: d)) with true by (symmetry; apply Z.ltb_lt; unfold zlen; cbn [length]; lia).
  destruct e; reflexivity.
Qed.

Lemma cut_one sk e p d q : d ++ q = p -> q <> [] -> cut_off sk e [Part p] d (stop d e).
Proof.
  intros <- Hq. destruct d as [|b d].
  - apply (cut_between sk e [] (Part q) []). exact Hq.
  - apply (cut_part sk e [] (b :: d) q []); [discriminate|exact Hq].
Qed.

Lemma cut_one_body sk e p d q : d ++ q = p -> q <> [] ->
  cut_off sk e [Body p] d (if sk then e else stop d e).
Proof.
  intros <- Hq. destruct d as [|b d].
  - replace (if sk then e else stop [] e) with e by (destruct sk; reflexivity).
    apply (cut_between sk e [] (Body q) []). exact Hq.
  - apply (cut_body sk e [] (b :: d) q []); [discriminate|exact Hq].
Qed.

Lemma cut_len {A} (d q p : list A) : d ++ q = p -> q <> [] -> zlen d < zlen p.
Proof. intros <- Hq. rewrite zlen_app. destruct q; [congruence|]. unfold zlen; cbn [length]; lia. Qed.

(** What is said is determined. *)
Lemma bytes_prefix_unique ps : forall a p b x a' p' b' x',
  ps = a ++ p :: b -> ps = a' ++ p' :: b' -> bytes_of a ++ x = bytes_of a' ++ x' ->
  (length x < length (pbytes p))%nat -> (length x' < length (pbytes p'))%nat ->
  a = a' /\ p = p' /\ x = x'.
Proof.
  induction ps as [|p0 ps IH]; intros a p b x a' p' b' x' E E' Ed Hx Hx'.
  - destruct a; discriminate.
  - destruct a as [|q a], a' as [|q' a']; cbn [app] in E, E'.
    + injection E as -> ->. injection E' as -> ->. cbn in Ed. auto.
    + injection E as -> ->. injection E' as -> E'. cbn [bytes_of flat_map app] in Ed. exfalso.
      apply (f_equal (@length byte)) in Ed. rewrite !app_length in Ed. lia.
    + injection E as -> E. injection E' as -> E'. cbn [bytes_of flat_map app] in Ed. exfalso.
      apply (f_equal (@length byte)) in Ed. rewrite !app_length in Ed. lia.
    + injection E as -> E. injection E' as -> E'. cbn [bytes_of flat_map] in Ed. rewrite <- !app_assoc in Ed.
      apply app_inv_head in Ed.
      destruct (IH a p b x a' p' b' x' E E' Ed Hx Hx') as (-> & -> & ->). auto.
Qed.

Lemma cut_off_view sk e ps d er : cut_off sk e ps d er <->
  exists a p b x, ps = a ++ p :: b /\ d = bytes_of a ++ x /\ (exists y, y <> [] /\ pbytes p = x ++ y) /\
    er = match p with Part _ => stop x e | Body _ => if sk then e else stop x e end.
Proof.
  split.
  - intros H. inversion H; subst.
    + exists a, p, b, []. rewrite app_nil_r. conj; auto.
      * exists (pbytes p). auto.
      * destruct p; [reflexivity|destruct sk; reflexivity].
    + exists a, (Part (x ++ y)), b, x. conj; auto. { exists y. auto. } destruct x; [congruence|reflexivity].
    + exists a, (Body (x ++ y)), b, x. conj; auto. { exists y. auto. } destruct x; [congruence|reflexivity].
  - intros (a & p & b & x & -> & -> & (y & Hy & Ep) & ->). destruct x as [|c x].
    + rewrite app_nil_r. cbn [stop]. replace (match p with Part _ => e | Body _ => if sk then e else e end) with e by (destruct p, sk; reflexivity).
      constructor. rewrite Ep. exact Hy.
    + destruct p as [l|l]; cbn [pbytes] in Ep; subst l.
      * apply cut_part; [discriminate|exact Hy].
      * apply cut_body; [discriminate|exact Hy].
Qed.

Theorem cut_off_fun sk e ps d er er' : cut_off sk e ps d er -> cut_off sk e ps d er' -> er = er'.
Proof.
  intros H H'. apply cut_off_view in H, H'.
  destruct H as (a & p & b & x & -> & -> & (y & Hy & Ep) & ->).
  destruct H' as (a' & p' & b' & x' & E' & Ed & (y' & Hy' & Ep') & ->).
  assert (L : (length x < length (pbytes p))%nat) by (rewrite Ep, app_length; destruct y; [congruence|cbn; lia]).
  assert (L' : (length x' < length (pbytes p'))%nat) by (rewrite Ep', app_length; destruct y'; [congruence|cbn; lia]).
  destruct (bytes_prefix_unique _ a p b x a' p' b' x' eq_refl E' Ed L L') as (-> & -> & ->). reflexivity.
Qed.

(** ** Binary *)
Lemma binary_parts_bytes v : bytes_of (binary_parts v) = binary_encoding v.
Proof.
  unfold bytes_of.
  induction v as [b|b|z|z|z|z|x|u|fs IH|kt vt es IH|et es IH|et es IH] using tval_ind';
    cbn [binary_parts binary_encoding]; rewrite ?flat_map_app; cbn [flat_map pbytes app]; rewrite ?app_nil_r; auto.
  - f_equal. induction IH as [|[id v] r Hv Hr IHr]; [reflexivity|]. cbn [flat_map snd] in *.
    rewrite !flat_map_app. cbn [flat_map pbytes app]. rewrite Hv, IHr. reflexivity.
  - do 3 f_equal. induction IH as [|[k v] r [Hk Hv] Hr IHr]; [reflexivity|]. cbn [flat_map fst snd] in *.
    rewrite !flat_map_app, Hk, Hv, IHr. reflexivity.
  - do 2 f_equal. induction IH as [|v r Hv Hr IHr]; [reflexivity|]. cbn [flat_map] in *.
    rewrite !flat_map_app, Hv, IHr. reflexivity.
  - do 2 f_equal. induction IH as [|v r Hv Hr IHr]; [reflexivity|]. cbn [flat_map] in *.
    rewrite !flat_map_app, Hv, IHr. reflexivity.
Qed.

Section Bin.
Variable size : Z.
Hypothesis Hsize : 10 <= size.
Variable sk : bool.
Variable e : err.
Notation fin := (FErr e).
Notation sh := (stream_h size).

Lemma next_cut n d q p : d ++ q = p -> q <> [] -> zlen p = n -> n <= size ->
  run sh (next n) (mkStream d fin) = Done (mkStream [] fin) (d, Some (stop d e)).
Proof using. intros E Hq Hp Hn. rewrite next_short by (pose proof (cut_len _ _ _ E Hq); lia). now rewrite short_stop. Qed.

Lemma byte_cut d q b : d ++ q = [b] -> q <> [] ->
  d = [] /\ run sh (call BReadByte) (mkStream d fin) = Done (mkStream [] fin) (x00, Some (stop d e)).
Proof using.
  intros E Hq. destruct d as [|x d]; [split; reflexivity|]. cbn in E. injection E as _ E.
  destruct d; [|discriminate]. cbn in E. congruence.
Qed.

Lemma read_type_cut d q b : d ++ q = [b] -> q <> [] ->
  run sh bin_read_type (mkStream d fin) = Done (mkStream [] fin) (b2z x00, Some (stop d e)).
Proof using.
  intros E Hq. destruct (byte_cut d q b E Hq) as [_ R]. unfold bin_read_type. rewrite run_bind, R. reflexivity.
Qed.

Lemma read_i32_cut d q z : d ++ q = big_endian 4 z -> q <> [] ->
  run sh bin_read_i32 (mkStream d fin) = Done (mkStream [] fin) (0, Some (stop d e)).
Proof using Hsize.
  intros E Hq. unfold bin_read_i32. rewrite run_bind, (next_cut 4 d q _ E Hq) by (rewrite ?zlen_big_endian; lia). reflexivity.
Qed.
Lemma read_i16_cut d q z : d ++ q = big_endian 2 z -> q <> [] ->
  run sh bin_read_i16 (mkStream d fin) = Done (mkStream [] fin) (0, Some (stop d e)).
Proof using Hsize.
  intros E Hq. unfold bin_read_i16. rewrite run_bind, (next_cut 2 d q _ E Hq) by (rewrite ?zlen_big_endian; lia). reflexivity.
Qed.
Lemma read_i64_cut d q z : d ++ q = big_endian 8 z -> q <> [] ->
  run sh bin_read_i64 (mkStream d fin) = Done (mkStream [] fin) (0, Some (stop d e)).
Proof using Hsize.
  intros E Hq. unfold bin_read_i64. rewrite run_bind, (next_cut 8 d q _ E Hq) by (rewrite ?zlen_big_endian; lia). reflexivity.
Qed.
Lemma read_double_cut d q z : d ++ q = big_endian 8 z -> q <> [] ->
  run sh bin_read_double (mkStream d fin) = Done (mkStream [] fin) (0, Some (stop d e)).
Proof using Hsize.
  intros E Hq. unfold bin_read_double. rewrite run_bind, (next_cut 8 d q _ E Hq) by (rewrite ?zlen_big_endian; lia). reflexivity.
Qed.

Lemma read_string_cut d q s : d ++ q = s -> q <> [] ->
  run sh (read_string (zlen s)) (mkStream d fin) = Done (mkStream [] fin) (d, Some (stop d e)).
Proof using Hsize.
  intros E Hq. pose proof (cut_len _ _ _ E Hq). pose proof (zlen_nonneg d).
  rewrite read_string_spec by lia. unfold bytes_spec.
  destruct (Z.ltb_spec (zlen s) 0); [lia|]. destruct (Z.leb_spec (zlen s) (zlen d)); [lia|].
  cbn [app]. now rewrite short_stop.
Qed.

Lemma discard_cut d q s n : d ++ q = s -> q <> [] -> n = zlen s ->
  sh _ (BDiscard n) (mkStream d fin) = Done (mkStream [] fin) (zlen d, Some e).
Proof using.
  intros E Hq ->. pose proof (cut_len _ _ _ E Hq). pose proof (zlen_nonneg d). cbn [stream_h sdata sfin].
  destruct (Z.ltb_spec (zlen s) 0); [lia|]. destruct (Z.leb_spec (zlen s) (zlen d)); [lia|]. reflexivity.
Qed.

Lemma uuid_cut d q u old : d ++ q = u -> q <> [] -> length u = 16%nat ->
  exists x, run sh (read_uuid old) (mkStream d fin) = Done (mkStream [] fin) (x, Some (stop d e)).
Proof using.
  intros E Hq Hu. pose proof (cut_len _ _ _ E Hq). unfold read_uuid. rewrite run_vis. cbn [stream_h sdata sfin].
  destruct (Z.leb_spec 16 (zlen d)); [unfold zlen in *; lia|]. cbn [obind run].
  eexists. rewrite <- short_stop. unfold short_err. destruct ((0 <? zlen d) && is_eof (Some e)); reflexivity.
Qed.

Lemma skip_uuid_cut d q u : d ++ q = u -> q <> [] -> length u = 16%nat ->
  run sh skip_uuid (mkStream d fin) = Done (mkStream [] fin) (Some e).
Proof using.
  intros E Hq Hu. unfold skip_uuid. rewrite run_vis, (discard_cut d q u) by (auto; unfold zlen; lia). reflexivity.
Qed.

(** The calls of more than one part. *)
Definition cut_by {X} (p : prog bufR (X * option err)) (ps : list part) : Prop :=
  forall d q, d ++ q = bytes_of ps -> q <> [] ->
  exists s' x er, run sh p (mkStream d fin) = Done s' (x, Some er) /\ cut_off sk e ps d er.

Lemma set_begin_cut t n : is_u8 t -> cut_by bin_read_set_begin [Part [z2b t]; Part (big_endian 4 n)].
Proof using Hsize.
  intros Ht d q E Hq. cbn [bytes_of flat_map pbytes] in E. rewrite app_nil_r in E. unfold bin_read_set_begin.
  destruct (cut_where _ _ _ _ E Hq) as [(q' & Hq' & E')|(d' & -> & E')].
  - rewrite run_bind, (read_type_cut d q' _ E' Hq'). cbn [obind run]. do 3 eexists. split; [reflexivity|].
    apply cut_cons_l. exact (cut_one _ _ _ _ _ E' Hq').
  - cbn [app]. rewrite run_bind, read_type_ok by exact Ht. cbn [obind]. unfold bin_read_size.
    rewrite run_bind, (read_i32_cut d' q _ E' Hq). cbn [obind run]. do 3 eexists. split; [reflexivity|].
    apply (cut_cons_r sk e (Part [z2b t])). exact (cut_one _ _ _ _ _ E' Hq).
Qed.

Lemma map_begin_cut k v n : is_u8 k -> is_u8 v ->
  cut_by bin_read_map_begin [Part [z2b k]; Part [z2b v]; Part (big_endian 4 n)].
Proof using Hsize.
  intros Hk Hv d q E Hq. cbn [bytes_of flat_map pbytes] in E. rewrite app_nil_r in E. unfold bin_read_map_begin.
  destruct (cut_where _ _ _ _ E Hq) as [(q' & Hq' & E')|(d' & -> & E')].
  - rewrite run_bind, (read_type_cut d q' _ E' Hq'). cbn [obind run]. do 3 eexists. split; [reflexivity|].
    apply cut_cons_l. exact (cut_one _ _ _ _ _ E' Hq').
  - cbn [app]. rewrite run_bind, read_type_ok by exact Hk. cbn [obind].
    destruct (cut_where _ _ _ _ E' Hq) as [(q' & Hq' & E2)|(d2 & -> & E2)].
    + rewrite run_bind, (read_type_cut d' q' _ E2 Hq'). cbn [obind run]. do 3 eexists. split; [reflexivity|].
      apply (cut_cons_r sk e (Part [z2b k])). apply cut_cons_l. exact (cut_one _ _ _ _ _ E2 Hq').
    + cbn [app]. rewrite run_bind, read_type_ok by exact Hv. cbn [obind]. unfold bin_read_size.
      rewrite run_bind, (read_i32_cut d2 q _ E2 Hq). cbn [obind run]. do 3 eexists. split; [reflexivity|].
      apply (cut_cons_r sk e (Part [z2b k])), (cut_cons_r sk e (Part [z2b v])). exact (cut_one _ _ _ _ _ E2 Hq).
Qed.

Lemma field_begin_cut t id : is_u8 t -> t <> 0 -> cut_by bin_read_field_begin [Part [z2b t]; Part (big_endian 2 id)].
Proof using Hsize.
  intros Ht Ht0 d q E Hq. cbn [bytes_of flat_map pbytes] in E. rewrite app_nil_r in E. unfold bin_read_field_begin.
  destruct (cut_where _ _ _ _ E Hq) as [(q' & Hq' & E')|(d' & -> & E')].
  - rewrite run_bind, (read_type_cut d q' _ E' Hq'). cbn [obind run is_none negb orb]. do 3 eexists. split; [reflexivity|].
    apply cut_cons_l. exact (cut_one _ _ _ _ _ E' Hq').
  - cbn [app]. rewrite run_bind, read_type_ok by exact Ht. cbn [obind is_none negb orb].
    change T_Stop with 0. destruct (Z.eqb_spec t 0); [lia|].
    rewrite run_bind, (read_i16_cut d' q _ E' Hq). cbn [obind run]. do 3 eexists. split; [reflexivity|].
    apply (cut_cons_r sk e (Part [z2b t])). exact (cut_one _ _ _ _ _ E' Hq).
Qed.

Lemma stop_field_cut : cut_by bin_read_field_begin [Part [x00]].
Proof using.
  intros d q E Hq. cbn [bytes_of flat_map pbytes app] in E. unfold bin_read_field_begin.
  rewrite run_bind, (read_type_cut d q _ E Hq). cbn [obind run is_none negb orb]. do 3 eexists. split; [reflexivity|].
  exact (cut_one _ _ _ _ _ E Hq).
Qed.

Lemma bin_string_cut s : is_i32 (zlen s) -> forall d q, d ++ q = bytes_of [Part (big_endian 4 (zlen s)); Body s] -> q <> [] ->
  (exists s' x er, run sh bin_read_string (mkStream d fin) = Done s' (x, Some er) /\
     cut_off false e [Part (big_endian 4 (zlen s)); Body s] d er) /\
  (exists s' er, run sh bin_skip_string (mkStream d fin) = Done s' (Some er) /\
     cut_off true e [Part (big_endian 4 (zlen s)); Body s] d er).
Proof using Hsize.
  intros Hs d q E Hq. cbn [bytes_of flat_map pbytes] in E. rewrite app_nil_r in E.
  unfold bin_read_string, bin_skip_string, bin_read_size.
  destruct (cut_where _ _ _ _ E Hq) as [(q' & Hq' & E')|(d' & -> & E')].
  - rewrite !run_bind, (read_i32_cut d q' _ E' Hq'). cbn [obind run]. split; do 2 eexists.
    + eexists. split; [reflexivity|]. apply cut_cons_l. exact (cut_one _ _ _ _ _ E' Hq').
    + split; [reflexivity|]. apply cut_cons_l. exact (cut_one _ _ _ _ _ E' Hq').
  - rewrite !run_bind, read_i32_ok by (assumption || lia). cbn [obind]. split; do 2 eexists.
    + eexists. rewrite (read_string_cut d' q s E' Hq). split; [reflexivity|].
      apply (cut_cons_r false e (Part _)). exact (cut_one_body false _ _ _ _ E' Hq).
    + rewrite run_vis, (discard_cut d' q s) by auto. cbn [obind run]. split; [reflexivity|].
      apply (cut_cons_r true e (Part _)). exact (cut_one_body true _ _ _ _ E' Hq).
Qed.
Variable strict : bool.
Notation rh := (over (bin_reader strict) sh).

Lemma bin_r X (c : wireR X) d s' x : run sh (bin_read strict c) (mkStream d fin) = Done s' x ->
  rh X c (tt, mkStream d fin) = Done (tt, s') x.
Proof using. intros R. rewrite bin_r_step, R. reflexivity. Qed.

Definition bin_cut (v : tval) : Prop := forall d q, d ++ q = binary_encoding v -> q <> [] ->
  exists er, cut_off sk e (binary_parts v) d er /\ fails _ rh sk er v (tt, mkStream d fin).

Lemma bin_elems_cut et es : Forall (fun v => val_type v = et /\ wf (2 ^ 31) v /\ bin_cut v) es ->
  forall d q, d ++ q = flat_map binary_encoding es -> q <> [] ->
  exists er, cut_off sk e (flat_map binary_parts es) d er /\ fails_elems _ rh sk er et es (tt, mkStream d fin).
Proof using Hsize.
  induction 1 as [|v r (Hv & Hw & Hc) Hr IH]; intros d q E Hq.
  - destruct d; [cbn in E; congruence|discriminate].
  - cbn [flat_map] in *. destruct (cut_where _ _ _ _ E Hq) as [(q' & Hq' & E')|(d' & -> & E')].
    + destruct (Hc d q' E' Hq') as (er & C & F). exists er. split; [now apply cut_app_l|]. rewrite <- Hv. now apply fl_here.
    + destruct (IH d' q E' Hq) as (er & C & F). exists er. split.
      * rewrite <- binary_parts_bytes. now apply cut_app_r.
      * rewrite <- Hv in *. eapply fl_next; [|exact F]. apply bin_reads; auto; lia.
Qed.

Lemma bin_entries_cut kt vt es : Forall (fun e => (val_type (fst e) = kt /\ wf (2 ^ 31) (fst e) /\ bin_cut (fst e)) /\
    (val_type (snd e) = vt /\ wf (2 ^ 31) (snd e) /\ bin_cut (snd e))) es ->
  forall d q, d ++ q = flat_map (fun e => let '(k, v) := e in binary_encoding k ++ binary_encoding v) es -> q <> [] ->
  exists er, cut_off sk e (flat_map (fun e => let '(k, v) := e in binary_parts k ++ binary_parts v) es) d er /\
    fails_entries _ rh sk er kt vt es (tt, mkStream d fin).
Proof using Hsize.
  induction 1 as [|[k v] r ((Hk & Wk & Ck) & Hv & Wv & Cv) Hr IH]; intros d q E Hq.
  - destruct d; [cbn in E; congruence|discriminate].
  - cbn [flat_map fst snd] in *. rewrite <- app_assoc in E.
    destruct (cut_where _ _ _ _ E Hq) as [(q' & Hq' & E')|(d' & -> & E')].
    + destruct (Ck d q' E' Hq') as (er & C & F). exists er. split; [now apply cut_app_l, cut_app_l|]. rewrite <- Hk, <- Hv. now apply fe_key.
    + destruct (cut_where _ _ _ _ E' Hq) as [(q' & Hq' & E2)|(d2 & -> & E2)].
      * destruct (Cv d' q' E2 Hq') as (er & C & F). exists er. split.
        -- rewrite <- app_assoc, <- binary_parts_bytes. now apply cut_app_r, cut_app_l.
        -- rewrite <- Hk, <- Hv. eapply fe_value; [|exact F]. apply bin_reads; auto; lia.
      * destruct (IH d2 q E2 Hq) as (er & C & F). exists er. split.
        -- rewrite <- app_assoc, <- !binary_parts_bytes. now apply cut_app_r, cut_app_r.
        -- rewrite <- Hk, <- Hv in *. eapply fe_next; [| |exact F]; apply bin_reads; auto; lia.
Qed.

Lemma bin_fields_cut fs : Forall (fun f => is_i16 (fst f) /\ wf (2 ^ 31) (snd f) /\ bin_cut (snd f)) fs ->
  forall d q, d ++ q = flat_map (fun f => let '(id, v) := f in [z2b (val_type v)] ++ big_endian 2 id ++ binary_encoding v) fs ++ [x00] -> q <> [] ->
  exists er, cut_off sk e (flat_map (fun f => let '(id, v) := f in
      [Part [z2b (val_type v)]; Part (big_endian 2 id)] ++ binary_parts v) fs ++ [Part [x00]]) d er /\
    fails_fields _ rh sk er fs (tt, mkStream d fin).
Proof using Hsize.
  induction 1 as [|[id v] r (Hid & Hw & Hc) Hr IH]; intros d q E Hq.
  - cbn [flat_map app] in *. destruct (stop_field_cut d q E Hq) as (s' & x & er & R & C).
    exists er. split; [exact C|]. eapply ff_begin. apply bin_r. exact R.
  - cbn [flat_map fst snd] in *.
    replace ((([z2b (val_type v)] ++ big_endian 2 id ++ binary_encoding v) ++ _) ++ [x00])
      with (([z2b (val_type v)] ++ big_endian 2 id) ++ binary_encoding v ++
        (flat_map (fun f => let '(id, v) := f in [z2b (val_type v)] ++ big_endian 2 id ++ binary_encoding v) r ++ [x00]))
      in E by (rewrite <- !app_assoc; reflexivity).
    assert (T8 : is_u8 (val_type v)) by apply val_type_u8.
    assert (T0 : val_type v <> 0) by (destruct v; discriminate).
    assert (RF : forall rest, rh _ RFieldBegin (tt, mkStream (([z2b (val_type v)] ++ big_endian 2 id) ++ rest) fin)
        = Done (tt, mkStream rest fin) (mkFH [] (val_type v) id, None)).
    { intros rest. rewrite <- app_assoc. apply bin_r. cbn [bin_read app]. unfold bin_read_field_begin.
      rewrite run_bind, read_type_ok by exact T8. cbn [obind is_none negb orb].
      change T_Stop with 0. destruct (Z.eqb_spec (val_type v) 0); [lia|].
      rewrite run_bind, read_i16_ok by (exact Hid || lia). reflexivity. }
    rewrite <- !app_assoc. rewrite app_assoc.
    destruct (cut_where _ _ _ _ E Hq) as [(q' & Hq' & E')|(d' & -> & E')].
    + destruct (field_begin_cut (val_type v) id T8 T0 d q') as (s' & x & er & R & C); [|exact Hq'|].
      { cbn [bytes_of flat_map pbytes]. now rewrite app_nil_r. }
      exists er. split; [|eapply ff_begin; apply bin_r; exact R]. rewrite <- app_assoc. now apply cut_app_l.
    + assert (B : forall rest, ([z2b (val_type v)] ++ big_endian 2 id) ++ rest
          = bytes_of [Part [z2b (val_type v)]; Part (big_endian 2 id)] ++ rest)
        by (intros; cbn [bytes_of flat_map pbytes]; now rewrite app_nil_r).
      destruct (cut_where _ _ _ _ E' Hq) as [(q' & Hq' & E2)|(d2 & -> & E2)].
      * destruct (Hc d' q' E2 Hq') as (er & C & F). exists er. split.
        -- rewrite B, <- app_assoc. now apply cut_app_r, cut_app_l.
        -- eapply ff_value; [apply RF|exact F].
      * destruct (IH d2 q E2 Hq) as (er & C & F). exists er. split.
        -- rewrite B, <- app_assoc. apply cut_app_r. rewrite <- binary_parts_bytes. now apply cut_app_r.
        -- eapply ff_next; [apply RF|apply bin_reads; auto; lia| |exact F]. apply bin_r. reflexivity.
Qed.

Theorem bin_cuts v : wf (2 ^ 31) v -> bin_cut v.
Proof using Hsize.
  induction v as [b|b|z|z|z|z|x|u|fs IH|kt vt es IH|et es IH|et es IH] using tval_ind';
    intros Hwf d q E Hq; cbn [binary_parts binary_encoding] in *; cbn [wf] in Hwf.
  - destruct (byte_cut d q _ E Hq) as (_ & R). exists (stop d e). split; [exact (cut_one _ _ _ _ _ E Hq)|].
    eapply f_bool. apply bin_r. cbn [bin_read]. unfold bin_read_bool. rewrite run_bind, R. reflexivity.
  - destruct (byte_cut d q _ E Hq) as (_ & R). exists (stop d e). split; [exact (cut_one _ _ _ _ _ E Hq)|].
    eapply f_byte. apply bin_r. exact R.
  - exists (stop d e). split; [exact (cut_one _ _ _ _ _ E Hq)|]. eapply f_double. apply bin_r. exact (read_double_cut d q z E Hq).
  - exists (stop d e). split; [exact (cut_one _ _ _ _ _ E Hq)|]. eapply f_i16. apply bin_r. exact (read_i16_cut d q z E Hq).
  - exists (stop d e). split; [exact (cut_one _ _ _ _ _ E Hq)|]. eapply f_i32. apply bin_r. exact (read_i32_cut d q z E Hq).
  - exists (stop d e). split; [exact (cut_one _ _ _ _ _ E Hq)|]. eapply f_i64. apply bin_r. exact (read_i64_cut d q z E Hq).
  - assert (is_i32 (zlen x)) by (unfold is_i32; pose proof (zlen_nonneg x); lia).
    destruct (bin_string_cut x H d q) as ((s1 & y1 & er1 & R1 & C1) & (s2 & er2 & R2 & C2)); [|exact Hq|].
    { cbn [bytes_of flat_map pbytes]. now rewrite app_nil_r. }
    destruct sk eqn:Esk.
    + exists er2. split; [exact C2|]. eapply f_skip_string; [reflexivity|]. apply bin_r. exact R2.
    + exists er1. split; [exact C1|]. eapply f_string; [reflexivity|]. apply bin_r. exact R1.
  - exists (if sk then e else stop d e). split; [exact (cut_one_body _ _ _ _ _ E Hq)|].
    destruct (uuid_cut d q u uuid0 E Hq Hwf) as (y & R1). pose proof (skip_uuid_cut d q u E Hq Hwf) as R2.
    destruct sk eqn:Esk.
    + eapply f_skip_uuid; [reflexivity|]. apply bin_r. exact R2.
    + eapply f_uuid; [reflexivity|]. apply bin_r. exact R1.
  - assert (Hfs : Forall (fun f => is_i16 (fst f) /\ wf (2 ^ 31) (snd f) /\ bin_cut (snd f)) fs).
    { clear E. induction IH as [|[id v] r Hv Hr IHr]; constructor; cbn [fst snd] in *; destruct Hwf as ((Hi & Hw) & Hwr); auto. }
    destruct (bin_fields_cut fs Hfs d q E Hq) as (er & C & F). exists er. split; [exact C|].
    eapply f_struct; [|exact F]. apply bin_r. reflexivity.
  - destruct Hwf as (Hn & Hk & Hv & Hes).
    assert (is_i32 (zlen es)) by (unfold is_i32; pose proof (zlen_nonneg es); lia).
    assert (Hall : Forall (fun e => (val_type (fst e) = kt /\ wf (2 ^ 31) (fst e) /\ bin_cut (fst e)) /\
      (val_type (snd e) = vt /\ wf (2 ^ 31) (snd e) /\ bin_cut (snd e))) es).
    { clear E Hn H. induction IH as [|[k v] r [Ik Iv] Hr IHr]; constructor; cbn [fst snd] in *;
        destruct Hes as ((? & ? & ? & ?) & ?); auto. }
    rewrite app_assoc in E.
    assert (B : [z2b kt; z2b vt] ++ big_endian 4 (zlen es) = bytes_of [Part [z2b kt]; Part [z2b vt]; Part (big_endian 4 (zlen es))])
      by (cbn [bytes_of flat_map pbytes app]; now rewrite app_nil_r).
    destruct (cut_where _ _ _ _ E Hq) as [(q' & Hq' & E')|(d' & -> & E')].
    + destruct (map_begin_cut kt vt (zlen es) Hk Hv d q') as (s' & y & er & R & C); [congruence|exact Hq'|].
      exists er. split; [now apply cut_app_l|]. eapply f_map0. apply bin_r. exact R.
    + destruct (bin_entries_cut kt vt es Hall d' q E' Hq) as (er & C & F). exists er. split.
      * rewrite B. now apply cut_app_r.
      * eapply f_map; [|exact F]. apply bin_r. rewrite <- app_assoc. cbn [bin_read app]. unfold bin_read_map_begin.
        rewrite run_bind, read_type_ok by exact Hk. cbn [obind]. rewrite run_bind, read_type_ok by exact Hv. cbn [obind].
        unfold bin_read_size. rewrite run_bind, read_i32_ok by (assumption || lia). reflexivity.
  - destruct Hwf as (Hn & Ht & Hes).
    assert (is_i32 (zlen es)) by (unfold is_i32; pose proof (zlen_nonneg es); lia).
    assert (Hall : Forall (fun v => val_type v = et /\ wf (2 ^ 31) v /\ bin_cut v) es).
    { clear E Hn H. induction IH as [|v r Iv Hr IHr]; constructor; destruct Hes as ((? & ?) & ?); auto. }
    rewrite app_assoc in E.
    assert (B : [z2b et] ++ big_endian 4 (zlen es) = bytes_of [Part [z2b et]; Part (big_endian 4 (zlen es))])
      by (cbn [bytes_of flat_map pbytes app]; now rewrite app_nil_r).
    destruct (cut_where _ _ _ _ E Hq) as [(q' & Hq' & E')|(d' & -> & E')].
    + destruct (set_begin_cut et (zlen es) (value_type_u8 _ Ht) d q') as (s' & y & er & R & C); [congruence|exact Hq'|].
      exists er. split; [now apply cut_app_l|]. eapply f_set0. apply bin_r. exact R.
    + destruct (bin_elems_cut et es Hall d' q E' Hq) as (er & C & F). exists er. split.
      * rewrite B. now apply cut_app_r.
      * eapply f_set; [|exact F]. apply bin_r. rewrite <- app_assoc. cbn [bin_read app].
        apply read_set_begin_ok; auto using value_type_u8. lia.
  - destruct Hwf as (Hn & Ht & Hes).
    assert (is_i32 (zlen es)) by (unfold is_i32; pose proof (zlen_nonneg es); lia).
    assert (Hall : Forall (fun v => val_type v = et /\ wf (2 ^ 31) v /\ bin_cut v) es).
    { clear E Hn H. induction IH as [|v r Iv Hr IHr]; constructor; destruct Hes as ((? & ?) & ?); auto. }
    rewrite app_assoc in E.
    assert (B : [z2b et] ++ big_endian 4 (zlen es) = bytes_of [Part [z2b et]; Part (big_endian 4 (zlen es))])
      by (cbn [bytes_of flat_map pbytes app]; now rewrite app_nil_r).
    destruct (cut_where _ _ _ _ E Hq) as [(q' & Hq' & E')|(d' & -> & E')].
    + destruct (set_begin_cut et (zlen es) (value_type_u8 _ Ht) d q') as (s' & y & er & R & C); [congruence|exact Hq'|].
      exists er. split; [now apply cut_app_l|]. eapply f_list0. apply bin_r. exact R.
    + destruct (bin_elems_cut et es Hall d' q E' Hq) as (er & C & F). exists er. split.
      * rewrite B. now apply cut_app_r.
      * eapply f_list; [|exact F]. apply bin_r. rewrite <- app_assoc. cbn [bin_read app].
        apply read_set_begin_ok; auto using value_type_u8. lia.
Qed.
End Bin.
