(** The binary protocol writes the published encoding and reads it back. *)
From Verif Require Import Base BaseLemmas Prog Bufio BufioW GoBinary GoBinaryProof
  Wire WireProof Spec Clients Reads Binary.

(** ** Integers *)
Lemma little_endian_eq n : forall z, le_bytes n z = little_endian n z.
Proof.
  induction n as [|n IH]; intros z; cbn [le_bytes little_endian]; [reflexivity|].
  rewrite IH, Z.shiftr_div_pow2 by lia. reflexivity.
Qed.

Lemma big_endian_rev n : forall z, big_endian n z = rev (little_endian n z).
Proof.
  induction n as [|n IH]; intros z; cbn [big_endian little_endian rev]; [reflexivity|].
  now rewrite IH.
Qed.

Lemma be_bytes_spec n z : be_bytes n z = big_endian n z.
Proof. now rewrite be_le_bytes, little_endian_eq, big_endian_rev. Qed.

Lemma little_endian_mod n : forall z k, Z.of_nat n <= k ->
  little_endian n (z mod 256 ^ k) = little_endian n z.
Proof.
  induction n as [|n IH]; intros z k Hk; cbn [little_endian]; [reflexivity|].
  assert (E : 256 ^ k = 256 * 256 ^ (k - 1)).
  { rewrite <- Z.pow_succ_r by lia. f_equal. lia. }
  assert (0 < 256 ^ (k - 1)) by (apply Z.pow_pos_nonneg; lia).
  f_equal.
  - apply z2b_eq. rewrite E, Z.rem_mul_r by lia.
    rewrite (Z.mul_comm 256), Z_mod_plus_full. now rewrite Zmod_mod.
  - rewrite <- (IH (z / 256) (k - 1)) by lia. f_equal.
    rewrite E, Z.rem_mul_r by lia.
    rewrite (Z.mul_comm 256 (_ mod _)), Z.div_add by lia.
    rewrite (Z.div_small (z mod 256)) by (apply Z.mod_pos_bound; lia). lia.
Qed.

Lemma big_endian_mod n z k : Z.of_nat n <= k -> big_endian n (z mod 256 ^ k) = big_endian n z.
Proof. intros H. now rewrite !big_endian_rev, little_endian_mod. Qed.

Lemma be2 z : be_bytes 2 (u16 z) = big_endian 2 z.
Proof. rewrite be_bytes_spec. exact (big_endian_mod 2 z 2 ltac:(lia)). Qed.
Lemma be4 z : be_bytes 4 (u32 z) = big_endian 4 z.
Proof. rewrite be_bytes_spec. exact (big_endian_mod 4 z 4 ltac:(lia)). Qed.
Lemma be8 z : be_bytes 8 (u64 z) = big_endian 8 z.
Proof. rewrite be_bytes_spec. exact (big_endian_mod 8 z 8 ltac:(lia)). Qed.
Lemma be4_i32 z : be_bytes 4 (u32 (i32 z)) = big_endian 4 z.
Proof.
  rewrite be_bytes_spec. unfold u32. rewrite i32_mod_eq. exact (big_endian_mod 4 z 4 ltac:(lia)).
Qed.

Lemma big_endian_length n z : length (big_endian n z) = n.
Proof. rewrite <- be_bytes_spec. apply be_bytes_length. Qed.
Lemma zlen_big_endian n z : zlen (big_endian n z) = Z.of_nat n.
Proof. unfold zlen. now rewrite big_endian_length. Qed.
Lemma be_value_big_endian n z : be_value (big_endian n z) = z mod 256 ^ Z.of_nat n.
Proof. rewrite <- be_bytes_spec. apply be_value_bytes. Qed.

(** ** Running layered writers *)
Lemma run_and_then {E St} (h : handler E St) p q s :
  run h (p >>! q) s =
  obind (run h p s) (fun s' e => match e with Some _ => Done s' e | None => run h q s' end).
Proof.
  unfold and_then. rewrite run_bind. destruct (run h p s) as [s' [e|]|c]; reflexivity.
Qed.

Section Writer.
Variable strict : bool.
Notation wh := (over (bin_writer strict) mem_h).

Lemma bin_w_step X (e : wireW X) u s :
  wh X e (u, s) = obind (run mem_h (bin_write strict e) s) (fun s' x => Done (u, s') x).
Proof.
  unfold over, bin_writer. cbn [fst snd]. rewrite run_bind.
  destruct (run mem_h (bin_write strict e) s); reflexivity.
Qed.

Lemma bin_write_val v : forall s,
  run wh (write_val v) (tt, s) = Done (tt, s ++ binary_encoding v) None.
Proof.
  induction v as [b|b|z|z|z|z|x|u|fs IH|kt vt es IH|et es IH|et es IH] using tval_ind';
    intros s; cbn [write_val binary_encoding].
  - rewrite run_call, bin_w_step. destruct b; reflexivity.
  - rewrite run_call, bin_w_step. reflexivity.
  - rewrite run_call, bin_w_step. cbn [bin_write]. unfold bin_write_i64, bin_write_i32, bin_write_i16. rewrite run_call. cbn [mem_h obind]. now rewrite be8.
  - rewrite run_call, bin_w_step. cbn [bin_write]. unfold bin_write_i64, bin_write_i32, bin_write_i16. rewrite run_call. cbn [mem_h obind]. now rewrite be2.
  - rewrite run_call, bin_w_step. cbn [bin_write]. unfold bin_write_i64, bin_write_i32, bin_write_i16. rewrite run_call. cbn [mem_h obind]. now rewrite be4.
  - rewrite run_call, bin_w_step. cbn [bin_write]. unfold bin_write_i64, bin_write_i32, bin_write_i16. rewrite run_call. cbn [mem_h obind]. now rewrite be8.
  - rewrite run_call, bin_w_step. cbn [bin_write]. unfold bin_write_string.
    rewrite run_and_then. unfold bin_write_size, bin_write_i32.
    rewrite run_call. cbn [mem_h obind]. rewrite run_call. cbn [mem_h obind].
    now rewrite be4_i32, app_assoc.
  - rewrite run_call, bin_w_step. reflexivity.
  - rewrite run_and_then, run_call, bin_w_step. cbn [bin_write run obind].
    revert s. induction fs as [|[id v] r IHr]; intros s.
    + rewrite run_call, bin_w_step. reflexivity.
    + inversion IH as [|? ? Hv Hr]; subst. cbn [snd] in Hv.
      rewrite run_and_then, run_call, bin_w_step.
      cbn [bin_write fh_type fh_id]. rewrite run_and_then.
      unfold bin_write_type, bin_write_i16. rewrite !run_call. cbn [mem_h obind].
      rewrite !run_call. cbn [mem_h obind]. rewrite run_and_then, Hv. cbn [obind].
      rewrite run_and_then, run_call, bin_w_step. cbn [bin_write run obind].
      rewrite (IHr Hr). cbn [flat_map]. rewrite be2, <- !app_assoc. reflexivity.
  - rewrite run_and_then, run_call, bin_w_step. cbn [bin_write map_key map_val map_size].
    rewrite run_and_then. unfold bin_write_type, bin_write_size, bin_write_i32.
    rewrite run_call. cbn [mem_h obind]. rewrite run_and_then, run_call. cbn [mem_h obind].
    rewrite run_call. cbn [mem_h obind]. rewrite be4_i32.
    match goal with |- run _ ?p (tt, ?x) = Done (tt, ?y ++ _ ++ _ ++ ?z) None =>
      enough (Hg : forall s, run wh p (tt, s) = Done (tt, s ++ z) None)
        by (rewrite Hg; rewrite <- !app_assoc; reflexivity) end.
    clear s.
    induction es as [|[k v] r IHr]; intros s.
    + rewrite run_call, bin_w_step. cbn. now rewrite app_nil_r.
    + inversion IH as [|? ? [Hk Hv] Hr]; subst. cbn [fst snd] in Hk, Hv.
      rewrite run_and_then, Hk. cbn [obind]. rewrite run_and_then, Hv. cbn [obind].
      rewrite (IHr Hr). cbn [flat_map]. now rewrite <- !app_assoc.
  - rewrite run_and_then, run_call, bin_w_step. cbn [bin_write].
    unfold bin_write_set_begin. cbn [set_elem set_size].
    rewrite run_and_then. unfold bin_write_type, bin_write_size, bin_write_i32.
    rewrite run_call. cbn [mem_h obind]. rewrite run_call. cbn [mem_h obind]. rewrite be4_i32.
    match goal with |- run _ ?p (tt, ?x) = Done (tt, ?y ++ _ ++ _ ++ ?z) None =>
      enough (Hg : forall s, run wh p (tt, s) = Done (tt, s ++ z) None)
        by (rewrite Hg; rewrite <- !app_assoc; reflexivity) end.
    clear s.
    induction es as [|v r IHr]; intros s.
    + rewrite run_call, bin_w_step. cbn. now rewrite app_nil_r.
    + inversion IH as [|? ? Hv Hr]; subst.
      rewrite run_and_then, Hv. cbn [obind].
      rewrite (IHr Hr). cbn [flat_map]. now rewrite <- !app_assoc.
  - rewrite run_and_then, run_call, bin_w_step. cbn [bin_write].
    unfold bin_write_set_begin. cbn [set_elem set_size].
    rewrite run_and_then. unfold bin_write_type, bin_write_size, bin_write_i32.
    rewrite run_call. cbn [mem_h obind]. rewrite run_call. cbn [mem_h obind]. rewrite be4_i32.
    match goal with |- run _ ?p (tt, ?x) = Done (tt, ?y ++ _ ++ _ ++ ?z) None =>
      enough (Hg : forall s, run wh p (tt, s) = Done (tt, s ++ z) None)
        by (rewrite Hg; rewrite <- !app_assoc; reflexivity) end.
    clear s.
    induction es as [|v r IHr]; intros s.
    + rewrite run_call, bin_w_step. cbn. now rewrite app_nil_r.
    + inversion IH as [|? ? Hv Hr]; subst.
      rewrite run_and_then, Hv. cbn [obind].
      rewrite (IHr Hr). cbn [flat_map]. now rewrite <- !app_assoc.
Qed.

End Writer.

(** ** Reading *)
Section Reader.
Variable strict : bool.
Variable size : Z.
Hypothesis Hsize : 8 <= size.
Notation rh := (over (bin_reader strict) (stream_h size)).

Lemma bin_r_step X (e : wireR X) u s :
  rh X e (u, s) = obind (run (stream_h size) (bin_read strict e) s) (fun s' x => Done (u, s') x).
Proof.
  unfold over, bin_reader. cbn [fst snd]. rewrite run_bind.
  destruct (run (stream_h size) (bin_read strict e) s); reflexivity.
Qed.

Lemma read_i32_ok z rest fi : is_i32 z ->
  run (stream_h size) bin_read_i32 (mkStream (big_endian 4 z ++ rest) fi)
  = Done (mkStream rest fi) (z, None).
Proof.
  intros Hz. unfold bin_read_i32. rewrite run_bind, next_ok by (rewrite ?zlen_app, ?zlen_big_endian; pose proof (zlen_nonneg rest); lia).
  replace 4 with (zlen (big_endian 4 z)) by apply zlen_big_endian.
  cbn [obind]. rewrite firstn_zlen_app, skipn_zlen_app. cbn [run].
  rewrite be_value_big_endian.
  replace (i32 (z mod 256 ^ Z.of_nat 4)) with z; [reflexivity|].
  rewrite <- (i32_id z Hz) at 1. apply i32_mod.
  change (256 ^ Z.of_nat 4) with (2 ^ 32). now rewrite Zmod_mod.
Qed.

Lemma read_i16_ok z rest fi : is_i16 z ->
  run (stream_h size) bin_read_i16 (mkStream (big_endian 2 z ++ rest) fi)
  = Done (mkStream rest fi) (z, None).
Proof.
  intros Hz. unfold bin_read_i16. rewrite run_bind, next_ok by (rewrite ?zlen_app, ?zlen_big_endian; pose proof (zlen_nonneg rest); lia).
  replace 2 with (zlen (big_endian 2 z)) at 1 2 by apply zlen_big_endian.
  cbn [obind]. rewrite firstn_zlen_app, skipn_zlen_app. cbn [run].
  rewrite be_value_big_endian.
  replace (i16 (z mod 256 ^ Z.of_nat 2)) with z; [reflexivity|].
  rewrite <- (i16_id z Hz) at 1. apply i16_mod.
  change (256 ^ Z.of_nat 2) with (2 ^ 16). now rewrite Zmod_mod.
Qed.

Lemma read_i64_ok z rest fi : is_i64 z ->
  run (stream_h size) bin_read_i64 (mkStream (big_endian 8 z ++ rest) fi)
  = Done (mkStream rest fi) (z, None).
Proof.
  intros Hz. unfold bin_read_i64. rewrite run_bind, next_ok by (rewrite ?zlen_app, ?zlen_big_endian; pose proof (zlen_nonneg rest); lia).
  replace 8 with (zlen (big_endian 8 z)) by apply zlen_big_endian.
  cbn [obind]. rewrite firstn_zlen_app, skipn_zlen_app. cbn [run].
  rewrite be_value_big_endian.
  replace (i64 (z mod 256 ^ Z.of_nat 8)) with z; [reflexivity|].
  rewrite <- (i64_id z Hz) at 1. apply i64_mod.
  change (256 ^ Z.of_nat 8) with (2 ^ 64). now rewrite Zmod_mod.
Qed.

Lemma read_double_ok z rest fi : is_u64 z ->
  run (stream_h size) bin_read_double (mkStream (big_endian 8 z ++ rest) fi)
  = Done (mkStream rest fi) (z, None).
Proof.
  intros Hz. unfold bin_read_double. rewrite run_bind, next_ok by (rewrite ?zlen_app, ?zlen_big_endian; pose proof (zlen_nonneg rest); lia).
  replace 8 with (zlen (big_endian 8 z)) by apply zlen_big_endian.
  cbn [obind]. rewrite firstn_zlen_app, skipn_zlen_app. cbn [run].
  rewrite be_value_big_endian.
  change (256 ^ Z.of_nat 8) with (2 ^ 64). now rewrite Z.mod_small.
Qed.

Lemma read_type_ok t rest fi : is_u8 t ->
  run (stream_h size) bin_read_type (mkStream (z2b t :: rest) fi)
  = Done (mkStream rest fi) (t, None).
Proof.
  intros Ht. unfold bin_read_type. rewrite run_vis. cbn [stream_h sdata obind run].
  now rewrite b2z_z2b_small.
Qed.

Lemma bytes_spec_app n buf (x rest : list byte) fi : n = zlen x ->
  bytes_spec n buf (x ++ rest) fi = Done (mkStream rest fi) (buf ++ x, None).
Proof.
  intros ->. unfold bytes_spec. rewrite zlen_app.
  pose proof (zlen_nonneg x); pose proof (zlen_nonneg rest).
  destruct (Z.ltb_spec (zlen x) 0); [lia|].
  destruct (Z.leb_spec (zlen x) (zlen x + zlen rest)); [|lia].
  now rewrite firstn_zlen_app, skipn_zlen_app.
Qed.

Lemma discard_app (x rest : list byte) fi n : n = zlen x ->
  stream_h size _ (BDiscard n) (mkStream (x ++ rest) fi)
  = Done (mkStream rest fi) (n, None).
Proof.
  intros ->. cbn [stream_h sdata]. rewrite zlen_app.
  pose proof (zlen_nonneg x); pose proof (zlen_nonneg rest).
  destruct (Z.ltb_spec (zlen x) 0); [lia|].
  destruct (Z.leb_spec (zlen x) (zlen x + zlen rest)); [|lia].
  now rewrite skipn_zlen_app.
Qed.

Lemma uuid_ok (u old rest : list byte) fi : length u = 16%nat -> length old = 16%nat ->
  run (stream_h size) (read_uuid old) (mkStream (u ++ rest) fi)
  = Done (mkStream rest fi) (u, None).
Proof.
  intros Hu Ho. unfold read_uuid. rewrite run_vis. cbn [stream_h sdata].
  rewrite zlen_app. assert (E : zlen u = 16) by (unfold zlen; lia).
  pose proof (zlen_nonneg rest).
  destruct (Z.leb_spec 16 (zlen u + zlen rest)); [|lia].
  rewrite <- E at 1 2. rewrite firstn_zlen_app, skipn_zlen_app. cbn [obind run].
  rewrite skipn_all2 by lia. now rewrite app_nil_r.
Qed.

Lemma skip_uuid_ok (u rest : list byte) fi : length u = 16%nat ->
  run (stream_h size) skip_uuid (mkStream (u ++ rest) fi) = Done (mkStream rest fi) None.
Proof.
  intros Hu. unfold skip_uuid. rewrite run_vis, discard_app by (unfold zlen; lia). reflexivity.
Qed.

Lemma val_type_u8 v : is_u8 (val_type v).
Proof. destruct v; cbn; unfold is_u8; lia. Qed.

Lemma value_type_u8 t : In t value_types -> is_u8 t.
Proof. cbn; unfold is_u8; intuition lia. Qed.

Lemma read_set_begin_ok t n rest fi : is_u8 t -> is_i32 n ->
  run (stream_h size) bin_read_set_begin (mkStream (z2b t :: big_endian 4 n ++ rest) fi)
  = Done (mkStream rest fi) (mkSetH t n, None).
Proof.
  intros Ht Hn. unfold bin_read_set_begin. rewrite run_bind, read_type_ok by exact Ht.
  cbn [obind]. unfold bin_read_size. rewrite run_bind, read_i32_ok by exact Hn. reflexivity.
Qed.

Theorem bin_reads v : forall rest fi, wf (2 ^ 31) v ->
  reads rh v (tt, mkStream (binary_encoding v ++ rest) fi) (tt, mkStream rest fi).
Proof.
  induction v as [b|b|z|z|z|z|x|u|fs IH|kt vt es IH|et es IH|et es IH] using tval_ind';
    intros rest fi Hwf; cbn [reads binary_encoding]; cbn [wf] in Hwf.
  - rewrite bin_r_step. destruct b; reflexivity.
  - rewrite bin_r_step. reflexivity.
  - rewrite bin_r_step. cbn [bin_read]. now rewrite read_double_ok.
  - rewrite bin_r_step. cbn [bin_read]. now rewrite read_i16_ok.
  - rewrite bin_r_step. cbn [bin_read]. now rewrite read_i32_ok.
  - rewrite bin_r_step. cbn [bin_read]. now rewrite read_i64_ok.
  - assert (is_i32 (zlen x)) by (unfold is_i32; pose proof (zlen_nonneg x); lia).
    rewrite !bin_r_step. rewrite <- app_assoc. conj.
    + cbn [bin_read]. unfold bin_read_string, bin_read_size.
      rewrite run_bind, read_i32_ok by auto. cbn [obind].
      rewrite read_string_spec by lia. now rewrite bytes_spec_app.
    + intros buf. rewrite bin_r_step. cbn [bin_read]. unfold bin_read_bytes, bin_read_size.
      rewrite run_bind, read_i32_ok by auto. cbn [obind].
      rewrite read_bytes_spec by lia. now rewrite bytes_spec_app.
    + cbn [bin_read]. unfold bin_skip_string, bin_read_size.
      rewrite run_bind, read_i32_ok by auto. cbn [obind].
      rewrite run_vis, discard_app by reflexivity. reflexivity.
  - split.
    + intros old Ho. rewrite bin_r_step. cbn [bin_read]. now rewrite uuid_ok.
    + rewrite bin_r_step. cbn [bin_read]. now rewrite skip_uuid_ok.
  - rewrite bin_r_step. cbn [bin_read run obind]. eexists _, _. split; [reflexivity|].
    change (reads_fields rh (tt, mkStream rest fi) fs
      (tt, mkStream ((flat_map (fun f => let '(id, v) := f in
         [z2b (val_type v)] ++ big_endian 2 id ++ binary_encoding v) fs ++ [x00]) ++ rest) fi)).
    induction fs as [|[id v] r IHr]; cbn [reads_fields flat_map].
    + eexists _, _. rewrite bin_r_step. cbn. split; [reflexivity|]. split; reflexivity.
    + inversion IH as [|? ? Hv Hr]; subst. cbn [snd] in Hv.
      destruct Hwf as ((Hid & Hwv) & Hwr).
      do 3 eexists. exists []. rewrite bin_r_step.
      rewrite <- !app_assoc. cbn [app].
      conj.
      * cbn [bin_read]. unfold bin_read_field_begin.
        rewrite run_bind, read_type_ok by apply val_type_u8. cbn [obind is_none negb orb].
        change T_Stop with 0. rewrite val_type_not_stop.
        rewrite run_bind, read_i16_ok by exact Hid. reflexivity.
      * apply Hv. exact Hwv.
      * rewrite bin_r_step. cbn [bin_read run obind]. reflexivity.
      * specialize (IHr Hr Hwr). rewrite <- !app_assoc in IHr. exact IHr.
  - destruct Hwf as (Hn & Hk & Hv & Hes).
    assert (is_i32 (zlen es)) by (unfold is_i32; pose proof (zlen_nonneg es); lia).
    rewrite bin_r_step. cbn [bin_read]. cbn [app].
    unfold bin_read_map_begin. rewrite run_bind, read_type_ok by exact Hk. cbn [obind].
    rewrite run_bind, read_type_ok by exact Hv. cbn [obind].
    unfold bin_read_size. rewrite <- app_assoc, run_bind, read_i32_ok by assumption.
    cbn [obind run]. eexists. split; [reflexivity|].
    match goal with |- ?G => change (reads_entries rh kt vt (tt, mkStream rest fi) es
      (tt, mkStream (flat_map (fun e => let '(k, v) := e in binary_encoding k ++ binary_encoding v) es
                     ++ rest) fi)) end.
    clear Hn H. induction es as [|[k v] r IHr]; cbn [reads_entries flat_map].
    + rewrite bin_r_step. reflexivity.
    + inversion IH as [|? ? [Ik Iv] Hr]; subst. cbn [fst snd] in *.
      destruct Hes as ((Tk & Tv & Wk & Wv) & Hes). split; [exact Tk|]. split; [exact Tv|].
      do 2 eexists. rewrite <- !app_assoc.
      split; [apply Ik; exact Wk|]. split; [apply Iv; exact Wv|]. apply IHr; assumption.
  - destruct Hwf as (Hn & Ht & Hes).
    assert (is_i32 (zlen es)) by (unfold is_i32; pose proof (zlen_nonneg es); lia).
    rewrite bin_r_step. cbn [bin_read]. cbn [app]. rewrite <- app_assoc.
    rewrite read_set_begin_ok by (auto using value_type_u8).
    cbn [obind run]. eexists. split; [reflexivity|].
    match goal with |- ?G => change (reads_elems rh RSetEnd et (tt, mkStream rest fi) es
      (tt, mkStream (flat_map binary_encoding es ++ rest) fi)) end.
    clear Hn H Ht. induction es as [|v r IHr]; cbn [reads_elems flat_map].
    + rewrite bin_r_step. reflexivity.
    + inversion IH as [|? ? Iv Hr]; subst.
      destruct Hes as ((Tv & Wv) & Hes). split; [exact Tv|].
      eexists. rewrite <- !app_assoc. split; [apply Iv; exact Wv|]. apply IHr; assumption.
  - destruct Hwf as (Hn & Ht & Hes).
    assert (is_i32 (zlen es)) by (unfold is_i32; pose proof (zlen_nonneg es); lia).
    rewrite bin_r_step. cbn [bin_read]. cbn [app]. rewrite <- app_assoc.
    rewrite read_set_begin_ok by (auto using value_type_u8).
    cbn [obind run]. eexists. split; [reflexivity|].
    match goal with |- ?G => change (reads_elems rh RListEnd et (tt, mkStream rest fi) es
      (tt, mkStream (flat_map binary_encoding es ++ rest) fi)) end.
    clear Hn H Ht. induction es as [|v r IHr]; cbn [reads_elems flat_map].
    + rewrite bin_r_step. reflexivity.
    + inversion IH as [|? ? Iv Hr]; subst.
      destruct Hes as ((Tv & Wv) & Hes). split; [exact Tv|].
      eexists. rewrite <- !app_assoc. split; [apply Iv; exact Wv|]. apply IHr; assumption.
Qed.

End Reader.
