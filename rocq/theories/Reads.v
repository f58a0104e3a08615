(** What it means for a Reader to deliver a value, whatever the protocol, and
    that any client reading it gets it. *)
From Verif Require Import Base BaseLemmas Prog Wire WireProof Spec Clients.

Section Reads.
Context {St : Type} (h : handler wireR St).

(** [reads v s s']: from state [s], calling the Reader methods that the
    structure of [v] dictates answers with the components of [v], without
    error, and leaves [s']. *)
Fixpoint reads (v : tval) (s s' : St) : Prop :=
  match v with
  | VBool b => h _ RBool s = Done s' (b, None)
  | VByte b => h _ RByte s = Done s' (b, None)
  | VDouble z => h _ RDouble s = Done s' (z, None)
  | VI16 z => h _ RI16 s = Done s' (z, None)
  | VI32 z => h _ RI32 s = Done s' (z, None)
  | VI64 z => h _ RI64 s = Done s' (z, None)
  | VString x =>
      h _ RString s = Done s' (x, None) /\
      (forall buf, h _ (RBytes buf) s = Done s' (buf ++ x, None)) /\
      h _ RSkipString s = Done s' None
  | VUUID u =>
      (forall old, length old = 16%nat -> h _ (RUUID old) s = Done s' (u, None)) /\
      h _ RSkipUUID s = Done s' None
  | VStruct fs =>
      exists s1 nm, h _ RStructBegin s = Done s1 (nm, None) /\
      (fix fields (fs : list (Z * tval)) (s1 : St) : Prop :=
         match fs with
         | [] => exists s2 hd, h _ RFieldBegin s1 = Done s2 (hd, None) /\
                               fh_type hd = T_Stop /\ h _ RStructEnd s2 = Done s' None
         | (id, v) :: r =>
             exists s2 s3 s4 nm,
               h _ RFieldBegin s1 = Done s2 (mkFH nm (val_type v) id, None) /\
               reads v s2 s3 /\ h _ RFieldEnd s3 = Done s4 None /\ fields r s4
         end) fs s1
  | VMap kt vt es =>
      exists s1, h _ RMapBegin s = Done s1 (mkMapH kt vt (zlen es), None) /\
      (fix entries (es : list (tval * tval)) (s1 : St) : Prop :=
         match es with
         | [] => h _ RMapEnd s1 = Done s' None
         | (k, v) :: r =>
             val_type k = kt /\ val_type v = vt /\
             exists s2 s3, reads k s1 s2 /\ reads v s2 s3 /\ entries r s3
         end) es s1
  | VSet et es =>
      exists s1, h _ RSetBegin s = Done s1 (mkSetH et (zlen es), None) /\
      (fix elems (es : list tval) (s1 : St) : Prop :=
         match es with
         | [] => h _ RSetEnd s1 = Done s' None
         | v :: r => val_type v = et /\ exists s2, reads v s1 s2 /\ elems r s2
         end) es s1
  | VList et es =>
      exists s1, h _ RListBegin s = Done s1 (mkSetH et (zlen es), None) /\
      (fix elems (es : list tval) (s1 : St) : Prop :=
         match es with
         | [] => h _ RListEnd s1 = Done s' None
         | v :: r => val_type v = et /\ exists s2, reads v s1 s2 /\ elems r s2
         end) es s1
  end.

(** The same, as separate definitions (convertible to the inner fixpoints). *)
Definition reads_fields (s' : St) := fix fields (fs : list (Z * tval)) (s1 : St) : Prop :=
  match fs with
  | [] => exists s2 hd, h _ RFieldBegin s1 = Done s2 (hd, None) /\
                        fh_type hd = T_Stop /\ h _ RStructEnd s2 = Done s' None
  | (id, v) :: r =>
      exists s2 s3 s4 nm,
        h _ RFieldBegin s1 = Done s2 (mkFH nm (val_type v) id, None) /\
        reads v s2 s3 /\ h _ RFieldEnd s3 = Done s4 None /\ fields r s4
  end.
Definition reads_entries (kt vt : Z) (s' : St) :=
  fix entries (es : list (tval * tval)) (s1 : St) : Prop :=
  match es with
  | [] => h _ RMapEnd s1 = Done s' None
  | (k, v) :: r =>
      val_type k = kt /\ val_type v = vt /\
      exists s2 s3, reads k s1 s2 /\ reads v s2 s3 /\ entries r s3
  end.
Definition reads_elems (fin : wireR (option err)) (et : Z) (s' : St) :=
  fix elems (es : list tval) (s1 : St) : Prop :=
  match es with
  | [] => h _ fin s1 = Done s' None
  | v :: r => val_type v = et /\ exists s2, reads v s1 s2 /\ elems r s2
  end.

Lemma kind_of_val_type v : exists k, kind_of (val_type v) = Some k /\ kind_num k = val_type v.
Proof. destruct v; eexists; split; reflexivity. Qed.

Lemma val_type_not_stop v : (val_type v =? T_Stop) = false.
Proof. destruct v; reflexivity. Qed.

Lemma list_max_cons a l : list_max (a :: l) = Nat.max a (list_max l).
Proof. reflexivity. Qed.

(** ** Every client that reads the value gets it *)
Theorem read_val_reads v : forall fuel s s',
  (vsize v <= fuel)%nat -> reads v s s' ->
  run h (read_val fuel (val_type v)) s = Done s' (inl v).
Proof.
  induction v as [b|b|z|z|z|z|x|u|fs IH|kt vt es IH|et es IH|et es IH] using tval_ind';
    intros fuel s s' Hf H; (destruct fuel as [|f]; [cbn in Hf; lia|]);
    cbn [read_val val_type kind_of].
  1-6: cbn [reads] in H; unfold rd; rewrite run_vis, H; reflexivity.
  - destruct H as (H & _ & _). unfold rd. rewrite run_vis, H. reflexivity.
  - destruct H as (H & _). unfold rd. rewrite run_vis, H; reflexivity.
  - destruct H as (s1 & nm & H0 & H). unfold rd. rewrite run_vis, H0. cbn [obind].
    change (reads_fields s' fs s1) in H. rewrite run_bind.
    cbn [vsize] in Hf.
    assert (Hg : forall fs acc n s1, Forall (fun f => forall fuel s s', (vsize (snd f) <= fuel)%nat ->
        reads (snd f) s s' -> run h (read_val fuel (val_type (snd f))) s = Done s' (inl (snd f))) fs ->
      (length fs < n)%nat ->
      (list_max (map (fun f => vsize (snd f)) fs) <= f)%nat ->
      reads_fields s' fs s1 ->
      run h (loop_nat n (rd_field (read_val f)) acc) s1
      = Done s' (inr (inl (VStruct (acc ++ fs))))).
    { clear IH Hf H H0 s1. intros fs0. induction fs0 as [|[id v] r IHr]; intros acc n s1 HF Hn Hm H.
      - destruct n as [|n]; [cbn in Hn; lia|]. cbn [loop_nat]. rewrite run_bind.
        destruct H as (s2 & hd & H1 & H2 & H3). unfold rd_field.
        rewrite run_vis, H1. cbn [obind]. rewrite H2. cbn [Z.eqb T_Stop].
        change (0 =? 0) with true. cbn iota. rewrite run_vis, H3.
        cbn [obind run]. rewrite app_nil_r. reflexivity.
      - destruct n as [|n]; [cbn in Hn; lia|]. cbn [loop_nat]. rewrite run_bind.
        destruct H as (s2 & s3 & s4 & nm' & H1 & H2 & H3 & H4). unfold rd_field at 1.
        rewrite run_vis, H1. cbn [obind fh_type fh_id]. rewrite val_type_not_stop.
        inversion HF as [|? ? Hv HF']; subst. cbn [snd] in Hv.
        cbn [map snd] in Hm. rewrite list_max_cons in Hm. cbn [length] in Hn.
        rewrite run_bind, (Hv f s2 s3) by (auto; lia). cbn [obind].
        rewrite run_vis, H3. cbn [obind run].
        rewrite IHr; auto; try lia. rewrite <- app_assoc. reflexivity. }
    rewrite (Hg fs [] (S f) s1); auto; try lia.
  - destruct H as (s1 & H0 & H). unfold rd. rewrite run_vis, H0. cbn [obind map_key map_val map_size].
    change (reads_entries kt vt s' es s1) in H. unfold rd_loop. rewrite run_bind, run_loop_Z.
    cbn [vsize] in Hf.
    set (body := rd_step _).
    assert (Hg : forall es acc s1,
      Forall (fun e => (forall fuel s s', (vsize (fst e) <= fuel)%nat ->
        reads (fst e) s s' -> run h (read_val fuel (val_type (fst e))) s = Done s' (inl (fst e))) /\
        (forall fuel s s', (vsize (snd e) <= fuel)%nat ->
        reads (snd e) s s' -> run h (read_val fuel (val_type (snd e))) s = Done s' (inl (snd e)))) es ->
      (list_max (map (fun e => Nat.max (vsize (fst e)) (vsize (snd e))) es) <= f)%nat ->
      reads_entries kt vt s' es s1 ->
      exists s2, run h (loop_nat (length es) body acc) s1 = Done s2 (inl (acc ++ es)) /\
                 h _ RMapEnd s2 = Done s' None).
    { clear IH Hf H H0 s1. intros es0. induction es0 as [|[k v] r IHr]; intros acc s1 HF Hm H.
      - exists s1. cbn. rewrite app_nil_r. auto.
      - destruct H as (Hk & Hv & s2 & s3 & H1 & H2 & H3).
        inversion HF as [|? ? [Ik Iv] HF']; subst. cbn [fst snd] in *.
        cbn [map fst snd] in Hm. rewrite list_max_cons in Hm.
        cbn [length loop_nat]. rewrite run_bind.
        unfold body at 1, rd_step, rdp. rewrite !run_bind.
        rewrite (Ik f s1 s2) by (auto; lia). cbn [obind]. rewrite run_bind.
        rewrite (Iv f s2 s3) by (auto; lia). cbn [obind run].
        destruct (IHr (acc ++ [(k, v)]) s3) as (s4 & E1 & E2); auto; try lia.
        exists s4. rewrite E1, <- app_assoc. auto. }
    replace (Z.to_nat (zlen es)) with (length es) by (unfold zlen; lia).
    destruct (Hg es [] s1) as (s2 & E1 & E2); auto; try lia.
    rewrite E1. cbn [obind app]. unfold rd0. rewrite run_vis, E2. reflexivity.
  - destruct H as (s1 & H0 & H). unfold rd. rewrite run_vis, H0. cbn [obind set_elem set_size].
    change (reads_elems RSetEnd et s' es s1) in H. unfold rd_loop. rewrite run_bind, run_loop_Z.
    cbn [vsize] in Hf.
    set (body := rd_step _).
    assert (Hg : forall es acc s1,
      Forall (fun v => forall fuel s s', (vsize v <= fuel)%nat ->
        reads v s s' -> run h (read_val fuel (val_type v)) s = Done s' (inl v)) es ->
      (list_max (map vsize es) <= f)%nat ->
      reads_elems RSetEnd et s' es s1 ->
      exists s2, run h (loop_nat (length es) body acc) s1 = Done s2 (inl (acc ++ es)) /\
                 h _ RSetEnd s2 = Done s' None).
    { clear IH Hf H H0 s1. intros es0. induction es0 as [|v r IHr]; intros acc s1 HF Hm H.
      - exists s1. cbn. rewrite app_nil_r. auto.
      - destruct H as (Hv & s2 & H1 & H3).
        inversion HF as [|? ? Iv HF']; subst.
        cbn [map] in Hm. rewrite list_max_cons in Hm.
        cbn [length loop_nat]. rewrite run_bind.
        unfold body at 1, rd_step. rewrite !run_bind.
        rewrite (Iv f s1 s2) by (auto; lia). cbn [obind run].
        destruct (IHr (acc ++ [v]) s2) as (s4 & E1 & E2); auto; try lia.
        exists s4. rewrite E1, <- app_assoc. auto. }
    replace (Z.to_nat (zlen es)) with (length es) by (unfold zlen; lia).
    destruct (Hg es [] s1) as (s2 & E1 & E2); auto; try lia.
    rewrite E1. cbn [obind app]. unfold rd0. rewrite run_vis, E2. reflexivity.
  - destruct H as (s1 & H0 & H). unfold rd. rewrite run_vis, H0. cbn [obind set_elem set_size].
    change (reads_elems RListEnd et s' es s1) in H. unfold rd_loop. rewrite run_bind, run_loop_Z.
    cbn [vsize] in Hf.
    set (body := rd_step _).
    assert (Hg : forall es acc s1,
      Forall (fun v => forall fuel s s', (vsize v <= fuel)%nat ->
        reads v s s' -> run h (read_val fuel (val_type v)) s = Done s' (inl v)) es ->
      (list_max (map vsize es) <= f)%nat ->
      reads_elems RListEnd et s' es s1 ->
      exists s2, run h (loop_nat (length es) body acc) s1 = Done s2 (inl (acc ++ es)) /\
                 h _ RListEnd s2 = Done s' None).
    { clear IH Hf H H0 s1. intros es0. induction es0 as [|v r IHr]; intros acc s1 HF Hm H.
      - exists s1. cbn. rewrite app_nil_r. auto.
      - destruct H as (Hv & s2 & H1 & H3).
        inversion HF as [|? ? Iv HF']; subst.
        cbn [map] in Hm. rewrite list_max_cons in Hm.
        cbn [length loop_nat]. rewrite run_bind.
        unfold body at 1, rd_step. rewrite !run_bind.
        rewrite (Iv f s1 s2) by (auto; lia). cbn [obind run].
        destruct (IHr (acc ++ [v]) s2) as (s4 & E1 & E2); auto; try lia.
        exists s4. rewrite E1, <- app_assoc. auto. }
    replace (Z.to_nat (zlen es)) with (length es) by (unfold zlen; lia).
    destruct (Hg es [] s1) as (s2 & E1 & E2); auto; try lia.
    rewrite E1. cbn [obind app]. unfold rd0. rewrite run_vis, E2. reflexivity.
Qed.

(** Skip goes exactly past the value. *)
Theorem skip_reads v : forall fuel s s',
  (vsize v <= fuel)%nat -> reads v s s' ->
  run h (skip fuel (val_type v)) s = Done s' None.
Proof.
  induction v as [b|b|z|z|z|z|x|u|fs IH|kt vt es IH|et es IH|et es IH] using tval_ind';
    intros fuel s s' Hf H; (destruct fuel as [|f]; [cbn in Hf; lia|]);
    cbn [skip val_type kind_of].
  1-6: cbn [reads] in H; rewrite run_vis, H; reflexivity.
  - destruct H as (_ & _ & H). rewrite run_call. exact H.
  - destruct H as (_ & H). rewrite run_call. exact H.
  - destruct H as (s1 & nm & H0 & H). rewrite run_vis, H0. cbn [obind].
    change (reads_fields s' fs s1) in H. rewrite run_bind.
    cbn [vsize] in Hf.
    assert (Hg : forall fs n s1, Forall (fun f => forall fuel s s', (vsize (snd f) <= fuel)%nat ->
        reads (snd f) s s' -> run h (skip fuel (val_type (snd f))) s = Done s' None) fs ->
      (length fs < n)%nat ->
      (list_max (map (fun f => vsize (snd f)) fs) <= f)%nat ->
      reads_fields s' fs s1 ->
      run h (loop_nat n (skip_field (skip f)) tt) s1 = Done s' (inr None)).
    { clear IH Hf H H0 s1. intros fs0. induction fs0 as [|[id v] r IHr]; intros n s1 HF Hn Hm H.
      - destruct n as [|n]; [cbn in Hn; lia|]. cbn [loop_nat]. rewrite run_bind.
        destruct H as (s2 & hd & H1 & H2 & H3). unfold skip_field.
        rewrite run_vis, H1. cbn [obind]. rewrite H2. change (T_Stop =? T_Stop) with true.
        cbn iota. rewrite run_vis, H3. reflexivity.
      - destruct n as [|n]; [cbn in Hn; lia|]. cbn [loop_nat]. rewrite run_bind.
        destruct H as (s2 & s3 & s4 & nm' & H1 & H2 & H3 & H4). unfold skip_field at 1.
        rewrite run_vis, H1. cbn [obind fh_type fh_id]. rewrite val_type_not_stop.
        inversion HF as [|? ? Hv HF']; subst. cbn [snd] in Hv.
        cbn [map snd] in Hm. rewrite list_max_cons in Hm. cbn [length] in Hn.
        rewrite run_bind, (Hv f s2 s3) by (auto; lia). cbn [obind].
        rewrite run_vis, H3. cbn [obind run].
        rewrite IHr; auto; try lia. }
    rewrite (Hg fs (S f) s1); auto; try lia.
  - destruct H as (s1 & H0 & H). rewrite run_vis, H0. cbn [obind map_key map_val map_size].
    change (reads_entries kt vt s' es s1) in H. unfold skip_loop. rewrite run_bind, run_loop_Z.
    cbn [vsize] in Hf.
    set (body := skip_elem _).
    assert (Hg : forall es s1,
      Forall (fun e => (forall fuel s s', (vsize (fst e) <= fuel)%nat ->
        reads (fst e) s s' -> run h (skip fuel (val_type (fst e))) s = Done s' None) /\
        (forall fuel s s', (vsize (snd e) <= fuel)%nat ->
        reads (snd e) s s' -> run h (skip fuel (val_type (snd e))) s = Done s' None)) es ->
      (list_max (map (fun e => Nat.max (vsize (fst e)) (vsize (snd e))) es) <= f)%nat ->
      reads_entries kt vt s' es s1 ->
      exists s2, run h (loop_nat (length es) body tt) s1 = Done s2 (inl tt) /\
                 h _ RMapEnd s2 = Done s' None).
    { clear IH Hf H H0 s1. intros es0. induction es0 as [|[k v] r IHr]; intros s1 HF Hm H.
      - exists s1. auto.
      - destruct H as (Hk & Hv & s2 & s3 & H1 & H2 & H3).
        inversion HF as [|? ? [Ik Iv] HF']; subst. cbn [fst snd] in *.
        cbn [map fst snd] in Hm. rewrite list_max_cons in Hm.
        cbn [length loop_nat]. rewrite run_bind.
        unfold body at 1, skip_elem, and_then. rewrite !run_bind.
        rewrite (Ik f s1 s2) by (auto; lia). cbn [obind].
        rewrite (Iv f s2 s3) by (auto; lia). cbn [obind run].
        destruct (IHr s3) as (s4 & E1 & E2); auto; try lia.
        exists s4. rewrite E1. auto. }
    replace (Z.to_nat (zlen es)) with (length es) by (unfold zlen; lia).
    destruct (Hg es s1) as (s2 & E1 & E2); auto; try lia.
    rewrite E1. cbn [obind app]. rewrite run_call. exact E2.
  - destruct H as (s1 & H0 & H). rewrite run_vis, H0. cbn [obind set_elem set_size].
    change (reads_elems RSetEnd et s' es s1) in H. unfold skip_loop. rewrite run_bind, run_loop_Z.
    cbn [vsize] in Hf.
    set (body := skip_elem _).
    assert (Hg : forall es s1,
      Forall (fun v => forall fuel s s', (vsize v <= fuel)%nat ->
        reads v s s' -> run h (skip fuel (val_type v)) s = Done s' None) es ->
      (list_max (map vsize es) <= f)%nat ->
      reads_elems RSetEnd et s' es s1 ->
      exists s2, run h (loop_nat (length es) body tt) s1 = Done s2 (inl tt) /\
                 h _ RSetEnd s2 = Done s' None).
    { clear IH Hf H H0 s1. intros es0. induction es0 as [|v r IHr]; intros s1 HF Hm H.
      - exists s1. auto.
      - destruct H as (Hv & s2 & H1 & H3).
        inversion HF as [|? ? Iv HF']; subst.
        cbn [map] in Hm. rewrite list_max_cons in Hm.
        cbn [length loop_nat]. rewrite run_bind.
        unfold body at 1, skip_elem. rewrite !run_bind.
        rewrite (Iv f s1 s2) by (auto; lia). cbn [obind run].
        destruct (IHr s2) as (s4 & E1 & E2); auto; try lia.
        exists s4. rewrite E1. auto. }
    replace (Z.to_nat (zlen es)) with (length es) by (unfold zlen; lia).
    destruct (Hg es s1) as (s2 & E1 & E2); auto; try lia.
    rewrite E1. cbn [obind app]. rewrite run_call. exact E2.
  - destruct H as (s1 & H0 & H). rewrite run_vis, H0. cbn [obind set_elem set_size].
    change (reads_elems RListEnd et s' es s1) in H. unfold skip_loop. rewrite run_bind, run_loop_Z.
    cbn [vsize] in Hf.
    set (body := skip_elem _).
    assert (Hg : forall es s1,
      Forall (fun v => forall fuel s s', (vsize v <= fuel)%nat ->
        reads v s s' -> run h (skip fuel (val_type v)) s = Done s' None) es ->
      (list_max (map vsize es) <= f)%nat ->
      reads_elems RListEnd et s' es s1 ->
      exists s2, run h (loop_nat (length es) body tt) s1 = Done s2 (inl tt) /\
                 h _ RListEnd s2 = Done s' None).
    { clear IH Hf H H0 s1. intros es0. induction es0 as [|v r IHr]; intros s1 HF Hm H.
      - exists s1. auto.
      - destruct H as (Hv & s2 & H1 & H3).
        inversion HF as [|? ? Iv HF']; subst.
        cbn [map] in Hm. rewrite list_max_cons in Hm.
        cbn [length loop_nat]. rewrite run_bind.
        unfold body at 1, skip_elem. rewrite !run_bind.
        rewrite (Iv f s1 s2) by (auto; lia). cbn [obind run].
        destruct (IHr s2) as (s4 & E1 & E2); auto; try lia.
        exists s4. rewrite E1. auto. }
    replace (Z.to_nat (zlen es)) with (length es) by (unfold zlen; lia).
    destruct (Hg es s1) as (s2 & E1 & E2); auto; try lia.
    rewrite E1. cbn [obind app]. rewrite run_call. exact E2.
Qed.

End Reads.
