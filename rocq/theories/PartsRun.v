(** Whoever reads or skips a value gets the error of the call that fails. *)
From Verif Require Import Base BaseLemmas Prog Wire WireProof Spec Clients Reads.

Section Fails.
Variable St : Type.
Variable h : handler wireR St.
Variable sk : bool.
Variable er : err.

(** One of the calls that read (or, if [sk], skip) the value fails with [er]. *)
Inductive fails : tval -> St -> Prop :=
| f_bool b s s' x : h _ RBool s = Done s' (x, Some er) -> fails (VBool b) s
| f_byte b s s' x : h _ RByte s = Done s' (x, Some er) -> fails (VByte b) s
| f_double z s s' x : h _ RDouble s = Done s' (x, Some er) -> fails (VDouble z) s
| f_i16 z s s' x : h _ RI16 s = Done s' (x, Some er) -> fails (VI16 z) s
| f_i32 z s s' x : h _ RI32 s = Done s' (x, Some er) -> fails (VI32 z) s
| f_i64 z s s' x : h _ RI64 s = Done s' (x, Some er) -> fails (VI64 z) s
| f_string l s s' x : sk = false -> h _ RString s = Done s' (x, Some er) -> fails (VString l) s
| f_skip_string l s s' : sk = true -> h _ RSkipString s = Done s' (Some er) -> fails (VString l) s
| f_uuid l s s' x : sk = false -> h _ (RUUID uuid0) s = Done s' (x, Some er) -> fails (VUUID l) s
| f_skip_uuid l s s' : sk = true -> h _ RSkipUUID s = Done s' (Some er) -> fails (VUUID l) s
| f_struct fs s s1 x : h _ RStructBegin s = Done s1 (x, None) -> fails_fields fs s1 -> fails (VStruct fs) s
| f_map0 kt vt es s s' x : h _ RMapBegin s = Done s' (x, Some er) -> fails (VMap kt vt es) s
| f_map kt vt es s s1 : h _ RMapBegin s = Done s1 (mkMapH kt vt (zlen es), None) ->
    fails_entries kt vt es s1 -> fails (VMap kt vt es) s
| f_set0 et es s s' x : h _ RSetBegin s = Done s' (x, Some er) -> fails (VSet et es) s
| f_set et es s s1 : h _ RSetBegin s = Done s1 (mkSetH et (zlen es), None) ->
    fails_elems et es s1 -> fails (VSet et es) s
| f_list0 et es s s' x : h _ RListBegin s = Done s' (x, Some er) -> fails (VList et es) s
| f_list et es s s1 : h _ RListBegin s = Done s1 (mkSetH et (zlen es), None) ->
    fails_elems et es s1 -> fails (VList et es) s
with fails_fields : list (Z * tval) -> St -> Prop :=
| ff_begin fs s s' x : h _ RFieldBegin s = Done s' (x, Some er) -> fails_fields fs s
| ff_value id v r s s2 nm : h _ RFieldBegin s = Done s2 (mkFH nm (val_type v) id, None) ->
    fails v s2 -> fails_fields ((id, v) :: r) s
| ff_next id v r s s2 s3 s4 nm : h _ RFieldBegin s = Done s2 (mkFH nm (val_type v) id, None) ->
    reads h v s2 s3 -> h _ RFieldEnd s3 = Done s4 None ->
    fails_fields r s4 -> fails_fields ((id, v) :: r) s
with fails_entries : Z -> Z -> list (tval * tval) -> St -> Prop :=
| fe_key k v r s : fails k s -> fails_entries (val_type k) (val_type v) ((k, v) :: r) s
| fe_value k v r s s2 : reads h k s s2 -> fails v s2 -> fails_entries (val_type k) (val_type v) ((k, v) :: r) s
| fe_next k v r s s2 s3 : reads h k s s2 -> reads h v s2 s3 ->
    fails_entries (val_type k) (val_type v) r s3 -> fails_entries (val_type k) (val_type v) ((k, v) :: r) s
with fails_elems : Z -> list tval -> St -> Prop :=
| fl_here v r s : fails v s -> fails_elems (val_type v) (v :: r) s
| fl_next v r s s2 : reads h v s s2 -> fails_elems (val_type v) r s2 -> fails_elems (val_type v) (v :: r) s.

Scheme fails_m := Minimality for fails Sort Prop
  with fields_m := Minimality for fails_fields Sort Prop
  with entries_m := Minimality for fails_entries Sort Prop
  with elems_m := Minimality for fails_elems Sort Prop.
Combined Scheme fails_mut from fails_m, fields_m, entries_m, elems_m.

Ltac cases := repeat match goal with H : exists _, _ |- _ => destruct H end.
Ltac fuel0 := match goal with f : nat |- _ => destruct f as [|f]; [cbn in *; lia|] end.

Theorem read_fails v s : sk = false -> fails v s -> forall fuel, (vsize v <= fuel)%nat ->
  exists s', run h (read_val fuel (val_type v)) s = Done s' (inr er).
Proof using.
  intros Esk. revert v s.
  enough (G : (forall v s, fails v s -> forall fuel, (vsize v <= fuel)%nat ->
      exists s', run h (read_val fuel (val_type v)) s = Done s' (inr er)) /\
    (forall fs s, fails_fields fs s -> forall f n acc, (length fs < n)%nat ->
      (list_max (map (fun f => vsize (snd f)) fs) <= f)%nat ->
      exists s', run h (loop_nat n (rd_field (read_val f)) acc) s = Done s' (inr (inr er))) /\
    (forall kt vt es s, fails_entries kt vt es s -> forall f acc,
      (list_max (map (fun e => Nat.max (vsize (fst e)) (vsize (snd e))) es) <= f)%nat ->
      exists s', run h (loop_nat (length es) (@rd_step _ tval
        (rdp (read_val f kt) (fun k => rdp (read_val f vt) (fun v => Ret (inl (k, v)))))) acc) s = Done s' (inr (inr er))) /\
    (forall et es s, fails_elems et es s -> forall f acc,
      (list_max (map vsize es) <= f)%nat ->
      exists s', run h (loop_nat (length es) (@rd_step _ tval (read_val f et)) acc) s = Done s' (inr (inr er))))
    by exact (proj1 G).
  apply fails_mut; intros; try congruence.
  (* scalars, strings, uuids *)
  1-8: fuel0; cbn [read_val val_type kind_of]; unfold rd; rewrite run_vis;
       match goal with E : h _ _ _ = _ |- _ => rewrite E end; cbn [obind run]; eexists; reflexivity.
  - destruct fuel as [|f]; [cbn in *; lia|]. cbn [read_val val_type kind_of]. unfold rd.
    rewrite run_vis, H. cbn [obind]. rewrite run_bind. cbn [vsize] in H2.
    destruct (H1 f (S f) [] ltac:(lia) ltac:(lia)) as (s' & E). rewrite E. cbn [obind run]. eexists. reflexivity.
  - fuel0; cbn [read_val val_type kind_of]; unfold rd; rewrite run_vis, H; cbn [obind run]; eexists; reflexivity.
  - destruct fuel as [|f]; [cbn in *; lia|]. cbn [read_val val_type kind_of]. unfold rd.
    rewrite run_vis, H. cbn [obind map_key map_val map_size]. unfold rd_loop. rewrite run_bind, run_loop_Z. cbn [vsize] in H2.
    replace (Z.to_nat (zlen es)) with (length es) by (unfold zlen; lia).
    destruct (H1 f [] ltac:(lia)) as (s' & E). rewrite E. cbn [obind run]. eexists. reflexivity.
  - fuel0; cbn [read_val val_type kind_of]; unfold rd; rewrite run_vis, H; cbn [obind run]; eexists; reflexivity.
  - destruct fuel as [|f]; [cbn in *; lia|]. cbn [read_val val_type kind_of]. unfold rd.
    rewrite run_vis, H. cbn [obind set_elem set_size]. unfold rd_loop. rewrite run_bind, run_loop_Z. cbn [vsize] in H2.
    replace (Z.to_nat (zlen es)) with (length es) by (unfold zlen; lia).
    destruct (H1 f [] ltac:(lia)) as (s' & E). rewrite E. cbn [obind run]. eexists. reflexivity.
  - fuel0; cbn [read_val val_type kind_of]; unfold rd; rewrite run_vis, H; cbn [obind run]; eexists; reflexivity.
  - destruct fuel as [|f]; [cbn in *; lia|]. cbn [read_val val_type kind_of]. unfold rd.
    rewrite run_vis, H. cbn [obind set_elem set_size]. unfold rd_loop. rewrite run_bind, run_loop_Z. cbn [vsize] in H2.
    replace (Z.to_nat (zlen es)) with (length es) by (unfold zlen; lia).
    destruct (H1 f [] ltac:(lia)) as (s' & E). rewrite E. cbn [obind run]. eexists. reflexivity.
  (* fields *)
  - destruct n as [|n]; [lia|]. cbn [loop_nat]. rewrite run_bind. unfold rd_field at 1.
    rewrite run_vis, H. cbn [obind run]. eexists. reflexivity.
  - destruct n as [|n]; [lia|]. cbn [loop_nat]. rewrite run_bind. unfold rd_field at 1.
    rewrite run_vis, H. cbn [obind fh_type fh_id]. rewrite val_type_not_stop.
    cbn [map snd] in H3. rewrite list_max_cons in H3.
    destruct (H1 f ltac:(lia)) as (s' & E). rewrite run_bind, E. cbn [obind run]. eexists. reflexivity.
  - destruct n as [|n]; [cbn in *; lia|]. cbn [loop_nat]. rewrite run_bind. unfold rd_field at 1.
    rewrite run_vis, H. cbn [obind fh_type fh_id]. rewrite val_type_not_stop.
    cbn [map snd] in H5. rewrite list_max_cons in H5. cbn [length] in H4.
    rewrite run_bind, (read_val_reads h v f s2 s3) by (auto; lia). cbn [obind].
    rewrite run_vis, H1. cbn [obind run].
    apply H3; lia.
  (* entries *)
  - cbn [map fst snd] in H1. rewrite list_max_cons in H1. cbn [length loop_nat]. rewrite run_bind.
    unfold rd_step at 1, rdp. rewrite !run_bind.
    destruct (H0 f ltac:(lia)) as (s' & E). rewrite E. cbn [obind run]. eexists. reflexivity.
  - cbn [map fst snd] in H2. rewrite list_max_cons in H2. cbn [length loop_nat]. rewrite run_bind.
    unfold rd_step at 1, rdp. rewrite !run_bind.
    rewrite (read_val_reads h k f s s2) by (auto; lia). cbn [obind]. rewrite run_bind.
    destruct (H1 f ltac:(lia)) as (s' & E). rewrite E. cbn [obind run]. eexists. reflexivity.
  - cbn [map fst snd] in H3. rewrite list_max_cons in H3. cbn [length loop_nat]. rewrite run_bind.
    unfold rd_step at 1, rdp. rewrite !run_bind.
    rewrite (read_val_reads h k f s s2) by (auto; lia). cbn [obind]. rewrite run_bind.
    rewrite (read_val_reads h v f s2 s3) by (auto; lia). cbn [obind run]. apply H2. lia.
  (* elements *)
  - cbn [map] in H1. rewrite list_max_cons in H1. cbn [length loop_nat]. rewrite run_bind.
    unfold rd_step at 1. rewrite !run_bind.
    destruct (H0 f ltac:(lia)) as (s' & E). rewrite E. cbn [obind run]. eexists. reflexivity.
  - cbn [map] in H2. rewrite list_max_cons in H2. cbn [length loop_nat]. rewrite run_bind.
    unfold rd_step at 1. rewrite !run_bind.
    rewrite (read_val_reads h v f s s2) by (auto; lia). cbn [obind run]. apply H1. lia.
Qed.

Theorem skip_fails v s : sk = true -> fails v s -> forall fuel, (vsize v <= fuel)%nat ->
  exists s', run h (skip fuel (val_type v)) s = Done s' (Some er).
Proof using.
  intros Esk. revert v s.
  enough (G : (forall v s, fails v s -> forall fuel, (vsize v <= fuel)%nat ->
      exists s', run h (skip fuel (val_type v)) s = Done s' (Some er)) /\
    (forall fs s, fails_fields fs s -> forall f n, (length fs < n)%nat ->
      (list_max (map (fun f => vsize (snd f)) fs) <= f)%nat ->
      exists s', run h (loop_nat n (skip_field (skip f)) tt) s = Done s' (inr (Some er))) /\
    (forall kt vt es s, fails_entries kt vt es s -> forall f,
      (list_max (map (fun e => Nat.max (vsize (fst e)) (vsize (snd e))) es) <= f)%nat ->
      exists s', run h (loop_nat (length es) (skip_elem (skip f kt >>! skip f vt)) tt) s = Done s' (inr (Some er))) /\
    (forall et es s, fails_elems et es s -> forall f,
      (list_max (map vsize es) <= f)%nat ->
      exists s', run h (loop_nat (length es) (skip_elem (skip f et)) tt) s = Done s' (inr (Some er))))
    by exact (proj1 G).
  apply fails_mut; intros; try congruence.
  1-6: fuel0; cbn [skip val_type kind_of]; rewrite run_vis;
       match goal with E : h _ _ _ = _ |- _ => rewrite E end; cbn [obind run]; eexists; reflexivity.
  1-2: fuel0; cbn [skip val_type kind_of]; rewrite run_call; eexists; eassumption.
  - destruct fuel as [|f]; [cbn in *; lia|]. cbn [skip val_type kind_of].
    rewrite run_vis, H. cbn [obind]. rewrite run_bind. cbn [vsize] in H2.
    destruct (H1 f (S f) ltac:(lia) ltac:(lia)) as (s' & E). rewrite E. cbn [obind run]. eexists. reflexivity.
  - fuel0; cbn [skip val_type kind_of]; rewrite run_vis, H; cbn [obind run]; eexists; reflexivity.
  - destruct fuel as [|f]; [cbn in *; lia|]. cbn [skip val_type kind_of].
    rewrite run_vis, H. cbn [obind map_key map_val map_size]. unfold skip_loop. rewrite run_bind, run_loop_Z. cbn [vsize] in H2.
    replace (Z.to_nat (zlen es)) with (length es) by (unfold zlen; lia).
    destruct (H1 f ltac:(lia)) as (s' & E). rewrite E. cbn [obind run]. eexists. reflexivity.
  - fuel0; cbn [skip val_type kind_of]; rewrite run_vis, H; cbn [obind run]; eexists; reflexivity.
  - destruct fuel as [|f]; [cbn in *; lia|]. cbn [skip val_type kind_of].
    rewrite run_vis, H. cbn [obind set_elem set_size]. unfold skip_loop. rewrite run_bind, run_loop_Z. cbn [vsize] in H2.
    replace (Z.to_nat (zlen es)) with (length es) by (unfold zlen; lia).
    destruct (H1 f ltac:(lia)) as (s' & E). rewrite E. cbn [obind run]. eexists. reflexivity.
  - fuel0; cbn [skip val_type kind_of]; rewrite run_vis, H; cbn [obind run]; eexists; reflexivity.
  - destruct fuel as [|f]; [cbn in *; lia|]. cbn [skip val_type kind_of].
    rewrite run_vis, H. cbn [obind set_elem set_size]. unfold skip_loop. rewrite run_bind, run_loop_Z. cbn [vsize] in H2.
    replace (Z.to_nat (zlen es)) with (length es) by (unfold zlen; lia).
    destruct (H1 f ltac:(lia)) as (s' & E). rewrite E. cbn [obind run]. eexists. reflexivity.
  (* fields *)
  - destruct n as [|n]; [lia|]. cbn [loop_nat]. rewrite run_bind. unfold skip_field at 1.
    rewrite run_vis, H. cbn [obind run]. eexists. reflexivity.
  - destruct n as [|n]; [lia|]. cbn [loop_nat]. rewrite run_bind. unfold skip_field at 1.
    rewrite run_vis, H. cbn [obind fh_type fh_id]. rewrite val_type_not_stop.
    cbn [map snd] in H3. rewrite list_max_cons in H3.
    destruct (H1 f ltac:(lia)) as (s' & E). rewrite run_bind, E. cbn [obind run]. eexists. reflexivity.
  - destruct n as [|n]; [cbn in *; lia|]. cbn [loop_nat]. rewrite run_bind. unfold skip_field at 1.
    rewrite run_vis, H. cbn [obind fh_type fh_id]. rewrite val_type_not_stop.
    cbn [map snd] in H5. rewrite list_max_cons in H5. cbn [length] in H4.
    rewrite run_bind, (skip_reads h v f s2 s3) by (auto; lia). cbn [obind].
    rewrite run_vis, H1. cbn [obind run].
    apply H3; lia.
  (* entries *)
  - cbn [map fst snd] in H1. rewrite list_max_cons in H1. cbn [length loop_nat]. rewrite run_bind.
    unfold skip_elem at 1, and_then. rewrite !run_bind.
    destruct (H0 f ltac:(lia)) as (s' & E). rewrite E. cbn [obind run]. eexists. reflexivity.
  - cbn [map fst snd] in H2. rewrite list_max_cons in H2. cbn [length loop_nat]. rewrite run_bind.
    unfold skip_elem at 1, and_then. rewrite !run_bind.
    rewrite (skip_reads h k f s s2) by (auto; lia). cbn [obind].
    destruct (H1 f ltac:(lia)) as (s' & E). rewrite E. cbn [obind run]. eexists. reflexivity.
  - cbn [map fst snd] in H3. rewrite list_max_cons in H3. cbn [length loop_nat]. rewrite run_bind.
    unfold skip_elem at 1, and_then. rewrite !run_bind.
    rewrite (skip_reads h k f s s2) by (auto; lia). cbn [obind].
    rewrite (skip_reads h v f s2 s3) by (auto; lia). cbn [obind run]. apply H2. lia.
  (* elements *)
  - cbn [map] in H1. rewrite list_max_cons in H1. cbn [length loop_nat]. rewrite run_bind.
    unfold skip_elem at 1. rewrite !run_bind.
    destruct (H0 f ltac:(lia)) as (s' & E). rewrite E. cbn [obind run]. eexists. reflexivity.
  - cbn [map] in H2. rewrite list_max_cons in H2. cbn [length loop_nat]. rewrite run_bind.
    unfold skip_elem at 1. rewrite !run_bind.
    rewrite (skip_reads h v f s s2) by (auto; lia). cbn [obind run]. apply H1. lia.
Qed.
End Fails.
