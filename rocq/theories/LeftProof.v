(** What Unmarshal leaves in a variable when the Reader fails on the way
    (see LeftSpec.v), for any Reader. *)
From Coq Require Import Strings.String.
From Verif Require Import Base BaseLemmas Prog Wire WireProof Spec Clients Reads GoFloat Utf8 GoType Fields Arshal GoTypeProof FieldsProof
  ArshalSpec ArshalDec ArshalTrip ArshalTotal ArshalThms ArshalSafe ArshalGives TagProof MapSpec MapProof StoreSpec StoreProof LeftSpec.

Lemma firstn_S_set (i : nat) (x : gval) l : (i < length l)%nat -> firstn (S i) (set_nth i x l) = firstn i l ++ [x].
Proof.
  revert i. induction l as [|y l IHl]; intros [|i] H; cbn in H; try lia; [reflexivity|].
  cbn [set_nth]. rewrite !firstn_cons, IHl by lia. reflexivity.
Qed.
Lemma nth_set_away (i j : nat) (x d : gval) l : i <> j -> nth j (set_nth i x l) d = nth j l d.
Proof.
  revert i j. induction l as [|y l IHl]; intros [|i] [|j] H; cbn; try reflexivity; try lia. apply IHl. lia.
Qed.

Section Left.
Context {St : Type} (h : handler wireR St).
(** The value as the Reader delivers it (the compact protocol does not deliver
    the types of an empty map). *)
Variable cn : tval -> tval.
Hypothesis cn_type : forall v, val_type (cn v) = val_type v.
Hypothesis cn_size : forall v, vsize (cn v) = vsize v.

Definition refuses {X} (c : wireR (X * option err)) (s : St) : Prop := exists s' x er, h _ c s = Done s' (x, Some er).
Definition refused (v : tval) (s : St) : Prop :=
  match v with
  | VBool _ => refuses RBool s
  | VByte _ => refuses RByte s
  | VDouble _ => refuses RDouble s
  | VI16 _ => refuses RI16 s
  | VI32 _ => refuses RI32 s
  | VI64 _ => refuses RI64 s
  | VString _ => refuses RString s /\ (forall buf, refuses (RBytes buf) s) /\ exists s' er, h _ RSkipString s = Done s' (Some er)
  | VUUID _ | VStruct _ => False
  | VMap _ _ _ => refuses RMapBegin s
  | VSet _ _ => refuses RSetBegin s
  | VList _ _ => refuses RListBegin s
  end.

(** The Reader delivers [p] of the value and then fails. *)
Inductive breaks : place -> tval -> St -> Prop :=
| b_start v s : refused v s -> breaks Start v s
| b_uuid k u s : (forall old, length old = 16%nat -> exists s' er, h _ (RUUID old) s = Done s' (firstn k u ++ skipn k old, Some er)) ->
    (exists s' er, h _ RSkipUUID s = Done s' (Some er)) -> breaks (Uuid k) (VUUID u) s
| b_struct p fs s s1 x : h _ RStructBegin s = Done s1 (x, None) -> breaks_fields p fs s1 -> breaks p (VStruct fs) s
| b_map p kt vt es s s1 : h _ RMapBegin s = Done s1 (mkMapH kt vt (zlen es), None) ->
    breaks_entries p kt vt es s1 -> breaks p (VMap kt vt es) s
| b_set p et es s s1 : h _ RSetBegin s = Done s1 (mkSetH et (zlen es), None) ->
    breaks_elems p et es s1 -> breaks p (VSet et es) s
| b_list p et es s s1 : h _ RListBegin s = Done s1 (mkSetH et (zlen es), None) ->
    breaks_elems p et es s1 -> breaks p (VList et es) s
with breaks_fields : place -> list (Z * tval) -> St -> Prop :=
| bf_begin fs s s' x er : h _ RFieldBegin s = Done s' (x, Some er) -> breaks_fields Between fs s
| bf_value p id v r s s2 nm : h _ RFieldBegin s = Done s2 (mkFH nm (val_type v) id, None) ->
    breaks p v s2 -> breaks_fields (Inside p) ((id, v) :: r) s
| bf_next p id v r s s2 s3 s4 nm : h _ RFieldBegin s = Done s2 (mkFH nm (val_type v) id, None) ->
    reads h (cn v) s2 s3 -> h _ RFieldEnd s3 = Done s4 None ->
    breaks_fields p r s4 -> breaks_fields (Next p) ((id, v) :: r) s
with breaks_entries : place -> Z -> Z -> list (tval * tval) -> St -> Prop :=
| be_key p k v r s : breaks p k s -> breaks_entries (InKey p) (val_type k) (val_type v) ((k, v) :: r) s
| be_value p k v r s s2 : reads h (cn k) s s2 -> breaks p v s2 -> breaks_entries (InValue p) (val_type k) (val_type v) ((k, v) :: r) s
| be_next p k v r s s2 s3 : reads h (cn k) s s2 -> reads h (cn v) s2 s3 ->
    breaks_entries p (val_type k) (val_type v) r s3 -> breaks_entries (Next p) (val_type k) (val_type v) ((k, v) :: r) s
with breaks_elems : place -> Z -> list tval -> St -> Prop :=
| bl_here p v r s : breaks p v s -> breaks_elems (Inside p) (val_type v) (v :: r) s
| bl_next p v r s s2 : reads h (cn v) s s2 -> breaks_elems p (val_type v) r s2 -> breaks_elems (Next p) (val_type v) (v :: r) s.

Scheme breaks_m := Minimality for breaks Sort Prop
  with bfields_m := Minimality for breaks_fields Sort Prop
  with bentries_m := Minimality for breaks_entries Sort Prop
  with belems_m := Minimality for breaks_elems Sort Prop.
Combined Scheme breaks_mut from breaks_m, bfields_m, bentries_m, belems_m.

Ltac fuel0 := match goal with f : nat |- _ => destruct f as [|f]; [cbn in *; lia|] end.

Lemma skip_cn v f s s' : (vsize v <= f)%nat -> reads h (cn v) s s' -> run h (skip f (val_type v)) s = Done s' None.
Proof using cn_type cn_size. intros Hf Hr. rewrite <- cn_type. apply skip_reads; [|exact Hr]. now rewrite cn_size. Qed.

Theorem skip_breaks p v s : breaks p v s -> forall fuel, (vsize v <= fuel)%nat ->
  exists s' er, run h (skip fuel (val_type v)) s = Done s' (Some er).
Proof using cn_type cn_size.
  revert p v s.
  enough (G : (forall p v s, breaks p v s -> forall fuel, (vsize v <= fuel)%nat ->
      exists s' er, run h (skip fuel (val_type v)) s = Done s' (Some er)) /\
    (forall p fs s, breaks_fields p fs s -> forall f n, (length fs < n)%nat ->
      (list_max (map (fun f => vsize (snd f)) fs) <= f)%nat ->
      exists s' er, run h (loop_nat n (skip_field (skip f)) tt) s = Done s' (inr (Some er))) /\
    (forall p kt vt es s, breaks_entries p kt vt es s -> forall f,
      (list_max (map (fun e => Nat.max (vsize (fst e)) (vsize (snd e))) es) <= f)%nat ->
      exists s' er, run h (loop_nat (length es) (skip_elem (skip f kt >>! skip f vt)) tt) s = Done s' (inr (Some er))) /\
    (forall p et es s, breaks_elems p et es s -> forall f,
      (list_max (map vsize es) <= f)%nat ->
      exists s' er, run h (loop_nat (length es) (skip_elem (skip f et)) tt) s = Done s' (inr (Some er))))
    by exact (proj1 G).
  apply breaks_mut; intros.
  - destruct fuel as [|f]; [destruct v; cbn in *; lia|].
    destruct v; cbn [refused] in H; unfold refuses in H; try contradiction; cbn [skip val_type kind_of];
      try (destruct H as (s' & x & er & E); rewrite run_vis, E; cbn [obind run]; do 2 eexists; reflexivity).
    destruct H as (_ & _ & s' & er & E). rewrite run_call, E. do 2 eexists. reflexivity.
  - fuel0. cbn [skip val_type kind_of]. destruct H0 as (s' & er & E). rewrite run_call, E. do 2 eexists. reflexivity.
  - destruct fuel as [|f]; [cbn in *; lia|]. cbn [skip val_type kind_of].
    rewrite run_vis, H. cbn [obind]. rewrite run_bind. cbn [vsize] in H2.
    destruct (H1 f (S f) ltac:(lia) ltac:(lia)) as (s' & er & E). rewrite E. cbn [obind run]. do 2 eexists. reflexivity.
  - destruct fuel as [|f]; [cbn in *; lia|]. cbn [skip val_type kind_of].
    rewrite run_vis, H. cbn [obind map_key map_val map_size]. unfold skip_loop. rewrite run_bind, run_loop_Z. cbn [vsize] in H2.
    replace (Z.to_nat (zlen es)) with (length es) by (unfold zlen; lia).
    destruct (H1 f ltac:(lia)) as (s' & er & E). rewrite E. cbn [obind run]. do 2 eexists. reflexivity.
  - destruct fuel as [|f]; [cbn in *; lia|]. cbn [skip val_type kind_of].
    rewrite run_vis, H. cbn [obind set_elem set_size]. unfold skip_loop. rewrite run_bind, run_loop_Z. cbn [vsize] in H2.
    replace (Z.to_nat (zlen es)) with (length es) by (unfold zlen; lia).
    destruct (H1 f ltac:(lia)) as (s' & er & E). rewrite E. cbn [obind run]. do 2 eexists. reflexivity.
  - destruct fuel as [|f]; [cbn in *; lia|]. cbn [skip val_type kind_of].
    rewrite run_vis, H. cbn [obind set_elem set_size]. unfold skip_loop. rewrite run_bind, run_loop_Z. cbn [vsize] in H2.
    replace (Z.to_nat (zlen es)) with (length es) by (unfold zlen; lia).
    destruct (H1 f ltac:(lia)) as (s' & er & E). rewrite E. cbn [obind run]. do 2 eexists. reflexivity.
  (* fields *)
  - destruct n as [|n]; [lia|]. cbn [loop_nat]. rewrite run_bind. unfold skip_field at 1.
    rewrite run_vis, H. cbn [obind run]. do 2 eexists. reflexivity.
  - destruct n as [|n]; [lia|]. cbn [loop_nat]. rewrite run_bind. unfold skip_field at 1.
    rewrite run_vis, H. cbn [obind fh_type fh_id]. rewrite val_type_not_stop.
    cbn [map snd] in H3. rewrite list_max_cons in H3.
    destruct (H1 f ltac:(lia)) as (s' & er & E). rewrite run_bind, E. cbn [obind run]. do 2 eexists. reflexivity.
  - destruct n as [|n]; [cbn in *; lia|]. cbn [loop_nat]. rewrite run_bind. unfold skip_field at 1.
    rewrite run_vis, H. cbn [obind fh_type fh_id]. rewrite val_type_not_stop.
    cbn [map snd] in H5. rewrite list_max_cons in H5. cbn [length] in H4.
    rewrite run_bind, (skip_cn v f s2 s3) by (auto; lia). cbn [obind].
    rewrite run_vis, H1. cbn [obind run].
    apply H3; lia.
  (* entries *)
  - cbn [map fst snd] in H1. rewrite list_max_cons in H1. cbn [length loop_nat]. rewrite run_bind.
    unfold skip_elem at 1, and_then. rewrite !run_bind.
    destruct (H0 f ltac:(lia)) as (s' & er & E). rewrite E. cbn [obind run]. do 2 eexists. reflexivity.
  - cbn [map fst snd] in H2. rewrite list_max_cons in H2. cbn [length loop_nat]. rewrite run_bind.
    unfold skip_elem at 1, and_then. rewrite !run_bind.
    rewrite (skip_cn k f s s2) by (auto; lia). cbn [obind].
    destruct (H1 f ltac:(lia)) as (s' & er & E). rewrite E. cbn [obind run]. do 2 eexists. reflexivity.
  - cbn [map fst snd] in H3. rewrite list_max_cons in H3. cbn [length loop_nat]. rewrite run_bind.
    unfold skip_elem at 1, and_then. rewrite !run_bind.
    rewrite (skip_cn k f s s2) by (auto; lia). cbn [obind].
    rewrite (skip_cn v f s2 s3) by (auto; lia). cbn [obind run]. apply H2. lia.
  (* elements *)
  - cbn [map] in H1. rewrite list_max_cons in H1. cbn [length loop_nat]. rewrite run_bind.
    unfold skip_elem at 1. rewrite !run_bind.
    destruct (H0 f ltac:(lia)) as (s' & er & E). rewrite E. cbn [obind run]. do 2 eexists. reflexivity.
  - cbn [map] in H2. rewrite list_max_cons in H2. cbn [length loop_nat]. rewrite run_bind.
    unfold skip_elem at 1. rewrite !run_bind.
    rewrite (skip_cn v f s s2) by (auto; lia). cbn [obind run]. apply H1. lia.
Qed.

Lemma start_bool b p s : breaks p (VBool b) s -> p = Start /\ refuses RBool s.
Proof using. intros H. inversion H; subst. auto. Qed.
Lemma start_byte b p s : breaks p (VByte b) s -> p = Start /\ refuses RByte s.
Proof using. intros H. inversion H; subst. auto. Qed.
Lemma start_double b p s : breaks p (VDouble b) s -> p = Start /\ refuses RDouble s.
Proof using. intros H. inversion H; subst. auto. Qed.
Lemma start_i16 b p s : breaks p (VI16 b) s -> p = Start /\ refuses RI16 s.
Proof using. intros H. inversion H; subst. auto. Qed.
Lemma start_i32 b p s : breaks p (VI32 b) s -> p = Start /\ refuses RI32 s.
Proof using. intros H. inversion H; subst. auto. Qed.
Lemma start_i64 b p s : breaks p (VI64 b) s -> p = Start /\ refuses RI64 s.
Proof using. intros H. inversion H; subst. auto. Qed.
Lemma start_string b p s : breaks p (VString b) s ->
  p = Start /\ refuses RString s /\ (forall buf, refuses (RBytes buf) s) /\ exists s' er, h _ RSkipString s = Done s' (Some er).
Proof using. intros H. inversion H; subst. auto. Qed.

(** ** Unmarshal *)
Context (env : tenv) (P : rtype -> Prop) (Hsup : supported env P) (Henv : env_ok env) (Hids : unique_ids env) (lim : Z) (ln : nat).
Hypothesis cn_decode : forall n a dst tv, decode env ln n a dst (cn tv) = decode env ln n a dst tv.
Let Hcl : closed env P := supported_closed env P Hsup.

Lemma unmarshal_cn n a dst tv v s s' : decode env ln n a dst tv = Some (v, None) -> reads h (cn tv) s s' ->
  run h (unmarshal env ln n a dst (val_type tv)) s = Done s' (v, None).
Proof using cn_type cn_decode.
  intros D R. rewrite <- cn_decode in D. destruct (unmarshal_reads env ln h n a dst (cn tv) _ s s' D R) as (s'' & E & L).
  rewrite cn_type in E. rewrite E, (L eq_refl). reflexivity.
Qed.

Lemma fail_rdu {X} act wt t (e : wireR (X * option err)) (dst : gval) k s : refuses e s ->
  exists s' er, run h (rdu act wt t e (fun _ er => (dst, Some er)) k) s = Done s' (dst, Some er).
Proof using. intros (s' & x & er & E). unfold rdu. rewrite run_vis, E. cbn. do 2 eexists. reflexivity. Qed.

Theorem unmarshal_breaks n : forall a t dst tv w p s, wf lim tv -> P t -> codec env t a -> has_type env dst t ->
  decode env ln n a dst tv = Some (w, None) -> breaks p tv s ->
  exists s' v er, run h (unmarshal env ln n a dst (val_type tv)) s = Done s' (v, Some er) /\ partly env p t dst tv v.
Proof using Hsup Henv Hids cn_type cn_size cn_decode.
  induction n as [|n IH]; intros a t dst tv w p s Hw Ht Hc Hd H Hbr; [discriminate|].
  pose proof (codec_inv env t a Hc) as Hi.
  assert (NB : as_bytes env t = false -> ~ byte_slice env t) by (intros B Hb; apply bytes_slice in Hb; congruence).
  assert (NS : (forall e, under env t <> RtSlice e) -> ~ byte_slice env t).
  { intros N Hb. unfold byte_slice in Hb. destruct Hb as [Hb _]. now apply (N _ Hb). }
  destruct a as [t'|t'|t' single|t' w'|t' w'|t'|t'|t'|t'|t' ka va|t' set ea|t' ea]; cbn [decode] in H; unfold mismatch in H; cbn [unmarshal].
  - discriminate.
  - destruct Hi as [-> U]. destruct tv; try discriminate. apply start_bool in Hbr as [-> Rf].
    cbn [val_type]. change 2 with T_Bool. rewrite check_ok. unfold Arshal.scalar. edestruct @fail_rdu as (s' & er & E); [exact Rf|].
    rewrite E. do 3 eexists. split; [reflexivity|]. apply pt_start; [congruence|apply NS; congruence].
  - destruct Hi as [-> U]. destruct tv; try discriminate. apply start_double in Hbr as [-> Rf].
    cbn [val_type]. change 4 with T_Double. rewrite check_ok. unfold Arshal.scalar. edestruct @fail_rdu as (s' & er & E); [exact Rf|].
    rewrite E. do 3 eexists. split; [reflexivity|]. destruct single; (apply pt_start; [congruence|apply NS; congruence]).
  - destruct Hi as [-> U]. destruct w', tv; try discriminate; cbn [width_int width_uint] in U;
      first [apply start_byte in Hbr as [-> Rf]|apply start_i16 in Hbr as [-> Rf]|apply start_i32 in Hbr as [-> Rf]|apply start_i64 in Hbr as [-> Rf]];
      cbn [val_type]; (match goal with |- context [check _ ?w] => rewrite (check_ok h w) end);
      unfold Arshal.scalar; (edestruct @fail_rdu as (s' & er & E); [exact Rf|]);
      rewrite E; do 3 eexists; (split; [reflexivity|]); (apply pt_start; [congruence|apply NS; congruence]).
  - destruct Hi as [-> U]. destruct w', tv; try discriminate; cbn [width_int width_uint] in U;
      first [apply start_byte in Hbr as [-> Rf]|apply start_i16 in Hbr as [-> Rf]|apply start_i32 in Hbr as [-> Rf]|apply start_i64 in Hbr as [-> Rf]];
      cbn [val_type]; (match goal with |- context [check _ ?w] => rewrite (check_ok h w) end);
      unfold Arshal.scalar; (edestruct @fail_rdu as (s' & er & E); [exact Rf|]);
      rewrite E; do 3 eexists; (split; [reflexivity|]); (apply pt_start; [congruence|apply NS; congruence]).
  - destruct Hi as [-> U]. destruct tv; try discriminate. apply start_string in Hbr as (-> & Rf & _).
    cbn [val_type]. change 11 with T_String. rewrite check_ok. unfold Arshal.scalar. edestruct @fail_rdu as (s' & er & E); [exact Rf|].
    rewrite E. do 3 eexists. split; [reflexivity|]. apply pt_start; [congruence|apply NS; congruence].
  - destruct Hi as (-> & U & B). destruct tv; try discriminate. apply start_string in Hbr as (-> & _ & Rf & _).
    assert (Hb : exists nl s0 sp0, dst = GBytes nl s0 sp0).
    { destruct dst as [| | | | |nl es sp| | |nl es sp|[o|]|[o|]|vs|]; cbn [has_type] in Hd; rewrite U in Hd;
        try contradiction; [now exists nl, es, sp|]. destruct Hd; congruence. }
    destruct Hb as (nl & b0 & sp0 & ->).
    cbn [val_type]. change 11 with T_String. rewrite check_ok. unfold Arshal.scalar. edestruct @fail_rdu as (s' & er & E); [exact (Rf [])|].
    rewrite E. do 3 eexists. split; [reflexivity|]. apply pt_bytes; [now apply bytes_slice|reflexivity].
  - pose proof (codec_uuid env t t' Hc) as ->. destruct tv; try discriminate. destruct dst; try discriminate.
    destruct (Nat.eqb_spec (length u0) 16) as [L16|]; [|discriminate].
    inversion Hbr as [? ? Rf|k ? ? Ru Rs| | | |]; subst; [contradiction|].
    cbn [val_type]. change 16 with T_UUID. rewrite check_ok. destruct (Ru _ L16) as (s' & er & E).
    unfold rdu. rewrite run_vis, E. do 3 eexists. split; [reflexivity|]. constructor.
  - destruct Hi as (-> & si & U). destruct (make_struct_fields env ln t) as [[fs|]|] eqn:M; try discriminate.
    destruct tv as [| | | | | | | |l| | |]; try discriminate. destruct dst as [| | | | | | | | | | |vs|]; try discriminate.
    destruct (Nat.ltb_spec (length l) (S n)) as [Hlt|]; [|discriminate]. destruct (table_facts env P Hsup Henv t si ln fs Ht U M) as [F3 F4].
    apply wf_fields in Hw.
    inversion Hbr as [? ? Rf| |? ? ? s1 x H0 Hr| | |]; subst; [contradiction|].
    cbn [val_type]. change 12 with T_Struct. rewrite check_ok. erewrite run_rdu by exact H0. rewrite run_bind.
    enough (G : exists s' vs' er, run h (loop_nat (S n) (unmarshal_field (unmarshal env ln n) (skip n) t fs) vs) s1
                            = Done s' (inr (GStruct vs', Some er)) /\ partly_fields env p si vs l vs').
    { destruct G as (s' & vs' & er & E & G). rewrite E. cbn [obind run]. do 3 eexists. split; [reflexivity|]. eapply pt_struct; eauto. }
    clear Hc H0 Hbr M. revert Hlt. generalize (S n) as k. intros k Hlt.
    revert k Hlt vs Hd w H p s1 Hr. induction l as [|[id tv] r IHr]; intros k Hlt vs Hd w H p s1 Hr; cbn [decode_fields] in H.
    { inversion Hr as [? ? s' ? er R| |]; subst. destruct k as [|k]; [cbn in Hlt; lia|]. cbn [loop_nat]. rewrite run_bind.
      unfold unmarshal_field at 1, rdu at 1. rewrite run_vis, R. cbn [obind run]. do 3 eexists. split; [reflexivity|]. constructor. }
    destruct k as [|k]; [cbn in Hlt; lia|]. cbn [length] in Hlt. cbn [loop_nat]. rewrite run_bind.
    inversion_clear Hw as [|? ? [Hid Hwv] Hwr]. cbn [fst snd] in *.
    inversion Hr as [? ? s' ? er R|q ? ? ? ? s2 nm R Hb|q ? ? ? ? s2 s3 s4 nm R Rv Re Hb]; subst.
    { unfold unmarshal_field at 1, rdu at 1. rewrite run_vis, R. cbn [obind run]. do 3 eexists. split; [reflexivity|]. constructor. }
    + unfold unmarshal_field at 1. erewrite run_rdu by exact R. cbn [fh_type fh_id]. rewrite val_type_not_stop.
      destruct (by_id fs id) as [f|] eqn:Bf.
      * apply byid_some in Bf as [Hf Ef]. destruct (F3 f Hf) as (sf & o & Nf & Tg & C & Eo & Psf).
        destruct (nth_error vs (f_index f)) as [v1|] eqn:Nw; [|discriminate].
        destruct (decode env ln n (f_fncs f) v1 tv) as [[w' [er|]]|] eqn:D; try discriminate.
        pose proof Hd as Hvs. apply type_struct in Hvs as (s' & U' & Hvs). rewrite U in U'. injection U' as <-.
        assert (Hw0 : has_type env v1 (sf_type sf)) by exact (Forall2_nth _ _ _ Hvs _ _ _ Nw Nf).
        destruct (IH _ _ _ _ _ _ _ Hwv Psf C Hw0 D Hb) as (s5 & v5 & er & E & G).
        rewrite run_bind, E. cbn [obind run]. do 3 eexists. split; [reflexivity|].
        pose proof (tagged_declares env sf o Tg) as Dc. rewrite <- Eo, Ef in Dc. eapply pf_known; eauto.
      * destruct (Nat.leb_spec (vsize tv) n); [|discriminate].
        destruct (skip_breaks _ _ _ Hb n ltac:(lia)) as (s5 & er & E). rewrite run_bind, E. cbn [obind run].
        do 3 eexists. split; [reflexivity|]. apply pf_unknown.
        intros sf req Hin Dc. apply In_nth_error in Hin as (j & Nj).
        destruct (F4 j sf _ Nj (declares_tagged _ _ _ _ Dc)) as (f & Hf & _ & E1). cbn in E1.
        exact (byid_none fs id f Bf Hf E1).
    + unfold unmarshal_field at 1. erewrite run_rdu by exact R. cbn [fh_type fh_id]. rewrite val_type_not_stop.
      destruct (by_id fs id) as [f|] eqn:Bf.
      * apply byid_some in Bf as [Hf Ef]. destruct (F3 f Hf) as (sf & o & Nf & Tg & C & Eo & Psf).
        destruct (nth_error vs (f_index f)) as [v1|] eqn:Nw; [|discriminate].
        destruct (decode env ln n (f_fncs f) v1 tv) as [[w' [er|]]|] eqn:D; try discriminate.
        pose proof Hd as Hvs. apply type_struct in Hvs as (s' & U' & Hvs). rewrite U in U'. injection U' as <-.
        assert (Hw0 : has_type env v1 (sf_type sf)) by exact (Forall2_nth _ _ _ Hvs _ _ _ Nw Nf).
        destruct (decode_stores env P Hsup Henv Hids lim ln n _ _ _ _ _ Hwv Psf C Hw0 D) as [S1 _].
        rewrite run_bind, (unmarshal_cn _ _ _ _ _ _ _ D Rv). cbn [obind]. erewrite run_rdu0 by exact Re. cbn [run obind].
        destruct (IHr Hwr k ltac:(lia) (set_nth (f_index f) w' vs)) with (w := w) (p := q) (s1 := s4) as (s5 & vs5 & er & E & G); auto.
        { apply type_struct. exists si. split; [exact U|]. eapply set_nth_Forall2; eauto. eapply decode_typed; eauto. }
        rewrite E. do 3 eexists. split; [reflexivity|].
        pose proof (tagged_declares env sf o Tg) as Dc. rewrite <- Eo, Ef in Dc. eapply pf_next; eauto.
      * destruct (Nat.leb_spec (vsize tv) n); [|discriminate].
        rewrite run_bind, (skip_cn tv n s2 s3) by auto. cbn [obind]. erewrite run_rdu0 by exact Re. cbn [run obind].
        destruct (IHr Hwr k ltac:(lia) vs Hd w H q s4 Hb) as (s5 & vs5 & er & E & G).
        rewrite E. do 3 eexists. split; [reflexivity|]. apply pf_next_unknown; [|exact G].
        intros sf req Hin Dc. apply In_nth_error in Hin as (j & Nj).
        destruct (F4 j sf _ Nj (declares_tagged _ _ _ _ Dc)) as (f & Hf & _ & E1). cbn in E1.
        exact (byid_none fs id f Bf Hf E1).
  - destruct Hi as (-> & gk & e & U & Hka & Hva).
    pose proof (cl_parts env P Hcl t Ht) as Kp; unfold parts in Kp. rewrite U in Kp. destruct Kp as [Pk Pe].
    destruct tv as [| | | | | | | | |kt vt tes| |]; try discriminate. destruct dst as [| | | | | | | | |o| | |]; try discriminate.
    assert (Ho : Forall (fun p => has_type env (fst p) gk /\ has_type env (snd p) e) (match o with Some es => es | None => [] end)).
    { destruct o as [es|]; [|constructor]. apply type_map in Hd as (k' & e' & U' & Hd). rewrite U in U'. injection U' as <- <-. exact Hd. }
    cbn [val_type]. change 13 with T_Map. rewrite check_ok.
    inversion Hbr as [? ? Rf| | |? ? ? ? ? s1 H0 Hr| |]; subst.
    { edestruct @fail_rdu as (s' & er & E); [exact Rf|]. rewrite E. do 3 eexists. split; [reflexivity|].
      apply pt_start; [congruence|apply NS; congruence]. }
    erewrite run_rdu by exact H0. cbn [map_size].
    destruct tes as [|e0 r0]; [inversion Hr|].
    destruct (Z.gtb_spec (zlen (e0 :: r0)) 0) as [_|Hz]; [|rewrite zlen_cons in Hz; pose proof (zlen_nonneg r0); lia].
    destruct (decode_entries env (decode env ln n) t ka va _ (e0 :: r0)) as [[es er]|] eqn:E; [|discriminate].
    injection H as _ ->. apply wf_map in Hw.
    rewrite run_bind, run_loop_Z.
    replace (Z.to_nat (zlen (e0 :: r0))) with (length (e0 :: r0)) by (unfold zlen; lia).
    set (body := unmarshal_entry _ _ _ _ _ _).
    enough (G : exists s' es' er, run h (loop_nat (length (e0 :: r0)) body (match o with Some es => es | None => [] end)) s1 =
        Done s' (inr (GMap (Some es'), Some er)) /\
      partly_entries env p gk e (match o with Some es => es | None => [] end) (e0 :: r0) es').
    { destruct G as (s' & es' & er & E1 & G). rewrite E1. cbn [obind run]. do 3 eexists. split; [reflexivity|]. eapply pt_map; eauto. }
    assert (Kt : key_type env t = gk) by (unfold key_type; now rewrite U).
    assert (Et : elem_type env t = e) by (unfold elem_type; now rewrite U).
    clear Hc Hd H0 Hbr. revert p s1 Hw Ho E Hr. generalize (match o with Some es => es | None => [] end) as old.
    subst body. generalize (zlen (e0 :: r0)) as sz. intros sz. generalize (e0 :: r0) as tes. clear e0 r0.
    induction tes as [|[tk tv] r IHr]; intros old p s1 Hw Ho E Hr; [inversion Hr|]. cbn [decode_entries] in E.
    inversion_clear Hw as [|p0 ? [Hwk Hwv] Hwr]. cbn [fst snd] in *. rewrite Kt, Et in E.
    destruct (decode env ln n ka (zero env gk) tk) as [[k [er|]]|] eqn:Dk; try discriminate.
    assert (Tv : has_type env (match map_get old k with Some v => v | None => zero env e end) e).
    { destruct (map_get old k) as [x0|] eqn:G; [|apply (zero_typed env Henv)].
      eapply (map_get_Forall (fun v => has_type env v e)); [|exact G]. eapply Forall_impl; [|exact Ho]. cbn. tauto. }
    destruct (decode env ln n va _ tv) as [[val [er|]]|] eqn:Dv; try discriminate.
    cbn [length loop_nat]. rewrite run_bind. unfold unmarshal_entry at 1. rewrite Kt. cbn [map_key map_val].
    destruct (decode_stores env P Hsup Henv Hids lim ln n _ _ _ _ _ Hwk Pk Hka (zero_typed env Henv gk) Dk) as [K1 _].
    inversion Hr as [q ? ? ? ? Hb|q ? ? ? ? s2 R1 Hb|q ? ? ? ? s2 s3 R1 R2 Hb]; subst.
    + destruct (IH _ _ _ _ _ _ _ Hwk Pk Hka (zero_typed env Henv _) Dk Hb) as (s5 & v5 & er & E5 & G).
      rewrite !run_bind, E5. cbn [obind run]. do 3 eexists. split; [reflexivity|]. constructor.
    + rewrite !run_bind, (unmarshal_cn _ _ _ _ _ _ _ Dk R1). cbn [obind].
      destruct (IH _ _ _ _ _ _ _ Hwv Pe Hva Tv Dv Hb) as (s5 & v5 & er & E5 & G).
      rewrite run_bind, E5. cbn [obind run]. do 3 eexists. split; [reflexivity|]. eapply pe_value; eauto.
    + rewrite !run_bind, (unmarshal_cn _ _ _ _ _ _ _ Dk R1). cbn [obind].
      rewrite run_bind, (unmarshal_cn _ _ _ _ _ _ _ Dv R2). cbn [obind run].
      destruct (decode_stores env P Hsup Henv Hids lim ln n _ _ _ _ _ Hwv Pe Hva Tv Dv) as [V1 _].
      destruct (IHr (map_set old k val) q s3 Hwr) as (s5 & es5 & er & E5 & G); auto.
      { apply map_set_Forall; auto. split; cbn.
        - exact (decode_typed env P Hsup Henv _ _ _ _ _ _ _ _ _ Hwk Pk Hka (zero_typed env Henv _) Dk).
        - exact (decode_typed env P Hsup Henv _ _ _ _ _ _ _ _ _ Hwv Pe Hva Tv Dv). }
      rewrite E5. do 3 eexists. split; [reflexivity|]. eapply pe_next; eauto.
  - destruct Hi as (-> & e & U & B & Hea & Hset).
    assert (Et : elem_type env t = e) by (unfold elem_type; now rewrite U).
    pose proof (cl_parts env P Hcl t Ht) as Kp; unfold parts in Kp. rewrite U in Kp. specialize (Kp B).
    destruct (match tv, set with VSet _ tes, true | VList _ tes, false => Some tes | _, _ => None end) as [tes|] eqn:Etes; [|discriminate].
    destruct dst as [| | | | | | | |nl0 es0 sp0| | | |]; try discriminate.
    assert (Hwt : Forall (wf lim) tes).
    { destruct tv as [| | | | | | | | | |et l|et l], set; try discriminate; injection Etes as <-; apply (wf_seq lim et); auto. }
    assert (Tw : val_type tv = if set then T_Set else T_List) by (destruct tv, set; try reflexivity; discriminate).
    cbn zeta. rewrite Tw, check_ok.
    assert (R : (p = Start /\ refuses (if set then RSetBegin else RListBegin) s) \/
       exists s1 et, h _ (if set then RSetBegin else RListBegin) s = Done s1 (mkSetH et (zlen tes), None) /\ breaks_elems p et tes s1).
    { destruct tv, set; try discriminate; injection Etes as ->; inversion Hbr; subst; [left|right|left|right]; eauto. }
    destruct R as [[-> Rf]|(s1 & et & H0 & Hr)].
    { edestruct @fail_rdu as (s' & er & E); [exact Rf|]. rewrite E. do 3 eexists. split; [reflexivity|].
      apply pt_start; [congruence|apply NB; exact B]. }
    erewrite run_rdu by exact H0. cbn [set_size set_elem].
    destruct tes as [|e0 r0]; [inversion Hr|].
    destruct (Z.gtb_spec (zlen (e0 :: r0)) 0) as [_|Hz]; [|rewrite zlen_cons in Hz; pose proof (zlen_nonneg r0); lia].
    rewrite run_bind, run_loop_Z.
    replace (Z.to_nat (zlen (e0 :: r0))) with (length (e0 :: r0)) by (unfold zlen; lia).
    set (body := unmarshal_elem _ _ _ _ _).
    enough (G : exists s' es sp er, run h (loop_nat (length (e0 :: r0)) body (O, es0 ++ sp0, true)) s1 =
        Done s' (inr (GSlice false (firstn O (es0 ++ sp0) ++ es) sp, Some er)) /\
      partly_elems env p e (e0 :: r0) es).
    { destruct G as (s' & es & sp & er & E1 & G). rewrite E1. cbn [obind run firstn app]. do 3 eexists. split; [reflexivity|].
      destruct tv as [| | | | | | | | | |k l|k l], set; try discriminate; injection Etes as ->.
      - eapply pt_set; eauto.
      - eapply pt_list; eauto. }
    clear Hc Hd H0 Hbr Etes Tw. assert (Hi0 : (O <= length (es0 ++ sp0))%nat) by lia.
    assert (Hz0 : true = false -> forall j, (0 <= j < length (es0 ++ sp0))%nat -> nth j (es0 ++ sp0) (zero env e) = zero env e) by discriminate.
    subst body. revert Hwt H Hr Hi0 Hz0. generalize (es0 ++ sp0) as arr. generalize O as i. generalize true as mz.
    revert p s1 w. generalize (e0 :: r0) as tes. clear e0 r0.
    induction tes as [|tv0 r IHr]; intros p s1 w mz i arr Hwt D Hr Hi0 Hz0; [inversion Hr|]. cbn [decode_elems] in D.
    inversion_clear Hwt as [|? ? Hwv Hwr]. cbn [length loop_nat]. rewrite run_bind. unfold unmarshal_elem at 1. rewrite Et in *.
    set (am := if Nat.eqb i (length arr)
        then (arr ++ repeat (zero env e) (S (te_grow env (length arr))), false)
        else (arr, mz)) in *.
    assert (Ham : (i < length (fst am))%nat /\ firstn i (fst am) = firstn i arr /\
       (snd am = false -> forall j, (i <= j < length (fst am))%nat -> nth j (fst am) (zero env e) = zero env e)).
    { subst am. destruct (Nat.eqb_spec i (length arr)) as [->|Hne]; cbn [fst snd].
      - rewrite app_length, repeat_length. conj; [lia|rewrite firstn_app, Nat.sub_diag, firstn_O, app_nil_r, firstn_all; reflexivity|].
        intros _ j Hj. rewrite app_nth2 by lia. apply nth_repeat.
      - conj; [lia|reflexivity|exact Hz0]. }
    destruct am as [arr1 mz1]. cbn [fst snd] in Ham. destruct Ham as (A1 & A2 & A3).
    assert (Z0 : (if mz1 then zero env e else nth i arr1 (GOther 0)) = zero env e).
    { destruct mz1; [reflexivity|]. rewrite nth_indep with (d' := zero env e) by exact A1. apply A3; auto; lia. }
    rewrite Z0 in *. destruct (decode env ln n ea (zero env e) tv0) as [[x [er|]]|] eqn:Dv; try discriminate.
    inversion Hr as [q ? ? ? Hb|q ? ? ? s2 R1 Hb]; subst.
    + destruct (IH _ _ _ _ _ _ _ Hwv Kp Hea (zero_typed env Henv _) Dv Hb) as (s5 & v5 & er & E5 & G).
      rewrite run_bind, E5. cbn [obind run]. do 3 eexists. exists er. split; [|constructor; exact G].
      rewrite <- A2. f_equal. f_equal. f_equal. rewrite firstn_S_set by exact A1. reflexivity.
    + rewrite run_bind, (unmarshal_cn _ _ _ _ _ _ _ Dv R1). cbn [obind run].
      destruct (decode_stores env P Hsup Henv Hids lim ln n _ _ _ _ _ Hwv Kp Hea (zero_typed env Henv _) Dv) as [V1 _].
      destruct (IHr q s2 w mz1 (S i) (set_nth i x arr1) Hwr D Hb) as (s5 & es & sp & er & E5 & G).
      { rewrite set_nth_length. lia. }
      { intros Hm j Hj. rewrite set_nth_length in Hj. rewrite nth_set_away by lia. apply A3; auto; lia. }
      rewrite E5, firstn_S_set, <- app_assoc, A2 by exact A1. exists s5, (x :: es), sp, er. split; [reflexivity|]. constructor; auto.
  - destruct Hi as (-> & e & U & Hea). assert (Et : elem_type env t = e) by (unfold elem_type; now rewrite U). rewrite Et in *.
    pose proof (cl_parts env P Hcl t Ht) as Kp; unfold parts in Kp. rewrite U in Kp.
    destruct dst as [| | | | | | | | | |o| |]; try discriminate.
    destruct (decode env ln n ea _ tv) as [[x r]|] eqn:D; [|discriminate]. injection H as <- ->.
    destruct o as [v0|].
    + cbn [has_type] in Hd. rewrite U in Hd. destruct (IH _ _ _ _ _ _ _ Hw Kp Hea Hd D Hbr) as (s' & v & er & E & G).
      rewrite run_bind, E. cbn [obind run]. do 3 eexists. split; [reflexivity|]. eapply pt_ptr; eauto.
    + destruct (IH _ _ _ _ _ _ _ Hw Kp Hea (zero_typed env Henv e) D Hbr) as (s' & v & er & E & G).
      rewrite run_bind, E. cbn [obind run]. do 3 eexists. split; [reflexivity|]. eapply pt_nil; eauto.
Qed.
End Left.

Lemma Unmarshal_breaks {St} (h : handler wireR St) (cn : tval -> tval) env P lim t dst tv :
  (forall v, val_type (cn v) = val_type v) -> (forall v, vsize (cn v) = vsize v) ->
  (forall ln n a dst tv, decode env ln n a dst (cn tv) = decode env ln n a dst tv) ->
  supported env P -> env_ok env -> unique_ids env -> wf lim tv -> P t -> has_type env dst t -> conforms env t tv ->
  exists N, forall p s n, breaks h cn p tv s -> (N <= n)%nat -> exists s' v er,
    run h (Unmarshal env n n (Some (RtPtr t, GPtr (Some dst)))) s = Done s' (Some v, Some er) /\ partly env p t dst tv v.
Proof.
  intros C1 C2 C3 Hs He Hu Hw Ht Hd Hf. pose proof (supported_closed env P Hs) as Hcl.
  destruct (lookup_ends env t (sup_eager env P Hs t Ht)) as (a & Hc). pose proof Hc as (k & L).
  pose proof (conforms_wire env P Hs t a tv Ht Hc Hf) as W.
  destruct (decode_total env P Hcl He lim tv Hw a t dst Ht Hc Hd) as (v & r & (N & S) & _).
  exists (k + N)%nat. intros p s n Hb Hn. specialize (S n n ltac:(lia) ltac:(lia)).
  pose proof (conforms_ok env P Hs He n n a t dst tv v r Ht Hc Hf S) as ->.
  destruct (unmarshal_breaks h cn C1 C2 env P Hs He Hu lim n (C3 n) n a t dst tv v p s Hw Ht Hc Hd S Hb) as (s' & v' & er & R & Pt).
  exists s', v', er. split; [|exact Pt].
  rewrite (Unmarshal_ptr env h n n t dst a s (lookup_more env k n _ _ ltac:(lia) L)), W, R. reflexivity.
Qed.
