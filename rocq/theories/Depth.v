(** How deep Skip recurses: just as deep as the value is nested. *)
From Verif Require Import Base BaseLemmas Prog Fuel Bufio BufioProof Layers Wire WireProof Spec Clients Reads Binary BinaryProof
  Compact CompactProof RoundTrip.

(** Skip (encoding/thriftwire/skip.go:4-82) with room for [d] calls of Skip on the
    stack and [w] fields in a struct; [skip] of Wire.v has one bound for both. *)
Fixpoint skip_within (w d : nat) (t : Z) : prog wireR (option err) :=
  match d with
  | O => Crash OutOfFuel
  | S f =>
      match kind_of t with
      | None => Ret (Some (EInvalidType t))
      | Some KBool => '(_, e) <- call RBool ;; Ret e
      | Some KByte => '(_, e) <- call RByte ;; Ret e
      | Some KDouble => '(_, e) <- call RDouble ;; Ret e
      | Some KI16 => '(_, e) <- call RI16 ;; Ret e
      | Some KI32 => '(_, e) <- call RI32 ;; Ret e
      | Some KI64 => '(_, e) <- call RI64 ;; Ret e
      | Some KString => call RSkipString
      | Some KStruct =>
          '(_, e) <- call RStructBegin ;;
          match e with
          | Some _ => Ret e
          | None =>
              x <- loop_nat w (skip_field (skip_within w f)) tt ;;
              match x with inr e => Ret e | inl _ => Crash OutOfFuel end
          end
      | Some KMap =>
          '(h, e) <- call RMapBegin ;;
          match e with
          | Some _ => Ret e
          | None =>
              skip_loop (map_size h) (skip_within w f (map_key h) >>! skip_within w f (map_val h)) (call RMapEnd)
          end
      | Some KSet =>
          '(h, e) <- call RSetBegin ;;
          match e with
          | Some _ => Ret e
          | None => skip_loop (set_size h) (skip_within w f (set_elem h)) (call RSetEnd)
          end
      | Some KList =>
          '(h, e) <- call RListBegin ;;
          match e with
          | Some _ => Ret e
          | None => skip_loop (set_size h) (skip_within w f (set_elem h)) (call RListEnd)
          end
      | Some KUUID => call RSkipUUID
      end
  end.

(** How deep a value is nested, and the largest number of fields in a struct. *)
Fixpoint nesting (v : tval) : nat :=
  match v with
  | VStruct fs => S (list_max (map (fun f => nesting (snd f)) fs))
  | VMap _ _ es => S (list_max (map (fun e => Nat.max (nesting (fst e)) (nesting (snd e))) es))
  | VSet _ es | VList _ es => S (list_max (map nesting es))
  | _ => 1%nat
  end.
Fixpoint breadth (v : tval) : nat :=
  match v with
  | VStruct fs => Nat.max (length fs) (list_max (map (fun f => breadth (snd f)) fs))
  | VMap _ _ es => list_max (map (fun e => Nat.max (breadth (fst e)) (breadth (snd e))) es)
  | VSet _ es | VList _ es => list_max (map breadth es)
  | _ => O
  end.

(** It is the Skip of Wire.v. *)
Lemma within_skip w d : forall t n, (w + d <= n)%nat -> below (skip_within w d t) (skip n t).
Proof.
  induction d as [|d IH]; intros t n Hn; cbn [skip_within]; [apply bl_fuel|]. destruct n as [|n]; [lia|]. cbn [skip].
  destruct (kind_of t) as [k|]; [|apply bl_ret]. destruct k; try apply below_refl.
  - apply below_call. intros [nm [e|]]; [apply bl_ret|]. apply below_fuel_loop; [lia|].
    intros u. unfold skip_field. apply below_call. intros [hd [e|]]; [apply bl_ret|].
    destruct (fh_type hd =? T_Stop); [apply below_refl|].
    apply below_bind; [apply IH; lia|]. intros [e|]; apply below_refl.
  - apply below_call. intros [hd [e|]]; [apply bl_ret|]. apply below_skip_loop. apply below_and_then; apply IH; lia.
  - apply below_call. intros [hd [e|]]; [apply bl_ret|]. apply below_skip_loop. apply IH; lia.
  - apply below_call. intros [hd [e|]]; [apply bl_ret|]. apply below_skip_loop. apply IH; lia.
Qed.
Lemma skip_within_all n : forall t, below (skip n t) (skip_within n n t).
Proof.
  assert (G : forall w d t, (d <= w)%nat -> below (skip d t) (skip_within w d t)); [|intros t; apply G; lia].
  intros w. induction d as [|d IH]; intros t Hn; cbn [skip_within skip]; [apply bl_fuel|].
  destruct (kind_of t) as [k|]; [|apply bl_ret]. destruct k; try apply below_refl.
  - apply below_call. intros [nm [e|]]; [apply bl_ret|]. apply below_fuel_loop; [lia|].
    intros u. unfold skip_field. apply below_call. intros [hd [e|]]; [apply bl_ret|].
    destruct (fh_type hd =? T_Stop); [apply below_refl|].
    apply below_bind; [apply IH; lia|]. intros [e|]; apply below_refl.
  - apply below_call. intros [hd [e|]]; [apply bl_ret|]. apply below_skip_loop. apply below_and_then; apply IH; lia.
  - apply below_call. intros [hd [e|]]; [apply bl_ret|]. apply below_skip_loop. apply IH; lia.
  - apply below_call. intros [hd [e|]]; [apply bl_ret|]. apply below_skip_loop. apply IH; lia.
Qed.

Section Reads.
Context {St : Type} (h : handler wireR St) (w : nat).
Definition depth_is (v : tval) : Prop := forall d s s', (breadth v < w)%nat -> reads h v s s' ->
  run h (skip_within w d (val_type v)) s = if (nesting v <=? d)%nat then Done s' None else Crashed OutOfFuel.

Lemma leb_S a b : (S a <=? S b)%nat = (a <=? b)%nat.
Proof. reflexivity. Qed.
Lemma leb_max a b c : (Nat.max a b <=? c)%nat = ((a <=? c) && (b <=? c))%nat.
Proof. destruct (Nat.leb_spec (Nat.max a b) c), (Nat.leb_spec a c), (Nat.leb_spec b c); cbn; auto; lia. Qed.

Lemma elems_depth fin et es d : Forall depth_is es -> (list_max (map breadth es) < w)%nat -> forall s s', reads_elems h fin et s' es s ->
  run h (skip_loop (zlen es) (skip_within w d et) (call fin)) s =
  if (list_max (map nesting es) <=? d)%nat then Done s' None else Crashed OutOfFuel.
Proof.
  intros HF Hw s s' H. unfold skip_loop. rewrite run_bind, run_loop_Z. replace (Z.to_nat (zlen es)) with (length es) by (unfold zlen; lia).
  revert s H. induction HF as [|v r Hv HF IH]; intros s H.
  - cbn [map list_max fold_right length loop_nat run obind reads_elems] in *. rewrite run_call. exact H.
  - destruct H as (<- & s2 & H1 & H2). cbn [map] in *. rewrite list_max_cons in *. cbn [length loop_nat]. rewrite run_bind.
    unfold skip_elem at 1. rewrite run_bind, (Hv d s s2) by (auto; lia). rewrite leb_max.
    destruct (nesting v <=? d)%nat; cbn [obind run andb]; [|reflexivity]. apply IH; [lia|exact H2].
Qed.

Theorem skip_depth_is v : depth_is v.
Proof.
  induction v as [b|b|z|z|z|z|x|u|fs IH|kt vt es IH|et es IH|et es IH] using tval_ind';
    intros d s s' Hw H; (destruct d as [|d]; [reflexivity|]);
    cbn [skip_within val_type kind_of nesting]; rewrite ?leb_S.
  1-6: cbn [reads] in H; rewrite run_vis, H; reflexivity.
  - destruct H as (_ & _ & H). rewrite run_call. exact H.
  - destruct H as (_ & H). rewrite run_call. exact H.
  - destruct H as (s1 & nm & H0 & H). rewrite run_vis, H0. cbn [obind].
    change (reads_fields h s' fs s1) in H. rewrite run_bind. cbn [breadth] in Hw.
    assert (Hg : forall fs n s1, Forall (fun f => depth_is (snd f)) fs -> (length fs < n)%nat ->
      (list_max (map (fun f => breadth (snd f)) fs) < w)%nat -> reads_fields h s' fs s1 ->
      run h (loop_nat n (skip_field (skip_within w d)) tt) s1 =
      if (list_max (map (fun f => nesting (snd f)) fs) <=? d)%nat then Done s' (inr None) else Crashed OutOfFuel).
    { clear IH Hw H H0 s1. intros fs0. induction fs0 as [|[id v] r IHr]; intros n s1 HF Hn Hm H.
      - destruct n as [|n]; [cbn in Hn; lia|]. cbn [loop_nat]. rewrite run_bind.
        destruct H as (s2 & hd & H1 & H2 & H3). unfold skip_field.
        rewrite run_vis, H1. cbn [obind]. rewrite H2. change (T_Stop =? T_Stop) with true.
        cbn iota. rewrite run_vis, H3. reflexivity.
      - destruct n as [|n]; [cbn in Hn; lia|]. cbn [loop_nat]. rewrite run_bind.
        destruct H as (s2 & s3 & s4 & nm' & H1 & H2 & H3 & H4). unfold skip_field at 1.
        rewrite run_vis, H1. cbn [obind fh_type fh_id]. rewrite val_type_not_stop.
        inversion HF as [|? ? Hv HF']; subst. cbn [snd] in Hv.
        cbn [map snd] in *. rewrite list_max_cons in *. cbn [length] in Hn.
        rewrite run_bind, (Hv d s2 s3) by (auto; lia). rewrite leb_max.
        destruct (nesting v <=? d)%nat; cbn [obind andb]; [|reflexivity].
        rewrite run_vis, H3. cbn [obind run]. apply IHr; auto; lia. }
    rewrite (Hg fs w s1); auto; try lia. destruct (_ <=? d)%nat; reflexivity.
  - destruct H as (s1 & H0 & H). rewrite run_vis, H0. cbn [obind map_key map_val map_size].
    change (reads_entries h kt vt s' es s1) in H. cbn [breadth] in Hw.
    unfold skip_loop. rewrite run_bind, run_loop_Z. replace (Z.to_nat (zlen es)) with (length es) by (unfold zlen; lia). clear H0.
    revert s1 H. induction IH as [|[k v] r [Hk Hv] HF IH]; intros s1 H.
    + cbn [map list_max fold_right length loop_nat run obind reads_entries] in *. rewrite run_call. exact H.
    + destruct H as (<- & <- & s2 & s3 & H1 & H2 & H3). cbn [map fst snd] in *. rewrite list_max_cons in *. cbn [length loop_nat]. rewrite run_bind.
      unfold skip_elem at 1, and_then at 1. rewrite !run_bind, (Hk d s1 s2) by (auto; lia). rewrite !leb_max.
      destruct (nesting k <=? d)%nat; cbn [obind run andb]; [|reflexivity]. rewrite (Hv d s2 s3) by (auto; lia).
      destruct (nesting v <=? d)%nat; cbn [obind run andb]; [|reflexivity]. apply IH; [lia|exact H3].
  - destruct H as (s1 & H0 & H). rewrite run_vis, H0. cbn [obind set_elem set_size]. exact (elems_depth RSetEnd et es d IH Hw s1 s' H).
  - destruct H as (s1 & H0 & H). rewrite run_vis, H0. cbn [obind set_elem set_size]. exact (elems_depth RListEnd et es d IH Hw s1 s' H).
Qed.
End Reads.

Lemma canon_depth v : nesting (canon v) = nesting v /\ breadth (canon v) = breadth v.
Proof.
  induction v as [b|b|z|z|z|z|x|u|fs IH|kt vt es IH|et es IH|et es IH] using tval_ind'; try (split; reflexivity).
  - cbn [canon nesting breadth]. rewrite map_length, !map_map.
    split; do 2 f_equal; apply map_ext_Forall; (eapply Forall_impl; [|exact IH]); cbn; intros f H; apply H.
  - destruct es as [|e0 r0]; [split; reflexivity|].
    change (canon (VMap kt vt (e0 :: r0))) with (VMap kt vt (map (fun e => (canon (fst e), canon (snd e))) (e0 :: r0))).
    cbn [nesting breadth]. rewrite !map_map.
    split; [f_equal|]; f_equal; apply map_ext_Forall; (eapply Forall_impl; [|exact IH]); cbn; intros f [[H1 H2] [H3 H4]]; congruence.
  - cbn [canon nesting breadth]. rewrite !map_map.
    split; [f_equal|]; f_equal; apply map_ext_Forall; (eapply Forall_impl; [|exact IH]); cbn; intros f H; apply H.
  - cbn [canon nesting breadth]. rewrite !map_map.
    split; [f_equal|]; f_equal; apply map_ext_Forall; (eapply Forall_impl; [|exact IH]); cbn; intros f H; apply H.
Qed.

Theorem depth_binary strict size b v rest w d e :
  10 <= size -> binv size b -> wf (2 ^ 31) v -> (breadth v < w)%nat -> abs b = mkStream (binary_encoding v ++ rest) e ->
  ((nesting v <= d)%nat -> exists b', run (over (bin_reader strict) (bufio_h size)) (skip_within w d (val_type v)) (tt, b) = Done (tt, b') None /\
     binv size b' /\ abs b' = mkStream rest e) /\
  ((d < nesting v)%nat -> run (over (bin_reader strict) (bufio_h size)) (skip_within w d (val_type v)) (tt, b) = Crashed OutOfFuel).
Proof.
  intros Hs Hb Hwf Hw Ea.
  pose proof (layer_refines size (bin_reader strict) (skip_within w d (val_type v)) tt b ltac:(lia) Hb (bin_reader_fok strict)) as H.
  rewrite Ea in H. rewrite (skip_depth_is _ w v d _ _ Hw (bin_reads strict size ltac:(lia) v rest e Hwf)) in H. unfold refines_l in H. split; intros Hd.
  - rewrite (proj2 (Nat.leb_le _ _) Hd) in H. destruct (run _ _ (tt, b)) as [[[] b'] x|c]; [|contradiction].
    destruct H as (_ & -> & H1 & H2). exists b'. auto.
  - rewrite (proj2 (Nat.leb_gt _ _) Hd) in H. destruct (run _ _ (tt, b)) as [[? ?] ?|c]; [contradiction|now subst].
Qed.

Theorem depth_compact size b v l rest w d st e :
  10 <= size -> binv size b -> wf (2 ^ 63) v -> (breadth v < w)%nat -> compact_enc wrap_field v l -> cr_bool st = BNone ->
  abs b = mkStream (l ++ rest) (FErr e) ->
  ((nesting v <= d)%nat -> exists b', run (over cmp_reader (bufio_h size)) (skip_within w d (val_type v)) (st, b) = Done (st, b') None /\
     binv size b' /\ abs b' = mkStream rest (FErr e)) /\
  ((d < nesting v)%nat -> run (over cmp_reader (bufio_h size)) (skip_within w d (val_type v)) (st, b) = Crashed OutOfFuel).
Proof.
  intros Hs Hb Hwf Hw He Hst Ea. destruct (canon_depth v) as [N B].
  pose proof (layer_refines size cmp_reader (skip_within w d (val_type v)) st b ltac:(lia) Hb
                (fun X e s => cmp_reader_fok _ X e s tw_read_uvarint_fok)) as H.
  rewrite Ea, <- canon_val_type in H. rewrite <- B in Hw.
  rewrite (skip_depth_is _ w (canon v) d _ _ Hw (cmp_reads_canon size e v l rest st Hs Hwf He Hst)), N, canon_val_type in H. unfold refines_l in H. split; intros Hd.
  - rewrite (proj2 (Nat.leb_le _ _) Hd) in H. destruct (run _ _ (st, b)) as [[st' b'] x|c]; [|contradiction].
    destruct H as (-> & -> & H1 & H2). exists b'. auto.
  - rewrite (proj2 (Nat.leb_gt _ _) Hd) in H. destruct (run _ _ (st, b)) as [[? ?] ?|c]; [contradiction|now subst].
Qed.
