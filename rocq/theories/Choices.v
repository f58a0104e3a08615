(** Strings may be written with WriteString or WriteBytes and read with
    ReadString or ReadBytes; clients may choose anew at every string. *)
From Verif Require Import Base BaseLemmas Prog Bufio BufioProof BufioW BufioWProof Wire WireProof Spec Clients
  Binary BinaryProof Compact CompactProof Layers RoundTrip EndToEnd.

(** [with_bytes_w p q]: q is p with some WriteString calls replaced by
    WriteBytes calls of the same bytes. *)
Inductive with_bytes_w {A} : prog wireW A -> prog wireW A -> Prop :=
| wbw_ret a : with_bytes_w (Ret a) (Ret a)
| wbw_crash c : with_bytes_w (Crash c) (Crash c)
| wbw_same X (e : wireW X) k k' : (forall x, with_bytes_w (k x) (k' x)) -> with_bytes_w (Vis e k) (Vis e k')
| wbw_bytes s k k' : (forall x, with_bytes_w (k x) (k' x)) ->
    with_bytes_w (Vis (WString s) k) (Vis (WBytes s) k').

(** [with_bytes_r p q]: q is p with some ReadString calls replaced by ReadBytes
    calls with an empty buffer. *)
Inductive with_bytes_r {A} : prog wireR A -> prog wireR A -> Prop :=
| wbr_ret a : with_bytes_r (Ret a) (Ret a)
| wbr_crash c : with_bytes_r (Crash c) (Crash c)
| wbr_same X (e : wireR X) k k' : (forall x, with_bytes_r (k x) (k' x)) -> with_bytes_r (Vis e k) (Vis e k')
| wbr_bytes k k' : (forall x, with_bytes_r (k x) (k' x)) ->
    with_bytes_r (Vis RString k) (Vis (RBytes []) k').

(** Every string written with WriteBytes; every string read with ReadBytes. *)
Fixpoint all_bytes_w {A} (p : prog wireW A) : prog wireW A :=
  match p with
  | Ret a => Ret a
  | Crash c => Crash c
  | @Vis _ _ X e k =>
      match e in wireW X return (X -> prog wireW A) -> prog wireW A with
      | WString s => fun k => Vis (WBytes s) k
      | e => fun k => Vis e k
      end (fun x => all_bytes_w (k x))
  end.
Fixpoint all_bytes_r {A} (p : prog wireR A) : prog wireR A :=
  match p with
  | Ret a => Ret a
  | Crash c => Crash c
  | @Vis _ _ X e k =>
      match e in wireR X return (X -> prog wireR A) -> prog wireR A with
      | RString => fun k => Vis (RBytes []) k
      | e => fun k => Vis e k
      end (fun x => all_bytes_r (k x))
  end.

Lemma with_bytes_w_refl {A} (p : prog wireW A) : with_bytes_w p p.
Proof. induction p; constructor; auto. Qed.
Lemma with_bytes_r_refl {A} (p : prog wireR A) : with_bytes_r p p.
Proof. induction p; constructor; auto. Qed.
Lemma with_all_bytes_w {A} (p : prog wireW A) : with_bytes_w p (all_bytes_w p).
Proof. induction p as [a|X e k IH|c]; cbn; [constructor| |constructor]. destruct e; constructor; auto. Qed.
Lemma with_all_bytes_r {A} (p : prog wireR A) : with_bytes_r p (all_bytes_r p).
Proof. induction p as [a|X e k IH|c]; cbn; [constructor| |constructor]. destruct e; constructor; auto. Qed.

Lemma run_bytes_w {A St} (h : handler wireW St) (p q : prog wireW A) :
  (forall x s, h _ (WBytes x) s = h _ (WString x) s) -> with_bytes_w p q ->
  forall s, run h q s = run h p s.
Proof.
  intros Hh. induction 1 as [a|c|X e k k' _ IH|x k k' _ IH]; intros s; cbn; auto.
  - destruct (h X e s); auto.
  - rewrite Hh. destruct (h _ (WString x) s); auto.
Qed.
Lemma run_bytes_r {A St} (h : handler wireR St) (p q : prog wireR A) :
  (forall s, h _ (RBytes []) s = h _ RString s) -> with_bytes_r p q ->
  forall s, run h q s = run h p s.
Proof.
  intros Hh. induction 1 as [a|c|X e k k' _ IH|k k' _ IH]; intros s; cbn; auto.
  - destruct (h X e s); auto.
  - rewrite Hh. destruct (h _ RString s); auto.
Qed.

Lemma bin_bytes_w strict x s :
  over (bin_writer strict) mem_h _ (WBytes x) s = over (bin_writer strict) mem_h _ (WString x) s.
Proof. reflexivity. Qed.
Lemma cmp_bytes_w x s : over cmp_writer mem_h _ (WBytes x) s = over cmp_writer mem_h _ (WString x) s.
Proof. reflexivity. Qed.
Lemma bin_bytes_r {B} strict (h : handler bufR B) s :
  over (bin_reader strict) h _ (RBytes []) s = over (bin_reader strict) h _ RString s.
Proof. reflexivity. Qed.
Lemma cmp_bytes_r {B} (h : handler bufR B) s : over cmp_reader h _ (RBytes []) s = over cmp_reader h _ RString s.
Proof. reflexivity. Qed.

Theorem bin_write_any size strict s v p : 0 < size -> ok_sink s -> with_bytes_w (write_val v) p ->
  exists b, run (over (bin_writer strict) (bufw_h size)) (p >>! call WFlush)
              (tt, new_bwriter s) = Done (tt, b) None /\
    received (wsink b) = received s ++ binary_encoding v.
Proof.
  intros Hp Hs Hq. rewrite run_and_then.
  pose proof (layer_refines_mem size Hp (bin_writer strict) p tt
                (new_bwriter s) (received s) (wok_new size Hp s Hs)) as H.
  rewrite (run_bytes_w _ _ _ (bin_bytes_w strict) Hq), bin_write_val in H.
  destruct (run (over (bin_writer strict) (bufw_h size)) p (tt, new_bwriter s))
    as [[[] b] x|c]; [|contradiction].
  destruct H as (_ & -> & Hw). cbn [obind].
  destruct (bin_flush_ok size Hp strict b _ Hw) as (b' & E & Hr & _). exists b'. auto.
Qed.

Theorem cmp_write_any (F : Z -> Z -> Z -> list byte -> Prop) (C : Z -> Z -> Prop) size s v st p :
  (forall last id t, is_i16 id -> is_i16 last -> C last id -> F last id t (field_hdr last id t)) ->
  0 < size -> ok_sink s -> wf (2 ^ 63) v -> steps C v -> fh_type (cw_bool st) = T_Stop ->
  with_bytes_w (write_val v) p ->
  exists b st', run (over cmp_writer (bufw_h size)) (p >>! call WFlush)
              (st, new_bwriter s) = Done (st', b) None /\
    exists l, compact_enc F v l /\ received (wsink b) = received s ++ l.
Proof.
  intros HF Hp Hs Hwf Hst Hb Hq. rewrite run_and_then.
  pose proof (layer_refines_mem size Hp cmp_writer p st
                (new_bwriter s) (received s) (wok_new size Hp s Hs)) as H.
  destruct (cmp_write_val F C HF v Hwf Hst st (received s) Hb) as (l & bb & E1 & E2 & E3).
  rewrite (run_bytes_w _ _ _ cmp_bytes_w Hq), E3 in H.
  destruct (run (over cmp_writer (bufw_h size)) p (st, new_bwriter s)) as [[st1 b] x|c]; [|contradiction].
  destruct H as (-> & -> & Hw). cbn [obind].
  destruct (cmp_flush_ok size Hp (mkCW (cw_ids st) (cw_last st) bb (cw_uw st)) b _ Hw) as (b' & E & Hr & _).
  exists b'. eexists. split; [exact E|]. exists l. auto.
Qed.

Theorem bin_round_trip_any sw sr wsize rsize s v p :
  0 < wsize -> 8 <= rsize -> ok_sink s -> received s = [] -> wf (2 ^ 31) v ->
  with_bytes_w (write_val v) p ->
  exists b,
    run (over (bin_writer sw) (bufw_h wsize)) (p >>! call WFlush) (tt, new_bwriter s)
      = Done (tt, b) None /\
    forall src rest fuel q, good_source src -> src_bytes src = received (wsink b) ++ rest ->
      (vsize v <= fuel)%nat -> with_bytes_r (read_val fuel (val_type v)) q ->
      exists b',
        run (over (bin_reader sr) (bufio_h rsize)) q (tt, new_breader src) = Done (tt, b') (inl v) /\
        binv rsize b' /\ abs b' = mkStream rest (src_fin src).
Proof.
  intros Hw Hr Hs He Hv Hp.
  destruct (bin_write_any wsize sw s v p Hw Hs Hp) as (b & E & R). exists b. split; [exact E|].
  intros src rest fuel q Hg Hb Hf Hq. rewrite He in R. cbn [app] in R. rewrite R in Hb.
  rewrite (run_bytes_r _ _ _ (bin_bytes_r sr (bufio_h rsize)) Hq).
  destruct (bin_read_back sr rsize (new_breader src) v rest fuel) as (b' & E' & H1 & H2); auto.
  - apply binv_new; [lia|auto].
  - exists b'. auto.
Qed.

Theorem cmp_round_trip_any wsize rsize s v p :
  0 < wsize -> 10 <= rsize -> ok_sink s -> received s = [] -> wf (2 ^ 63) v ->
  with_bytes_w (write_val v) p ->
  exists b cw,
    run (over cmp_writer (bufw_h wsize)) (p >>! call WFlush) (cw0, new_bwriter s) = Done (cw, b) None /\
    forall src rest fuel e cr q, good_source src -> src_bytes src = received (wsink b) ++ rest ->
      src_fin src = FErr e -> (vsize v <= fuel)%nat -> cr_bool cr = BNone ->
      with_bytes_r (read_val fuel (val_type v)) q ->
      exists b',
        run (over cmp_reader (bufio_h rsize)) q (cr, new_breader src) = Done (cr, b') (inl (canon v)) /\
        binv rsize b' /\ abs b' = mkStream rest (src_fin src).
Proof.
  intros Hw Hr Hs He Hv Hp.
  destruct (cmp_write_any wrap_field (fun _ _ => True) wsize s v cw0 p
    (fun last id t Hid _ _ => field_hdr_wrap last id t Hid) Hw Hs Hv (steps_true v) eq_refl Hp)
    as (b & cw & E & l & Hl & R).
  exists b, cw. split; [exact E|].
  intros src rest fuel e cr q Hg Hb Hf Hfu Hbl Hq. rewrite He in R. cbn [app] in R. rewrite R in Hb.
  rewrite (run_bytes_r _ _ _ (cmp_bytes_r (bufio_h rsize)) Hq).
  destruct (cmp_read_back rsize (new_breader src) v l rest fuel cr e) as (b' & E' & H1 & H2); auto.
  - apply binv_new; [lia|auto].
  - rewrite abs_new, Hb, Hf. reflexivity.
  - exists b'. rewrite Hf. auto.
Qed.
