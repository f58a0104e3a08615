(** Facts about reader and writer objects and their Reset. *)
From Verif Require Import Base BaseLemmas Prog Bufio BufioW BufioWProof Wire WireProof Spec Clients Binary BinaryProof Compact CompactProof Faults Layers Objects.

Lemma upd_same {A} (w : nat -> A) i a : upd w i a i = a.
Proof. unfold upd. now rewrite Nat.eqb_refl. Qed.
Lemma upd_other {A} (w : nat -> A) i j a : j <> i -> upd w i a j = w j.
Proof. unfold upd. intros H. apply Nat.eqb_neq in H. now rewrite H. Qed.

(** ** One object attached to one io.Writer *)
Definition based (i : nat) (b : bwriter) (w : nat -> sink) : wbase := mkWB (wbuf b) (werr b) i (Some i) w.

Lemma wbase_step size X (e : bufW X) i b w : w i = wsink b ->
  match bufw_h size X e b with
  | Done b' x => exists w', wbase_h size X e (based i b w) = Done (based i b' w') x /\
      w' i = wsink b' /\ forall j, j <> i -> w' j = w j
  | Crashed c => wbase_h size X e (based i b w) = Crashed c
  end.
Proof.
  intros Hw. assert (Eb : mkBW (wbuf b) (werr b) (w i) = b) by (rewrite Hw; destruct b; reflexivity).
  assert (K : forall o : outcome bwriter X,
    match o with
    | Done b' x => exists w',
        match o with
        | Done b x => Done (mkWB (wbuf b) (werr b) i (Some i) (upd w i (wsink b))) x
        | Crashed c => Crashed c
        end = Done (based i b' w') x /\ w' i = wsink b' /\ forall j, j <> i -> w' j = w j
    | Crashed c => match o with
        | Done b x => Done (mkWB (wbuf b) (werr b) i (Some i) (upd w i (wsink b))) x
        | Crashed c => Crashed c
        end = Crashed c
    end).
  { intros [b' x|c]; [|reflexivity]. exists (upd w i (wsink b')). conj; [reflexivity|apply upd_same|].
    intros j Hj. now apply upd_other. }
  unfold wbase_h, based. cbn [wb_buf wb_err wb_wr wb_under wb_world].
  destruct e; try (rewrite Eb; apply K).
  cbn [bufw_h]. unfold sink_flush. rewrite <- Hw. destruct (s_flusher (w i)) eqn:Ef.
  - eexists. conj; [reflexivity|apply upd_same|]. intros j Hj. now apply upd_other.
  - exists w. conj; auto.
Qed.

Lemma wbase_run size {A} (p : prog bufW A) : forall i b w, w i = wsink b ->
  match run (bufw_h size) p b with
  | Done b' x => exists w', run (wbase_h size) p (based i b w) = Done (based i b' w') x /\
      w' i = wsink b' /\ forall j, j <> i -> w' j = w j
  | Crashed c => run (wbase_h size) p (based i b w) = Crashed c
  end.
Proof.
  induction p as [a|X e k IH|c]; intros i b w Hw; cbn [run].
  - exists w. auto.
  - pose proof (wbase_step size X e i b w Hw) as H. destruct (bufw_h size X e b) as [b1 x1|c1].
    + destruct H as (w1 & E & H1 & H2). rewrite E. specialize (IH x1 i b1 w1 H1).
      destruct (run (bufw_h size) (k x1) b1) as [b2 x2|c2]; [|exact IH].
      destruct IH as (w2 & E2 & H3 & H4). exists w2. conj; auto. intros j Hj. rewrite H4, H2; auto.
    + rewrite H. reflexivity.
  - reflexivity.
Qed.

Definition attached {St} (i : nat) (st : St) (b : bwriter) : wobj St :=
  mkWO st (wbuf b) (werr b) i (Some i).

(** The objects of NewWriter, and of binary's Reset, are the writers of
    Binary.v and Compact.v on the io.Writer they were given; all other
    io.Writers are left alone. *)
Theorem wobj_run {St} size (L : layer wireW bufW St) {A} (p : prog wireW A) : forall i st b w, w i = wsink b ->
  match run (over L (bufw_h size)) p (st, b) with
  | Done (st', b') x => exists w', run (wobj_h size L) p (attached i st b, w) = Done (attached i st' b', w') x /\
      w' i = wsink b' /\ forall j, j <> i -> w' j = w j
  | Crashed c => run (wobj_h size L) p (attached i st b, w) = Crashed c
  end.
Proof.
  induction p as [a|X e k IH|c]; intros i st b w Hw; cbn [run]; [eauto| |reflexivity].
  unfold over at 1, wobj_h, attached. cbn [fst snd wo_st wo_buf wo_err wo_wr wo_under].
  pose proof (wbase_run size (L X e st) i b w Hw) as H. unfold based in H.
  destruct (run (bufw_h size) (L X e st) b) as [b1 [st1 x1]|c1].
  - destruct H as (w1 & E & H1 & H2). rewrite E. cbn [wb_buf wb_err wb_wr wb_under wb_world].
    specialize (IH x1 i st1 b1 w1 H1). unfold attached in IH.
    destruct (run (over L (bufw_h size)) (k x1) (st1, b1)) as [[st2 b2] x2|c2]; [|exact IH].
    destruct IH as (w2 & E2 & H3 & H4). exists w2. conj; auto. intros j Hj. rewrite H4, H2; auto.
  - rewrite H. reflexivity.
Qed.

Theorem robj_run {St} size (L : layer wireR bufR St) {A} (p : prog wireR A) : forall i st b w, w i = bsrc b ->
  match run (over L (bufio_h size)) p (st, b) with
  | Done (st', b') x => exists w',
      run (robj_h size L) p (mkRO st (bbuf b) (berr b) i, w) = Done (mkRO st' (bbuf b') (berr b') i, w') x /\
      w' i = bsrc b' /\ forall j, j <> i -> w' j = w j
  | Crashed c => run (robj_h size L) p (mkRO st (bbuf b) (berr b) i, w) = Crashed c
  end.
Proof.
  induction p as [a|X e k IH|c]; intros i st b w Hw; cbn [run]; [eauto| |reflexivity].
  unfold over at 1, robj_h. cbn [fst snd ro_st ro_buf ro_err ro_rd]. rewrite Hw.
  replace (mkB (bbuf b) (berr b) (bsrc b)) with b by (destruct b; reflexivity).
  destruct (run (bufio_h size) (L X e st) b) as [b1 [st1 x1]|c1]; [|reflexivity].
  specialize (IH x1 i st1 b1 (upd w i (bsrc b1)) (upd_same _ _ _)).
  destruct (run (over L (bufio_h size)) (k x1) (st1, b1)) as [[st2 b2] x2|c2]; [|exact IH].
  destruct IH as (w2 & E2 & H3 & H4). exists w2. conj; auto.
  intros j Hj. rewrite H4, upd_other; auto.
Qed.

(** ** Strictness never changes *)
Lemma bin_wobj_strict size {A} (p : prog wireW A) : forall o w o' w' x,
  run (wobj_h size binw_layer) p (o, w) = Done (o', w') x -> wo_st o' = wo_st o.
Proof.
  induction p as [a|X e k IH|c]; intros o w o' w' x H; cbn [run] in H; [|  |discriminate].
  - injection H as <- <- _. reflexivity.
  - unfold wobj_h at 1, binw_layer in H. rewrite run_bind in H.
    destruct (run (wbase_h size) (bin_write (wo_st o) e) _) as [b1 x1|c1]; cbn [obind run] in H; [|discriminate].
    apply IH in H. exact H.
Qed.

Lemma bin_robj_strict size {A} (p : prog wireR A) : forall o w o' w' x,
  run (robj_h size binr_layer) p (o, w) = Done (o', w') x -> ro_st o' = ro_st o.
Proof.
  induction p as [a|X e k IH|c]; intros o w o' w' x H; cbn [run] in H; [|  |discriminate].
  - injection H as <- <- _. reflexivity.
  - unfold robj_h at 1, binr_layer in H. rewrite run_bind in H.
    destruct (run (bufio_h size) (bin_read (ro_st o) e) _) as [b1 x1|c1]; cbn [obind run] in H; [|discriminate].
    apply IH in H. exact H.
Qed.

Lemma bin_reset_writer_new strict i o : wo_st o = strict -> bin_reset_writer i o = bin_new_writer strict i.
Proof. intros <-. reflexivity. Qed.
Lemma bin_reset_reader_new strict i o : ro_st o = strict -> bin_reset_reader i o = bin_new_reader strict i.
Proof. intros <-. reflexivity. Qed.
Lemma cmp_reset_reader_new i o : cmp_reset_reader i o = cmp_new_reader i.
Proof. reflexivity. Qed.

Theorem bin_writer_reset_ok size strict {A B} (p : prog wireW A) (q : prog wireW B) i j w o w1 x :
  run (wobj_h size binw_layer) p (bin_new_writer strict i, w) = Done (o, w1) x ->
  run (wobj_h size binw_layer) q (bin_reset_writer j o, w1)
  = run (wobj_h size binw_layer) q (bin_new_writer strict j, w1).
Proof. intros H. apply bin_wobj_strict in H. now rewrite (bin_reset_writer_new strict). Qed.

Theorem bin_reader_reset_ok size strict {A B} (p : prog wireR A) (q : prog wireR B) i j w o w1 x :
  run (robj_h size binr_layer) p (bin_new_reader strict i, w) = Done (o, w1) x ->
  run (robj_h size binr_layer) q (bin_reset_reader j o, w1)
  = run (robj_h size binr_layer) q (bin_new_reader strict j, w1).
Proof. intros H. apply bin_robj_strict in H. now rewrite (bin_reset_reader_new strict). Qed.

(** ** The compact writer after Reset: like a fresh one if the io.Writer is
    not a Flusher *)
Definition no_uw (st : cwriter) : cwriter := mkCW (cw_ids st) (cw_last st) (cw_bool st) false.

(** The same object without uw. *)
Definition dropped (o : wobj cwriter) : wobj cwriter :=
  mkWO (no_uw (wo_st o)) (wo_buf o) (wo_err o) (wo_wr o) None.
Definition droppedb (o : wbase) : wbase :=
  mkWB (wb_buf o) (wb_err o) (wb_wr o) None (wb_world o).

Definition quiet (o : wbase) : Prop :=
  wb_under o = Some (wb_wr o) /\ s_flusher (wb_world o (wb_wr o)) = false.

Lemma bufw_keeps_flusher size X (e : bufW X) b b' x :
  bufw_h size X e b = Done b' x -> s_flusher (wsink b) = false -> s_flusher (wsink b') = false.
Proof.
  intros E Hf. destruct e; cbn [bufw_h] in E.
  - apply bw_write_gen_keeps in E. destruct E. congruence.
  - apply bw_write_gen_keeps in E. destruct E. congruence.
  - unfold bw_write_byte in E. destruct (werr b); [injection E as <- _; auto|].
    destruct (_ <=? 0).
    + pose proof (bw_flush_keeps b) as [K _]. destruct (bw_flush b) as [b1 [e1|]]; injection E as <- _; cbn in *; congruence.
    + injection E as <- _. exact Hf.
  - destruct (_ >=? _); [injection E as <- _; auto|].
    pose proof (bw_flush_keeps b) as [K _]. destruct (bw_flush b) as [b1 e1]; injection E as <- _; cbn in *; congruence.
  - pose proof (bw_flush_keeps b) as [K _]. destruct (bw_flush b) as [b1 e1]; injection E as <- _; cbn in *; congruence.
  - unfold sink_flush in E. rewrite Hf in E. injection E as <- _. exact Hf.
Qed.

Lemma quiet_step size X (e : bufW X) o : quiet o ->
  match wbase_h size X e o with
  | Done o' x => wbase_h size X e (droppedb o) = Done (droppedb o') x /\ quiet o' /\
      wb_wr o' = wb_wr o
  | Crashed c => wbase_h size X e (droppedb o) = Crashed c
  end.
Proof.
  intros [Hu Hf]. unfold wbase_h, droppedb. cbn [wb_buf wb_err wb_wr wb_under wb_world]. rewrite Hu, Hf.
  destruct e; try (match goal with |- context [bufw_h size ?X ?e ?b] =>
      pose proof (bufw_keeps_flusher size X e b) as K; destruct (bufw_h size X e b) as [b1 x1|c1]; [|reflexivity] end;
    cbn [wb_buf wb_err wb_wr wb_under wb_world]; conj; [reflexivity| |reflexivity];
    split; cbn [wb_wr wb_under wb_world]; [reflexivity|]; rewrite upd_same; exact (K _ _ eq_refl Hf)).
  conj; auto. split; assumption.
Qed.

Lemma quiet_run size {A} (p : prog bufW A) : forall o, quiet o ->
  match run (wbase_h size) p o with
  | Done o' x => run (wbase_h size) p (droppedb o) = Done (droppedb o') x /\ quiet o' /\ wb_wr o' = wb_wr o
  | Crashed c => run (wbase_h size) p (droppedb o) = Crashed c
  end.
Proof.
  induction p as [a|X e k IH|c]; intros o Ho; cbn [run]; auto.
  pose proof (quiet_step size X e o Ho) as H. destruct (wbase_h size X e o) as [o1 x1|c1].
  - destruct H as (-> & H1 & H2). specialize (IH x1 o1 H1).
    destruct (run (wbase_h size) (k x1) o1) as [o2 x2|c2]; [|exact IH].
    destruct IH as (? & ? & ?). conj; auto. congruence.
  - now rewrite H.
Qed.

(** Forgetting uw commutes with the compact writer's operations. *)
Definition drop_res {X} (o : outcome wbase (cwriter * X)) : outcome wbase (cwriter * X) :=
  match o with Done b (st, x) => Done b (no_uw st, x) | Crashed c => Crashed c end.

Lemma run_liftw h st (p : prog bufW (option err)) (b : wbase) :
  run h (liftw st p) b = obind (run h p b) (fun b' x => Done b' (st, x)).
Proof. unfold liftw. rewrite run_bind. destruct (run h p b); reflexivity. Qed.

Lemma field_header_drop h st hd v (b : wbase) :
  run h (cmp_write_field_header (no_uw st) hd v) b = drop_res (run h (cmp_write_field_header st hd v) b).
Proof.
  unfold cmp_write_field_header. rewrite !run_bind. cbn [no_uw cw_last].
  destruct (run h _ b) as [b1 [e|]|c]; reflexivity.
Qed.

Lemma cmp_drop size X (e : wireW X) st o : quiet o ->
  run (wbase_h size) (cmp_writer X e (no_uw st)) (droppedb o)
  = drop_res (run (wbase_h size) (cmp_writer X e st) (droppedb o)).
Proof.
  intros Hq.
  destruct e; cbn [cmp_writer]; rewrite ?run_liftw; try reflexivity;
    try (match goal with |- context [run ?h ?p ?b] => destruct (run h p b) as [b1 x1|c1]; reflexivity end).
  - cbn [no_uw cw_ids]. destruct (cw_ids st); [reflexivity|]. rewrite !run_liftw.
    destruct (run _ _ _); reflexivity.
  - destruct (fh_type h =? T_Bool); [reflexivity|]. apply field_header_drop.
  - cbn [no_uw cw_bool]. destruct (negb (fh_type (cw_bool st) =? T_Stop)).
    + rewrite !run_bind, field_header_drop.
      destruct (run _ (cmp_write_field_header st (cw_bool st) v) _) as [b1 [st1 [e1|]]|c1]; reflexivity.
    + rewrite !run_liftw. destruct (run _ _ _); reflexivity.
  - cbn [no_uw cw_uw]. rewrite !run_and_then. destruct (run (wbase_h size) (call BWFlush) (droppedb o)) as [b1 [e1|]|c1] eqn:E;
      try reflexivity.
    destruct (cw_uw st); [|reflexivity].
    pose proof (quiet_run size (call BWFlush) o Hq) as H. cbn [obind]. rewrite run_call.
    destruct (run (wbase_h size) (call BWFlush) o) as [b2 e2|c2].
    + destruct H as (H & Hq2 & _). rewrite E in H. injection H as -> <-.
      pose proof (quiet_step size _ BWUnderFlush b2 Hq2) as H. unfold wbase_h in H at 1. destruct Hq2 as [H1 H2].
      rewrite H1, H2 in H. destruct H as (-> & _). reflexivity.
    + rewrite E in H. discriminate.
Qed.

Theorem cmp_dropped size {A} (p : prog wireW A) : forall o w,
  wo_under o = Some (wo_wr o) -> s_flusher (w (wo_wr o)) = false ->
  match run (wobj_h size cmp_writer) p (o, w) with
  | Done (o', w') x => run (wobj_h size cmp_writer) p (dropped o, w) = Done (dropped o', w') x
  | Crashed c => run (wobj_h size cmp_writer) p (dropped o, w) = Crashed c
  end.
Proof.
  induction p as [a|X e k IH|c]; intros o w Hu Hf; cbn [run]; [reflexivity| |reflexivity].
  unfold wobj_h at 1 3 5. cbn [dropped wo_st wo_buf wo_err wo_wr wo_under]. rewrite Hu.
  set (b := mkWB (wo_buf o) (wo_err o) (wo_wr o) (Some (wo_wr o)) w).
  change (mkWB (wo_buf o) (wo_err o) (wo_wr o) None w) with (droppedb b).
  assert (Hq : quiet b) by (split; [reflexivity|exact Hf]).
  rewrite cmp_drop by assumption. pose proof (quiet_run size (cmp_writer X e (wo_st o)) b Hq) as H.
  destruct (run (wbase_h size) (cmp_writer X e (wo_st o)) b) as [b1 [st1 x1]|c1].
  - destruct H as (-> & [Hu1 Hf1] & _). cbn [drop_res].
    specialize (IH x1 (mkWO st1 (wb_buf b1) (wb_err b1) (wb_wr b1) (wb_under b1)) (wb_world b1) Hu1 Hf1).
    exact IH.
  - rewrite H. reflexivity.
Qed.

Theorem cmp_writer_reset_ok size {B} (q : prog wireW B) j w o :
  s_flusher (w j) = false ->
  match run (wobj_h size cmp_writer) q (cmp_new_writer j, w) with
  | Done (o1, w1) x => exists o2, run (wobj_h size cmp_writer) q (cmp_reset_writer j o, w) = Done (o2, w1) x
  | Crashed c => run (wobj_h size cmp_writer) q (cmp_reset_writer j o, w) = Crashed c
  end.
Proof.
  intros Hf. pose proof (cmp_dropped size q (cmp_new_writer j) w eq_refl Hf) as H.
  change (dropped (cmp_new_writer j)) with (cmp_reset_writer j o) in H.
  destruct (run (wobj_h size cmp_writer) q (cmp_new_writer j, w)) as [[o1 w1] x|c]; [|exact H].
  eexists. exact H.
Qed.
