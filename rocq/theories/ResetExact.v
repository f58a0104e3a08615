(** The compact writer after Reset, on any io.Writer. *)
From Verif Require Import Base BaseLemmas Prog Bufio BufioW BufioWProof Wire WireProof Binary BinaryProof Compact CompactProof Faults Layers Objects ObjectsProof.

(** The same io.Writer without its Flush method. *)
Definition no_flush (s : sink) : sink := mkSink (s_resp s) false (s_fresp s) (s_strw s) (s_log s).
Definition hide (j : nat) (w : nat -> sink) : nat -> sink := fun i => if Nat.eqb i j then no_flush (w i) else w i.

Definition nfb (b : bwriter) : bwriter := mkBW (wbuf b) (werr b) (no_flush (wsink b)).
Lemma sink_write_nf p s : sink_write p (no_flush s) = (no_flush (fst (sink_write p s)), snd (sink_write p s)).
Proof. destruct s as [[|[[k e]|] r] f fr sw l]; reflexivity. Qed.
Lemma bw_flush_nf b : bw_flush (nfb b) = (nfb (fst (bw_flush b)), snd (bw_flush b)).
Proof.
  unfold bw_flush. cbn [nfb wbuf werr wsink]. destruct (werr b); [reflexivity|]. destruct (wbuf b) eqn:Eb; [reflexivity|].
  rewrite sink_write_nf. destruct (sink_write _ (wsink b)) as [s' [n e]]. cbn [fst snd].
  match goal with |- context [if ?c then _ else _] => destruct c end; [reflexivity|]. destruct e; reflexivity.
Qed.
Definition onb {X} (o : outcome bwriter X) : outcome bwriter X := match o with Done b x => Done (nfb b) x | Crashed c => Crashed c end.
Lemma bw_loop_nf size direct : forall fuel p b, bw_write_loop size direct fuel p (nfb b) = onb (bw_write_loop size direct fuel p b).
Proof.
  induction fuel as [|f IH]; intros p b; cbn [bw_write_loop nfb wbuf werr wsink].
  - destruct (_ && _); reflexivity.
  - destruct (_ && _); [|reflexivity]. destruct (_ && direct).
    + rewrite sink_write_nf. destruct (sink_write p (wsink b)) as [s' [n e]]. cbn [fst snd].
      change (mkBW (wbuf b) e (no_flush s')) with (nfb (mkBW (wbuf b) e s')). apply IH.
    + match goal with |- context [bw_flush (mkBW ?x ?y (no_flush ?z))] =>
        change (mkBW x y (no_flush z)) with (nfb (mkBW x y z)); rewrite bw_flush_nf; destruct (bw_flush (mkBW x y z)) as [b' e'] end.
      cbn [fst snd]. apply IH.
Qed.
Lemma bw_gen_nf size direct p b : bw_write_gen size direct p (nfb b) = onb (bw_write_gen size direct p b).
Proof.
  unfold bw_write_gen. rewrite bw_loop_nf. destruct (bw_write_loop _ _ _ _ b) as [b1 r|c]; [|reflexivity]. cbn [onb obind].
  cbn [nfb werr]. destruct (werr b1); reflexivity.
Qed.
Definition under_flush {X} (e : bufW X) : bool := match e with BWUnderFlush => true | _ => false end.
Lemma bufw_nf size X (e : bufW X) b : under_flush e = false -> bufw_h size X e (nfb b) = onb (bufw_h size X e b).
Proof.
  intros Hu. destruct e; cbn [bufw_h]; try discriminate.
  - apply bw_gen_nf.
  - change (s_strw (wsink (nfb b))) with (s_strw (wsink b)). apply bw_gen_nf.
  - unfold bw_write_byte. cbn [nfb werr wbuf]. destruct (werr b); [reflexivity|]. destruct (_ <=? 0); [|reflexivity].
    change (mkBW (wbuf b) None (no_flush (wsink b))) with (nfb (mkBW (wbuf b) None (wsink b))).
    rewrite bw_flush_nf. destruct (bw_flush b) as [b1 [e1|]]; reflexivity.
  - cbn [nfb wbuf]. destruct (_ >=? _); [reflexivity|]. change (mkBW (wbuf b) (werr b) (no_flush (wsink b))) with (nfb b). rewrite bw_flush_nf. destruct (bw_flush b); reflexivity.
  - rewrite bw_flush_nf. destruct (bw_flush b); reflexivity.
Qed.

(** Without uw, an object on the io.Writer [j] cannot tell. *)
Section Hidden.
Variable j : nat.
Definition hid (w w' : nat -> sink) : Prop := forall i, w' i = hide j w i.
Lemma upd_hid w w' s : hid w w' -> hid (upd w j s) (upd w' j (no_flush s)).
Proof. intros H i. unfold upd, hide. specialize (H i). unfold hide in H. destruct (Nat.eqb i j); auto. Qed.
Definition bare (buf : list byte) (er : option err) (w : nat -> sink) : wbase := mkWB buf er j None w.

Lemma hid_step size X (e : bufW X) buf er w w' : hid w w' ->
  match wbase_h size X e (bare buf er w) with
  | Done b x => exists w1 w1', b = bare (wb_buf b) (wb_err b) w1 /\ hid w1 w1' /\ s_flusher (w1 j) = s_flusher (w j) /\
      wbase_h size X e (bare buf er w') = Done (bare (wb_buf b) (wb_err b) w1') x
  | Crashed c => wbase_h size X e (bare buf er w') = Crashed c
  end.
Proof.
  intros H. assert (Ej : w' j = no_flush (w j)) by (rewrite (H j); unfold hide; now rewrite Nat.eqb_refl).
  assert (K : under_flush e = false ->
    match bufw_h size X e (mkBW buf er (w j)) with
    | Done b x => bufw_h size X e (mkBW buf er (w' j)) = Done (nfb b) x /\ s_flusher (wsink b) = s_flusher (w j)
    | Crashed c => bufw_h size X e (mkBW buf er (w' j)) = Crashed c
    end).
  { intros Hu. rewrite Ej. pose proof (bufw_nf size X e (mkBW buf er (w j)) Hu) as E. unfold nfb in E at 1. cbn [wbuf werr wsink] in E. rewrite E.
    destruct (bufw_h size X e (mkBW buf er (w j))) as [b x|c] eqn:Eb; [|reflexivity]. split; [reflexivity|].
    destruct e; cbn [bufw_h] in Eb; try discriminate.
    - apply bw_write_gen_keeps in Eb. destruct Eb. cbn in *. congruence.
    - apply bw_write_gen_keeps in Eb. destruct Eb. cbn in *. congruence.
    - unfold bw_write_byte in Eb. cbn [werr] in Eb. destruct er; [injection Eb as <- _; auto|]. destruct (_ <=? 0).
      + pose proof (bw_flush_keeps (mkBW buf None (w j))) as [Q _]. destruct (bw_flush _) as [b1 [e1|]]; injection Eb as <- _; cbn in *; congruence.
      + injection Eb as <- _. reflexivity.
    - destruct (_ >=? _); [injection Eb as <- _; auto|].
      pose proof (bw_flush_keeps (mkBW buf er (w j))) as [Q _]. destruct (bw_flush _) as [b1 e1]; injection Eb as <- _; cbn in *; congruence.
    - pose proof (bw_flush_keeps (mkBW buf er (w j))) as [Q _]. destruct (bw_flush _) as [b1 e1]; injection Eb as <- _; cbn in *; congruence. }
  unfold wbase_h, bare. cbn [wb_buf wb_err wb_wr wb_under wb_world].
  destruct e; try (specialize (K eq_refl);
    match goal with |- context [bufw_h size ?X ?e ?b] => destruct (bufw_h size X e b) as [b1 x1|c1]; [|now rewrite K] end;
    destruct K as (-> & Kf); eexists _, _; conj; [reflexivity|apply upd_hid, H|rewrite upd_same; exact Kf|reflexivity]).
  exists w, w'. auto.
Qed.

Lemma hid_run size {A} (p : prog bufW A) : forall buf er w w', hid w w' ->
  match run (wbase_h size) p (bare buf er w) with
  | Done b x => exists w1 w1', b = bare (wb_buf b) (wb_err b) w1 /\ hid w1 w1' /\ s_flusher (w1 j) = s_flusher (w j) /\
      run (wbase_h size) p (bare buf er w') = Done (bare (wb_buf b) (wb_err b) w1') x
  | Crashed c => run (wbase_h size) p (bare buf er w') = Crashed c
  end.
Proof.
  induction p as [a|X e k IH|c]; intros buf er w w' H; cbn [run]; [|  |reflexivity].
  - exists w, w'. auto.
  - pose proof (hid_step size X e buf er w w' H) as S. destruct (wbase_h size X e (bare buf er w)) as [b x|c]; [|now rewrite S].
    destruct S as (w1 & w1' & Eb & H1 & F1 & E1). rewrite E1. specialize (IH x (wb_buf b) (wb_err b) w1 w1' H1). rewrite <- Eb in IH.
    destruct (run (wbase_h size) (k x) b) as [b2 x2|c2]; [|exact IH].
    destruct IH as (w2 & w2' & E2 & H2 & F2 & R2). exists w2, w2'. conj; auto. congruence.
Qed.

Lemma hid_obj size {A} (p : prog wireW A) : forall st buf er w w', hid w w' ->
  match run (wobj_h size cmp_writer) p (mkWO st buf er j None, w) with
  | Done (o, w1) x => exists w1', hid w1 w1' /\ s_flusher (w1 j) = s_flusher (w j) /\
      run (wobj_h size cmp_writer) p (mkWO st buf er j None, w') = Done (o, w1') x
  | Crashed c => run (wobj_h size cmp_writer) p (mkWO st buf er j None, w') = Crashed c
  end.
Proof.
  induction p as [a|X e k IH|c]; intros st buf er w w' H; cbn [run]; [|  |reflexivity].
  - exists w'. auto.
  - unfold wobj_h at 1 3 5. cbn [wo_st wo_buf wo_err wo_wr wo_under].
    pose proof (hid_run size (cmp_writer X e st) buf er w w' H) as S. unfold bare in S at 1 3 5.
    destruct (run (wbase_h size) (cmp_writer X e st) (mkWB buf er j None w)) as [b [st1 x]|c]; [|now rewrite S].
    destruct S as (w1 & w1' & Eb & H1 & F1 & E1). rewrite E1.
    rewrite Eb. cbn [bare wb_buf wb_err wb_wr wb_under wb_world].
    specialize (IH x st1 (wb_buf b) (wb_err b) w1 w1' H1).
    destruct (run (wobj_h size cmp_writer) (k x) (mkWO st1 (wb_buf b) (wb_err b) j None, w1)) as [[o2 w2] x2|c2]; [|exact IH].
    destruct IH as (w2' & H2 & F2 & R2). exists w2'. conj; auto. congruence.
Qed.
End Hidden.

Theorem cmp_reset_hidden size {B} (q : prog wireW B) j w o :
  match run (wobj_h size cmp_writer) q (cmp_new_writer j, hide j w) with
  | Done (_, w2) y => exists o2 w2', run (wobj_h size cmp_writer) q (cmp_reset_writer j o, w) = Done (o2, w2') y /\
      (forall i, w2 i = hide j w2' i) /\ s_flusher (w2' j) = s_flusher (w j)
  | Crashed c => run (wobj_h size cmp_writer) q (cmp_reset_writer j o, w) = Crashed c
  end.
Proof.
  assert (Hf : s_flusher (hide j w j) = false) by (unfold hide; now rewrite Nat.eqb_refl).
  pose proof (cmp_writer_reset_ok size q j (hide j w) o Hf) as R.
  pose proof (hid_obj j size q (mkCW [] 0 fh0 false) [] None w (hide j w) (fun i => eq_refl)) as H.
  change (mkWO (mkCW [] 0 fh0 false) [] None j None) with (cmp_reset_writer j o) in H.
  destruct (run (wobj_h size cmp_writer) q (cmp_new_writer j, hide j w)) as [[o1 w1] x|c].
  - destruct R as (o2 & R). destruct (run (wobj_h size cmp_writer) q (cmp_reset_writer j o, w)) as [[o3 w3] y|c].
    + destruct H as (w3' & H1 & F & E). rewrite R in E. inversion E; subst. exists o3, w3. auto.
    + congruence.
  - destruct (run (wobj_h size cmp_writer) q (cmp_reset_writer j o, w)) as [[o3 w3] y|c'].
    + destruct H as (w3' & _ & _ & E). congruence.
    + congruence.
Qed.
