(** Writers that share a *bufio.Writer on an io.Writer that does not fail. *)
From Verif Require Import Base BaseLemmas Prog BufioW BufioWProof Wire Binary Compact Objects SharedProof SharedW.

(** ** One *bufio.Writer on an arbitrary io.Writer is that of BufioW.v *)
Section Plain.
Context (i : nat) (w0 : wworld).
Definition wkept (w : wworld) : Prop :=
  (forall j, j <> i -> ww_sink w j = ww_sink w0 j) /\ ww_buf w = ww_buf w0 /\ ww_next w = ww_next w0.
Definition same_wbuf (g : gwbuf wworld) (b : bwriter) : Prop :=
  gw_buf g = wbuf b /\ gw_err g = werr b /\ ww_sink (gw_w g) i = wsink b /\ wkept (gw_w g).

Lemma wkept_put w s : wkept w -> wkept (put_sink i s w).
Proof. intros (A & B & C). unfold wkept, put_sink; cbn. conj; auto. intros j Hj. now rewrite upd_other, A. Qed.

Lemma simw_bind {S S' T T' X Y} (R : S -> S' -> Prop) (Q : T -> T' -> Prop) (o : outcome S X) (o' : outcome S' X) f f' :
  simw R o o' -> (forall g b x, R g b -> simw Q (f g x) (f' b x)) -> simw (X := Y) Q (obind o f) (obind o' f').
Proof. destruct o as [g x|c], o' as [b y|c']; cbn; try contradiction; [|congruence]. intros [<- H] Hf. now apply Hf. Qed.
Lemma simw_done {S S' X} (R : S -> S' -> Prop) g b (x : X) : R g b -> simw R (Done g x) (Done b x).
Proof. cbn. auto. Qed.

Context (d : nat).
Notation wr := (fun str => io_write d str (WPlain i)).
Notation sim := (simw same_wbuf).

Lemma io_write_plain str p w : io_write d str (WPlain i) p w = let '(s', x) := sink_write p (ww_sink w i) in Done (put_sink i s' w) x.
Proof. now destruct d. Qed.
Lemma same_wset g b l e : same_wbuf g b -> same_wbuf (mkGW l e (gw_w g)) (mkBW l e (wsink b)).
Proof. intros (A & B & C & D). unfold same_wbuf; cbn. auto. Qed.
Lemma same_wsink g b l e s : same_wbuf g b -> same_wbuf (mkGW l e (put_sink i s (gw_w g))) (mkBW l e s).
Proof. intros (A & B & C & D). unfold same_wbuf; cbn. conj; auto; [apply upd_same|now apply wkept_put]. Qed.

Lemma sim_flush str g b : same_wbuf g b -> sim (gw_flush (wr str) g) (let '(b', e) := bw_flush b in Done b' e).
Proof.
  intros H. unfold gw_flush, bw_flush. pose proof H as (A & B & C & D). rewrite A, B. destruct (werr b); [now apply simw_done|].
  destruct (wbuf b) as [|c l] eqn:Eb; [now apply simw_done|]. rewrite <- Eb. rewrite io_write_plain, C.
  destruct (sink_write (wbuf b) (wsink b)) as [s' [n e]]. cbn [obind]. destruct (if _ && _ then _ else _); apply simw_done; eapply same_wsink; eassumption.
Qed.
Lemma sim_write_loop size direct str str' f : forall p g b, same_wbuf g b ->
  sim (gw_write_loop (wr str) size (if direct : bool then Some (wr str') else None) f p g) (bw_write_loop size direct f p b).
Proof.
  induction f as [|f IH]; intros p g b H; cbn [gw_write_loop bw_write_loop]; pose proof H as (A & B & C & D); rewrite A, B;
    (destruct (_ && _); [|now apply simw_done]); [reflexivity|].
  destruct ((zlen (wbuf b) =? 0) && direct) eqn:E.
  - apply andb_true_iff in E as [-> ->]. rewrite io_write_plain, C. destruct (sink_write p (wsink b)) as [s' [n e]]. cbn [obind fst snd].
    apply IH. eapply same_wsink; eassumption.
  - replace (if zlen (wbuf b) =? 0 then if direct then Some (wr str') else None else None) with (@None (list byte -> wworld -> outcome wworld (Z * option err)))
      by (destruct (zlen (wbuf b) =? 0), direct; try reflexivity; discriminate).
    pose proof (sim_flush str (mkGW (wbuf b ++ firstn (Z.to_nat (Z.min (size - zlen (wbuf b)) (zlen p))) p) (werr b) (gw_w g)) (mkBW (wbuf b ++ firstn (Z.to_nat (Z.min (size - zlen (wbuf b)) (zlen p))) p) (werr b) (wsink b)) (same_wset _ _ _ _ H)) as F.
    destruct (bw_flush _) as [b' e']. unfold simw in F. destruct (gw_flush _ _) as [g' x'|c]; [|contradiction]. destruct F as [_ F]. cbn [obind].
    now apply IH.
Qed.
Lemma sim_write_gen size direct str str' p g b : same_wbuf g b ->
  sim (obind (gw_write_gen (wr str) size (if direct : bool then Some (wr str') else None) p g) (fun g x => Done g (snd x))) (bw_write_gen size direct p b).
Proof.
  intros H. unfold gw_write_gen, bw_write_gen. pose proof (sim_write_loop size direct str str' (3 + length p) p g b H) as L. unfold simw in L.
  destruct (gw_write_loop _ _ _ _ _ _) as [g' r|c], (bw_write_loop _ _ _ _ _) as [b' r'|c']; try contradiction; cbn [obind]; [|exact L].
  destruct L as [<- L]. pose proof L as (A & B & _). rewrite A, B. destruct (werr b'); cbn [obind snd]; apply simw_done; [exact L|].
  now apply same_wset.
Qed.
Lemma sim_write_byte size str c g b : same_wbuf g b -> sim (gw_write_byte (wr str) size c g) (bw_write_byte size c b).
Proof.
  intros H. unfold gw_write_byte, bw_write_byte. pose proof H as (A & B & _). rewrite A, B. destruct (werr b) eqn:Eb; [now apply simw_done|].
  destruct (_ <=? _); [|apply simw_done; now apply same_wset].
  pose proof (sim_flush str g b H) as F. destruct (bw_flush b) as [b' e]. unfold simw in F. destruct (gw_flush _ _) as [g' x|c']; [|contradiction].
  destruct F as [-> F]. cbn [obind]. pose proof F as (A' & B' & _). destruct e; [rewrite B'; now apply simw_done|].
  rewrite A', B'. apply simw_done. now apply same_wset.
Qed.
End Plain.

(** ** In the world *)
Section World.
Context (w0 : wworld) (k i : nat) (size : Z) (size_pos : 0 < size).

(** In the world [w] the *bufio.Writer [k], on the io.Writer [i], is [b]; everything else is as in [w0]. *)
Definition holdsw (w : wworld) (b : bwriter) : Prop :=
  ww_buf w k = mkWBO size (wbuf b) (werr b) (WPlain i) /\ ww_sink w i = wsink b /\
  (forall j, j <> i -> ww_sink w j = ww_sink w0 j) /\ (forall j, j <> k -> ww_buf w j = ww_buf w0 j) /\ ww_next w = ww_next w0.

Lemma holdsw_same w b : holdsw w b -> same_wbuf i w (mkGW (wbuf b) (werr b) w) b.
Proof. intros (A & B & C & D & E). unfold same_wbuf, wkept; cbn; conj; auto. Qed.
Lemma holdsw_back w b {X} (o : outcome (gwbuf wworld) X) (o' : outcome bwriter X) : holdsw w b -> simw (same_wbuf i w) o o' ->
  simw holdsw (obind o (fun g x => Done (put_wbuf k (mkWBO size (gw_buf g) (gw_err g) (WPlain i)) (gw_w g)) x)) o'.
Proof.
  intros (A & B & C & D & E) H. unfold simw in *. destruct o as [g x|c], o' as [b' y|c']; try contradiction; [|exact H]. cbn [obind].
  destruct H as (<- & F1 & F2 & F3 & F4 & F5 & F6). split; [reflexivity|]. unfold holdsw, put_wbuf; cbn. conj.
  - rewrite upd_same. congruence.
  - exact F3.
  - intros j Hj. rewrite F4; auto.
  - intros j Hj. rewrite upd_other, F5; auto.
  - congruence.
Qed.
Lemma holdsw_flush d w b : holdsw w b -> simw holdsw (flush_buf d k w) (let '(b', e) := bw_flush b in Done b' e).
Proof.
  intros H. unfold flush_buf. pose proof H as (A & _). rewrite A. cbn [wbo_size wbo_buf wbo_err wbo_wr].
  apply (holdsw_back w b); [exact H|]. apply sim_flush. now apply holdsw_same.
Qed.

(** What is below the *bufio.Writer and in it, on an io.Writer that does not fail: [m]. *)
Definition carries (w : wworld) (m : list byte) : Prop := exists b, holdsw w b /\ wok size b m.

Lemma carries_flush d w m : carries w m -> exists w', flush_buf d k w = Done w' None /\ carries w' m /\ received (ww_sink w' i) = m /\ wbo_buf (ww_buf w' k) = [].
Proof using size_pos.
  intros (b & H & Hb). destruct (wok_flush size size_pos b m Hb) as (b' & E & Hb' & E1 & E2). pose proof (holdsw_flush d w b H) as F. rewrite E in F.
  unfold simw in F. destruct (flush_buf d k w) as [w' x|c]; [|contradiction]. destruct F as [-> F]. exists w'. pose proof F as (A & B & _).
  conj; auto; [now exists b'|congruence|]. rewrite A. exact E1.
Qed.

(** [under] is nothing or the *bufio.Writer itself. *)
Lemma carries_step d under X (e : bufW X) w m : under = None \/ under = Some (WBuf k) -> carries w m ->
  exists w' m' x, wbuf_h d k under X e w = Done w' x /\ mem_h X e m = Done m' x /\ carries w' m'.
Proof using size_pos.
  intros Hu Hc. pose proof Hc as (b & H & Hb). pose proof H as (A & B & _). destruct (wok_step size size_pos X e b m Hb) as (b' & m' & x & E1 & E2 & Hb').
  assert (G : forall o, simw holdsw o (Done b' x) -> exists w' m' x', o = Done w' x' /\ mem_h X e m = Done m' x' /\ carries w' m').
  { intros o F. unfold simw in F. destruct o as [w' y|c]; [|contradiction]. destruct F as [-> F]. exists w', m', x. conj; auto. now exists b'. }
  destruct e; cbn [bufw_h] in E1; unfold wbuf_h; rewrite ?A; cbn [wbo_size wbo_buf wbo_err wbo_wr]; rewrite ?B.
  - apply G. apply (holdsw_back w b); [exact H|]. rewrite <- E1. apply (sim_write_gen i w d size true false false). now apply holdsw_same.
  - apply G. apply (holdsw_back w b); [exact H|]. rewrite <- E1. apply (sim_write_gen i w d size (s_strw (wsink b)) false true). now apply holdsw_same.
  - apply G. apply (holdsw_back w b); [exact H|]. rewrite <- E1. apply (sim_write_byte i w d size false). now apply holdsw_same.
  - apply G. destruct (_ >=? _); [rewrite <- E1; now apply simw_done|]. rewrite <- E1. now apply holdsw_flush.
  - apply G. rewrite <- E1. now apply holdsw_flush.
  - cbn [mem_h]. destruct Hu as [->| ->].
    + exists w, m, None. auto.
    + destruct (carries_flush d w m Hc) as (w' & E & C & _). exists w', m, None. auto.
Qed.
Lemma carries_run d under {A} (p : prog bufW A) : under = None \/ under = Some (WBuf k) -> forall w m, carries w m ->
  simw carries (run (wbuf_h d k under) p w) (run mem_h p m).
Proof using size_pos.
  intros Hu. induction p as [a|X e f IH|c]; intros w m H; cbn [run]; [now split| |reflexivity].
  destruct (carries_step d under X e w m Hu H) as (w' & m' & x & -> & -> & H'). now apply IH.
Qed.

Lemma onw_bin d strict under j {A} (p : prog wireW A) : (under = None \/ under = Some (WBuf k)) -> forall xs w m,
  nth_error xs j = Some (mkWr (SWBin strict) k under) -> carries w m ->
  simw (fun xw (sm : unit * list byte) => fst xw = xs /\ carries (snd xw) (snd sm))
    (run (sharedw_h d) (onw j p) (xs, w)) (run (over (bin_writer strict) mem_h) p (tt, m)).
Proof using size_pos.
  intros Hu. induction p as [a|X e f IH|c]; intros xs w m Hj H; cbn [onw run]; [cbn; auto| |reflexivity].
  unfold sharedw_h at 1. cbn [fst snd]. rewrite Hj. unfold writer_h, over. cbn [wr_st wr_buf wr_under fst snd]. unfold bin_writer. rewrite run_bind.
  pose proof (carries_run d under (bin_write strict e) Hu w m H) as G. unfold simw in G.
  destruct (run (wbuf_h d k under) (bin_write strict e) w) as [w' y|c], (run mem_h (bin_write strict e) m) as [m' y'|c']; try contradiction; cbn [obind].
  - destruct G as [<- G]. cbn [fst snd run]. fold (place_at j (mkWr (SWBin strict) k under) xs). rewrite (place_self _ _ _ Hj). now apply IH.
  - exact G.
Qed.
Lemma onw_cmp d under j {A} (p : prog wireW A) : (under = None \/ under = Some (WBuf k)) -> forall st xs w m,
  nth_error xs j = Some (mkWr (SWCmp st) k under) -> carries w m ->
  simw (fun xw (sm : cwriter * list byte) => fst xw = place_at j (mkWr (SWCmp (fst sm)) k under) xs /\ carries (snd xw) (snd sm))
    (run (sharedw_h d) (onw j p) (xs, w)) (run (over cmp_writer mem_h) p (st, m)).
Proof using size_pos.
  intros Hu. induction p as [a|X e f IH|c]; intros st xs w m Hj H; cbn [onw run]; [cbn; split; [reflexivity|]; split; [now rewrite place_self|exact H]| |reflexivity].
  unfold sharedw_h at 1. cbn [fst snd]. rewrite Hj. unfold writer_h, over at 1. cbn [wr_st wr_buf wr_under fst snd].
  pose proof (carries_run d under (cmp_writer X e st) Hu w m H) as G. unfold simw in G.
  destruct (run (wbuf_h d k under) (cmp_writer X e st) w) as [w' [st1 y]|c], (run mem_h (cmp_writer X e st) m) as [m' [st2 y']|c']; try contradiction; cbn [obind].
  - destruct G as [E G]. injection E as <- <-. cbn [fst snd]. fold (place_at j (mkWr (SWCmp st1) k under) xs).
    assert (Hl : (j < length xs)%nat) by (apply nth_error_Some; congruence).
    specialize (IH y st1 (place_at j (mkWr (SWCmp st1) k under) xs) w' m' (place_nth _ _ _ Hl) G). unfold simw in *.
    destruct (run (sharedw_h d) _ _) as [[xs2 w2] r|], (run (over cmp_writer mem_h) _ _) as [[st3 m3] r'|]; auto.
    cbn [fst snd] in *. rewrite place_place in IH by exact Hl. exact IH.
  - exact G.
Qed.
End World.
