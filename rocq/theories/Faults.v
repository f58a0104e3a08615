(** Protocol writers over transports that may fail, and Reset. *)
From Verif Require Import Base BaseLemmas Prog Bufio BufioProof BufioW BufioWProof GoBinary Wire WireProof
  Spec Clients Binary BinaryProof Compact CompactProof Layers Ideal.

(** ** Flusher and Flush answers are untouched by writes *)
Definition keeps (s s' : sink) : Prop := s_flusher s' = s_flusher s /\ s_fresp s' = s_fresp s.

Lemma keeps_refl s : keeps s s.
Proof. split; reflexivity. Qed.
Lemma keeps_trans a b c : keeps a b -> keeps b c -> keeps a c.
Proof. intros [] []. split; congruence. Qed.

Lemma sink_write_keeps p s : keeps s (fst (sink_write p s)).
Proof. unfold sink_write. destruct (s_resp s) as [|[[k e]|] r]; split; reflexivity. Qed.

Lemma bw_flush_keeps b : keeps (wsink b) (wsink (fst (bw_flush b))).
Proof.
  unfold bw_flush. destruct (werr b); [apply keeps_refl|]. destruct (wbuf b) as [|c r]; [apply keeps_refl|].
  pose proof (sink_write_keeps (c :: r) (wsink b)) as K.
  destruct (sink_write (c :: r) (wsink b)) as [s' [n e]].
  destruct (if _ && _ then _ else _); exact K.
Qed.

Lemma bw_write_loop_keeps size direct : forall fuel p b b' p',
  bw_write_loop size direct fuel p b = Done b' p' -> keeps (wsink b) (wsink b').
Proof.
  induction fuel as [|f IH]; intros p b b' p' H; cbn [bw_write_loop] in H.
  - destruct (_ && _); [discriminate|]. injection H as <- _. apply keeps_refl.
  - destruct (_ && _); [|injection H as <- _; apply keeps_refl].
    destruct ((zlen (wbuf b) =? 0) && direct).
    + pose proof (sink_write_keeps p (wsink b)) as K.
      destruct (sink_write p (wsink b)) as [s' [n e]]. apply IH in H. eapply keeps_trans; eauto.
    + match type of H with context [bw_flush ?b0] => pose proof (bw_flush_keeps b0) as K;
        destruct (bw_flush b0) as [b1 e1] end.
      apply IH in H. eapply keeps_trans; eauto.
Qed.

Lemma bw_write_gen_keeps size direct p b b' x :
  bw_write_gen size direct p b = Done b' x -> keeps (wsink b) (wsink b').
Proof.
  unfold bw_write_gen. intros H.
  destruct (bw_write_loop size direct (3 + length p) p b) as [b1 p1|c] eqn:E; [|discriminate].
  apply bw_write_loop_keeps in E. cbn [obind] in H.
  destruct (werr b1); injection H as <- _; exact E.
Qed.

Section Sim.
Variable size : Z.
Hypothesis Hsize : 0 < size.
Variable s0 : sink.

(** The real and the ideal writer agree. *)
Definition sim (b : bwriter) (i : ideal) : Prop :=
  winv size b (received s0 ++ i_bytes i) /\
  i_flusher i = s_flusher (wsink b) /\ i_fresp i = s_fresp (wsink b).

Lemma sim_new : sim (new_bwriter s0) (ideal_of s0).
Proof.
  unfold sim, ideal_of. cbn [i_bytes i_flusher i_fresp new_bwriter wsink].
  rewrite app_nil_r. split; [apply winv_new; exact Hsize|]. split; reflexivity.
Qed.

(** One call on the buffer: it answers; without a sticky error afterwards the
    ideal one answers the same. *)
Lemma sim_step X (e : bufW X) b i : sim b i -> werr b = None ->
  exists b' x i' y, bufw_h size X e b = Done b' x /\ ideal_h X e i = Done i' y /\
    i_bytes i' = i_bytes i ++ asked e /\
    winv size b' (received s0 ++ i_bytes i') /\
    (werr b' = None -> x = y /\ sim b' i').
Proof.
  intros (Hw & Hf & Hr) He.
  destruct (bufw_step size Hsize X e b _ Hw) as (b' & x & E & Hw' & _).
  rewrite <- app_assoc in Hw'. exists b', x.
  assert (Hadd : forall l, asked e = l -> keeps (wsink b) (wsink b') ->
    winv size b' (received s0 ++ i_bytes i ++ l) /\
    sim b' (mkIdeal (i_bytes i ++ l) (i_flusher i) (i_fresp i))).
  { intros l <- [K1 K2]. split; [exact Hw'|]. unfold sim. cbn [i_bytes i_flusher i_fresp].
    conj; [exact Hw'|congruence|congruence]. }
  destruct e as [p|p|c|n| |]; cbn [ideal_h bufw_h] in *.
  - pose proof (bw_write_gen_keeps _ _ _ _ _ _ E) as K. destruct (Hadd p eq_refl K).
    do 2 eexists. conj; [exact E|reflexivity|reflexivity|assumption|]. intros Hn. split; [|assumption].
    destruct (bw_write_gen_spec size Hsize true p b _ Hw) as (b2 & e2 & E2 & _ & E3 & _).
    unfold bw_write in E. rewrite E in E2. injection E2 as <- <-. congruence.
  - pose proof (bw_write_gen_keeps _ _ _ _ _ _ E) as K. destruct (Hadd p eq_refl K).
    do 2 eexists. conj; [exact E|reflexivity|reflexivity|assumption|]. intros Hn. split; [|assumption].
    destruct (bw_write_gen_spec size Hsize (s_strw (wsink b)) p b _ Hw) as (b2 & e2 & E2 & _ & E3 & _).
    unfold bw_write_string in E. rewrite E in E2. injection E2 as <- <-. congruence.
  - assert (K : keeps (wsink b) (wsink b') /\ (werr b' = None -> x = None)).
    { unfold bw_write_byte in E. rewrite He in E. destruct (size - zlen (wbuf b) <=? 0).
      - pose proof (bw_flush_keeps b) as K.
        destruct (bw_flush_spec size Hsize b _ Hw) as (b1 & e1 & E1 & _ & Ee & _).
        rewrite E1 in *. cbn [fst] in K. destruct e1; injection E as <- <-; split; auto.
      - injection E as <- <-. split; [apply keeps_refl|reflexivity]. }
    destruct K as [K Kx]. destruct (Hadd [c] eq_refl K).
    do 2 eexists. conj; [exact E|reflexivity|reflexivity|assumption|]. intros Hn. split; auto.
  - assert (K : keeps (wsink b) (wsink b') /\ (werr b' = None -> x = None)).
    { destruct (size - zlen (wbuf b) >=? n).
      - injection E as <- <-. split; [apply keeps_refl|reflexivity].
      - pose proof (bw_flush_keeps b) as K.
        destruct (bw_flush_spec size Hsize b _ Hw) as (b1 & e1 & E1 & _ & Ee & _).
        rewrite E1 in *. injection E as <- <-. cbn [fst] in K. split; auto. congruence. }
    destruct K as [K Kx]. destruct (Hadd [] eq_refl K) as [A B].
    exists i, None. conj; [exact E|reflexivity|symmetry; apply app_nil_r|rewrite app_nil_r in A; exact A|].
    intros Hn. split; auto. rewrite app_nil_r in B. destruct i; exact B.
  - assert (K : keeps (wsink b) (wsink b') /\ (werr b' = None -> x = None)).
    { pose proof (bw_flush_keeps b) as K.
      destruct (bw_flush_spec size Hsize b _ Hw) as (b1 & e1 & E1 & _ & Ee & _).
      rewrite E1 in *. injection E as <- <-. cbn [fst] in K. split; auto. congruence. }
    destruct K as [K Kx]. destruct (Hadd [] eq_refl K) as [A B].
    exists i, None. conj; [exact E|reflexivity|symmetry; apply app_nil_r|rewrite app_nil_r in A; exact A|].
    intros Hn. split; auto. rewrite app_nil_r in B. destruct i; exact B.
  - cbn [asked] in Hw'. rewrite app_nil_r in Hw'. pose proof E as E0. unfold sink_flush in E. rewrite Hf, Hr.
    destruct (s_flusher (wsink b)) eqn:Ef.
    + do 2 eexists. conj; [exact E0|reflexivity|cbn; symmetry; apply app_nil_r|cbn [i_bytes]; exact Hw'|].
      clear E0. injection E as <- <-. intros Hn. split; [reflexivity|]. unfold sim. cbn. auto.
    + exists i, None. conj; [exact E0|reflexivity|cbn; symmetry; apply app_nil_r|exact Hw'|].
      clear E0. injection E as <- <-. intros Hn. split; [reflexivity|]. unfold sim. cbn.
      conj; auto; congruence.
Qed.

(** Programs that never crash on their own account. *)
Fixpoint crash_free {E A} (p : prog E A) : Prop :=
  match p with Ret _ => True | Vis _ k => forall x, crash_free (k x) | Crash _ => False end.

Lemma crash_free_bind {E A B} (p : prog E A) (f : A -> prog E B) :
  crash_free p -> (forall a, crash_free (f a)) -> crash_free (bind p f).
Proof. induction p as [a|X e k IH|c]; cbn; intros Hp Hf; auto. Qed.

(** Once the sticky error is set nothing more arrives. *)
Lemma frozen {A} (p : prog bufW A) : forall b m er, winv size b m -> werr b = Some er -> crash_free p ->
  exists b' x, run (bufw_h size) p b = Done b' x /\ werr b' = Some er /\
    received (wsink b') = received (wsink b) /\ exists m', winv size b' m'.
Proof.
  induction p as [a|X e k IH|c]; intros b m er Hw He Hc; cbn [run]; [eauto 10| |contradiction].
  destruct (bufw_step size Hsize X e b m Hw) as (b1 & x1 & E & Hw1 & K). rewrite E.
  destruct (K er He) as (K1 & K2 & K3). rewrite He in K2.
  destruct (IH x1 b1 _ er Hw1 K2 (Hc x1)) as (b2 & x2 & E2 & E3 & E4 & Hw2).
  exists b2, x2. conj; auto. congruence.
Qed.

Lemma ideal_grows {A} (p : prog bufW A) : forall i, crash_free p ->
  exists i' x, run ideal_h p i = Done i' x /\ exists w, i_bytes i' = i_bytes i ++ w.
Proof.
  induction p as [a|X e k IH|c]; intros i Hc; cbn [run]; [|  |contradiction].
  - exists i, a. split; [reflexivity|]. exists []. symmetry. apply app_nil_r.
  - assert (exists i1 x1, ideal_h X e i = Done i1 x1 /\ exists w, i_bytes i1 = i_bytes i ++ w)
      as (i1 & x1 & E & w & Hw).
    { destruct e; cbn [ideal_h]; try (do 2 eexists; split; [reflexivity|]; cbn [i_bytes]; eexists; reflexivity);
      try (exists i, None; split; [reflexivity|]; exists []; symmetry; apply app_nil_r).
      destruct (i_flusher i); do 2 eexists; (split; [reflexivity|]); exists []; symmetry; apply app_nil_r. }
    rewrite E. destruct (IH x1 i1 (Hc x1)) as (i2 & x2 & E2 & w2 & Hw2).
    exists i2, x2. split; [exact E2|]. exists (w ++ w2). rewrite Hw2, Hw, app_assoc. reflexivity.
Qed.

Definition prefix_of_ideal (b : bwriter) (i : ideal) : Prop :=
  exists r, received (wsink b) ++ r = received s0 ++ i_bytes i.

Lemma sim_prog {A} (p : prog bufW A) : forall b i, sim b i -> werr b = None -> crash_free p ->
  exists b' x i' y, run (bufw_h size) p b = Done b' x /\ run ideal_h p i = Done i' y /\
    (exists m, winv size b' m) /\ prefix_of_ideal b' i' /\
    (werr b' = None -> x = y /\ sim b' i').
Proof.
  induction p as [a|X e k IH|c]; intros b i Hs He Hc; cbn [run]; [| |contradiction].
  - exists b, a, i, a. pose proof Hs as (Hw & _). conj; eauto.
    unfold prefix_of_ideal. destruct Hw as [_ Hw]. rewrite He in Hw. eauto.
  - destruct (sim_step X e b i Hs He) as (b1 & x1 & i1 & y1 & E1 & E2 & Ha & Hw1 & Hn).
    rewrite E1, E2. destruct (werr b1) as [er|] eqn:Ee.
    + destruct (frozen (k x1) b1 _ er Hw1 Ee (Hc x1)) as (b2 & x2 & E3 & E4 & E5 & m2 & Hw2).
      destruct (ideal_grows (k y1) i1 (Hc y1)) as (i2 & y2 & E6 & w & E7).
      exists b2, x2, i2, y2. conj; eauto.
      * unfold prefix_of_ideal. destruct Hw1 as [_ Hw1]. rewrite Ee in Hw1. destruct Hw1 as [r Hr].
        exists (r ++ w). rewrite E5, app_assoc, Hr, E7, app_assoc. reflexivity.
      * congruence.
    + destruct (Hn eq_refl) as [-> Hs1]. apply IH; auto.
Qed.

(** ** Sequences of calls on a protocol writer *)
Section Layer.
Context {St : Type} (L : layer wireW bufW St).
Hypothesis HL : forall X (e : wireW X) st, crash_free (L X e st).

Theorem calls_sim l : forall st b i, sim b i -> werr b = None ->
  exists st' b' xs st2 i' ys,
    do_calls (over L (bufw_h size)) l (st, b) = Done (st', b') xs /\
    do_calls (over L ideal_h) l (st, i) = Done (st2, i') ys /\
    (exists m, winv size b' m) /\ prefix_of_ideal b' i' /\ length xs = length ys /\
    (werr b' = None -> st' = st2 /\ xs = ys /\ sim b' i').
Proof.
  assert (Hfr : forall l st b m er, winv size b m -> werr b = Some er ->
    exists st' b' xs, do_calls (over L (bufw_h size)) l (st, b) = Done (st', b') xs /\
      werr b' = Some er /\ received (wsink b') = received (wsink b) /\ (exists m, winv size b' m) /\
      length xs = length l).
  { clear l. induction l as [|[X e] l IH]; intros st b m er Hw He; cbn [do_calls].
    - do 3 eexists. conj; eauto.
    - unfold over at 1. cbn [fst snd].
      destruct (frozen (L X e st) b m er Hw He (HL X e st)) as (b1 & [st1 x1] & E & E2 & E3 & m1 & Hw1).
      rewrite E. cbn [obind].
      destruct (IH st1 b1 m1 er Hw1 E2) as (st2 & b2 & xs & E4 & E5 & E6 & E7 & E8).
      rewrite E4. cbn [obind]. do 3 eexists. conj; [reflexivity|auto|congruence|auto|cbn; congruence]. }
  assert (Hid : forall l st i, exists st' i' xs, do_calls (over L ideal_h) l (st, i) = Done (st', i') xs /\
      (exists w, i_bytes i' = i_bytes i ++ w) /\ length xs = length l).
  { clear - HL. induction l as [|[X e] l IH]; intros st i; cbn [do_calls].
    - do 3 eexists. conj; eauto. exists []. symmetry. apply app_nil_r.
    - unfold over at 1. cbn [fst snd].
      destruct (ideal_grows (L X e st) i (HL X e st)) as (i1 & [st1 x1] & E & w & Hw). rewrite E. cbn [obind].
      destruct (IH st1 i1) as (st2 & i2 & xs & E4 & (w2 & Hw2) & E8). rewrite E4. cbn [obind].
      do 3 eexists. conj; [reflexivity| |cbn; congruence]. exists (w ++ w2). rewrite Hw2, Hw, app_assoc. reflexivity. }
  induction l as [|[X e] l IH]; intros st b i Hs He; cbn [do_calls].
  - do 6 eexists. conj; [reflexivity|reflexivity| | |reflexivity|auto].
    + destruct Hs as (Hw & _). eauto.
    + destruct Hs as ((_ & Hw) & _). rewrite He in Hw. unfold prefix_of_ideal. eauto.
  - unfold over at 1 3. cbn [fst snd].
    destruct (sim_prog (L X e st) b i Hs He (HL X e st))
      as (b1 & [st1 x1] & i1 & [st2 y1] & E1 & E2 & (m1 & Hw1) & Hp & Hn).
    rewrite E1, E2. cbn [obind]. destruct (werr b1) as [er|] eqn:Ee.
    + destruct (Hfr l st1 b1 m1 er Hw1 Ee) as (st3 & b3 & xs & E3 & E4 & E5 & E6 & E7).
      destruct (Hid l st2 i1) as (st4 & i4 & ys & F1 & (w & F2) & F3).
      rewrite E3, F1. cbn [obind]. do 6 eexists. conj; [reflexivity|reflexivity|auto| |cbn; congruence|congruence].
      destruct Hp as [r Hr]. exists (r ++ w). rewrite E5, app_assoc, Hr, F2, app_assoc. reflexivity.
    + destruct (Hn eq_refl) as [Hxy Hs1]. injection Hxy as <- <-.
      destruct (IH st1 b1 i1 Hs1 Ee) as (st3 & b3 & xs & st4 & i4 & ys & E3 & E4 & E5 & E6 & E7 & E8).
      rewrite E3, E4. cbn [obind]. do 6 eexists. conj; [reflexivity|reflexivity|auto|auto|cbn; congruence|].
      intros Hw3. destruct (E8 Hw3) as (-> & -> & ?). auto.
Qed.
End Layer.
End Sim.

(** ** Crash-freedom of the protocol writers *)
Ltac cf := repeat match goal with
  | |- crash_free (bind _ _) => apply crash_free_bind; [|intros]
  | |- crash_free (and_then _ _) => apply crash_free_bind; [|intros]
  | |- crash_free (call _) => intros ?; exact I
  | |- crash_free (Ret _) => exact I
  | |- crash_free (if ?b then _ else _) => destruct b
  | |- crash_free (match ?x with _ => _ end) => destruct x
  | |- crash_free (append_write _ _) => unfold append_write
  | |- crash_free (cmp_write_field_header _ _ _) => unfold cmp_write_field_header
  | |- crash_free (liftw _ _) => unfold liftw
  end.

Lemma bin_writer_cf strict X (e : wireW X) st : crash_free (bin_writer strict X e st).
Proof.
  unfold bin_writer. apply crash_free_bind; [|intros; exact I]. destruct e; cbn [bin_write];
  unfold bin_write_message_begin, bin_write_string, bin_write_bytes, bin_write_set_begin, bin_write_size,
    bin_write_type, bin_write_i64, bin_write_i32, bin_write_i16; cf.
Qed.

Lemma cmp_writer_cf X (e : wireW X) st : crash_free (cmp_writer X e st).
Proof.
  destruct e; cbn [cmp_writer]; cf; unfold cmp_write_message_begin, cmp_write_string, cmp_write_bytes,
    cmp_write_size, cmp_write_uvarint, cmp_write_i64; cf; unfold cmp_write_string, cmp_write_size, cmp_write_uvarint; cf.
Qed.

(** ** Flush *)
Lemma do_calls_app {S} (h : handler wireW S) l m s :
  do_calls h (l ++ m) s =
  obind (do_calls h l s) (fun s' xs => obind (do_calls h m s') (fun s'' ys => Done s'' (xs ++ ys))).
Proof.
  revert s. induction l as [|[X e] l IH]; intros s; cbn [app do_calls obind].
  - destruct (do_calls h m s); reflexivity.
  - destruct (h X e s) as [s1 x|c]; cbn [obind]; [|reflexivity]. rewrite IH.
    destruct (do_calls h l s1) as [s2 xs|c]; cbn [obind]; [|reflexivity].
    destruct (do_calls h m s2) as [s3 ys|c]; reflexivity.
Qed.

(** What Flush does when it returns nil. *)
Definition good_flush {St} size (L : layer wireW bufW St) : Prop :=
  forall st b m st' b', winv size b m ->
    over L (bufw_h size) _ WFlush (st, b) = Done (st', b') None ->
    werr b = None /\ received (wsink b') = m /\
    (s_flusher (wsink b) = true -> exists log, s_log (wsink b') = log ++ [SFlush]).

Lemma underflush_spec size b b' x : bufw_h size _ BWUnderFlush b = Done b' x ->
  received (wsink b') = received (wsink b) /\
  (s_flusher (wsink b) = true -> exists log, s_log (wsink b') = log ++ [SFlush]).
Proof.
  cbn [bufw_h]. unfold sink_flush. destruct (s_flusher (wsink b)) eqn:Ef; intros H; injection H as <- _; cbn [wsink].
  - rewrite received_app. cbn. rewrite app_nil_r. split; [reflexivity|]. intros _. eexists. reflexivity.
  - split; [reflexivity|discriminate].
Qed.

Lemma bin_good_flush size strict : 0 < size -> good_flush size (bin_writer strict).
Proof.
  intros Hs st b m st' b' Hw. unfold over, bin_writer. cbn [fst snd bin_write].
  rewrite run_bind, run_and_then, run_call. cbn [bufw_h].
  destruct (bw_flush_spec size Hs b m Hw) as (b1 & e & E & _ & Ee & Hn & Hst & _). pose proof (bw_flush_keeps b) as K.
  rewrite E in *. cbn [obind fst] in *. destruct e as [er|].
  { cbn [obind run]. discriminate. }
  rewrite run_call. destruct (bufw_h size _ BWUnderFlush b1) as [b2 x|c] eqn:E2; cbn [obind run]; [|discriminate].
  intros H. injection H as _ <- ->. apply underflush_spec in E2. destruct E2 as [R1 R2].
  destruct (Hn eq_refl) as [_ Hr]. destruct K as [K1 K2]. rewrite K1 in R2.
  split; [destruct (werr b) as [er|] eqn:Eb; [rewrite (Hst er eq_refl) in Ee; congruence|reflexivity]|]. split; congruence || auto.
Qed.

Lemma cmp_good_flush size st b m st' b' : 0 < size -> winv size b m ->
  over cmp_writer (bufw_h size) _ WFlush (st, b) = Done (st', b') None ->
  werr b = None /\ received (wsink b') = m /\
  (cw_uw st = true -> s_flusher (wsink b) = true -> exists log, s_log (wsink b') = log ++ [SFlush]).
Proof.
  intros Hs Hw. unfold over. cbn [fst snd cmp_writer]. unfold liftw.
  rewrite run_bind, run_and_then, run_call. cbn [bufw_h].
  destruct (bw_flush_spec size Hs b m Hw) as (b1 & e & E & _ & Ee & Hn & Hst & _). pose proof (bw_flush_keeps b) as K.
  rewrite E in *. cbn [obind fst] in *. destruct e as [er|].
  { cbn [obind run]. discriminate. }
  assert (Hb : werr b = None).
  { destruct (werr b) as [er|] eqn:Eb; [rewrite (Hst er eq_refl) in Ee; congruence|reflexivity]. }
  destruct (Hn eq_refl) as [_ Hr]. destruct (cw_uw st).
  - rewrite run_call. destruct (bufw_h size _ BWUnderFlush b1) as [b2 x|c] eqn:E2; cbn [obind run]; [|discriminate].
    intros H. injection H as _ <- ->. apply underflush_spec in E2. destruct E2 as [R1 R2].
    destruct K as [K1 K2]. rewrite K1 in R2. conj; auto. congruence.
  - cbn [obind run]. intros H. injection H as _ <-. conj; auto. discriminate.
Qed.

(** ** With the sticky error set *)
Section Sticky.
Variable size : Z.
Variables (b : bwriter) (er : err).
Hypothesis He : werr b = Some er.

Lemma sticky_write p : bufw_h size _ (BWWrite p) b = Done b (Some er).
Proof.
  cbn [bufw_h]. unfold bw_write, bw_write_gen. cbn [Nat.add bw_write_loop]. rewrite He. cbn [is_none].
  rewrite andb_false_r. cbn [obind]. rewrite He. reflexivity.
Qed.
Lemma sticky_write_string p : bufw_h size _ (BWWriteString p) b = Done b (Some er).
Proof.
  cbn [bufw_h]. unfold bw_write_string, bw_write_gen. cbn [Nat.add bw_write_loop]. rewrite He. cbn [is_none].
  rewrite andb_false_r. cbn [obind]. rewrite He. reflexivity.
Qed.
Lemma sticky_write_byte c : bufw_h size _ (BWWriteByte c) b = Done b (Some er).
Proof. cbn [bufw_h]. unfold bw_write_byte. rewrite He. reflexivity. Qed.
Lemma sticky_flush : bufw_h size _ BWFlush b = Done b (Some er).
Proof. cbn [bufw_h]. unfold bw_flush. rewrite He. reflexivity. Qed.
Lemma sticky_ensure n : bufw_h size _ (BWEnsure n) b = Done b None \/
  bufw_h size _ (BWEnsure n) b = Done b (Some er).
Proof. cbn [bufw_h]. destruct (_ >=? _); auto. unfold bw_flush. rewrite He. auto. Qed.

(** The call either reports an error or is one that emits nothing. *)
Definition reports {St X} (L : layer wireW bufW St) (e : wireW X) (st : St) : Prop :=
  exists st' x, over L (bufw_h size) X e (st, b) = Done (st', b) x /\
    (errW e x <> None \/
     (wc e <> wc WFlush /\
      forall i st2 i2 y, over L ideal_h X e (st, i) = Done (st2, i2) y -> i_bytes i2 = i_bytes i)).

Ltac stick :=
  rewrite ?run_bind, ?run_and_then, ?run_call, ?sticky_write, ?sticky_write_string, ?sticky_write_byte,
    ?sticky_flush; cbn [obind run].

Lemma bin_reports strict X (e : wireW X) st : reports (bin_writer strict) e st.
Proof.
  unfold reports, over, bin_writer. cbn [fst snd]. destruct e; cbn [bin_write];
  unfold bin_write_message_begin, bin_write_string, bin_write_bytes, bin_write_set_begin, bin_write_size,
    bin_write_type, bin_write_i64, bin_write_i32, bin_write_i16;
  try (destruct strict);
  repeat stick; try (do 2 eexists; split; [reflexivity|]; left; cbn [errW]; discriminate);
  do 2 eexists; (split; [reflexivity|]); right; (split; [discriminate|]);
    intros i st2 i2 y H; cbn in H; injection H as _ <- _; reflexivity.
Qed.

Lemma append_write_sticky max r :
  exists x, run (bufw_h size) (append_write max r) b = Done b (Some x).
Proof.
  unfold append_write. rewrite run_and_then, run_call.
  destruct (sticky_ensure max) as [-> | ->]; cbn [obind]; eauto.
  destruct (snd r); cbn [run]; eauto. rewrite run_call, sticky_write. eauto.
Qed.

Lemma cmp_reports X (e : wireW X) st : reports cmp_writer e st.
Proof.
  unfold reports, over. cbn [fst snd].
  assert (HA : forall st max r, exists x,
    run (bufw_h size) (liftw st (append_write max r)) b = Done b (st, Some x)).
  { intros st0 max r. unfold liftw. rewrite run_bind. destruct (append_write_sticky max r) as [x ->]. cbn. eauto. }
  assert (HF : forall st h v, exists x,
    run (bufw_h size) (cmp_write_field_header st h v) b = Done b (st, Some x)).
  { intros st0 h v. unfold cmp_write_field_header. rewrite run_bind.
    match goal with |- context [append_write ?m ?r] => destruct (append_write_sticky m r) as [x ->] end. cbn. eauto. }
  destruct e; cbn [cmp_writer]; unfold cmp_write_message_begin, cmp_write_string, cmp_write_bytes,
    cmp_write_size, cmp_write_uvarint, cmp_write_i64;
  try (match goal with |- context [liftw ?s (append_write ?m ?r)] => destruct (HA s m r) as [x ->] end;
       do 2 eexists; split; [reflexivity|]; left; discriminate);
  try (unfold liftw; repeat stick; do 2 eexists; split; [reflexivity|]; left; cbn [errW]; discriminate);
  try (cbn [run]; do 2 eexists; split; [reflexivity|]; right; split; [discriminate|];
    intros i st2 i2 y H; cbn in H; injection H as _ <- _; reflexivity).
  - destruct (cw_ids st) as [|id ids].
    + cbn [run]. do 2 eexists. split; [reflexivity|]. left. discriminate.
    + unfold liftw. repeat stick. do 2 eexists; split; [reflexivity|]; left; cbn [errW]; discriminate.
  - destruct (fh_type h =? T_Bool).
    + cbn [run]. do 2 eexists; split; [reflexivity|]; right; split; [discriminate|];
      intros i st2 i2 y H; cbn in H; injection H as _ <- _; reflexivity.
    + destruct (HF st h false) as [x ->]. do 2 eexists; split; [reflexivity|]; left; discriminate.
  - destruct (negb (fh_type (cw_bool st) =? T_Stop)).
    + rewrite run_bind. destruct (HF st (cw_bool st) v) as [x ->]. cbn [obind run].
      do 2 eexists; split; [reflexivity|]; left; discriminate.
    + unfold liftw. repeat stick. do 2 eexists; split; [reflexivity|]; left; cbn [errW]; discriminate.
Qed.
End Sticky.
