(** Truncated, malformed and hostile input: both readers, end to end. *)
From Verif Require Import Base BaseLemmas Prog Bufio BufioProof GoBinary GoBinaryProof Wire WireProof
  Spec Clients Reads Binary BinaryProof Compact CompactProof Layers RoundTrip EndToEnd Fuel Robust RobustWire.

(** ** Streams with a fixed final error, seen as byte lists *)
Lemma stream_fin size X (e : bufR X) s s' x : stream_h size X e s = Done s' x -> sfin s' = sfin s.
Proof.
  destruct e; cbn [stream_h]; intros H;
    repeat match type of H with
           | (if ?c then _ else _) = _ => destruct c
           | match ?c with _ => _ end = _ => destruct c eqn:?
           end; try discriminate; injection H as <- ?; cbn; congruence.
Qed.

Lemma run_fin size {A} (p : prog bufR A) : forall s s' x,
  run (stream_h size) p s = Done s' x -> sfin s' = sfin s.
Proof.
  induction p as [a|X e k IH|c]; intros s s' x H; cbn [run] in H.
  - injection H as <- _. reflexivity.
  - destruct (stream_h size X e s) as [s1 y|c] eqn:E; [|discriminate].
    apply IH in H. apply stream_fin in E. congruence.
  - discriminate.
Qed.

Section Data.
Context {S : Type} (L : layer wireR bufR S) (size : Z) (e : err).

Definition data_h : handler wireR (S * list byte) :=
  fun X c sd =>
    match run (stream_h size) (L X c (fst sd)) (mkStream (snd sd) (FErr e)) with
    | Done s' (st, x) => Done (st, sdata s') x
    | Crashed c => Crashed c
    end.

Lemma data_run {A} (p : prog wireR A) : forall st d,
  run (over L (stream_h size)) p (st, mkStream d (FErr e))
  = match run data_h p (st, d) with
    | Done (st', d') a => Done (st', mkStream d' (FErr e)) a
    | Crashed c => Crashed c
    end.
Proof.
  induction p as [a|X c k IH|c]; intros st d; cbn [run]; try reflexivity.
  unfold over at 1, data_h at 1. cbn [fst snd].
  destruct (run (stream_h size) (L X c st) (mkStream d (FErr e))) as [[d' f] [st' x]|cr] eqn:E; [|reflexivity].
  apply run_fin in E. cbn in E. subst f. cbn [sdata]. apply IH.
Qed.
End Data.

Section Bin.
Variables (size : Z) (strict : bool) (e : err).
Hypothesis Hsize : 10 <= size.
Notation bh := (data_h (bin_reader strict) size e).

Lemma bin_data_step X (c : wireR X) u d : exists p d' x, d = p ++ d' /\
  bh X c (u, d) = Done (u, d') x /\
  (errR c x = None -> ((if consumes c then 1 else 0) <= length p)%nat /\
     forall r, bh X c (u, d ++ r) = Done (u, d' ++ r) x).
Proof.
  destruct (good_bin size Hsize strict X c d e) as (p & d' & x & H1 & H2 & H3).
  exists p, d', x. unfold data_h, bin_reader. cbn [fst snd]. rewrite run_bind, H2. cbn [obind run sdata].
  conj; auto. intros Hx. destruct (H3 Hx) as [H4 H5]. split; [exact H4|].
  intros r. rewrite run_bind, H5. reflexivity.
Qed.

Lemma bin_tot X (c : wireR X) s : exists s' x,
  bh X c s = Done s' x /\ (length (snd s') <= length (snd s))%nat /\
  (errR c x = None -> consumes c = true -> (length (snd s') < length (snd s))%nat).
Proof.
  destruct s as [u d]. destruct (bin_data_step X c u d) as (p & d' & x & H1 & H2 & H3).
  exists (u, d'), x. cbn [snd]. subst d. rewrite app_length. conj; [exact H2|lia|].
  intros Hx Hc. destruct (H3 Hx) as [H4 _]. rewrite Hc in H4. lia.
Qed.

Lemma bin_ext r X (c : wireR X) s s' x :
  bh X c s = Done s' x -> errR c x = None ->
  bh X c (fst s, snd s ++ r) = Done (fst s', snd s' ++ r) x.
Proof.
  destruct s as [u d]. intros H Hx. destruct (bin_data_step X c u d) as (p & d' & y & H1 & H2 & H3).
  rewrite H2 in H. injection H as <- <-. cbn [fst snd]. now apply H3.
Qed.
End Bin.

Section Cmp.
Variables (size : Z) (e : err).
Hypothesis Hsize : 10 <= size.
Notation ch := (data_h cmp_reader size e).

Lemma cmp_data_step X (c : wireR X) st d : exists p d' st' x, d = p ++ d' /\
  ch X c (st, d) = Done (st', d') x /\
  (errR c x = None -> (cmp_least c st <= length p)%nat /\
     forall r, ch X c (st, d ++ r) = Done (st', d' ++ r) x).
Proof.
  destruct (good_cmp size Hsize X c st d e) as (p & d' & [st' x] & H1 & H2 & H3).
  exists p, d', st', x. unfold data_h. cbn [fst snd]. rewrite H2. cbn [sdata]. conj; auto.
  intros Hx. destruct (H3 Hx) as [H4 H5]. split; [exact H4|]. intros r. now rewrite H5.
Qed.

Lemma cmp_ext r X (c : wireR X) s s' x :
  ch X c s = Done s' x -> errR c x = None ->
  ch X c (fst s, snd s ++ r) = Done (fst s', snd s' ++ r) x.
Proof.
  destruct s as [u d]. intros H Hx. destruct (cmp_data_step X c u d) as (p & d' & st' & y & H1 & H2 & H3).
  rewrite H2 in H. injection H as <- <-. cbn [fst snd]. now apply H3.
Qed.

(** A pending boolean counts as half a byte. *)
Definition pending (st : creader) : nat := match cr_bool st with BNone => 0 | _ => 1 end.
Definition cmp_mu (s : creader * list byte) : nat := (2 * length (snd s) + pending (fst s))%nat.

(** Only a field header can make a boolean pending. *)
Definition keeps {X} (st : creader) (p : prog bufR (creader * X)) : Prop :=
  forall s s' st' x, run (stream_h size) p s = Done s' (st', x) -> (pending st' <= pending st)%nat.

Lemma keeps_ret {X} st st' (x : X) : (pending st' <= pending st)%nat -> keeps st (Ret (st', x)).
Proof. intros H s s' st2 y E. cbn in E. injection E as <- <- <-. exact H. Qed.
Lemma keeps_lift {X} st (p : prog bufR X) : keeps st (lift st p).
Proof.
  intros s s' st' x H. unfold lift in H. rewrite run_bind in H.
  destruct (run (stream_h size) p s); [|discriminate]. cbn in H. injection H as <- <- <-. lia.
Qed.

Lemma cmp_keeps X (c : wireR X) st s s' st' x :
  run (stream_h size) (cmp_reader X c st) s = Done s' (st', x) ->
  match c with
  | RFieldBegin => (pending st' <= 1)%nat
  | RBool => errR c x = None -> pending st' = O
  | _ => True
  end /\ (match c with RFieldBegin => errR c x <> None | _ => True end -> (pending st' <= pending st)%nat).
Proof.
  unfold cmp_reader, cmp_reader_gen. intros H.
  destruct c; try (split; [exact I|]; intros _; revert H; try apply keeps_lift; apply keeps_ret; unfold pending; cbn; lia).
  - split; [exact I|]. intros _. destruct (cr_ids st) as [|id ids]; cbn in H; injection H as <- <- <-;
      unfold pending; cbn; lia.
  - (* field *)
    assert (Hp : (pending st' <= 1)%nat) by (unfold pending; destruct (cr_bool st'); lia).
    split; [exact Hp|]. intros Hx. unfold cmp_read_field_begin in H.
    rewrite run_vis in H. destruct (stream_h size _ BReadByte s) as [s1 [b [er|]]|cr]; [| |discriminate];
      cbn [obind] in H.
    { cbn in H. injection H as <- <- <-. lia. }
    destruct (compact_wire (Z.land (b2z b) 15)) as [t [er|]]; cbn [is_none negb orb] in H.
    { cbn in H. injection H as <- <- <-. lia. }
    destruct (t =? T_Stop).
    { cbn in H. injection H as <- <- <-. lia. }
    destruct (Z.shiftr (b2z b) 4 =? 0).
    + rewrite run_bind in H. destruct (run (stream_h size) cmp_read_i16 s1) as [s2 [id [er|]]|cr];
        [| |discriminate]; cbn in H; injection H as <- <- <-.
      * lia.
      * now elim Hx.
    + cbn in H. injection H as <- <- <-. now elim Hx.
  - destruct (cr_bool st) eqn:Eb.
    + rewrite run_vis in H. destruct (stream_h size _ BReadByte s) as [s1 [b er]|cr]; [|discriminate].
      cbn in H. injection H as <- <- <-. unfold pending. rewrite Eb. auto.
    + cbn in H. injection H as <- <- <-. unfold pending. cbn. split; [auto|lia].
    + cbn in H. injection H as <- <- <-. unfold pending. cbn. split; [auto|lia].
Qed.

Lemma cmp_tot X (c : wireR X) s : exists s' x,
  ch X c s = Done s' x /\ (cmp_mu s' <= cmp_mu s)%nat /\
  (errR c x = None -> consumes c = true -> (cmp_mu s' < cmp_mu s)%nat).
Proof.
  destruct s as [st d].
  destruct (good_cmp size Hsize X c st d e) as (p & d' & [st' x] & H1 & H2 & H3).
  exists (st', d'), x.
  destruct (cmp_keeps X c st _ _ _ _ H2) as [K1 K2].
  unfold data_h, cmp_mu. cbn [fst snd]. rewrite H2. cbn [sdata]. subst d. rewrite app_length.
  cbn [snd] in H3.
  assert (Hc : forall y, errR c x = y -> (2 * length d' + pending st' <= 2 * (length p + length d') + pending st)%nat
    /\ (y = None -> consumes c = true -> (2 * length d' + pending st' < 2 * (length p + length d') + pending st)%nat)).
  { intros y Hy. destruct c; cbn [consumes cmp_least] in *;
      try (specialize (K2 I); split; [lia|]; intros -> Hcc; try discriminate Hcc; destruct (H3 Hy); lia).
    - destruct y as [er|].
      + assert (errR RFieldBegin x <> None) as Hn by congruence. specialize (K2 Hn). split; [lia|discriminate].
      + destruct (H3 Hy). split; lia.
    - specialize (K2 I). split; [lia|]. intros -> _. specialize (K1 Hy). destruct (H3 Hy) as [H4 _].
      unfold pending in *. destruct (cr_bool st), (cr_bool st'); lia. }
  destruct (Hc _ eq_refl) as [H4 H5]. auto.
Qed.
End Cmp.

(** ** Skipping a string or a UUID agrees with reading it *)
Section AgreeOps.
Variable size : Z.
Hypothesis Hsize : 10 <= size.

Lemma agree_string sz s :
  agree_op (run (stream_h size) ('(n, e) <- sz ;; match e with Some _ => Ret ([], e) | None => read_string n end) s)
    (run (stream_h size) ('(n, e) <- sz ;;
       match e with Some _ => Ret e | None => '(_, e) <- call (BDiscard n) ;; Ret e end) s).
Proof.
  rewrite !run_bind. destruct (run (stream_h size) sz s) as [s1 [n [er|]]|c]; cbn [obind run agree_op]; auto.
  destruct s1 as [d fi]. rewrite read_string_spec by lia. rewrite run_vis. unfold bytes_spec.
  cbn [stream_h sdata sfin].
  destruct (n <? 0); [cbn; auto|]. destruct (n <=? zlen d); [cbn; auto|].
  destruct fi; cbn; auto.
Qed.

Lemma agree_uuid s old :
  agree_op (run (stream_h size) (read_uuid old) s) (run (stream_h size) skip_uuid s).
Proof.
  unfold read_uuid, skip_uuid. rewrite !run_vis. cbn [stream_h]. destruct s as [d fi]. cbn [sdata sfin].
  change (16 <? 0) with false. cbn [obind].
  destruct (16 <=? zlen d); cbn [obind run agree_op]; auto.
  destruct fi; cbn [obind run]; [|cbn; auto].
  destruct ((0 <? zlen d) && is_eof (Some e)); cbn; auto.
Qed.

Lemma agree_op_map {S1 S2 X} (f : S1 -> S2) (o : outcome S1 (X * option err)) o' :
  agree_op o o' ->
  agree_op (match o with Done s x => Done (f s) x | Crashed c => Crashed c end)
           (match o' with Done s x => Done (f s) x | Crashed c => Crashed c end).
Proof.
  destruct o as [s [x [er|]]|c], o' as [s' [er'|]|c']; cbn; auto; try contradiction. intros ->. reflexivity.
Qed.

Lemma bin_skip_agrees strict fuel t s :
  agree (run (over (bin_reader strict) (stream_h size)) (read_val fuel t) s)
        (run (over (bin_reader strict) (stream_h size)) (skip fuel t) s).
Proof.
  apply skip_agrees.
  - intros [u s0]. unfold over, bin_reader. cbn [fst snd bin_read]. rewrite !run_bind.
    pose proof (agree_string bin_read_size s0) as H.
    change (bin_read_string) with ('(n, e) <- bin_read_size ;; match e with Some _ => Ret ([], e) | None => read_string n end).
    change bin_skip_string with ('(n, e) <- bin_read_size ;;
       match e with Some _ => Ret e | None => '(_, e) <- call (BDiscard n) ;; Ret e end).
    apply (agree_op_map (fun s => (u, s))) in H.
    match type of H with agree_op (match ?a with _ => _ end) (match ?b with _ => _ end) => destruct a, b end;
      exact H.
  - intros [u s0]. unfold over, bin_reader. cbn [fst snd bin_read]. rewrite !run_bind.
    pose proof (agree_uuid s0 uuid0) as H.
    apply (agree_op_map (fun s => (u, s))) in H.
    match type of H with agree_op (match ?a with _ => _ end) (match ?b with _ => _ end) => destruct a, b end;
      exact H.
Qed.

Lemma cmp_skip_agrees fuel t s :
  agree (run (over cmp_reader (stream_h size)) (read_val fuel t) s)
        (run (over cmp_reader (stream_h size)) (skip fuel t) s).
Proof.
  apply skip_agrees.
  - intros [u s0]. unfold over, cmp_reader, cmp_reader_gen, lift. cbn [fst snd]. rewrite !run_bind.
    pose proof (agree_string (cmp_read_size tw_read_uvarint) s0) as H.
    change (cmp_read_string tw_read_uvarint) with ('(n, e) <- cmp_read_size tw_read_uvarint ;; match e with Some _ => Ret ([], e) | None => read_string n end).
    change (cmp_skip_string tw_read_uvarint) with ('(n, e) <- cmp_read_size tw_read_uvarint ;;
       match e with Some _ => Ret e | None => '(_, e) <- call (BDiscard n) ;; Ret e end).
    apply (agree_op_map (fun s => (u, s))) in H.
    match type of H with agree_op (match ?a with _ => _ end) (match ?b with _ => _ end) => destruct a, b end;
      exact H.
  - intros [u s0]. unfold over, cmp_reader, cmp_reader_gen, lift. cbn [fst snd]. rewrite !run_bind.
    pose proof (agree_uuid s0 uuid0) as H.
    apply (agree_op_map (fun s => (u, s))) in H.
    match type of H with agree_op (match ?a with _ => _ end) (match ?b with _ => _ end) => destruct a, b end;
      exact H.
Qed.
End AgreeOps.

(** ** End results *)
Lemma stream_suffix size X (e : bufR X) s s' x : stream_h size X e s = Done s' x ->
  exists p, sdata s = p ++ sdata s'.
Proof.
  destruct e; cbn [stream_h]; intros H;
    repeat match type of H with
           | (if ?c then _ else _) = _ => destruct c
           | match ?c with _ => _ end = _ => destruct c eqn:?
           end; try discriminate; injection H as <- ?; cbn;
    first [now exists [] | now exists (sdata s); rewrite app_nil_r
          | now eexists (firstn _ _); symmetry; apply firstn_skipn
          | rewrite ?Heql; now eexists [_] | idtac].
Qed.

Lemma run_suffix size {A} (p : prog bufR A) : forall s s' x,
  run (stream_h size) p s = Done s' x -> exists p, sdata s = p ++ sdata s'.
Proof.
  induction p as [a|X e k IH|c]; intros s s' x H; cbn [run] in H.
  - injection H as <- _. now exists [].
  - destruct (stream_h size X e s) as [s1 y|c] eqn:E; [|discriminate].
    apply IH in H. apply stream_suffix in E. destruct E as [p ->], H as [q ->].
    exists (p ++ q). now rewrite app_assoc.
  - discriminate.
Qed.

Lemma run_counted_vis {E S X A} (h : handler E S) (e : E X) (k : X -> prog E A) s n :
  run (counted h) (Vis e k) (s, n)
  = match h X e s with
    | Done s' x => run (counted h) (k x) (s', Datatypes.S n)
    | Crashed c => Crashed c
    end.
Proof. cbn [run]. unfold counted at 1. cbn [fst snd]. destruct (h X e s); reflexivity. Qed.

(** Counting calls on the concrete and on the abstract reader. *)
Lemma counted_refines {S A} size (L : layer wireR bufR S) (p : prog wireR A) :
  0 < size -> (forall X (e : wireR X) s, full_ok (L X e s)) -> forall s b n, binv size b ->
  match run (counted (over L (bufio_h size))) p ((s, b), n),
        run (counted (over L (stream_h size))) p ((s, abs b), n) with
  | Done ((s1, b1), n1) x, Done ((s2, t), n2) x' => s1 = s2 /\ n1 = n2 /\ x = x' /\ abs b1 = t /\ binv size b1
  | Crashed c, Crashed c' => c = c'
  | _, _ => False
  end.
Proof.
  intros Hs HL. induction p as [a|X e k IH|c]; intros s b n Hb; [cbn; auto| |cbn; auto].
  rewrite !run_counted_vis.
  pose proof (layer_refines size L (call e) s b Hs Hb HL) as H. rewrite !run_call in H.
  unfold refines_l in H.
  destruct (over L (bufio_h size) X e (s, b)) as [[s1 b1] x1|c1],
           (over L (stream_h size) X e (s, abs b)) as [[s2 t] x2|c2]; try contradiction; auto.
  destruct H as (-> & -> & <- & Hb1). now apply IH.
Qed.

Lemma counted_data {S A} (L : layer wireR bufR S) size e (p : prog wireR A) : forall st d n,
  run (counted (over L (stream_h size))) p ((st, mkStream d (FErr e)), n)
  = match run (counted (data_h L size e)) p ((st, d), n) with
    | Done ((st', d'), n') a => Done ((st', mkStream d' (FErr e)), n') a
    | Crashed c => Crashed c
    end.
Proof.
  induction p as [a|X c k IH|c]; intros st d n; try reflexivity.
  rewrite !run_counted_vis. unfold over at 1, data_h at 1. cbn [fst snd].
  destruct (run (stream_h size) (L X c st) (mkStream d (FErr e))) as [[d' f] [st' x]|cr] eqn:E; [|reflexivity].
  apply run_fin in E. cbn in E. subst f. cbn [sdata fst snd]. apply IH.
Qed.

Lemma counted_suffix {S A} (L : layer wireR bufR S) size (p : prog wireR A) st s n s' st' n' a :
  run (counted (over L (stream_h size))) p ((st, s), n) = Done ((st', s'), n') a ->
  exists p, sdata s = p ++ sdata s'.
Proof.
  intros H. pose proof (counted_run (over L (stream_h size)) p (st, s) n) as E. rewrite H in E.
  rewrite run_over in E. destruct (run (stream_h size) (interp L p st) s) as [s1 [st1 a1]|c] eqn:E1;
    cbn in E; [|discriminate]. injection E as -> -> ->. now apply run_suffix in E1.
Qed.

Section Final.
Variable size : Z.
Hypothesis Hsize : 10 <= size.

Section Generic.
Context {S : Type} (L : layer wireR bufR S) (mu : S * list byte -> nat).
Hypothesis HL : forall X (e : wireR X) s, full_ok (L X e s).
Hypothesis Htot : forall e X (c : wireR X) s, exists s' x,
  data_h L size e X c s = Done s' x /\ (mu s' <= mu s)%nat /\
  (errR c x = None -> consumes c = true -> (mu s' < mu s)%nat).
Hypothesis Hext : forall e r X (c : wireR X) s s' x,
  data_h L size e X c s = Done s' x -> errR c x = None ->
  data_h L size e X c (fst s, snd s ++ r) = Done (fst s', snd s' ++ r) x.
Hypothesis Hagree : forall fuel t s,
  agree (run (over L (stream_h size)) (read_val fuel t) s) (run (over L (stream_h size)) (skip fuel t) s).

Lemma gen_method X (c : wireR X) st b d e : binv size b -> abs b = mkStream d (FErr e) ->
  exists st' b' x p d', over L (bufio_h size) X c (st, b) = Done (st', b') x /\ binv size b' /\
    d = p ++ d' /\ abs b' = mkStream d' (FErr e).
Proof using Hsize HL Htot. clear Hext Hagree.
  intros Hb Ha. pose proof (layer_refines size L (call c) st b ltac:(lia) Hb HL) as H.
  rewrite !run_call, Ha in H. destruct (Htot e X c (st, d)) as ([st' d'] & x & E & _).
  unfold data_h in E. cbn [fst snd] in E. unfold over at 2 in H. cbn [fst snd] in H.
  destruct (run (stream_h size) (L X c st) (mkStream d (FErr e))) as [s1 [st1 x1]|] eqn:E1; [|discriminate].
  injection E as -> <- ->.
  unfold refines_l in H. destruct (over L (bufio_h size) X c (st, b)) as [[st2 b2] x2|]; [|contradiction].
  destruct H as (-> & -> & H1 & H2). pose proof (run_fin _ _ _ _ _ E1) as Hf.
  apply run_suffix in E1. destruct E1 as [p Hp]. cbn in Hp, Hf.
  exists st', b2, x, p, (sdata s1). conj; auto. destruct s1; cbn in *; congruence.
Qed.

Lemma gen_skip_total fuel t st b d e : binv size b -> abs b = mkStream d (FErr e) ->
  (mu (st, d) < fuel)%nat ->
  exists st' b' n r p d',
    run (counted (over L (bufio_h size))) (skip fuel t) ((st, b), O) = Done ((st', b'), n) r /\
    binv size b' /\ d = p ++ d' /\ abs b' = mkStream d' (FErr e) /\
    (n + 3 * mu (st', d') <= 3 * mu (st, d) + 3)%nat.
Proof using Hsize HL Htot. clear Hext Hagree.
  intros Hb Ha Hf.
  destruct (skip_total (data_h L size e) mu (Htot e) fuel t (st, d) O Hf)
    as ([st' d'] & n & r & E & H1 & H2 & H3).
  pose proof (counted_data L size e (skip fuel t) st d O) as E2. rewrite E in E2.
  pose proof (counted_suffix _ _ _ _ _ _ _ _ _ _ E2) as [p Hp].
  pose proof (counted_refines size L (skip fuel t) ltac:(lia) HL st b O Hb) as H.
  rewrite Ha, E2 in H.
  destruct (run (counted (over L (bufio_h size))) (skip fuel t) ((st, b), O)) as [[[s1 b1] n1] x|]; [|contradiction].
  destruct H as (-> & -> & -> & H4 & H5).
  exists st', b1, n, r, p, d'. conj; auto; lia.
Qed.

Lemma gen_skip_fuel fuel fuel' t st b d e : binv size b -> abs b = mkStream d (FErr e) ->
  (mu (st, d) < fuel)%nat -> (mu (st, d) < fuel')%nat ->
  run (over L (bufio_h size)) (skip fuel t) (st, b) = run (over L (bufio_h size)) (skip fuel' t) (st, b).
Proof using Hsize HL Htot. clear Hext Hagree.
  assert (W : forall f g, (f <= g)%nat -> binv size b -> abs b = mkStream d (FErr e) -> (mu (st, d) < f)%nat ->
    run (over L (bufio_h size)) (skip f t) (st, b) = run (over L (bufio_h size)) (skip g t) (st, b)).
  { intros f g Hfg Hb Ha Hf. destruct (gen_skip_total f t st b d e Hb Ha Hf) as (st' & b' & n & r & p & d' & E & _).
    pose proof (counted_run (over L (bufio_h size)) (skip f t) (st, b) O) as E2. rewrite E in E2.
    rewrite E2. symmetry. eapply below_done; [apply (skip_more f g); exact Hfg|exact E2]. }
  intros Hb Ha H1 H2. destruct (Nat.le_gt_cases fuel fuel'); [now apply W|]. symmetry. apply W; auto; lia.
Qed.

Lemma gen_skip_agrees fuel t st b : binv size b ->
  match run (over L (bufio_h size)) (read_val fuel t) (st, b),
        run (over L (bufio_h size)) (skip fuel t) (st, b) with
  | Done (st1, b1) (inl _), Done (st2, b2) None => st1 = st2 /\ abs b1 = abs b2
  | Done _ (inr _), Done _ (Some _) => True
  | Crashed c, Crashed c' => c = c'
  | _, _ => False
  end.
Proof using Hsize HL Hagree. clear Htot Hext.
  intros Hb.
  pose proof (layer_refines size L (read_val fuel t) st b ltac:(lia) Hb HL) as H1.
  pose proof (layer_refines size L (skip fuel t) st b ltac:(lia) Hb HL) as H2.
  pose proof (Hagree fuel t (st, abs b)) as H3. unfold refines_l, agree in *.
  destruct (run (over L (bufio_h size)) (read_val fuel t) (st, b)) as [[s1 b1] x1|c1],
    (run (over L (stream_h size)) (read_val fuel t) (st, abs b)) as [[s2 t2] x2|c2]; try contradiction;
  destruct (run (over L (bufio_h size)) (skip fuel t) (st, b)) as [[s3 b3] x3|c3],
    (run (over L (stream_h size)) (skip fuel t) (st, abs b)) as [[s4 t4] x4|c4]; try contradiction;
  repeat match goal with H : _ /\ _ |- _ => destruct H end; subst;
  try (destruct x2, x4; try contradiction); auto.
  split; [exact (f_equal fst H3)|exact (f_equal snd H3)].
Qed.

(** Truncation: [p] is cut short of an input [p ++ q] on which [skip] succeeds
    consuming everything. *)
Lemma gen_truncated_skip fuel fuel' t st st' b p q e e' : binv size b -> abs b = mkStream p (FErr e) ->
  q <> [] ->
  run (over L (stream_h size)) (skip fuel' t) (st, mkStream (p ++ q) (FErr e)) = Done (st', mkStream [] (FErr e')) None ->
  (mu (st, p) < fuel)%nat ->
  exists st' b' er, run (over L (bufio_h size)) (skip fuel t) (st, b) = Done (st', b') (Some er).
Proof using Hsize HL Htot Hext. clear Hagree.
  intros Hb Ha Hq Hfull Hf.
  destruct (gen_skip_total fuel t st b p e Hb Ha Hf) as (st1 & b1 & n & r & p1 & d1 & E & _).
  pose proof (counted_run (over L (bufio_h size)) (skip fuel t) (st, b) O) as E2. rewrite E in E2.
  destruct r as [er|]; [eauto|exfalso].
  pose proof (layer_refines size L (skip fuel t) st b ltac:(lia) Hb HL) as H1. rewrite E2, Ha in H1.
  rewrite data_run in H1. unfold refines_l in H1.
  destruct (run (data_h L size e) (skip fuel t) (st, p)) as [[s2 d2] x|] eqn:E3; [|contradiction].
  destruct H1 as (_ & <- & _).
  apply (extend _ (fun s => (fst s, snd s ++ q)) (Hext e q) okE _ (careful_skip _ _)) in E3; [|reflexivity].
  cbn [fst snd] in E3.
  pose proof (data_run L size e (skip fuel t) st (p ++ q)) as E4. rewrite E3 in E4.
  apply (below_done _ _ (skip (Nat.max fuel fuel') t)) in E4; [|apply skip_more; lia].
  apply (below_done _ _ (skip (Nat.max fuel fuel') t)) in Hfull; [|apply skip_more; lia].
  rewrite Hfull in E4. injection E4 as _ H _. symmetry in H. apply app_eq_nil in H. tauto.
Qed.

Lemma gen_truncated_read fuel fuel' t st st' b p q e e' : binv size b -> abs b = mkStream p (FErr e) ->
  q <> [] ->
  run (over L (stream_h size)) (skip fuel' t) (st, mkStream (p ++ q) (FErr e)) = Done (st', mkStream [] (FErr e')) None ->
  (mu (st, p) < fuel)%nat ->
  exists st' b' er, run (over L (bufio_h size)) (read_val fuel t) (st, b) = Done (st', b') (inr er).
Proof using Hsize HL Htot Hext Hagree.
  intros Hb Ha Hq Hfull Hf.
  destruct (gen_truncated_skip _ _ _ _ _ _ _ _ _ _ Hb Ha Hq Hfull Hf) as (st1 & b1 & er & E).
  pose proof (gen_skip_agrees fuel t st b Hb) as H. rewrite E in H.
  destruct (run (over L (bufio_h size)) (read_val fuel t) (st, b)) as [[s2 b2] [v|er2]|]; try contradiction.
  eauto.
Qed.
End Generic.
End Final.

(** ** Binary *)
Section BinFinal.
Variables (size : Z) (strict : bool).
Hypothesis Hsize : 10 <= size.
Notation bh := (over (bin_reader strict) (bufio_h size)).

Definition bin_mu (s : unit * list byte) : nat := length (snd s).

Lemma bin_method_total X (c : wireR X) b d e : binv size b -> abs b = mkStream d (FErr e) ->
  exists b' x p d', bh X c (tt, b) = Done (tt, b') x /\ binv size b' /\
    d = p ++ d' /\ abs b' = mkStream d' (FErr e).
Proof.
  intros Hb Ha. destruct (gen_method size Hsize (bin_reader strict) bin_mu (bin_reader_fok strict)
    (fun e => bin_tot size strict e Hsize) X c tt b d e Hb Ha) as ([] & H). exact H.
Qed.

Lemma bin_skip_total fuel t b d e : binv size b -> abs b = mkStream d (FErr e) -> (length d < fuel)%nat ->
  exists b' n r p d', run (counted bh) (skip fuel t) ((tt, b), O) = Done ((tt, b'), n) r /\
    binv size b' /\ d = p ++ d' /\ abs b' = mkStream d' (FErr e) /\ (n <= 3 * length p + 3)%nat.
Proof.
  intros Hb Ha Hf. destruct (gen_skip_total size Hsize (bin_reader strict) bin_mu (bin_reader_fok strict)
    (fun e => bin_tot size strict e Hsize) fuel t tt b d e Hb Ha Hf) as ([] & b' & n & r & p & d' & H1 & H2 & H3 & H4 & H5).
  exists b', n, r, p, d'. conj; auto. unfold bin_mu in H5. cbn [snd] in H5. subst d. rewrite app_length in H5. lia.
Qed.

Lemma bin_skip_fuel fuel fuel' t b d e : binv size b -> abs b = mkStream d (FErr e) ->
  (length d < fuel)%nat -> (length d < fuel')%nat ->
  run bh (skip fuel t) (tt, b) = run bh (skip fuel' t) (tt, b).
Proof.
  intros Hb Ha H1 H2. exact (gen_skip_fuel size Hsize (bin_reader strict) bin_mu (bin_reader_fok strict)
    (fun e => bin_tot size strict e Hsize) fuel fuel' t tt b d e Hb Ha H1 H2).
Qed.

Lemma bin_skip_read_agree fuel t u b : binv size b ->
  match run bh (read_val fuel t) (u, b), run bh (skip fuel t) (u, b) with
  | Done (_, b1) (inl _), Done (_, b2) None => abs b1 = abs b2
  | Done _ (inr _), Done _ (Some _) => True
  | Crashed c, Crashed c' => c = c'
  | _, _ => False
  end.
Proof.
  intros Hb. pose proof (gen_skip_agrees size Hsize (bin_reader strict) (bin_reader_fok strict)
    (bin_skip_agrees size Hsize strict) fuel t u b Hb) as H.
  destruct (run bh (read_val fuel t) (u, b)) as [[s1 b1] [v|er]|c1],
    (run bh (skip fuel t) (u, b)) as [[s2 b2] [er2|]|c2]; tauto.
Qed.

Lemma bin_truncated fuel v b p q e : binv size b -> wf (2 ^ 31) v ->
  binary_encoding v = p ++ q -> q <> [] -> abs b = mkStream p (FErr e) -> (length p < fuel)%nat ->
  (exists b' er, run bh (skip fuel (val_type v)) (tt, b) = Done (tt, b') (Some er)) /\
  (exists b' er, run bh (read_val fuel (val_type v)) (tt, b) = Done (tt, b') (inr er)).
Proof.
  intros Hb Hwf He Hq Ha Hf.
  assert (Hfull : run (over (bin_reader strict) (stream_h size)) (skip (vsize v) (val_type v))
    (tt, mkStream (p ++ q) (FErr e)) = Done (tt, mkStream [] (FErr e)) None).
  { rewrite <- He. rewrite <- (app_nil_r (binary_encoding v)).
    apply skip_reads; [lia|]. apply bin_reads; auto; lia. }
  split.
  - destruct (gen_truncated_skip size Hsize (bin_reader strict) bin_mu (bin_reader_fok strict)
      (fun e => bin_tot size strict e Hsize) (fun e => bin_ext size strict e Hsize)
      fuel (vsize v) (val_type v) tt tt b p q e e Hb Ha Hq Hfull Hf) as ([] & H). exact H.
  - destruct (gen_truncated_read size Hsize (bin_reader strict) bin_mu (bin_reader_fok strict)
      (fun e => bin_tot size strict e Hsize) (fun e => bin_ext size strict e Hsize)
      (bin_skip_agrees size Hsize strict)
      fuel (vsize v) (val_type v) tt tt b p q e e Hb Ha Hq Hfull Hf) as ([] & H). exact H.
Qed.
End BinFinal.

(** ** Compact *)
Section CmpFinal.
Variable size : Z.
Hypothesis Hsize : 10 <= size.
Notation bh := (over cmp_reader (bufio_h size)).
Let HL : forall X (e : wireR X) s, full_ok (cmp_reader X e s) :=
  fun X e s => cmp_reader_fok _ X e s tw_read_uvarint_fok.

Lemma cmp_mu_le st d : (cmp_mu (st, d) <= 2 * length d + 1)%nat.
Proof. unfold cmp_mu, pending. cbn [fst snd]. destruct (cr_bool st); lia. Qed.

Lemma cmp_method_total X (c : wireR X) st b d e : binv size b -> abs b = mkStream d (FErr e) ->
  exists st' b' x p d', bh X c (st, b) = Done (st', b') x /\ binv size b' /\
    d = p ++ d' /\ abs b' = mkStream d' (FErr e).
Proof. exact (gen_method size Hsize cmp_reader cmp_mu HL (fun e => cmp_tot size e Hsize) X c st b d e). Qed.

Lemma cmp_skip_total fuel t st b d e : binv size b -> abs b = mkStream d (FErr e) ->
  (2 * length d + 1 < fuel)%nat ->
  exists st' b' n r p d', run (counted bh) (skip fuel t) ((st, b), O) = Done ((st', b'), n) r /\
    binv size b' /\ d = p ++ d' /\ abs b' = mkStream d' (FErr e) /\ (n <= 6 * length p + 6)%nat.
Proof.
  intros Hb Ha Hf. pose proof (cmp_mu_le st d) as Hm.
  destruct (gen_skip_total size Hsize cmp_reader cmp_mu HL (fun e => cmp_tot size e Hsize)
    fuel t st b d e Hb Ha ltac:(lia)) as (st' & b' & n & r & p & d' & H1 & H2 & H3 & H4 & H5).
  exists st', b', n, r, p, d'. conj; auto. subst d. rewrite app_length in *. unfold cmp_mu in H5, Hm. cbn [fst snd] in H5, Hm.
  assert (pending st <= 1)%nat by (unfold pending; destruct (cr_bool st); lia). rewrite app_length in H5. lia.
Qed.

Lemma cmp_skip_fuel fuel fuel' t st b d e : binv size b -> abs b = mkStream d (FErr e) ->
  (2 * length d + 1 < fuel)%nat -> (2 * length d + 1 < fuel')%nat ->
  run bh (skip fuel t) (st, b) = run bh (skip fuel' t) (st, b).
Proof.
  intros Hb Ha H1 H2. pose proof (cmp_mu_le st d) as Hm.
  exact (gen_skip_fuel size Hsize cmp_reader cmp_mu HL
    (fun e => cmp_tot size e Hsize) fuel fuel' t st b d e Hb Ha ltac:(lia) ltac:(lia)).
Qed.

Lemma cmp_skip_read_agree fuel t u b : binv size b ->
  match run bh (read_val fuel t) (u, b), run bh (skip fuel t) (u, b) with
  | Done (st1, b1) (inl _), Done (st2, b2) None => st1 = st2 /\ abs b1 = abs b2
  | Done _ (inr _), Done _ (Some _) => True
  | Crashed c, Crashed c' => c = c'
  | _, _ => False
  end.
Proof. exact (gen_skip_agrees size Hsize cmp_reader HL (cmp_skip_agrees size Hsize) fuel t u b). Qed.

Lemma cmp_truncated fuel v l b p q e st : binv size b -> wf (2 ^ 63) v -> compact_enc wrap_field v l ->
  l = p ++ q -> q <> [] -> abs b = mkStream p (FErr e) -> cr_bool st = BNone ->
  (2 * length p + 1 < fuel)%nat ->
  (exists st' b' er, run bh (skip fuel (val_type v)) (st, b) = Done (st', b') (Some er)) /\
  (exists st' b' er, run bh (read_val fuel (val_type v)) (st, b) = Done (st', b') (inr er)).
Proof.
  intros Hb Hwf He Hl Hq Ha Hst Hf. pose proof (cmp_mu_le st p) as Hm.
  assert (Hfull : run (over cmp_reader (stream_h size)) (skip (vsize v) (val_type v))
    (st, mkStream (p ++ q) (FErr e)) = Done (st, mkStream [] (FErr e)) None).
  { rewrite <- Hl. rewrite <- (app_nil_r l). rewrite <- canon_val_type, <- (canon_vsize v).
    apply skip_reads; [lia|]. apply cmp_reads_canon; auto. }
  split.
  - exact (gen_truncated_skip size Hsize cmp_reader cmp_mu HL
      (fun e => cmp_tot size e Hsize) (fun e => cmp_ext size e Hsize)
      fuel (vsize v) (val_type v) st st b p q e e Hb Ha Hq Hfull ltac:(lia)).
  - exact (gen_truncated_read size Hsize cmp_reader cmp_mu HL
      (fun e => cmp_tot size e Hsize) (fun e => cmp_ext size e Hsize) (cmp_skip_agrees size Hsize)
      fuel (vsize v) (val_type v) st st b p q e e Hb Ha Hq Hfull ltac:(lia)).
Qed.
End CmpFinal.

(** ** Depth *)
Fixpoint nest (n : nat) : tval := match n with O => VList T_List [] | S m => VList T_List [nest m] end.

Lemma nest_type n : val_type (nest n) = T_List.
Proof. destruct n; reflexivity. Qed.
Lemma nest_wf n : wf (2 ^ 31) (nest n).
Proof.
  assert (In T_List value_types) as Hin by (cbn; tauto).
  induction n as [|n IH]; cbn [nest wf]; (split; [unfold zlen; cbn; lia|split; [exact Hin|]]); auto.
  split; [|exact I]. split; [apply nest_type|exact IH].
Qed.
Lemma nest_vsize n : vsize (nest n) = S n.
Proof.
  induction n as [|n IH]; [reflexivity|]. cbn [nest vsize map]. rewrite IH. unfold list_max. cbn. lia.
Qed.

(** With a recursion budget smaller than its depth a nest cannot be skipped. *)
Lemma nest_deep {St} (h : handler wireR St) n : forall s s',
  reads h (nest n) s s' -> run h (skip n T_List) s = Crashed OutOfFuel.
Proof.
  induction n as [|n IH]; intros s s' H; cbn [skip]; [reflexivity|].
  cbn [nest reads] in H. destruct H as (s1 & E & _ & s2 & Hr & _).
  change (kind_of T_List) with (Some KList). cbv iota. rewrite run_vis, E. cbn [obind set_size set_elem zlen].
  unfold skip_loop. change (zlen [nest n]) with 1. rewrite run_bind. cbn [loop_Z loop_pos].
  unfold skip_elem. rewrite run_bind, (IH _ _ Hr). reflexivity.
Qed.

Lemma skip_depth size strict e n : 10 <= size ->
  exists src, good_source src /\ src_fin src = FErr e /\
    run (over (bin_reader strict) (bufio_h size)) (skip n T_List) (tt, new_breader src) = Crashed OutOfFuel /\
    exists b', run (over (bin_reader strict) (bufio_h size)) (skip (S n) T_List) (tt, new_breader src)
                 = Done (tt, b') None /\ abs b' = mkStream [] (FErr e).
Proof.
  intros Hs.
  set (src := mkSource [(binary_encoding (nest n), None)] (FErr e)).
  assert (Hg : good_source src) by (split; [exact I|unfold src; cbn [script few_empty]; destruct (binary_encoding _); exact I]).
  exists src. conj; auto.
  - pose proof (layer_refines size (bin_reader strict) (skip n T_List) tt (new_breader src) ltac:(lia)
      (binv_new size src ltac:(lia) Hg) (bin_reader_fok strict)) as H.
    rewrite abs_new in H. cbn [src src_bytes src_fin] in H.
    change (src_bytes src) with (binary_encoding (nest n) ++ []) in H.
    unfold refines_l in H.
    rewrite (nest_deep _ n _ _ (bin_reads strict size ltac:(lia) (nest n) [] (FErr e) (nest_wf n))) in H.
    destruct (run _ _ (tt, new_breader src)) as [[? ?] ?|c]; [contradiction|now subst].
  - destruct (bin_skip_back strict size (new_breader src) (nest n) [] (S n)) as (b' & E & _ & Ha); try lia.
    + apply binv_new; [lia|exact Hg].
    + apply nest_wf.
    + rewrite nest_vsize. lia.
    + rewrite abs_new. reflexivity.
    + rewrite nest_type in E. exists b'. split; [exact E|]. exact Ha.
Qed.

(** ** Counts *)
Lemma skip_neg_list {St} (h : handler wireR St) f s s1 hd :
  h _ RListBegin s = Done s1 (hd, None) -> set_size hd <= 0 ->
  run h (skip (S f) T_List) s = h _ RListEnd s1.
Proof.
  intros E Hn. cbn [skip]. change (kind_of T_List) with (Some KList). cbv iota. rewrite run_vis, E. cbn [obind].
  unfold skip_loop. rewrite run_bind. replace (loop_Z _ _ _) with (Ret (E := wireR) (@inl unit (option err) tt))
    by (destruct (set_size hd); [reflexivity|lia|reflexivity]).
  cbn [run obind]. apply run_call.
Qed.
Lemma skip_neg_set {St} (h : handler wireR St) f s s1 hd :
  h _ RSetBegin s = Done s1 (hd, None) -> set_size hd <= 0 ->
  run h (skip (S f) T_Set) s = h _ RSetEnd s1.
Proof.
  intros E Hn. cbn [skip]. change (kind_of T_Set) with (Some KSet). cbv iota. rewrite run_vis, E. cbn [obind].
  unfold skip_loop. rewrite run_bind. replace (loop_Z _ _ _) with (Ret (E := wireR) (@inl unit (option err) tt))
    by (destruct (set_size hd); [reflexivity|lia|reflexivity]).
  cbn [run obind]. apply run_call.
Qed.
Lemma skip_neg_map {St} (h : handler wireR St) f s s1 hd :
  h _ RMapBegin s = Done s1 (hd, None) -> map_size hd <= 0 ->
  run h (skip (S f) T_Map) s = h _ RMapEnd s1.
Proof.
  intros E Hn. cbn [skip]. change (kind_of T_Map) with (Some KMap). cbv iota. rewrite run_vis, E. cbn [obind].
  unfold skip_loop. rewrite run_bind. replace (loop_Z _ _ _) with (Ret (E := wireR) (@inl unit (option err) tt))
    by (destruct (map_size hd); [reflexivity|lia|reflexivity]).
  cbn [run obind]. apply run_call.
Qed.
