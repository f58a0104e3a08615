(** The buffered reader over any well-behaved transport refines the abstract
    byte stream, whatever the chunking. *)
From Verif Require Import Base BaseLemmas Prog Bufio.

Section Refine.
Variable size : Z.
Hypothesis size_pos : 0 < size.

Definition binv (b : breader) : Prop :=
  good_source (bsrc b) /\ zlen (bbuf b) <= size /\
  (forall e, berr b = Some e -> script (bsrc b) = [] /\ src_fin (bsrc b) = FErr e).

Lemma few_mono k j sc : (k <= j)%nat -> (j <= 99)%nat -> few_empty k sc -> few_empty j sc.
Proof.
  revert k j; induction sc as [|[[|c cs] [e|]] r IH]; cbn [few_empty]; intros k j Hk Hj H; auto.
  destruct k as [|k]; [contradiction|]. destruct j as [|j]; [lia|].
  apply (IH k j); auto; lia.
Qed.

Lemma src_read_spec n s k :
  0 < n -> persistent (script s) (src_fin s) -> few_empty k (script s) -> (k <= 99)%nat ->
  match src_read n s with
  | Done s' (c, None) =>
      src_bytes s = c ++ src_bytes s' /\ src_fin s' = src_fin s /\ zlen c <= n /\
      persistent (script s') (src_fin s') /\
      (c <> [] \/ length (script s') < length (script s))%nat /\
      (length (script s') <= length (script s))%nat /\
      match c with
      | [] => exists k', k = S k' /\ few_empty k' (script s')
      | _ => few_empty 99 (script s')
      end
  | Done s' (c, Some e) =>
      src_bytes s = c /\ src_fin s' = src_fin s /\ zlen c <= n /\
      script s' = [] /\ src_fin s' = FErr e
  | Crashed c => c = Blocked /\ script s = [] /\ src_fin s = FSilent
  end.
Proof.
  intros Hn Hp Hf Hk. destruct s as [sc f]; unfold src_read; cbn [script src_fin] in *.
  destruct sc as [|[c eo] r]; cbn.
  - destruct f; cbn; auto. conj; auto; cbn; lia.
  - destruct (Z.leb_spec (zlen c) n) as [Hle|Hgt]; cbn.
    + destruct eo as [e|]; cbn in *.
      * destruct Hp as [-> ->]. unfold src_bytes; cbn. rewrite app_nil_r. auto.
      * unfold src_bytes; cbn. wrapup.
        destruct c; [|exact Hf]. destruct k as [|k']; [contradiction|]. eauto.
    + unfold src_bytes; cbn. rewrite app_assoc, firstn_skipn.
      assert (Hc : firstn (Z.to_nat n) c <> []).
      { destruct c; [rewrite zlen_nil in Hgt; lia|].
        destruct (Z.to_nat n) eqn:E; [lia|]. cbn. discriminate. }
      assert (Hs : skipn (Z.to_nat n) c <> []).
      { intros E. apply (f_equal (@length _)) in E. rewrite skipn_length in E.
        unfold zlen in Hgt. cbn in E. lia. }
      wrapup.
      * unfold zlen. rewrite firstn_length. lia.
      * destruct (firstn (Z.to_nat n) c); [contradiction|].
        destruct (skipn (Z.to_nat n) c); [contradiction|].
        destruct c; [rewrite zlen_nil in Hgt; lia|]. destruct eo; exact Hf.
Qed.

Lemma src_bytes_nil s : script s = [] -> src_bytes s = [].
Proof. unfold src_bytes; intros ->; reflexivity. Qed.

Lemma fill_loop_spec i k b :
  binv b -> berr b = None -> zlen (bbuf b) < size ->
  few_empty k (script (bsrc b)) -> (k < i)%nat -> (k <= 99)%nat ->
  match fill_loop size i b with
  | Done b' _ => binv b' /\ abs b' = abs b /\
                 zlen (bbuf b) <= zlen (bbuf b') /\
                 (zlen (bbuf b) < zlen (bbuf b') \/ exists e, berr b' = Some e)
  | Crashed c => c = Blocked /\ src_bytes (bsrc b) = [] /\ src_fin (bsrc b) = FSilent
  end.
Proof.
  revert k b; induction i as [|i IH]; intros k b (Hg & Hl & He) Hn Hs Hf Hi Hk; [lia|].
  cbn [fill_loop].
  pose proof (src_read_spec (size - zlen (bbuf b)) (bsrc b) k ltac:(lia) (proj1 Hg) Hf Hk) as H.
  destruct (src_read _ _) as [s' [c [e|]] | c].
  - destruct H as (H1 & H2 & H3 & H4 & H5).
    pose proof (zlen_nonneg c) as Hc.
    assert (Hr : zlen (bbuf b) <= zlen (bbuf b ++ c) <= size) by (rewrite zlen_app; lia).
    unfold binv, good_source, abs; cbn [bbuf berr bsrc].
    rewrite (src_bytes_nil s'), H4, H2, H1, app_nil_r by auto. cbn [persistent few_empty].
    wrapup; try tauto.
    right; eauto.
  - destruct H as (H1 & H2 & H3 & H4 & H5 & H5' & H6). destruct c as [|c0 c].
    + destruct H6 as (k' & -> & H6).
      specialize (IH k' (mkB (bbuf b) (berr b) s')).
      cbn [bbuf berr bsrc] in IH.
      assert (Hb : binv (mkB (bbuf b) (berr b) s')).
      { unfold binv, good_source; cbn [bbuf berr bsrc]. wrapup.
        eapply few_mono; [| |exact H6]; lia. }
      specialize (IH Hb Hn Hs H6 ltac:(lia) ltac:(lia)).
      destruct (fill_loop size i _) as [b' []|c].
      * destruct IH as (I1 & I2 & I3 & I4). wrapup.
        rewrite I2. unfold abs; cbn [bbuf berr bsrc]. rewrite H1, H2. reflexivity.
      * destruct IH as (-> & I2 & I3). conj; auto; [|congruence].
        rewrite H1, I2. reflexivity.
    + assert (Hr : zlen (bbuf b) < zlen (bbuf b ++ c0 :: c) <= size).
      { rewrite zlen_app. rewrite zlen_cons in *. pose proof (zlen_nonneg c). lia. }
      unfold binv, good_source, abs; cbn [bbuf berr bsrc].
      rewrite H1, H2, <- app_assoc. rewrite H2 in H4.
      wrapup.
  - destruct H as (-> & H & H'). rewrite src_bytes_nil; auto.
Qed.

Lemma fill_spec b :
  binv b -> berr b = None -> zlen (bbuf b) < size ->
  match fill size b with
  | Done b' _ => binv b' /\ abs b' = abs b /\
                 zlen (bbuf b) <= zlen (bbuf b') /\
                 (zlen (bbuf b) < zlen (bbuf b') \/ exists e, berr b' = Some e)
  | Crashed c => c = Blocked /\ src_bytes (bsrc b) = [] /\ src_fin (bsrc b) = FSilent
  end.
Proof.
  intros H H1 H2. unfold fill. destruct (Z.leb_spec size (zlen (bbuf b))); [lia|].
  apply (fill_loop_spec _ 99); auto; try apply H; unfold maxEmpty; lia.
Qed.

(** With a pending error the buffer holds everything that is left. *)
Lemma binv_err b e : binv b -> berr b = Some e ->
  sdata (abs b) = bbuf b /\ sfin (abs b) = FErr e.
Proof.
  intros (Hg & Hl & He) H. destruct (He e H) as [H1 H2].
  unfold abs; cbn [sdata sfin]. rewrite src_bytes_nil, app_nil_r; auto.
Qed.

Lemma binv_clear b : binv b -> binv (clear_err b) /\ abs (clear_err b) = abs b.
Proof.
  intros (Hg & Hl & He). unfold binv, clear_err, abs; cbn [bbuf berr bsrc].
  wrapup.
Qed.

Lemma binv_take b n :
  binv b -> 0 <= n <= zlen (bbuf b) ->
  let b' := mkB (skipn (Z.to_nat n) (bbuf b)) (berr b) (bsrc b) in
  binv b' /\ abs b' = mkStream (skipn (Z.to_nat n) (sdata (abs b))) (sfin (abs b)).
Proof.
  intros (Hg & Hl & He) Hn b'. unfold binv, b', abs; cbn [bbuf berr bsrc sdata sfin].
  wrapup.
  - rewrite zlen_skipn; lia.
  - rewrite skipn_app. replace (Z.to_nat n - length (bbuf b))%nat with 0%nat
      by (unfold zlen in *; lia). reflexivity.
Qed.

Lemma abs_len b : zlen (bbuf b) <= zlen (sdata (abs b)).
Proof. unfold abs; cbn [sdata]. rewrite zlen_app. pose proof (zlen_nonneg (src_bytes (bsrc b))). lia. Qed.

Lemma abs_firstn b n : 0 <= n <= zlen (bbuf b) ->
  firstn (Z.to_nat n) (sdata (abs b)) = firstn (Z.to_nat n) (bbuf b).
Proof.
  intros H. unfold abs; cbn [sdata]. rewrite firstn_app.
  replace (Z.to_nat n - length (bbuf b))%nat with 0%nat by (unfold zlen in *; lia).
  apply app_nil_r.
Qed.

Lemma peek_fill_spec n fuel b :
  binv b -> size - zlen (bbuf b) <= Z.of_nat fuel ->
  match peek_fill size fuel n b with
  | Done b' _ => binv b' /\ abs b' = abs b /\
                 (n <= zlen (bbuf b') \/ size <= zlen (bbuf b') \/ exists e, berr b' = Some e)
  | Crashed c => c = Blocked /\ sfin (abs b) = FSilent /\
                 zlen (sdata (abs b)) < n /\ zlen (sdata (abs b)) < size
  end.
Proof.
  revert b; induction fuel as [|f IH]; intros b Hb Hf; cbn [peek_fill].
  all: destruct (Z.ltb_spec (zlen (bbuf b)) n) as [H1|H1]; cbn [andb]; [|auto].
  all: destruct (Z.ltb_spec (zlen (bbuf b)) size) as [H2|H2]; cbn [andb]; [|auto].
  all: destruct (berr b) as [e|] eqn:He; cbn [is_none]; [eauto 7|].
  - lia.
  - pose proof (fill_spec b Hb He H2) as HF. destruct (fill size b) as [b' []|c]; cbn [obind].
    + destruct HF as (F1 & F2 & F3 & F4). destruct F4 as [F4|[e He']].
      * specialize (IH b' F1 ltac:(lia)). rewrite F2 in IH. exact IH.
      * replace (peek_fill size f n b') with (@Done breader unit b' tt); [eauto 7|].
        destruct f; cbn [peek_fill]; rewrite He'; cbn [is_none];
          rewrite andb_false_r; reflexivity.
    + destruct HF as (-> & F1 & F2). unfold abs; cbn [sdata sfin].
      rewrite F1, app_nil_r. auto.
Qed.

(** [refines o o']: same result; the new states correspond. *)
Definition refines {X} (o : outcome breader X) (o' : outcome stream X) : Prop :=
  match o, o' with
  | Done b x, Done s x' => x = x' /\ abs b = s /\ binv b
  | Crashed c, Crashed c' => c = c'
  | _, _ => False
  end.

Lemma zlen_to_nat_all (l : list byte) n : zlen l <= n -> firstn (Z.to_nat n) l = l.
Proof. intros H. apply firstn_all2. unfold zlen in H. lia. Qed.

Lemma peek_refines n b : binv b -> refines (peek size n b) (stream_h size _ (BPeek n) (abs b)).
Proof.
  intros Hb. unfold peek, stream_h, refines. destruct (Z.ltb_spec n 0) as [Hn|Hn]; [auto|].
  pose proof (peek_fill_spec n (Z.to_nat size) b Hb) as H.
  pose proof (zlen_nonneg (bbuf b)).
  specialize (H ltac:(lia)).
  destruct (peek_fill size (Z.to_nat size) n b) as [b' []|c]; cbn [obind].
  - destruct H as (H1 & H2 & H3). rewrite <- H2. clear H2.
    pose proof (abs_len b') as Hal. pose proof H1 as (_ & Hcap & _).
    destruct (Z.ltb_spec size n) as [Hsn|Hsn].
    + rewrite Z.min_r by lia.
      destruct (Z.leb_spec size (zlen (sdata (abs b')))) as [Hx|Hx].
      * destruct H3 as [H3|[H3|[e He]]]; [lia| |].
        -- wrapup. f_equal.
           assert (zlen (bbuf b') = size) as E by lia.
           rewrite abs_firstn by lia. rewrite zlen_to_nat_all; auto; lia.
        -- destruct (binv_err b' e H1 He) as [E1 E2]. rewrite E1 in *.
           wrapup. f_equal. rewrite zlen_to_nat_all; auto.
      * destruct H3 as [H3|[H3|[e He]]]; [lia|lia|].
        destruct (binv_err b' e H1 He) as [E1 E2]. rewrite E1, E2 in *.
        wrapup.
    + rewrite Z.min_l by lia.
      destruct (Z.ltb_spec (zlen (bbuf b')) n) as [Hx|Hx].
      * destruct H3 as [H3|[H3|[e He]]]; [lia|lia|].
        destruct (binv_err b' e H1 He) as [E1 E2]. rewrite E1, E2, He in *.
        destruct (Z.leb_spec n (zlen (bbuf b'))); [lia|].
        destruct (binv_clear b' H1). auto.
      * destruct (Z.leb_spec n (zlen (sdata (abs b')))); [|lia].
        rewrite abs_firstn by lia. auto.
  - destruct H as (-> & H1 & H2 & H3). rewrite H1.
    destruct (Z.leb_spec (Z.min n size) (zlen (sdata (abs b)))); [lia|reflexivity].
Qed.

Lemma abs_bytes b : length (sdata (abs b)) = (length (bbuf b) + length (src_bytes (bsrc b)))%nat.
Proof. unfold abs; cbn [sdata]. apply app_length. Qed.

Lemma discard_loop_spec fuel n remain b :
  binv b -> 0 < remain -> (length (sdata (abs b)) + 1 < fuel)%nat ->
  match discard_loop size fuel n remain b with
  | Done b' x =>
      binv b' /\
      if remain <=? zlen (sdata (abs b))
      then x = (n, None) /\
           abs b' = mkStream (skipn (Z.to_nat remain) (sdata (abs b))) (sfin (abs b))
      else exists e, sfin (abs b) = FErr e /\
           x = (n - (remain - zlen (sdata (abs b))), Some e) /\
           abs b' = mkStream [] (sfin (abs b))
  | Crashed c => c = Blocked /\ sfin (abs b) = FSilent /\ zlen (sdata (abs b)) < remain
  end.
Proof.
  revert remain b; induction fuel as [|f IH]; intros remain b Hb Hr Hf; [lia|].
  cbn [discard_loop].
  assert (Hfill : match (if zlen (bbuf b) =? 0 then fill size b else Done b tt) with
                  | Done b' _ => binv b' /\ abs b' = abs b /\
                                 (0 < zlen (bbuf b') \/ exists e, berr b' = Some e)
                  | Crashed c => c = Blocked /\ sfin (abs b) = FSilent /\ sdata (abs b) = []
                  end).
  { pose proof (zlen_nonneg (bbuf b)).
    destruct (Z.eqb_spec (zlen (bbuf b)) 0) as [E|E].
    - destruct (berr b) as [e|] eqn:He.
      + (* fill with a pending error: reads the transport again *)
        unfold fill. destruct (Z.leb_spec size (zlen (bbuf b))); [lia|].
        destruct (proj2 (proj2 Hb) e He) as [S1 S2].
        assert (EM : exists k, maxEmpty = S k) by (exists 99%nat; reflexivity).
        destruct EM as [k ->]. cbn [fill_loop]. unfold src_read. rewrite S1, S2.
        unfold binv, good_source, abs; cbn [bbuf berr bsrc]. rewrite app_nil_r.
        rewrite S1, S2. cbn [persistent few_empty].
        wrapup. right; eauto.
      + pose proof (fill_spec b Hb He ltac:(lia)) as HF.
        destruct (fill size b) as [b' []|c].
        * destruct HF as (F1 & F2 & F3 & [F4|F4]); auto. wrapup.
        * destruct HF as (-> & F1 & F2). unfold abs; cbn [sdata sfin].
          apply zlen_0 in E. rewrite F1, E. auto.
    - wrapup. }
  destruct (if zlen (bbuf b) =? 0 then fill size b else Done b tt) as [b1 []|c]; cbn [obind].
  2:{ destruct Hfill as (-> & H1 & H2). rewrite H1, H2, zlen_nil. auto. }
  destruct Hfill as (H1 & H2 & H3). rewrite <- H2 in *. clear b Hb H2.
  set (skip := Z.min (zlen (bbuf b1)) remain).
  pose proof (zlen_nonneg (bbuf b1)) as Hnn.
  destruct (binv_take b1 skip H1 ltac:(lia)) as [T1 T2].
  set (b2 := mkB (skipn (Z.to_nat skip) (bbuf b1)) (berr b1) (bsrc b1)) in *.
  pose proof (abs_len b1) as Hal.
  destruct (Z.eqb_spec (remain - skip) 0) as [E|E].
  - split; auto. destruct (Z.leb_spec remain (zlen (sdata (abs b1)))); [|lia].
    split; auto. rewrite T2. repeat f_equal; lia.
  - assert (skip = zlen (bbuf b1)) as Esk by lia.
    destruct (berr b2) as [e|] eqn:He.
    + destruct (binv_err b1 e H1 He) as [E1 E2].
      destruct (binv_clear b2 T1) as [C1 C2]. split; auto.
      rewrite E1 in *.
      destruct (Z.leb_spec remain (zlen (bbuf b1))); [lia|].
      exists e. split; auto. split; [f_equal; lia|].
      rewrite C2, T2. f_equal. apply skipn_all2. unfold zlen in Esk; lia.
    + destruct H3 as [H3|[e He']]; [|exfalso; cbn in He; congruence].
      assert (Hlen : length (sdata (abs b2)) = (length (sdata (abs b1)) - Z.to_nat skip)%nat).
      { rewrite T2; cbn [sdata]. apply skipn_length. }
      specialize (IH (remain - skip) b2 T1 ltac:(lia)).
      specialize (IH ltac:(unfold zlen in *; lia)).
      assert (Hzl : zlen (sdata (abs b2)) = zlen (sdata (abs b1)) - skip)
        by (unfold zlen in *; lia).
      assert (Hfin : sfin (abs b2) = sfin (abs b1)) by (rewrite T2; reflexivity).
      destruct (discard_loop size f n (remain - skip) b2) as [b' x|c].
      * destruct IH as [I1 I2]. split; auto.
        rewrite Hzl, Hfin in I2.
        destruct (Z.leb_spec (remain - skip) (zlen (sdata (abs b1)) - skip));
          destruct (Z.leb_spec remain (zlen (sdata (abs b1)))); try lia.
        -- destruct I2 as [-> I2]. split; auto. rewrite I2, T2. cbn [sdata sfin].
           f_equal. rewrite skipn_skipn'. f_equal; lia.
        -- destruct I2 as (e & I2 & -> & I3). exists e. wrapup. f_equal; lia.
      * destruct IH as (-> & I2 & I3). rewrite Hfin in I2. wrapup.
Qed.

Lemma discard_refines n b :
  binv b -> refines (discard size n b) (stream_h size _ (BDiscard n) (abs b)).
Proof.
  intros Hb. unfold discard, stream_h, refines.
  destruct (Z.ltb_spec n 0) as [Hn|Hn]; [auto|].
  destruct (Z.eqb_spec n 0) as [->|Hn0].
  - destruct (Z.leb_spec 0 (zlen (sdata (abs b)))) as [H|H].
    + cbn [Z.to_nat skipn]. auto.
    + pose proof (zlen_nonneg (sdata (abs b))); lia.
  - pose proof (discard_loop_spec (2 + length (bbuf b) + length (src_bytes (bsrc b))) n n b Hb
                  ltac:(lia)) as H.
    rewrite abs_bytes in H. specialize (H ltac:(lia)).
    destruct (discard_loop size _ n n b) as [b' x|c].
    + destruct H as [H1 H2]. destruct (Z.leb_spec n (zlen (sdata (abs b)))).
      * destruct H2 as [-> H2]. auto.
      * destruct H2 as (e & He & -> & H2). rewrite He in *. wrapup.
        f_equal; lia.
    + destruct H as (-> & H1 & H2).
      destruct (Z.leb_spec n (zlen (sdata (abs b)))); [lia|]. rewrite H1. reflexivity.
Qed.

Lemma read_byte_refines b :
  binv b -> refines (read_byte size b) (stream_h size _ BReadByte (abs b)).
Proof.
  assert (Hcons : forall b c r fuel, binv b -> bbuf b = c :: r ->
    refines (read_byte_loop size fuel b) (stream_h size _ BReadByte (abs b))).
  { intros b0 c r fuel Hb E.
    replace (read_byte_loop size fuel b0) with (Done (mkB r (berr b0) (bsrc b0)) (c, @None err))
      by (destruct fuel; cbn [read_byte_loop]; rewrite E; reflexivity).
    destruct (binv_take b0 1 Hb) as [T1 T2].
    { rewrite E, zlen_cons. pose proof (zlen_nonneg r). lia. }
    rewrite E in T1, T2. cbn in T1, T2.
    unfold refines, stream_h. unfold abs in *; cbn [sdata sfin bbuf bsrc] in *.
    rewrite E in *. cbn [app skipn] in *. auto. }
  assert (Herr : forall b e fuel, binv b -> bbuf b = [] -> berr b = Some e ->
    refines (read_byte_loop size fuel b) (stream_h size _ BReadByte (abs b))).
  { intros b0 e fuel Hb E He.
    replace (read_byte_loop size fuel b0) with (Done (clear_err b0) (x00, Some e))
      by (destruct fuel; cbn [read_byte_loop]; rewrite E, He; reflexivity).
    destruct (binv_err b0 e Hb He) as [E1 E2]. rewrite E in E1.
    destruct (binv_clear b0 Hb) as [C1 C2].
    unfold refines, stream_h. rewrite E1, E2. auto. }
  intros Hb. unfold read_byte.
  destruct (bbuf b) as [|c r] eqn:E; [|eapply Hcons; eauto].
  destruct (berr b) as [e|] eqn:He; [eapply Herr; eauto|].
  assert (Hstep : forall f, read_byte_loop size (S f) b =
            obind (fill size b) (fun b' _ => read_byte_loop size f b')).
  { intros f. cbn [read_byte_loop]. rewrite E, He. reflexivity. }
  rewrite Hstep. clear Hstep.
  pose proof (fill_spec b Hb He) as HF. rewrite E, zlen_nil in HF. specialize (HF size_pos).
  destruct (fill size b) as [b' []|c]; cbn [obind].
  - destruct HF as (F1 & F2 & F3 & F4). rewrite <- F2.
    destruct (bbuf b') as [|c r] eqn:E'.
    + destruct F4 as [F4|[e He']]; [cbn in F4; lia|].
      apply (Herr b' e 1%nat); auto.
    + apply (Hcons b' c r 1%nat); auto.
  - destruct HF as (-> & F1 & F2). unfold refines, stream_h, abs; cbn [sdata sfin].
    rewrite E, F1, F2. reflexivity.
Qed.

Lemma bread_spec n b :
  binv b -> 0 < n ->
  match bread size n b with
  | Done b' (c, None) =>
      binv b' /\ zlen c <= n /\ sdata (abs b) = c ++ sdata (abs b') /\ sfin (abs b') = sfin (abs b) /\
      (length (script (bsrc b')) <= length (script (bsrc b)))%nat /\
      (c <> [] \/ length (script (bsrc b')) < length (script (bsrc b)))%nat
  | Done b' (c, Some e) =>
      binv b' /\ zlen c <= n /\ sdata (abs b) = c /\ sdata (abs b') = [] /\
      sfin (abs b') = sfin (abs b) /\ sfin (abs b) = FErr e
  | Crashed c => c = Blocked /\ sfin (abs b) = FSilent /\ sdata (abs b) = []
  end.
Proof.
  intros Hb Hn. unfold bread.
  assert (Hcopy : forall b, binv b -> bbuf b <> [] ->
    let b' := mkB (skipn (Z.to_nat n) (bbuf b)) (berr b) (bsrc b) in
    let c := firstn (Z.to_nat n) (bbuf b) in
    binv b' /\ zlen c <= n /\ sdata (abs b) = c ++ sdata (abs b') /\ sfin (abs b') = sfin (abs b)
    /\ c <> []).
  { intros b0 H0 Hne b' c. unfold b', c, abs; cbn [bbuf berr bsrc sdata sfin].
    conj.
    - unfold binv; cbn [bbuf berr bsrc]. conj; try apply H0.
      transitivity (zlen (bbuf b0)); [|apply H0].
      unfold zlen; rewrite skipn_length; lia.
    - unfold zlen; rewrite firstn_length; lia.
    - rewrite app_assoc, firstn_skipn. reflexivity.
    - reflexivity.
    - destruct (bbuf b0); [contradiction|]. destruct (Z.to_nat n) eqn:En; [lia|].
      discriminate. }
  destruct (bbuf b) as [|c0 r] eqn:E.
  - destruct (berr b) as [e|] eqn:He.
    + destruct (binv_err b e Hb He) as [E1 E2]. destruct (binv_clear b Hb) as [C1 C2].
      rewrite C2, E1, E, E2. rewrite zlen_nil. wrapup.
    + assert (Hd : sdata (abs b) = src_bytes (bsrc b)) by (unfold abs; cbn [sdata]; rewrite E; reflexivity).
      assert (Hread : forall m, 0 < m -> _) by
        (intros m Hm; exact (src_read_spec m (bsrc b) 99 Hm (proj1 (proj1 Hb)) (proj2 (proj1 Hb)) (le_n _))).
      destruct (Z.leb_spec size n) as [Hsz|Hsz].
      * specialize (Hread n ltac:(lia)). destruct (src_read n (bsrc b)) as [s' [c [e|]]|c].
        -- destruct Hread as (R1 & R2 & R3 & R4 & R5). rewrite Hd.
           unfold binv, good_source, abs; cbn [bbuf berr bsrc sdata sfin].
           rewrite R4, (src_bytes_nil s') by auto. cbn [persistent few_empty app].
           rewrite zlen_nil. wrapup.
        -- destruct Hread as (R1 & R2 & R3 & R4 & R5 & R5' & R6). rewrite Hd.
           unfold binv, good_source, abs; cbn [bbuf berr bsrc sdata sfin].
           rewrite zlen_nil. wrapup.
           destruct c; auto. destruct R6 as (k' & Ek & R6). eapply few_mono; [| |exact R6]; lia.
        -- destruct Hread as (-> & R1 & R2). rewrite Hd, src_bytes_nil by auto. auto.
      * specialize (Hread size size_pos). destruct (src_read size (bsrc b)) as [s' [c [e|]]|c].
        -- destruct Hread as (R1 & R2 & R3 & R4 & R5). rewrite Hd.
           destruct c as [|c0 c].
           ++ unfold binv, good_source, abs; cbn [bbuf berr bsrc sdata sfin].
              rewrite R4, (src_bytes_nil s') by auto. cbn [persistent few_empty app].
              rewrite zlen_nil. wrapup.
           ++ assert (Hb1 : binv (mkB (c0 :: c) (Some e) s')).
              { unfold binv, good_source; cbn [bbuf berr bsrc]. rewrite R4. cbn [persistent few_empty].
                wrapup. }
              destruct (Hcopy _ Hb1 ltac:(discriminate)) as (K1 & K2 & K3 & K4 & K5).
              assert (Habs : abs (mkB (c0 :: c) (Some e) s') = abs b).
              { unfold abs; cbn [bbuf bsrc]. rewrite E, R1, R2, (src_bytes_nil s'), app_nil_r by auto. reflexivity. }
              rewrite Habs in *. rewrite Hd in *. cbn [bbuf berr bsrc] in *.
              conj; auto; try apply K1; try (rewrite R4; cbn; lia).
        -- destruct Hread as (R1 & R2 & R3 & R4 & R5 & R5' & R6). rewrite Hd.
           destruct c as [|c0 c].
           ++ unfold binv, good_source, abs; cbn [bbuf berr bsrc sdata sfin].
              rewrite zlen_nil. wrapup.
              destruct R6 as (k' & Ek & R6). eapply few_mono; [| |exact R6]; lia.
           ++ assert (Hb1 : binv (mkB (c0 :: c) None s')).
              { unfold binv, good_source; cbn [bbuf berr bsrc]. wrapup. }
              destruct (Hcopy _ Hb1 ltac:(discriminate)) as (K1 & K2 & K3 & K4 & K5).
              assert (Habs : abs (mkB (c0 :: c) None s') = abs b).
              { unfold abs; cbn [bbuf bsrc]. rewrite E, R1, R2. reflexivity. }
              rewrite Habs in *. rewrite Hd in *. cbn [bbuf berr bsrc] in *.
              wrapup.
        -- destruct Hread as (-> & R1 & R2). rewrite Hd, src_bytes_nil by auto. auto.
  - assert (Hne : bbuf b <> []) by congruence.
    destruct (Hcopy b Hb Hne) as (K1 & K2 & K3 & K4 & K5). rewrite E in *.
    wrapup.
Qed.

Lemma read_full_loop_spec fuel n acc b :
  binv b -> zlen acc <= n ->
  (length (sdata (abs b)) + length (script (bsrc b)) + 1 < fuel)%nat ->
  match read_full_loop size fuel n acc b with
  | Done b' x =>
      binv b' /\
      if n - zlen acc <=? zlen (sdata (abs b))
      then x = (acc ++ firstn (Z.to_nat (n - zlen acc)) (sdata (abs b)), None) /\
           abs b' = mkStream (skipn (Z.to_nat (n - zlen acc)) (sdata (abs b))) (sfin (abs b))
      else exists e, sfin (abs b) = FErr e /\
           x = (acc ++ sdata (abs b),
                if (0 <? zlen (acc ++ sdata (abs b))) && is_eof (Some e)
                then Some EUnexpectedEOF else Some e) /\
           abs b' = mkStream [] (sfin (abs b))
  | Crashed c => c = Blocked /\ sfin (abs b) = FSilent /\ zlen (sdata (abs b)) < n - zlen acc
  end.
Proof.
  revert acc b; induction fuel as [|f IH]; intros acc b Hb Hacc Hf; [lia|].
  pose proof (zlen_nonneg (sdata (abs b))) as Hnn.
  cbn [read_full_loop]. destruct (Z.leb_spec n (zlen acc)) as [Hn|Hn].
  { split; auto. destruct (Z.leb_spec (n - zlen acc) (zlen (sdata (abs b)))); [|lia].
    replace (n - zlen acc) with 0 by lia. cbn [Z.to_nat firstn skipn]. rewrite app_nil_r.
    destruct (abs b); auto. }
  pose proof (bread_spec (n - zlen acc) b Hb ltac:(lia)) as H.
  destruct (bread size (n - zlen acc) b) as [b' [c [e|]]|c]; cbn [obind fst snd].
  - destruct H as (H1 & H2 & H3 & H4 & H5 & H6). split; auto. rewrite zlen_app, H3.
    destruct (Z.leb_spec (n - zlen acc) (zlen c)) as [Hx|Hx];
      destruct (Z.leb_spec n (zlen acc + zlen c)); try lia.
    + split.
      * rewrite zlen_to_nat_all by lia. reflexivity.
      * rewrite skipn_all2 by (unfold zlen in *; lia). destruct (abs b'); cbn in *; congruence.
    + exists e. split; auto. split; [rewrite zlen_app; reflexivity|].
      destruct (abs b'); cbn in *; congruence.
  - destruct H as (H1 & H2 & H3 & H4 & H5 & H6).
    pose proof (zlen_nonneg c) as Hc.
    specialize (IH (acc ++ c) b' H1). rewrite zlen_app in IH. specialize (IH ltac:(lia)).
    assert (Hl : length (sdata (abs b)) = (length c + length (sdata (abs b')))%nat)
      by (rewrite H3; apply app_length).
    assert (Hz : zlen (sdata (abs b)) = zlen c + zlen (sdata (abs b')))
      by (rewrite H3; apply zlen_app).
    specialize (IH ltac:(destruct H6 as [H6|H6]; [destruct c; [contradiction|cbn [length] in *; lia]|lia])).
    destruct (read_full_loop size f n (acc ++ c) b') as [b2 x|k].
    + destruct IH as [I1 I2]. split; auto. rewrite H4 in I2.
      destruct (Z.leb_spec (n - (zlen acc + zlen c)) (zlen (sdata (abs b'))));
        destruct (Z.leb_spec (n - zlen acc) (zlen (sdata (abs b)))); try lia.
      * destruct I2 as [-> I2]. rewrite I2, H3.
        replace (Z.to_nat (n - zlen acc))
          with (length c + Z.to_nat (n - (zlen acc + zlen c)))%nat by (unfold zlen in *; lia).
        rewrite firstn_app_2, app_assoc. split; auto. f_equal.
        rewrite skipn_app. rewrite (skipn_all2 c) by lia. cbn [app]. f_equal. lia.
      * rewrite <- app_assoc, <- H3 in I2. exact I2.
    + destruct IH as (-> & I1 & I2). rewrite H4 in I1. wrapup.
  - destruct H as (-> & H1 & H2). rewrite H2, zlen_nil. wrapup.
Qed.

Lemma read_full_refines n b :
  binv b -> 0 <= n -> refines (read_full size n b) (stream_h size _ (BReadFull n) (abs b)).
Proof.
  intros Hb Hn. unfold read_full, refines, stream_h.
  pose proof (read_full_loop_spec
    (2 + length (bbuf b) + length (src_bytes (bsrc b)) + length (script (bsrc b))) n [] b Hb) as H.
  rewrite abs_bytes, zlen_nil, Z.sub_0_r in H. cbn [app] in H. specialize (H Hn ltac:(lia)).
  destruct (read_full_loop size _ n [] b) as [b' x|c].
  - destruct H as [H1 H2]. destruct (Z.leb_spec n (zlen (sdata (abs b)))).
    + destruct H2 as [-> H2]. auto.
    + destruct H2 as (e & He & -> & H2). rewrite He in *. auto.
  - destruct H as (-> & H1 & H2). destruct (Z.leb_spec n (zlen (sdata (abs b)))); [lia|].
    rewrite H1. reflexivity.
Qed.

End Refine.

(** Programs that only ask for a non-negative number of bytes in full. *)
Fixpoint full_ok {A} (p : prog bufR A) : Prop :=
  match p with
  | Ret _ => True
  | Crash _ => True
  | @Vis _ _ X e k =>
      match e in bufR X return Prop with BReadFull n => 0 <= n | _ => True end
      /\ forall x, full_ok (k x)
  end.

(** Every program over the buffered reader behaves as over the stream. *)
Theorem bufio_refines_stream size {A} (p : prog bufR A) b :
  0 < size -> binv size b -> full_ok p ->
  refines size (run (bufio_h size) p b) (run (stream_h size) p (abs b)).
Proof.
  intros Hs. revert b; induction p as [a | X e k IH | c]; intros b Hb Hok; cbn [run].
  - cbn; auto.
  - destruct Hok as [Hok1 Hok].
    assert (H : refines size (bufio_h size X e b) (stream_h size X e (abs b))).
    { destruct e; cbn [bufio_h].
      - apply peek_refines; auto.
      - apply discard_refines; auto.
      - apply read_byte_refines; auto.
      - apply read_full_refines; auto.
      - cbn; auto. }
    destruct (bufio_h size X e b) as [b' x|c]; destruct (stream_h size X e (abs b)) as [s' x'|c'];
      try contradiction.
    + destruct H as (-> & <- & H). apply IH; auto.
    + exact H.
  - reflexivity.
Qed.
