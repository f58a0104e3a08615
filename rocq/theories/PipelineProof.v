(** Several messages through one Writer and one Reader. *)
From Verif Require Import Base BaseLemmas Prog Bufio BufioProof BufioW BufioWProof Wire WireProof Spec Clients Binary BinaryProof
  Compact CompactProof Reads RoundTrip Layers EndToEnd GoFloat Utf8 GoType Fields Arshal GoTypeProof FieldsProof ArshalSpec
  ArshalEnc ArshalDec ArshalTrip ArshalTotal ArshalThms ArshalCalls ArshalGives TagProof Messages MapSpec MapProof StoreSpec StoreProof Pipeline.

Section Pipe.
Context (env : tenv) (P : rtype -> Prop) (Henv : env_ok env) (Hids : unique_ids env) (Hsup : supported env P).

(** ** Binary *)
Lemma bin_marshal_mem sw t v i : P t -> has_type env v t -> passes env i t v ->
  exists N tv, stands_for env t v tv /\ forall n m, (N <= n)%nat ->
    run (over (bin_writer sw) mem_h) (Marshal env n n (Some i)) (tt, m) = Done (tt, m ++ binary_encoding tv) None.
Proof using Henv Hsup.
  intros Pt Ht Hp. destruct (stands_image env P Henv Hsup t v Pt Ht) as (N & a & tv & S & Hc & HN).
  exists N, tv. split; [exact S|]. intros n m Hn. destruct (HN n Hn) as (L & E).
  rewrite (Marshal_passes env n n i t v a Hp L).
  pose proof (marshal_image env n _ _ eq (bin_nameless sw) n a v tv (tt, m) (tt, m) E eq_refl) as M.
  rewrite bin_write_val in M. destruct (run _ _ _) as [s1 [e|]|c]; cbn in M; try tauto; try (destruct M; discriminate).
  now destruct M as [-> _].
Qed.

(** The receiver's step, given the Thrift value sent. *)
Lemma plan_gives lim x tv : 0 < lim -> sendable env P lim x -> stands_for env (x_type x) (x_val x) tv ->
  exists o, arrived env x (x_head x, o, None) /\
    match x_plan x with
    | inl (u, dst) => exists v' a l, o = Some v' /\ lookup env l u = Some a /\ wire_type a = val_type tv /\
                        settled env a dst tv (v', None)
    | inr wt => o = None /\ wt = val_type tv
    end.
Proof using Henv Hids Hsup.
  intros Hl (Pt & Ht & Hf & Hp & Hq) S. unfold arrived. destruct (x_plan x) as [[u dst]|wt].
  - destruct Hq as (Pu & Hd & Hc).
    destruct (evolve_gives env P Hsup Henv Hids lim _ u _ tv dst Hl Pt Pu Ht Hf Hd Hc S) as (v' & a & St & _ & (l & L) & W & D).
    exists (Some v'). split; [exists (Some v'); split; [reflexivity|exists tv, v'; auto]|exists v', a, l; auto].
  - exists None. split; [exists None; auto|]. split; [reflexivity|].
    eapply thrift_type_fun; [exact Hq|]. now apply stands_type in S.
Qed.

Lemma bin_exchange sw sr rsize x : 8 <= rsize -> (sr = true -> sw = true) ->
  bin_head (x_head x) -> sendable env P (2 ^ 31) x ->
  exists N l r, arrived env x r /\
    (exists tv, stands_for env (x_type x) (x_val x) tv /\
       l = bin_message sw (mh_name (x_head x)) (mh_type (x_head x)) (mh_id (x_head x)) ++ binary_encoding tv) /\
    (forall n m, (N <= n)%nat -> run (over (bin_writer sw) mem_h) (send env n x) (tt, m) = Done (tt, m ++ l) None) /\
    (forall n b rest, (N <= n)%nat -> binv rsize b -> sdata (abs b) = l ++ rest ->
      exists b', run (over (bin_reader sr) (bufio_h rsize)) (receive env n (x_plan x)) (tt, b) = Done (tt, b') r /\
        binv rsize b' /\ abs b' = mkStream rest (sfin (abs b))).
Proof using Henv Hids Hsup.
  intros Hr Hst (Hty & Hid & Hnm) Hx. pose proof Hx as (Pt & Ht & Hf & Hp & Hq).
  destruct (bin_marshal_mem sw _ _ _ Pt Ht Hp) as (N & tv & S & W).
  pose proof (stands_wf env P Hsup Henv Hids (2 ^ 31) _ _ tv ltac:(lia) Pt Ht Hf S) as Hwf.
  destruct (plan_gives (2 ^ 31) x tv ltac:(lia) Hx S) as (o & A & G).
  assert (R : exists M, forall n b rest, (M <= n)%nat -> binv rsize b -> sdata (abs b) = binary_encoding tv ++ rest ->
     exists b', run (over (bin_reader sr) (bufio_h rsize))
       (match x_plan x with
        | inl (u, dst) => Unmarshal env n n (Some (RtPtr u, GPtr (Some dst)))
        | inr wt => e <- skip n wt ;; Ret (None, e)
        end) (tt, b) = Done (tt, b') (o, None) /\ binv rsize b' /\ abs b' = mkStream rest (sfin (abs b))).
  { destruct (x_plan x) as [[u dst]|wt].
    - destruct G as (v' & a & l & -> & L & Wt & (M & D)). exists (M + l)%nat. intros n b rest Hn Hb Hd.
      rewrite (Unmarshal_ptr env _ n n u dst a _ (lookup_more env l n _ _ ltac:(lia) L)), Wt.
      destruct (bin_unmarshal env sr rsize b n n a dst tv _ rest Hr Hb Hwf (D n n ltac:(lia) ltac:(lia)) Hd) as (b' & E' & H1 & H2).
      exists b'. rewrite E'. cbn [obind fst snd]. auto.
    - destruct G as (-> & ->). exists (vsize tv). intros n b rest Hn Hb Hd.
      destruct (bin_skip_back sr rsize b tv rest n Hr Hb Hwf Hn Hd) as (b' & E' & H1 & H2).
      exists b'. rewrite run_bind, E'. cbn [obind run]. auto. }
  destruct R as (M & R). destruct x as [[nm ty id] t v i fl plan]. cbn [x_head x_type x_val x_in x_flush x_plan mh_type mh_id mh_name] in *.
  exists (N + M)%nat, (bin_message sw nm ty id ++ binary_encoding tv), (mkMH nm ty id, o, None). split; [exact A|]. split; [eauto|]. split.
  - intros n m Hn. unfold send. cbn [x_head x_in x_flush]. rewrite run_and_then, bin_message_written by auto. cbn [obind].
    rewrite run_and_then, W by lia. cbn [obind]. rewrite run_and_then, run_call. cbn.
    rewrite <- app_assoc. destruct fl; reflexivity.
  - intros n b rest Hn Hb Hd. unfold receive. rewrite run_bind. rewrite <- app_assoc in Hd.
    assert (E : run (over (bin_reader sr) (stream_h rsize)) (call RMessageBegin) (tt, abs b)
                = Done (tt, mkStream (binary_encoding tv ++ rest) (sfin (abs b))) (mkMH nm ty id, None)).
    { destruct (abs b) as [d fi]. cbn [sdata sfin] in *. subst d. apply bin_message_read; auto. }
    destruct (bin_read_any rsize sr (call RMessageBegin) b _ _ ltac:(lia) Hb E) as (b1 & E1 & Hb1 & Ab1).
    rewrite E1. cbn [obind]. rewrite run_bind.
    destruct (R n b1 rest ltac:(lia) Hb1) as (b2 & E2 & Hb2 & Ab2). { now rewrite Ab1. }
    rewrite E2. cbn [obind]. exists b2. rewrite Ab1 in Ab2. split; [|auto]. rewrite run_bind, run_call. reflexivity.
Qed.

Theorem bin_pipeline sw sr wsize rsize s xs : 0 < wsize -> 8 <= rsize -> ok_sink s -> received s = [] -> (sr = true -> sw = true) ->
  Forall (fun x => bin_head (x_head x) /\ sendable env P (2 ^ 31) x) xs ->
  exists N rs, Forall2 (arrived env) xs rs /\
    forall n, (N <= n)%nat -> exists b,
      run (over (bin_writer sw) (bufw_h wsize)) (send_all env n xs) (tt, new_bwriter s) = Done (tt, b) None /\
      forall src rest n', good_source src -> src_bytes src = received (wsink b) ++ rest -> (N <= n')%nat ->
        exists b',
          run (over (bin_reader sr) (bufio_h rsize)) (receive_all env n' (map x_plan xs)) (tt, new_breader src)
            = Done (tt, b') rs /\
          binv rsize b' /\ abs b' = mkStream rest (src_fin src).
Proof using Henv Hids Hsup.
  intros Hw Hr Hs He Hst Hxs.
  assert (H : exists N l rs, Forall2 (arrived env) xs rs /\
    (forall n, (N <= n)%nat -> exists p, (forall h : handler wireW (unit * bwriter), forall b,
        run h (send_all env n xs) b = run h (p >>! call WFlush) b) /\
       forall m, run (over (bin_writer sw) mem_h) p (tt, m) = Done (tt, m ++ l) None) /\
    (forall n b rest, (N <= n)%nat -> binv rsize b -> sdata (abs b) = l ++ rest ->
      exists b', run (over (bin_reader sr) (bufio_h rsize)) (receive_all env n (map x_plan xs)) (tt, b) = Done (tt, b') rs /\
        binv rsize b' /\ abs b' = mkStream rest (sfin (abs b)))).
  { induction Hxs as [|x xs (Hh & Hx) _ IH].
    - exists O, [], []. split; [constructor|]. split.
      + intros n _. exists (Ret None). split; [reflexivity|]. intros m. cbn. now rewrite app_nil_r.
      + intros n b rest _ Hb Hd. exists b. cbn [map receive_all run]. split; [reflexivity|]. split; [exact Hb|]. cbn [app] in Hd. rewrite <- Hd. now destruct (abs b).
    - destruct IH as (N & l & rs & A & W & R).
      destruct (bin_exchange sw sr rsize x Hr Hst Hh Hx) as (N1 & l1 & r1 & A1 & _ & W1 & R1).
      exists (N + N1)%nat, (l1 ++ l), (r1 :: rs). split; [now constructor|]. split.
      + intros n Hn. destruct (W n ltac:(lia)) as (p & Ep & Wp). exists (send env n x >>! p). split.
        * intros h b. cbn [send_all]. rewrite !run_and_then. destruct (run h (send env n x) b) as [b1 [e|]|c]; cbn [obind]; auto.
          now rewrite Ep, run_and_then.
        * intros m. rewrite run_and_then, W1 by lia. cbn [obind]. rewrite Wp, app_assoc. reflexivity.
      + intros n b rest Hn Hb Hd. rewrite <- app_assoc in Hd. destruct (R1 n b _ ltac:(lia) Hb Hd) as (b1 & E1 & Hb1 & Ab1).
        destruct (R n b1 rest ltac:(lia) Hb1) as (b2 & E2 & Hb2 & Ab2). { now rewrite Ab1. }
        exists b2. cbn [map receive_all]. rewrite run_bind, E1. cbn [obind]. rewrite run_bind, E2. cbn [obind run].
        rewrite Ab1 in Ab2. auto. }
  destruct H as (N & l & rs & A & W & R). exists N, rs. split; [exact A|]. intros n Hn.
  destruct (W n Hn) as (p & Ep & Wp).
  destruct (bin_write_any wsize sw s p l Hw Hs (Wp _)) as (b & E & Rb). exists b. rewrite Ep. split; [exact E|].
  intros src rest n' Hg Hb Hn'. rewrite Rb, He in Hb. cbn [app] in Hb.
  destruct (R n' (new_breader src) rest Hn' (binv_new rsize src ltac:(lia) Hg)) as (b' & E' & Hb' & Ab').
  { rewrite abs_new. exact Hb. }
  exists b'. rewrite abs_new in Ab'. auto.
Qed.

(** ** Compact *)
Lemma cmp_marshal_mem t v i : P t -> has_type env v t -> fits env (2 ^ 63) v t -> passes env i t v ->
  exists N tv, stands_for env t v tv /\ forall st m, fh_type (cw_bool st) = T_Stop ->
    exists l, compact_encoding tv l /\ forall n, (N <= n)%nat -> exists st', fh_type (cw_bool st') = T_Stop /\
      run (over cmp_writer mem_h) (Marshal env n n (Some i)) (st, m) = Done (st', m ++ l) None.
Proof using Henv Hsup.
  intros Pt Ht Hf Hp. destruct (stands_image env P Henv Hsup t v Pt Ht) as (N & a & tv & S & Hc & HN).
  assert (Hwf : wf (2 ^ 63) tv).
  { destruct (HN N (le_n _)) as (_ & E). now apply (image_wf env N Henv (2 ^ 63) N ltac:(lia) t a v). }
  exists N, tv. split; [exact S|]. intros st m Hst.
  destruct (cmp_write_val compact_field no_wrap field_hdr_spec tv Hwf (stands_steps env t v tv S) st m Hst)
    as (l & bb & Hl & Hbb & Wv).
  exists l. split; [exact Hl|]. intros n Hn. destruct (HN n Hn) as (L & E).
  rewrite (Marshal_passes env n n i t v a Hp L).
  pose proof (marshal_image env n _ _ cw_sim cmp_nameless n a v tv (st, m) (st, m) E) as M.
  assert (R0 : cw_sim (st, m) (st, m)) by (unfold cw_sim; cbn; auto 10).
  specialize (M R0). rewrite Wv in M. clear Wv. destruct (run _ _ _) as [[st1 m1] [e|]|c]; cbn in M.
  - destruct M as [_ M]. discriminate M.
  - destruct M as [(M & _ & _ & _ & M' & _) _]. cbn in M, M'. exists st1. rewrite M, M'. auto.
  - contradiction.
Qed.

Lemma cmp_exchange rsize x : 10 <= rsize -> cmp_head (x_head x) -> sendable env P (2 ^ 63) x ->
  exists N r, arrived env x r /\
    forall n st m, (N <= n)%nat -> fh_type (cw_bool st) = T_Stop ->
      exists l st', fh_type (cw_bool st') = T_Stop /\
        (exists tv lc, stands_for env (x_type x) (x_val x) tv /\ compact_encoding tv lc /\
           l = cmp_message (mh_name (x_head x)) (mh_type (x_head x)) (mh_id (x_head x)) ++ lc) /\
        run (over cmp_writer mem_h) (send env n x) (st, m) = Done (st', m ++ l) None /\
        forall n' b cr rest e, (N <= n')%nat -> binv rsize b -> cr_bool cr = BNone -> abs b = mkStream (l ++ rest) (FErr e) ->
          exists b', run (over cmp_reader (bufio_h rsize)) (receive env n' (x_plan x)) (cr, b) = Done (cr, b') r /\
            binv rsize b' /\ abs b' = mkStream rest (FErr e).
Proof using Henv Hids Hsup.
  intros Hr (Hty & Hid & Hnm) Hx. pose proof Hx as (Pt & Ht & Hf & Hp & Hq).
  destruct (cmp_marshal_mem _ _ _ Pt Ht Hf Hp) as (N & tv & S & W).
  pose proof (stands_wf env P Hsup Henv Hids (2 ^ 63) _ _ tv ltac:(lia) Pt Ht Hf S) as Hwf.
  destruct (plan_gives (2 ^ 63) x tv ltac:(lia) Hx S) as (o & A & G).
  assert (R : exists M, forall n b cr l rest e, (M <= n)%nat -> compact_encoding tv l -> binv rsize b -> cr_bool cr = BNone ->
     abs b = mkStream (l ++ rest) (FErr e) ->
     exists b', run (over cmp_reader (bufio_h rsize))
       (match x_plan x with
        | inl (u, dst) => Unmarshal env n n (Some (RtPtr u, GPtr (Some dst)))
        | inr wt => e <- skip n wt ;; Ret (None, e)
        end) (cr, b) = Done (cr, b') (o, None) /\ binv rsize b' /\ abs b' = mkStream rest (FErr e)).
  { destruct (x_plan x) as [[u dst]|wt].
    - destruct G as (v' & a & l & -> & L & Wt & (M & D)). exists (M + l)%nat. intros n b cr lc rest e Hn Hlc Hb Hcr Hd.
      rewrite (Unmarshal_ptr env _ n n u dst a _ (lookup_more env l n _ _ ltac:(lia) L)), Wt.
      destruct (cmp_unmarshal env rsize b n n a dst tv lc _ rest cr e Hr Hb Hwf (compact_enc_wrap tv lc _ Hwf Hlc) Hcr
                  (D n n ltac:(lia) ltac:(lia)) Hd) as (st' & b' & E' & H1 & H2).
      exists b'. rewrite E'. cbn [obind fst snd]. destruct (H2 eq_refl) as [-> H3]. auto.
    - destruct G as (-> & ->). exists (vsize tv). intros n b cr lc rest e Hn Hlc Hb Hcr Hd.
      destruct (cmp_skip_back rsize b tv lc rest n cr e Hr Hb Hwf Hn (compact_enc_wrap tv lc _ Hwf Hlc) Hcr Hd) as (b' & E' & H1 & H2).
      exists b'. rewrite run_bind, E'. cbn [obind run]. auto. }
  destruct R as (M & R). destruct x as [[nm ty id] t v i fl plan]. cbn [x_head x_type x_val x_in x_flush x_plan mh_type mh_id mh_name] in *.
  exists (N + M)%nat, (mkMH nm ty id, o, None). split; [exact A|]. intros n st m Hn Hst.
  destruct (W st (m ++ cmp_message nm ty id) Hst) as (lc & Hlc & Wn). destruct (Wn n ltac:(lia)) as (st' & Hst' & E).
  exists (cmp_message nm ty id ++ lc), st'. split; [exact Hst'|]. split; [eauto|]. split.
  - unfold send. cbn [x_head x_in x_flush]. rewrite run_and_then, cmp_message_written by auto. cbn [obind].
    rewrite run_and_then, E. cbn [obind]. rewrite run_and_then, run_call.
    change (over cmp_writer mem_h _ WMessageEnd (st', ?m)) with (@Done (cwriter * list byte) (option err) (st', m) None).
    cbn [obind]. rewrite <- app_assoc. destruct fl; [|reflexivity]. rewrite run_call. unfold over. cbn [fst snd cmp_writer]. unfold liftw.
    rewrite run_bind, run_and_then, run_call. cbn [mem_h obind]. destruct (cw_uw st'); reflexivity.
  - intros n' b cr rest e Hn' Hb Hcr Hd. unfold receive. rewrite run_bind. rewrite <- app_assoc in Hd.
    assert (Er : run (over cmp_reader (stream_h rsize)) (call RMessageBegin) (cr, abs b)
                = Done (cr, mkStream (lc ++ rest) (FErr e)) (mkMH nm ty id, None)).
    { rewrite Hd, cmp_message_read; auto; try discriminate; [|unfold is_u8; lia]. now rewrite Z.mod_small. }
    destruct (cmp_read_any rsize (call RMessageBegin) cr cr b _ _ ltac:(lia) Hb Er) as (b1 & E1 & Hb1 & Ab1).
    rewrite E1. cbn [obind]. rewrite run_bind.
    destruct (R n' b1 cr lc rest e ltac:(lia) Hlc Hb1 Hcr Ab1) as (b2 & E2 & Hb2 & Ab2).
    rewrite E2. cbn [obind]. exists b2. split; [|auto]. rewrite run_bind, run_call. reflexivity.
Qed.

Theorem cmp_pipeline wsize rsize s xs : 0 < wsize -> 10 <= rsize -> ok_sink s -> received s = [] ->
  Forall (fun x => cmp_head (x_head x) /\ sendable env P (2 ^ 63) x) xs ->
  exists N rs, Forall2 (arrived env) xs rs /\
    forall n, (N <= n)%nat -> exists b cw,
      run (over cmp_writer (bufw_h wsize)) (send_all env n xs) (cw0, new_bwriter s) = Done (cw, b) None /\
      forall src rest n' e cr, good_source src -> src_bytes src = received (wsink b) ++ rest -> src_fin src = FErr e ->
        cr_bool cr = BNone -> (N <= n')%nat ->
        exists b',
          run (over cmp_reader (bufio_h rsize)) (receive_all env n' (map x_plan xs)) (cr, new_breader src)
            = Done (cr, b') rs /\
          binv rsize b' /\ abs b' = mkStream rest (src_fin src).
Proof using Henv Hids Hsup.
  intros Hw Hr Hs He Hxs.
  assert (H : exists N rs, Forall2 (arrived env) xs rs /\
    forall n st m, (N <= n)%nat -> fh_type (cw_bool st) = T_Stop ->
      exists p l st', (forall h : handler wireW (cwriter * bwriter), forall b, run h (send_all env n xs) b = run h (p >>! call WFlush) b) /\
        run (over cmp_writer mem_h) p (st, m) = Done (st', m ++ l) None /\
        forall n' b cr rest e, (N <= n')%nat -> binv rsize b -> cr_bool cr = BNone -> abs b = mkStream (l ++ rest) (FErr e) ->
          exists b', run (over cmp_reader (bufio_h rsize)) (receive_all env n' (map x_plan xs)) (cr, b) = Done (cr, b') rs /\
            binv rsize b' /\ abs b' = mkStream rest (FErr e)).
  { induction Hxs as [|x xs (Hh & Hx) _ IH].
    - exists O, []. split; [constructor|]. intros n st m _ Hst. exists (Ret None), [], st. split; [reflexivity|].
      split; [cbn; now rewrite app_nil_r|]. intros n' b cr rest e _ Hb Hcr Hd. exists b. cbn [map receive_all run]. auto.
    - destruct IH as (N & rs & A & W). destruct (cmp_exchange rsize x Hr Hh Hx) as (N1 & r1 & A1 & W1).
      exists (N + N1)%nat, (r1 :: rs). split; [now constructor|]. intros n st m Hn Hst.
      destruct (W1 n st m ltac:(lia) Hst) as (l1 & st1 & Hst1 & _ & E1 & R1).
      destruct (W n st1 (m ++ l1) ltac:(lia) Hst1) as (p & l & st2 & Ep & E2 & R2).
      exists (send env n x >>! p), (l1 ++ l), st2. split; [|split].
      + intros h b. cbn [send_all]. rewrite !run_and_then. destruct (run h (send env n x) b) as [b1 [e|]|c]; cbn [obind]; auto.
        now rewrite Ep, run_and_then.
      + rewrite run_and_then, E1. cbn [obind]. now rewrite E2, app_assoc.
      + intros n' b cr rest e Hn' Hb Hcr Hd. rewrite <- app_assoc in Hd.
        destruct (R1 n' b cr _ e ltac:(lia) Hb Hcr Hd) as (b1 & F1 & Hb1 & Ab1).
        destruct (R2 n' b1 cr rest e ltac:(lia) Hb1 Hcr Ab1) as (b2 & F2 & Hb2 & Ab2).
        exists b2. cbn [map receive_all]. rewrite run_bind, F1. cbn [obind]. rewrite run_bind, F2. cbn [obind run]. auto. }
  destruct H as (N & rs & A & W). exists N, rs. split; [exact A|]. intros n Hn.
  destruct (W n cw0 (received s) Hn eq_refl) as (p & l & st' & Ep & E & R).
  destruct (cmp_write_any wsize s cw0 st' p l Hw Hs E) as (b & E' & Rb). exists b, st'. rewrite Ep. split; [exact E'|].
  intros src rest n' e cr Hg Hb Hfin Hcr Hn'. rewrite Rb, He in Hb. cbn [app] in Hb.
  destruct (R n' (new_breader src) cr rest e Hn' (binv_new rsize src ltac:(lia) Hg) Hcr) as (b' & F & Hb' & Ab').
  { rewrite abs_new, Hb, Hfin. reflexivity. }
  exists b'. rewrite Hfin. auto.
Qed.
End Pipe.
