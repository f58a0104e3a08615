(** The buffered writer delivers exactly the bytes written, in order, and never
    loses or reorders bytes when the transport fails. *)
From Verif Require Import Base BaseLemmas Prog BufioW Layers.

Section W.
Variable size : Z.
Hypothesis size_pos : 0 < size.

Lemma received_app s ev f r fr sw :
  received (mkSink r f fr sw (s_log s ++ [ev])) = received s ++ ev_bytes ev.
Proof. unfold received. cbn [s_log]. rewrite map_app, concat_app. cbn. now rewrite app_nil_r. Qed.

(** The io.Writer contract, from the model of the io.Writer. *)
Lemma sink_write_spec p s :
  exists s' n e, sink_write p s = (s', (n, e)) /\ 0 <= n <= zlen p /\
    received s' = received s ++ firstn (Z.to_nat n) p /\
    (e = None -> n = zlen p) /\
    s_flusher s' = s_flusher s /\ s_fresp s' = s_fresp s /\ s_strw s' = s_strw s /\
    s_resp s' = tl (s_resp s) /\
    s_log s' = s_log s ++ [SWrite (firstn (Z.to_nat n) p)].
Proof.
  pose proof (zlen_nonneg p). unfold sink_write.
  destruct (s_resp s) as [|[[k e]|] r].
  - do 3 eexists. split; [reflexivity|]. rewrite received_app. cbn. wrapup; lia.
  - do 3 eexists. split; [reflexivity|]. rewrite received_app. cbn. wrapup; try lia; try discriminate.
  - do 3 eexists. split; [reflexivity|]. rewrite received_app. cbn. wrapup; lia.
Qed.

(** A transport that never fails. *)
Definition ok_sink (s : sink) : Prop :=
  Forall (fun r => r = None) (s_resp s) /\ Forall (fun r => r = None) (s_fresp s).

Lemma sink_write_ok p s : ok_sink s ->
  exists s', sink_write p s = (s', (zlen p, None)) /\ ok_sink s' /\
    received s' = received s ++ p /\ s_flusher s' = s_flusher s /\ s_strw s' = s_strw s /\
    s_log s' = s_log s ++ [SWrite p].
Proof.
  intros [H1 H2]. unfold sink_write.
  assert (E : firstn (Z.to_nat (zlen p)) p = p) by (apply firstn_all2; unfold zlen; lia).
  destruct (s_resp s) as [|[[k e]|] r].
  - eexists. split; [reflexivity|]. unfold ok_sink. rewrite received_app. cbn. rewrite E. wrapup.
  - inversion H1; discriminate.
  - inversion H1; subst. eexists. split; [reflexivity|].
    unfold ok_sink. rewrite received_app. cbn. rewrite E. wrapup.
Qed.

(** ** General transports: what has been received is always a prefix of what
    was written, and everything written is received or buffered until an error
    occurs; an error is never forgotten. *)

Definition winv (b : bwriter) (m : list byte) : Prop :=
  zlen (wbuf b) <= size /\
  match werr b with
  | None => received (wsink b) ++ wbuf b = m
  | Some _ => exists r, received (wsink b) ++ r = m
  end.

Lemma bw_flush_spec b m : winv b m ->
  exists b' e, bw_flush b = (b', e) /\ winv b' m /\ werr b' = e /\
    (e = None -> wbuf b' = [] /\ received (wsink b') = m) /\
    (forall x, werr b = Some x -> b' = b) /\
    s_strw (wsink b') = s_strw (wsink b).
Proof.
  intros [Hl Hi]. unfold bw_flush. destruct (werr b) as [x|] eqn:Ee.
  - exists b, (Some x). wrapup; try discriminate. unfold winv. rewrite Ee. auto.
  - destruct (wbuf b) as [|c r] eqn:Eb.
    + exists b, None. wrapup; try discriminate; auto.
      * unfold winv. rewrite Ee, Eb. auto.
      * rewrite <- Hi. now rewrite app_nil_r.
    + rewrite <- Eb in *. destruct (sink_write_spec (wbuf b) (wsink b))
        as (s' & n & e & E & Hn & Hr & He & Hf1 & Hf2 & Hf3 & Hf4 & Hf5).
      rewrite E. destruct e as [x|].
      * rewrite andb_false_r. cbn [is_none].
        do 2 eexists. split; [reflexivity|]. unfold winv. cbn [wbuf werr wsink].
        wrapup; try discriminate; auto.
        -- rewrite zlen_skipn by lia. lia.
        -- exists (skipn (Z.to_nat n) (wbuf b)).
           rewrite Hr, <- app_assoc, firstn_skipn. exact Hi.
      * rewrite (He eq_refl). cbn [is_none]. destruct (Z.ltb_spec (zlen (wbuf b)) (zlen (wbuf b))); [lia|].
        cbn [andb]. do 2 eexists. split; [reflexivity|]. unfold winv. cbn [wbuf werr wsink].
        rewrite (He eq_refl) in Hr. rewrite firstn_all2 in Hr by (unfold zlen; lia).
        rewrite app_nil_r. change (zlen []) with 0. wrapup; try discriminate; auto; try lia; congruence.
Qed.

Definition wmeasure (p : list byte) (b : bwriter) : nat :=
  (length p + (if (0 <? zlen (wbuf b))%Z then 1 else 0))%nat.

Lemma bw_write_loop_spec direct : forall fuel p b m,
  winv b m -> (werr b <> None \/ wmeasure p b <= fuel)%nat ->
  exists b' p', bw_write_loop size direct fuel p b = Done b' p' /\
    (forall x, werr b = Some x -> b' = b) /\
    s_strw (wsink b') = s_strw (wsink b) /\
    match werr b' with
    | None => zlen (wbuf b') + zlen p' <= size /\ received (wsink b') ++ wbuf b' ++ p' = m ++ p
    | Some _ => winv b' (m ++ p)
    end.
Proof.
  induction fuel as [|f IH]; intros p b m Hw Hfuel; cbn [bw_write_loop];
    pose proof Hw as [Hl Hi];
    (destruct (werr b) as [x|] eqn:Ee;
    [ rewrite andb_false_r; exists b, p; wrapup; rewrite Ee; unfold winv; rewrite Ee;
      split; [exact Hl|]; destruct Hi as [r Hr]; exists (r ++ p); now rewrite app_assoc, Hr |]);
    cbn [is_none]; rewrite andb_true_r;
    (destruct Hfuel as [Hfuel|Hfuel]; [congruence|]);
    pose proof (zlen_nonneg p); pose proof (zlen_nonneg (wbuf b)); unfold wmeasure in Hfuel;
    (destruct (Z.gtb_spec (zlen p) (size - zlen (wbuf b))) as [Hbig|Hfit];
     [|exists b, p; wrapup; try discriminate; rewrite Ee; split; [lia|]; now rewrite app_assoc, Hi]).
  { unfold zlen in *. destruct (Z.ltb_spec 0 (Z.of_nat (length (wbuf b)))); lia. }
  destruct ((zlen (wbuf b) =? 0) && direct) eqn:Ed.
  - apply andb_true_iff in Ed. destruct Ed as [Ed _]. apply Z.eqb_eq in Ed.
    pose proof (zlen_0 _ Ed) as Eb. rewrite Eb in *. rewrite app_nil_r in Hi.
    destruct (sink_write_spec p (wsink b))
        as (s' & n & e & E & Hn & Hr & He & Hf1 & Hf2 & Hf3 & Hf4 & Hf5).
    rewrite E.
    destruct (IH (skipn (Z.to_nat n) p) (mkBW [] e s') (m ++ firstn (Z.to_nat n) p)) as (b' & p' & H1 & H2 & H3 & H4).
    { unfold winv. cbn [wbuf werr wsink]. split; [change (zlen []) with 0; lia|].
      rewrite Hr, Hi. destruct e; [exists []|]; now rewrite app_nil_r. }
    { cbn [werr]. destruct e as [x|]; [left; discriminate|right].
      unfold wmeasure. cbn [wbuf]. change (0 <? zlen []) with false. cbn iota.
      rewrite skipn_length. rewrite (He eq_refl). unfold zlen. lia. }
    exists b', p'. rewrite H1, H3. cbn [wsink]. wrapup; try discriminate.
    rewrite <- app_assoc, firstn_skipn in H4. exact H4.
  - set (n := Z.min (size - zlen (wbuf b)) (zlen p)).
    destruct (bw_flush_spec (mkBW (wbuf b ++ firstn (Z.to_nat n) p) None (wsink b))
                (m ++ firstn (Z.to_nat n) p)) as (b1 & e & E & Hw1 & He & Hok & _ & Hs).
    { unfold winv. cbn [wbuf werr wsink]. rewrite zlen_app, zlen_firstn by lia.
      split; [lia|]. now rewrite app_assoc, Hi. }
    rewrite E. cbn [wsink] in Hs.
    destruct (IH (skipn (Z.to_nat n) p) b1 (m ++ firstn (Z.to_nat n) p)) as (b' & p' & H1 & H2 & H3 & H4).
    { exact Hw1. }
    { rewrite He. destruct e as [x|]; [left; discriminate|right].
      destruct (Hok eq_refl) as [Hb1 _]. unfold wmeasure. rewrite Hb1.
      change (0 <? zlen []) with false. cbn iota. rewrite skipn_length.
      unfold zlen in *. destruct (Z.ltb_spec 0 (Z.of_nat (length (wbuf b)))); lia. }
    exists b', p'. rewrite H1, H3, Hs. wrapup; try discriminate.
    rewrite <- app_assoc, firstn_skipn in H4. exact H4.
Qed.

Lemma bw_write_gen_spec direct p b m : winv b m ->
  exists b' e, bw_write_gen size direct p b = Done b' e /\ winv b' (m ++ p) /\ werr b' = e /\
    (forall x, werr b = Some x -> b' = b) /\ s_strw (wsink b') = s_strw (wsink b).
Proof.
  intros Hw. unfold bw_write_gen.
  destruct (bw_write_loop_spec direct (3 + length p) p b m Hw) as (b' & p' & H1 & H2 & H3 & H4).
  { right. unfold wmeasure. destruct (0 <? zlen (wbuf b)); lia. }
  rewrite H1. cbn [obind]. destruct (werr b') as [x|] eqn:Ee.
  - exists b', (Some x). wrapup.
  - do 2 eexists. split; [reflexivity|]. unfold winv. cbn [wbuf werr wsink].
    rewrite zlen_app. wrapup; try tauto.
    intros x Hx. specialize (H2 x Hx). congruence.
Qed.

(** ** Any program over a writer *)

(** The bytes a call asks to write. *)
Definition asked {X} (e : bufW X) : list byte :=
  match e with
  | BWWrite p | BWWriteString p => p
  | BWWriteByte c => [c]
  | _ => []
  end.

Definition is_underflush {X} (e : bufW X) : bool :=
  match e with BWUnderFlush => true | _ => false end.

Lemma bufw_step X (e : bufW X) b m : winv b m ->
  exists b' x, bufw_h size X e b = Done b' x /\ winv b' (m ++ asked e) /\
    (forall er, werr b = Some er -> wbuf b' = wbuf b /\ werr b' = werr b /\
                                    received (wsink b') = received (wsink b)).
Proof.
  intros Hw. destruct e as [p|p|c|n| |]; cbn [bufw_h asked]; rewrite ?app_nil_r.
  - destruct (bw_write_gen_spec true p b m Hw) as (b' & e & H1 & H2 & H3 & H4 & H5).
    exists b', e. wrapup; intros er Her; rewrite (H4 er Her); auto.
  - destruct (bw_write_gen_spec (s_strw (wsink b)) p b m Hw) as (b' & e & H1 & H2 & H3 & H4 & H5).
    exists b', e. wrapup; intros er Her; rewrite (H4 er Her); auto.
  - unfold bw_write_byte. destruct Hw as [Hl Hi]. destruct (werr b) as [x|] eqn:Ee.
    + exists b, (Some x). unfold winv. rewrite Ee. wrapup. destruct Hi as [r Hr].
      exists (r ++ [c]). now rewrite app_assoc, Hr.
    + destruct (Z.leb_spec (size - zlen (wbuf b)) 0).
      * destruct (bw_flush_spec b m) as (b' & e & H1 & H2 & H3 & H4 & H5 & H6).
        { unfold winv. now rewrite Ee. }
        rewrite H1. destruct e as [x|].
        -- exists b', (werr b'). wrapup; try discriminate.
           destruct H2 as [A B]. unfold winv. rewrite H3 in *. split; [exact A|].
           destruct B as [r Hr]. exists (r ++ [c]). now rewrite app_assoc, Hr.
        -- destruct (H4 eq_refl) as [A B]. do 2 eexists. split; [reflexivity|].
           unfold winv. cbn [wbuf werr wsink]. rewrite H3, A.
           wrapup; try discriminate; [cbn; unfold zlen; cbn; lia|]. cbn. now rewrite B.
      * do 2 eexists. split; [reflexivity|]. unfold winv. cbn [wbuf werr wsink].
        rewrite zlen_app. change (zlen [c]) with 1. wrapup.
        now rewrite app_assoc, Hi.
  - destruct (size - zlen (wbuf b) >=? n).
    + exists b, None. wrapup.
    + destruct (bw_flush_spec b m Hw) as (b' & e & H1 & H2 & H3 & H4 & H5 & H6).
      rewrite H1. exists b', e. wrapup; intros er Her; rewrite (H5 er Her); auto.
  - destruct (bw_flush_spec b m Hw) as (b' & e & H1 & H2 & H3 & H4 & H5 & H6).
    rewrite H1. exists b', e. wrapup; intros er Her; rewrite (H5 er Her); auto.
  - unfold sink_flush. destruct (s_flusher (wsink b)) eqn:Ef.
    + do 2 eexists. split; [reflexivity|]. unfold winv in *. cbn [wbuf werr wsink].
      rewrite received_app. cbn [ev_bytes]. rewrite app_nil_r. wrapup; tauto.
    + do 2 eexists. split; [reflexivity|]. unfold winv in *. cbn [wbuf werr wsink]. wrapup; tauto.
Qed.

(** The handler, recording every byte the program asked to write. *)
Definition rec_h : handler bufW (bwriter * list byte) :=
  fun X e bm =>
    match bufw_h size X e (fst bm) with
    | Done b' x => Done (b', snd bm ++ asked e) x
    | Crashed c => Crashed c
    end.

(** For every program: it does not get stuck, and what the transport received
    is a prefix of what was asked; all of it, but for the buffer, if no error
    occurred. *)
Theorem bufw_sound {A} (p : prog bufW A) : forall b m,
  winv b m ->
  match run rec_h p (b, m) with
  | Done (b', m') _ => winv b' m' /\ (exists w, m' = m ++ w) /\
      (forall er, werr b = Some er ->
         werr b' = Some er /\ received (wsink b') = received (wsink b))
  | Crashed c => True
  end.
Proof.
  induction p as [a|X e k IH|c]; intros b m Hw; cbn [run].
  - wrapup. exists []. now rewrite app_nil_r.
  - unfold rec_h at 1. cbn [fst snd].
    destruct (bufw_step X e b m Hw) as (b' & x & H1 & H2 & H3). rewrite H1.
    specialize (IH x b' (m ++ asked e) H2).
    destruct (run rec_h (k x) (b', m ++ asked e)) as [[b2 m2] a|c]; [|exact I].
    destruct IH as (A1 & (w & ->) & A2). split; [exact A1|]. split.
    + exists (asked e ++ w). now rewrite app_assoc.
    + intros er Her. destruct (H3 er Her) as (B1 & B2 & B3).
      rewrite B2 in A2. destruct (A2 er Her) as [C1 C2]. rewrite C2. auto.
  - exact I.
Qed.

Lemma rec_run {A} (p : prog bufW A) : forall b m,
  run (bufw_h size) p b =
  match run rec_h p (b, m) with Done (b', _) a => Done b' a | Crashed c => Crashed c end.
Proof.
  induction p as [a|X e k IH|c]; intros b m; cbn [run]; try reflexivity.
  unfold rec_h at 1. cbn [fst snd]. destruct (bufw_h size X e b) as [b' x|c]; [|reflexivity].
  apply IH.
Qed.

(** ** A transport that never fails: the writer is the growing list *)
Definition wok (b : bwriter) (m : list byte) : Prop :=
  ok_sink (wsink b) /\ werr b = None /\ winv b m.

Lemma wok_flush b m : wok b m ->
  exists b', bw_flush b = (b', None) /\ wok b' m /\ wbuf b' = [] /\ received (wsink b') = m.
Proof.
  intros (Hs & He & Hw). destruct (bw_flush_spec b m Hw) as (b' & e & H1 & H2 & H3 & H4 & H5 & H6).
  assert (e = None /\ ok_sink (wsink b')) as [-> Hs'].
  { unfold bw_flush in H1. rewrite He in H1. destruct (wbuf b) as [|c r] eqn:Eb.
    - injection H1 as <- <-. auto.
    - rewrite <- Eb in *. destruct (sink_write_ok (wbuf b) (wsink b) Hs) as (s' & E & Hok & _).
      rewrite E in H1. cbn [is_none] in H1. rewrite Z.ltb_irrefl in H1. cbn [andb] in H1.
      injection H1 as <- <-. auto. }
  destruct (H4 eq_refl). exists b'. wrapup. unfold wok. auto.
Qed.

Lemma wok_write_loop direct : forall fuel p b b' p',
  bw_write_loop size direct fuel p b = Done b' p' -> ok_sink (wsink b) -> werr b = None ->
  ok_sink (wsink b') /\ werr b' = None.
Proof.
  induction fuel as [|f IH]; intros p b b' p' H Hs He; cbn [bw_write_loop] in H; rewrite He in H;
    cbn [is_none] in H; rewrite andb_true_r in H.
  - destruct (_ >? _); [discriminate|]. injection H as <- <-. auto.
  - destruct (_ >? _); [|injection H as <- <-; auto].
    destruct ((zlen (wbuf b) =? 0) && direct).
    + destruct (sink_write_ok p (wsink b) Hs) as (s' & E & Hok & _). rewrite E in H.
      eapply IH; [exact H|exact Hok|reflexivity].
    + match type of H with context [bw_flush ?x] => set (b1 := x) in H end.
      unfold bw_flush in H.
      assert (E1 : werr b1 = None) by (subst b1; reflexivity).
      rewrite E1 in H. destruct (wbuf b1) as [|c r] eqn:Eb.
      * eapply IH; [exact H|subst b1; exact Hs|exact E1].
      * rewrite <- Eb in *.
        assert (Hs1 : ok_sink (wsink b1)) by exact Hs.
        destruct (sink_write_ok (wbuf b1) (wsink b1) Hs1) as (s' & E & Hok & _).
        rewrite E in H. cbn [is_none] in H. rewrite Z.ltb_irrefl in H. cbn [andb] in H.
        eapply IH; [exact H|exact Hok|reflexivity].
Qed.

Lemma wok_write direct p b m : wok b m ->
  exists b', bw_write_gen size direct p b = Done b' None /\ wok b' (m ++ p).
Proof.
  intros (Hs & He & Hw).
  destruct (bw_write_gen_spec direct p b m Hw) as (b' & e & H1 & H2 & H3 & _).
  assert (ok_sink (wsink b') /\ e = None) as [Hs' ->].
  { unfold bw_write_gen in H1.
    destruct (bw_write_loop size direct (3 + length p) p b) as [b1 p1|c] eqn:E; [|discriminate].
    cbn [obind] in H1. destruct (wok_write_loop _ _ _ _ _ _ E Hs He) as [A B].
    rewrite B in H1. injection H1 as <- <-. auto. }
  exists b'. split; [exact H1|]. unfold wok. auto.
Qed.

Lemma wok_step X (e : bufW X) b m : wok b m ->
  exists b' m' x, bufw_h size X e b = Done b' x /\ mem_h X e m = Done m' x /\ wok b' m'.
Proof.
  intros Hw. destruct e as [p|p|c|n| |]; cbn [bufw_h mem_h].
  - destruct (wok_write true p b m Hw) as (b' & H1 & H2). exists b', (m ++ p), None. auto.
  - destruct (wok_write (s_strw (wsink b)) p b m Hw) as (b' & H1 & H2). exists b', (m ++ p), None. auto.
  - unfold bw_write_byte. pose proof Hw as (Hs & He & Hl & Hi). rewrite He in *.
    destruct (Z.leb_spec (size - zlen (wbuf b)) 0).
    + destruct (wok_flush b m Hw) as (b' & H1 & H2 & H3 & H4). rewrite H1.
      do 3 eexists. conj; [reflexivity|reflexivity|].
      destruct H2 as (A & B & C). unfold wok, winv. cbn [wbuf werr wsink]. rewrite B, H3.
      wrapup; [cbn; unfold zlen; cbn; lia|]. cbn. now rewrite H4.
    + do 3 eexists. conj; [reflexivity|reflexivity|].
      unfold wok, winv. cbn [wbuf werr wsink]. rewrite zlen_app. change (zlen [c]) with 1.
      wrapup. now rewrite app_assoc, Hi.
  - destruct (size - zlen (wbuf b) >=? n).
    + exists b, m, None. auto.
    + destruct (wok_flush b m Hw) as (b' & H1 & H2 & H3 & H4). rewrite H1. exists b', m, None. auto.
  - destruct (wok_flush b m Hw) as (b' & H1 & H2 & H3 & H4). rewrite H1. exists b', m, None. auto.
  - destruct Hw as ((Hs1 & Hs2) & He & Hw). unfold sink_flush. destruct (s_flusher (wsink b)) eqn:Ef.
    + exists (mkBW (wbuf b) (werr b) (mkSink (s_resp (wsink b)) true (tl (s_fresp (wsink b)))
                (s_strw (wsink b)) (s_log (wsink b) ++ [SFlush]))), m, None.
      conj.
      * destruct (s_fresp (wsink b)) as [|r rs]; [reflexivity|]. inversion Hs2; subst. reflexivity.
      * reflexivity.
      * unfold wok, ok_sink, winv in *. cbn [wbuf werr wsink s_resp s_fresp].
        rewrite received_app. cbn [ev_bytes]. rewrite app_nil_r. wrapup; try tauto.
        destruct (s_fresp (wsink b)); [constructor|]. inversion Hs2; auto.
    + exists (mkBW (wbuf b) (werr b) (wsink b)), m, None. conj; [reflexivity|reflexivity|].
      unfold wok, ok_sink, winv in *. cbn [wbuf werr wsink]. wrapup; tauto.
Qed.

Theorem bufw_refines_mem {A} (p : prog bufW A) : forall b m,
  wok b m ->
  match run (bufw_h size) p b, run mem_h p m with
  | Done b' x, Done m' y => x = y /\ wok b' m'
  | Crashed c, Crashed c' => c = c'
  | _, _ => False
  end.
Proof.
  induction p as [a|X e k IH|c]; intros b m Hw; cbn [run]; auto.
  destruct (wok_step X e b m Hw) as (b' & m' & x & H1 & H2 & H3). rewrite H1, H2.
  apply IH. exact H3.
Qed.

Theorem layer_refines_mem {E S A} (L : layer E bufW S) (p : prog E A) s b m :
  wok b m ->
  match run (over L (bufw_h size)) p (s, b), run (over L mem_h) p (s, m) with
  | Done (s1, b') x, Done (s2, m') y => s1 = s2 /\ x = y /\ wok b' m'
  | Crashed c, Crashed c' => c = c'
  | _, _ => False
  end.
Proof.
  intros Hw. rewrite !run_over. pose proof (bufw_refines_mem (interp L p s) b m Hw) as H.
  destruct (run (bufw_h size) (interp L p s) b) as [b' [s1 x]|c];
    destruct (run mem_h (interp L p s) m) as [m' [s2 y]|c']; cbn [unpair]; auto.
  destruct H as [H1 H2]. injection H1 as -> ->. auto.
Qed.

Lemma wok_new s : ok_sink s -> wok (new_bwriter s) (received s).
Proof.
  intros Hs. unfold wok, winv, new_bwriter. cbn [wbuf werr wsink].
  rewrite app_nil_r. change (zlen []) with 0. wrapup.
Qed.

Lemma winv_new s : winv (new_bwriter s) (received s).
Proof. unfold winv, new_bwriter. cbn [wbuf werr wsink]. rewrite app_nil_r. split; [unfold zlen; cbn; lia|reflexivity]. Qed.

End W.
