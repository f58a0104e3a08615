(** Messages sent by a sender that may fail, over a connection that may break. *)
From Verif Require Import Base BaseLemmas Prog Bufio BufioProof BufioW BufioWProof Wire WireProof Spec Clients Binary BinaryProof
  Compact CompactProof Reads RoundTrip Layers EndToEnd Ideal Faults Loud GoFloat Utf8 GoType Fields Arshal GoTypeProof FieldsProof ArshalSpec
  ArshalEnc ArshalDec ArshalTrip ArshalTotal ArshalThms ArshalErr ArshalCalls ArshalGives TagProof Messages MapSpec MapProof StoreSpec StoreProof
  Pipeline PipelineProof TraceSpec TraceProof PartsSpec PartsRun PartsProof PartsMsg PartsCmp Properties_Cut LeftSpec LeftProof LeftBin LeftCmp CrashSpec.

(** ** The sender *)
Section Sender.
Context {St : Type} (size : Z) (Hsize : 0 < size) (L : layer wireW bufW St).
Hypothesis HL : forall X (e : wireW X) st, loud (fun r => errW e (snd r)) (L X e st).

Lemma mem_step X (e : bufW X) m : exists x, mem_h X e m = Done (m ++ asked e) x /\ errB e x = None /\ forall y, errB e y = None -> y = x.
Proof. destruct e; cbn [mem_h asked errB]; rewrite ?app_nil_r; exists None; auto. Qed.

Lemma mem_grows {A} (p : prog bufW A) : forall m m' a, run mem_h p m = Done m' a -> exists q, m' = m ++ q.
Proof.
  induction p as [a0|X e k IH|c]; intros m m' a H; cbn [run] in H; [|  |discriminate].
  - injection H as <- <-. exists []. now rewrite app_nil_r.
  - destruct (mem_step X e m) as (x & E & _). rewrite E in H. apply IH in H as (q & ->). exists (asked e ++ q). now rewrite app_assoc.
Qed.

(** A program that stops at errors either does what it does over a transport without
    faults, or reports an error, and then some of the bytes have arrived. *)
Lemma loud_mem {A} (proj : A -> option err) (p : prog bufW A) : loud proj p -> forall b m m' a,
  winv size b m -> werr b = None -> run mem_h p m = Done m' a ->
  exists b' a', run (bufw_h size) p b = Done b' a' /\
    (a' = a /\ werr b' = None /\ winv size b' m' \/ proj a' <> None /\ exists q, received (wsink b') ++ q = m').
Proof using Hsize.
  induction p as [a0|X e k IH|c]; intros Hl b m m' a Hw He H; cbn [run] in *; [| |discriminate].
  - injection H as <- <-. exists b, a0. auto.
  - destruct (bufw_step size Hsize X e b m Hw) as (b1 & x1 & E1 & Hw1 & _). rewrite E1.
    destruct (step_loud (wsink b) size X e b b1 x1 He (writes_ok_refl _) E1) as [_ S2].
    destruct (mem_step X e m) as (x & E & _ & U). rewrite E in H. cbn [loud] in Hl. destruct (Hl x1) as [L1 L2].
    destruct (errB e x1) as [er|] eqn:Ex.
    + destruct (L1 ltac:(discriminate)) as (a1 & -> & Ha). exists b1, a1. split; [reflexivity|]. right. split; [exact Ha|].
      apply mem_grows in H as (q & ->). destruct Hw1 as [_ Hw1]. destruct (werr b1).
      * destruct Hw1 as (r & <-). exists (r ++ q). now rewrite app_assoc.
      * rewrite <- Hw1. exists (wbuf b1 ++ q). now rewrite app_assoc.
    + assert (Ee : werr b1 = None) by (destruct (werr b1); [exfalso; now apply S2|reflexivity]).
      rewrite (U x1 Ex) in *. exact (IH x L2 b1 _ _ _ Hw1 Ee H).
Qed.

(** The same of programs that call a protocol writer. *)
Inductive halts : prog wireW (option err) -> Prop :=
| ha_ret r : halts (Ret r)
| ha_call (e : wireW (option err)) k : (forall x, errW e x = x) -> (forall er, exists e', k (Some er) = Ret (Some e')) ->
    halts (k None) -> halts (Vis e k).

Lemma halts_then p q : halts p -> halts q -> halts (p >>! q).
Proof.
  intros Hp Hq. induction Hp as [[e|]|e k Hx Hk Hn IH]; unfold and_then in *; cbn [bind]; [constructor|exact Hq|].
  apply ha_call; [exact Hx| |exact IH]. intros er. destruct (Hk er) as (e' & ->). exists e'. reflexivity.
Qed.
Lemma halts_call (e : wireW (option err)) : (forall x, errW e x = x) -> halts (call e).
Proof. intros H. apply ha_call; [exact H| |constructor]. eauto. Qed.
Lemma plays_halts env p cs r : plays env p cs r -> halts p.
Proof.
  induction 1 as [|e He|c k cs r Hk Hn IH]; try constructor; [now destruct c| |exact IH].
  intros er. destruct (Hk er) as (e & -> & _). eauto.
Qed.

Lemma over_mem_grows (p : prog wireW (option err)) : forall st m st' m' r,
  run (over L mem_h) p (st, m) = Done (st', m') r -> exists q, m' = m ++ q.
Proof using Type.
  induction p as [a0|X e k IH|c]; intros st m st' m' r H; cbn [run] in H; [|  |discriminate].
  - injection H as <- <- <-. exists []. now rewrite app_nil_r.
  - unfold over at 1 in H. cbn [fst snd] in H. destruct (run mem_h (L X e st) m) as [m1 [st1 x]|c] eqn:E; [|discriminate]. cbn [obind] in H.
    apply mem_grows in E as (q & ->). apply IH in H as (q' & ->). exists (q ++ q'). now rewrite app_assoc.
Qed.

Lemma halts_faulty p : halts p -> forall st b m st' m',
  winv size b m -> werr b = None -> run (over L mem_h) p (st, m) = Done (st', m') None ->
  exists st1 b' r, run (over L (bufw_h size)) p (st, b) = Done (st1, b') r /\
    (r = None /\ st1 = st' /\ werr b' = None /\ winv size b' m' \/ r <> None /\ exists q, received (wsink b') ++ q = m').
Proof using Hsize HL.
  induction 1 as [r|e k Hx Hk Hn IH]; intros st b m st' m' Hw He H; cbn [run] in *.
  - injection H as <- <- ->. exists st, b, None. split; [reflexivity|]. left. auto.
  - unfold over at 1 in H. cbn [fst snd] in H. destruct (run mem_h (L _ e st) m) as [m1 [st1 x]|c] eqn:E; [|discriminate]. cbn [obind] in H.
    destruct (loud_mem _ _ (HL _ e st) b m m1 (st1, x) Hw He E) as (b1 & [st2 y] & E1 & C).
    unfold over at 1. cbn [fst snd]. rewrite E1. cbn [obind].
    destruct x as [er|]. { destruct (Hk er) as (e' & K). rewrite K in H. discriminate. }
    destruct C as [(C & He1 & Hw1)|(C & q & Hq)].
    + injection C as -> ->. exact (IH st1 b1 m1 st' m' Hw1 He1 H).
    + cbn [snd] in C. rewrite Hx in C. destruct y as [er|]; [|congruence]. destruct (Hk er) as (e' & ->). cbn [run].
      exists st2, b1, (Some e'). split; [reflexivity|]. right. split; [discriminate|].
      apply over_mem_grows in H as (q' & ->). exists (q ++ q'). now rewrite app_assoc, Hq.
Qed.
End Sender.

Lemma begins_app d h l : begins d (h ++ l) -> begins d h \/ exists d', d = h ++ d' /\ begins d' l.
Proof.
  intros (q & Hq & E). symmetry in E. apply app_eq_app in E as (x & [(-> & ->)|(-> & ->)]).
  - right. exists x. split; [reflexivity|]. exists q. auto.
  - destruct x as [|c x]; [right; exists []; rewrite !app_nil_r in *|left].
    + split; [reflexivity|]. exists l. auto.
    + exists (c :: x). split; [discriminate|reflexivity].
Qed.
Lemma cut_at_once sk e ps er : cut_off sk e ps [] er -> er = e.
Proof.
  intros H. apply cut_off_view in H as (a & p & b & x & _ & E & _ & ->).
  symmetry in E. apply app_eq_nil in E as [_ ->]. now destruct p, sk.
Qed.

Section Pipe.
Context (env : tenv) (P : rtype -> Prop) (Henv : env_ok env) (Hids : unique_ids env) (Hsup : supported env P).

(** ** The receiver, message by message *)
Section Receiver.
Context {St : Type} (h : handler wireR St) (rd : St -> list byte -> err -> Prop) (F : format) (hd : mhdr -> list byte -> Prop).

(** What is required of one message. *)
Definition handled (N : nat) (x : exchange) : Prop :=
  forall hl l tv, hd (x_head x) hl -> stands_for env (x_type x) (x_val x) tv -> fm_enc F tv l ->
  forall n s e, (N <= n)%nat ->
    (forall d, rd s (hl ++ l ++ d) e -> exists s' m, run h (receive env n (x_plan x)) s = Done s' m /\ arrived env x m /\ rd s' d e) /\
    (forall d xs, begins d (hl ++ l) -> rd s d e -> exists s' m er,
       run h (receive env n (x_plan x)) s = Done s' (m, Some er) /\ served env F hd e (x :: xs) d [(m, Some er)]).

Lemma receive_served xs : Forall (fun x => exists N, handled N x) xs ->
  exists N, forall bs, messages env F hd xs bs -> forall n s e d q, (N <= n)%nat -> d ++ q = bs -> rd s d e ->
    exists s' ms, run h (receive_until env n (map x_plan xs)) s = Done s' ms /\ served env F hd e xs d ms.
Proof using Type.
  induction 1 as [|x xs (N1 & H1) _ (N & IH)].
  - exists O. intros bs M n s e d q _ E _. assert (bs = []) as -> by now inversion M. apply app_eq_nil in E as [-> _]. exists s, []. split; [reflexivity|constructor].
  - exists (N + N1)%nat. intros bs M n s e d q Hn E R. revert E. inversion_clear M as [|? ? tv hl l r Hh S El Mr]. intros E.
    destruct (H1 hl l tv Hh S El n s e ltac:(lia)) as [W C]. cbn [map receive_until]. rewrite app_assoc in E.
    apply app_eq_app in E as (y & [(-> & ->)|(E0 & ->)]).
    + rewrite <- app_assoc in R. destruct (W y R) as (s1 & m & E1 & A & R1). rewrite run_bind, E1. cbn [obind].
      destruct (IH _ Mr n s1 e y q ltac:(lia) eq_refl R1) as (s2 & ms & E2 & Sv). pose proof A as (o & -> & _). cbn [snd].
      rewrite run_bind, E2. cbn [obind run]. rewrite <- app_assoc. do 2 eexists. split; [reflexivity|]. eapply sv_whole; eauto.
    + destruct y as [|c y].
      * rewrite app_nil_r in E0. subst d. rewrite <- (app_nil_r (hl ++ l)), <- app_assoc in R. destruct (W [] R) as (s1 & m & E1 & A & R1).
        rewrite run_bind, E1. cbn [obind]. destruct (IH _ Mr n s1 e [] r ltac:(lia) eq_refl R1) as (s2 & ms & E2 & Sv).
        pose proof A as (o & -> & _). cbn [snd]. rewrite run_bind, E2. cbn [obind run]. rewrite <- (app_nil_r (hl ++ l)), <- app_assoc.
        do 2 eexists. split; [reflexivity|]. eapply sv_whole; eauto.
      * destruct (C d xs) as (s1 & m & er & E1 & Sv); [exists (c :: y); split; [discriminate|auto]|exact R|].
        rewrite run_bind, E1. cbn [obind snd run]. eauto.
Qed.
End Receiver.

(** ** Binary *)
Definition bin_rd (size : Z) (s : unit * breader) (d : list byte) (e : err) : Prop :=
  binv size (snd s) /\ abs (snd s) = mkStream d (FErr e).

Lemma bin_handled sw sr size x : 10 <= size -> (sr = true -> sw = true) -> bin_head (x_head x) -> sendable env P (2 ^ 31) x ->
  exists N, handled (over (bin_reader sr) (bufio_h size)) (bin_rd size) binary_format (binary_head sw) N x.
Proof using Henv Hids Hsup.
  intros Hz Hst Hh Hx. pose proof Hh as (Hty & Hid & Hnm). pose proof Hx as (Pt & Ht & Hf & Hp & Hq).
  destruct (bin_exchange env P Henv Hids Hsup sw sr size x ltac:(lia) Hst Hh Hx) as (N & l0 & r & A & (tv & S & El) & _ & R).
  pose proof (stands_wf env P Hsup Henv Hids (2 ^ 31) _ _ tv ltac:(lia) Pt Ht Hf S) as Hw.
  assert (U : exists M, forall u dst, x_plan x = inl (u, dst) -> forall p s n,
     breaks (over (bin_reader sr) (stream_h size)) (fun v => v) p tv s -> (M <= n)%nat -> exists s' v er,
     run (over (bin_reader sr) (stream_h size)) (Unmarshal env n n (Some (RtPtr u, GPtr (Some dst)))) s = Done s' (Some v, Some er) /\
     partly env p u dst tv v).
  { destruct (x_plan x) as [[u dst]|wt]; [|exists O; discriminate]. destruct Hq as (Pu & Hd & (Rl & Hr & HR)).
    destruct (Unmarshal_breaks (over (bin_reader sr) (stream_h size)) (fun v => v) env P (2 ^ 31) u dst tv
      ltac:(reflexivity) ltac:(reflexivity) ltac:(reflexivity) Hsup Henv Hids Hw Pu Hd (agree_conforms env Rl HR _ _ tv u S Hr)) as (M & H).
    exists M. intros u' dst' E. injection E as <- <-. exact H. }
  destruct U as (M & U). exists (N + M + vsize tv)%nat. intros hl l tv' Eh S' Et n [[] b] e Hn.
  rewrite (stands_fun env Hids _ _ tv' S' tv S) in *. clear tv' S'. cbn [fm_enc binary_format] in Et. subst l.
  unfold binary_head in Eh. assert (Eb : hl = bin_message sw (mh_name (x_head x)) (mh_type (x_head x)) (mh_id (x_head x))) by (rewrite Eh; unfold bin_message; now destruct sw).
  split.
  - intros d [Hb Ab]. cbn [snd] in *. rewrite app_assoc, Eb, <- El in Ab.
    destruct (R n b d ltac:(lia) Hb) as (b' & E & Hb' & Ab'); [now rewrite Ab|]. exists (tt, b'), r. rewrite Ab in Ab'.
    split; [exact E|]. split; [exact A|]. split; assumption.
  - intros d xs Hd [Hb Ab]. cbn [snd] in *. unfold receive. rewrite run_bind, run_call.
    apply begins_app in Hd as [Hd|(d' & -> & Hd)].
    + assert (C : exists b' m er, over (bin_reader sr) (bufio_h size) _ RMessageBegin (tt, b) = Done (tt, b') (m, Some er) /\ (d = [] -> er = e)).
      { destruct Hd as (q & Hq0 & Ed). rewrite Ed in Eh. destruct sw.
        - destruct (C73_binary_message size sr _ _ _ b d q e Hz Hb Hnm (eq_sym Eh) Hq0 Ab) as (b' & m & er & E & C).
          exists b', m, er. split; [exact E|]. intros ->. eapply cut_at_once; exact C.
        - assert (sr = false) as -> by (destruct sr; [discriminate (Hst eq_refl)|reflexivity]).
          destruct (C73_old_message size _ _ _ b d q e Hz Hb Hnm Hty (eq_sym Eh) Hq0 Ab) as (b' & m & er & E & C).
          exists b', m, er. split; [exact E|]. intros ->. eapply cut_at_once; exact C. }
      destruct C as (b' & m & er & E & C). rewrite E. cbn [obind run]. exists (tt, b'), (m, None), er. split; [reflexivity|].
      eapply sv_header; eauto.
    + destruct (bin_read_any size sr (call RMessageBegin) b (x_head x, None) (mkStream d' (FErr e)) ltac:(lia) Hb) as (b1 & E1 & Hb1 & Ab1).
      { rewrite Ab, Eb. destruct (x_head x) as [nm ty id]. apply bin_message_read; auto; lia. }
      rewrite run_call in E1. rewrite E1. cbn [obind]. rewrite run_bind. pose proof Hd as (q & Hq0 & Ed).
      assert (C : exists b' o er, run (over (bin_reader sr) (bufio_h size))
          (match x_plan x with
           | inl (u, dst) => Unmarshal env n n (Some (RtPtr u, GPtr (Some dst)))
           | inr wt => e <- skip n wt ;; Ret (None, e)
           end) (tt, b1) = Done (tt, b') (o, Some er) /\
         match x_plan x with
         | inl (u, dst) => exists p v, came binary_format p tv d' /\ partly env p u dst tv v /\ o = Some v
         | inr _ => o = None
         end).
      { destruct (x_plan x) as [[u dst]|wt].
        - destruct (bin_lefts size Hz e sr tv Hw d' q (eq_sym Ed) Hq0) as (p & C & B).
          destruct (U u dst eq_refl p _ n B ltac:(lia)) as ([[] s'] & v & er & E & Pt').
          rewrite <- Ab1 in E. destruct (bin_read_any size sr _ b1 _ _ ltac:(lia) Hb1 E) as (b2 & E2 & _ & _).
          exists b2, (Some v), er. eauto 6.
        - assert (wt = val_type tv) as -> by (eapply thrift_type_fun; [exact Hq|]; clear -S; now apply stands_type in S).
          destruct (C73_binary_value size sr n tv b1 d' q e Hz Hb1 Hw ltac:(lia) Ed Hq0 Ab1) as (_ & b2 & er & E2 & _).
          exists b2, None, er. rewrite run_bind, E2. auto. }
      destruct C as (b2 & o & er & E2 & C). rewrite E2. cbn [obind run]. exists (tt, b2), (x_head x, o), er. split; [reflexivity|].
      eapply sv_value; eauto; reflexivity.
Qed.

Lemma send_halts x : P (x_type x) -> has_type env (x_val x) (x_type x) -> passes env (x_in x) (x_type x) (x_val x) ->
  exists N, forall n, (N <= n)%nat -> halts (send env n x).
Proof using Henv Hsup.
  intros Pt Ht Hp. destruct (marshal_says env P Henv Hsup _ _ _ Pt Ht Hp) as (N & cs & _ & Pl). exists N. intros n Hn. unfold send.
  apply halts_then; [now apply halts_call|]. apply halts_then; [eapply plays_halts, Pl; exact Hn|].
  apply halts_then; [now apply halts_call|]. destruct (x_flush x); [now apply halts_call|constructor].
Qed.

Theorem bin_crash sw sr wsize rsize s xs : 0 < wsize -> 10 <= rsize -> received s = [] -> (sr = true -> sw = true) ->
  Forall (fun x => bin_head (x_head x) /\ sendable env P (2 ^ 31) x) xs ->
  exists N bs, messages env binary_format (binary_head sw) xs bs /\
    forall n, (N <= n)%nat -> exists b r,
      run (over (bin_writer sw) (bufw_h wsize)) (send_all env n xs) (tt, new_bwriter s) = Done (tt, b) r /\
      (exists q, received (wsink b) ++ q = bs /\ (r = None -> q = [])) /\
      forall src e q n', good_source src -> src_bytes src ++ q = bs -> src_fin src = FErr e -> (N <= n')%nat ->
        exists b' ms,
          run (over (bin_reader sr) (bufio_h rsize)) (receive_until env n' (map x_plan xs)) (tt, new_breader src) = Done (tt, b') ms /\
          served env binary_format (binary_head sw) e xs (src_bytes src) ms.
Proof using Henv Hids Hsup.
  intros Hw Hr He Hst Hxs.
  assert (H : exists N bs, messages env binary_format (binary_head sw) xs bs /\
    forall n, (N <= n)%nat -> exists p, halts p /\
      (forall h : handler wireW (unit * bwriter), forall b, run h (send_all env n xs) b = run h (p >>! call WFlush) b) /\
      forall m, run (over (bin_writer sw) mem_h) p (tt, m) = Done (tt, m ++ bs) None).
  { induction Hxs as [|x xs (Hh & Hx) _ IH].
    - exists O, []. split; [constructor|]. intros n _. exists (Ret None). split; [constructor|]. split; [reflexivity|]. intros m. cbn. now rewrite app_nil_r.
    - destruct IH as (N & bs & M & W). pose proof Hx as (Pt & Ht & Hf & Hp & Hq).
      destruct (bin_exchange env P Henv Hids Hsup sw sr rsize x ltac:(lia) Hst Hh Hx) as (N1 & l1 & r1 & _ & (tv & S & ->) & W1 & _).
      destruct (send_halts x Pt Ht Hp) as (N2 & H2). exists (N + N1 + N2)%nat, (bin_message sw (mh_name (x_head x)) (mh_type (x_head x)) (mh_id (x_head x)) ++ binary_encoding tv ++ bs). split.
      + apply ms_cons with (tv := tv); [|exact S|reflexivity|exact M]. unfold binary_head. destruct sw; reflexivity.
      + intros n Hn. destruct (W n ltac:(lia)) as (p & Hp0 & Ep & Wp). exists (send env n x >>! p). split; [apply halts_then; [apply H2; lia|exact Hp0]|]. split.
        * intros h b. cbn [send_all]. rewrite !run_and_then. destruct (run h (send env n x) b) as [b1 [e|]|c]; cbn [obind]; auto.
          now rewrite Ep, run_and_then.
        * intros m. rewrite run_and_then, W1 by lia. cbn [obind]. rewrite Wp, <- !app_assoc. reflexivity. }
  destruct H as (N & bs & M & W).
  destruct (receive_served (over (bin_reader sr) (bufio_h rsize)) (bin_rd rsize) binary_format (binary_head sw) xs) as (N2 & R).
  { eapply Forall_impl; [|exact Hxs]. intros x (Hh & Hx). exact (bin_handled sw sr rsize x Hr Hst Hh Hx). }
  exists (N + N2)%nat, bs. split; [exact M|]. intros n Hn. destruct (W n ltac:(lia)) as (p & Hp & Ep & Wp).
  destruct (halts_faulty wsize Hw (bin_writer sw) (bin_loud sw) p Hp tt (new_bwriter s) [] tt bs) as ([] & b1 & r1 & E1 & C).
  { rewrite <- He. apply winv_new. exact Hw. } { reflexivity. } { exact (Wp []). }
  assert (G : exists b r, run (over (bin_writer sw) (bufw_h wsize)) (send_all env n xs) (tt, new_bwriter s) = Done (tt, b) r /\
     exists q, received (wsink b) ++ q = bs /\ (r = None -> q = [])).
  { rewrite Ep, run_and_then, E1. cbn [obind]. destruct C as [(-> & _ & He1 & Hw1)|(Hr1 & q & Hq)].
    - rewrite run_call. destruct (over (bin_writer sw) (bufw_h wsize) _ WFlush (tt, b1)) as [[[] b2] r2|c] eqn:E2.
      + exists b2, r2. split; [reflexivity|]. destruct r2 as [er|].
        * unfold over in E2. cbn [fst snd] in E2. destruct (run (bufw_h wsize) (bin_writer sw _ WFlush tt) b1) as [b3 [[] y]|] eqn:E3; [|discriminate].
          cbn [obind] in E2. injection E2 as -> ->.
          destruct (loud_mem wsize Hw _ _ (bin_loud sw _ WFlush tt) b1 bs bs (tt, None) Hw1 He1 eq_refl) as (b4 & a4 & E4 & C4).
          rewrite E3 in E4. injection E4 as <- <-. destruct C4 as [(C4 & _)|(_ & q & Hq)]; [discriminate|]. exists q. split; [exact Hq|discriminate].
        * destruct (bin_good_flush wsize sw Hw tt b1 bs tt b2 Hw1 E2) as (_ & -> & _). exists []. rewrite app_nil_r. auto.
      + exfalso. unfold over in E2. cbn [fst snd] in E2.
        destruct (loud_mem wsize Hw _ _ (bin_loud sw _ WFlush tt) b1 bs bs (tt, None) Hw1 He1 eq_refl) as (b4 & [[] a4] & E4 & _). rewrite E4 in E2. discriminate.
    - destruct r1 as [er|]; [|congruence]. exists b1, (Some er). split; [reflexivity|]. exists q. split; [exact Hq|discriminate]. }
  destruct G as (b & r & G1 & G2). exists b, r. split; [exact G1|]. split; [exact G2|].
  intros src e q n' Hg Hb Hfin Hn'. destruct (R bs M n' (tt, new_breader src) e (src_bytes src) q ltac:(lia) Hb) as ([[] b'] & ms & E & Sv).
  { split; [apply binv_new; [lia|exact Hg]|]. cbn [snd]. rewrite abs_new. now rewrite Hfin. }
  exists b', ms. auto.
Qed.

(** ** Compact *)
Definition cmp_hd (h : mhdr) (l : list byte) : Prop := l = cmp_message (mh_name h) (mh_type h) (mh_id h).
Definition cmp_rd (size : Z) (s : creader * breader) (d : list byte) (e : err) : Prop :=
  cr_bool (fst s) = BNone /\ binv size (snd s) /\ abs (snd s) = mkStream d (FErr e).

Lemma cmp_handled size x : 10 <= size -> cmp_head (x_head x) -> 0 <= mh_id (x_head x) -> sendable env P (2 ^ 63) x ->
  exists N, handled (over cmp_reader (bufio_h size)) (cmp_rd size) compact_format cmp_hd N x.
Proof using Henv Hids Hsup.
  intros Hz Hh Hid0 Hx. pose proof Hh as (Hty & Hid & Hnm). pose proof Hx as (Pt & Ht & Hf & Hp & Hq).
  destruct (stands_image env P Henv Hsup _ _ Pt Ht) as (_ & _ & tv & S & _).
  pose proof (stands_wf env P Hsup Henv Hids (2 ^ 63) _ _ tv ltac:(lia) Pt Ht Hf S) as Hw.
  destruct (plan_gives env P Henv Hids Hsup (2 ^ 63) x tv ltac:(lia) Hx S) as (o & A & G).
  assert (R : exists M, forall n b cr l rest e, (M <= n)%nat -> compact_encoding tv l -> binv size b -> cr_bool cr = BNone ->
     abs b = mkStream (l ++ rest) (FErr e) ->
     exists b', run (over cmp_reader (bufio_h size))
       (match x_plan x with
        | inl (u, dst) => Unmarshal env n n (Some (RtPtr u, GPtr (Some dst)))
        | inr wt => e <- skip n wt ;; Ret (None, e)
        end) (cr, b) = Done (cr, b') (o, None) /\ binv size b' /\ abs b' = mkStream rest (FErr e)).
  { clear A. destruct (x_plan x) as [[u dst]|wt].
    - destruct G as (v' & a & l & -> & L & Wt & (M & D)). exists (M + l)%nat. intros n b cr lc rest e Hn Hlc Hb Hcr Hd.
      rewrite (Unmarshal_ptr env _ n n u dst a _ (lookup_more env l n _ _ ltac:(lia) L)), Wt.
      destruct (cmp_unmarshal env size b n n a dst tv lc _ rest cr e Hz Hb Hw (compact_enc_wrap tv lc _ Hw Hlc) Hcr
                  (D n n ltac:(lia) ltac:(lia)) Hd) as (st' & b' & E' & H1 & H2).
      exists b'. rewrite E'. cbn [obind fst snd]. destruct (H2 eq_refl) as [-> H3]. auto.
    - destruct G as (-> & ->). exists (vsize tv). intros n b cr lc rest e Hn Hlc Hb Hcr Hd.
      destruct (cmp_skip_back size b tv lc rest n cr e Hz Hb Hw Hn (compact_enc_wrap tv lc _ Hw Hlc) Hcr Hd) as (b' & E' & H1 & H2).
      exists b'. rewrite run_bind, E'. cbn [obind run]. auto. }
  assert (U : exists M, forall u dst, x_plan x = inl (u, dst) -> forall p s n,
     breaks (over cmp_reader (stream_h size)) canon p tv s -> (M <= n)%nat -> exists s' v er,
     run (over cmp_reader (stream_h size)) (Unmarshal env n n (Some (RtPtr u, GPtr (Some dst)))) s = Done s' (Some v, Some er) /\
     partly env p u dst tv v).
  { destruct (x_plan x) as [[u dst]|wt]; [|exists O; discriminate]. destruct Hq as (Pu & Hd & (Rl & Hr & HR)).
    destruct (Unmarshal_breaks (over cmp_reader (stream_h size)) canon env P (2 ^ 63) u dst tv canon_val_type canon_vsize
      (fun ln n => decode_canon env ln n) Hsup Henv Hids Hw Pu Hd (agree_conforms env Rl HR _ _ tv u S Hr)) as (M & H).
    exists M. intros u' dst' E. injection E as <- <-. exact H. }
  destruct U as (M & U). destruct R as (N & R). exists (N + M + vsize tv)%nat. intros hl l tv' Eh S' Et n [st b] e Hn.
  rewrite (stands_fun env Hids _ _ tv' S' tv S) in *. clear tv' S'. cbn [fm_enc compact_format] in Et.
  unfold cmp_hd in Eh.
  assert (Hr : forall d, abs b = mkStream (hl ++ d) (FErr e) -> binv size b ->
    exists b1, over cmp_reader (bufio_h size) _ RMessageBegin (st, b) = Done (st, b1) (x_head x, None) /\ binv size b1 /\ abs b1 = mkStream d (FErr e)).
  { intros d Ab Hb. destruct (cmp_read_any size (call RMessageBegin) st st b (x_head x, None) (mkStream d (FErr e)) ltac:(lia) Hb) as (b1 & E1 & Hb1 & Ab1).
    - rewrite Ab, Eh. destruct (x_head x) as [nm ty id]. cbn [mh_name mh_type mh_id] in *.
      rewrite cmp_message_read; auto; try discriminate; [|unfold is_u8; lia]. now rewrite Z.mod_small.
    - rewrite run_call in E1. eauto. }
  split.
  - intros d (Hcr & Hb & Ab). cbn [fst snd] in *. destruct (Hr (l ++ d) Ab Hb) as (b1 & E1 & Hb1 & Ab1).
    destruct (R n b1 st l d e ltac:(lia) Et Hb1 Hcr Ab1) as (b2 & E2 & Hb2 & Ab2).
    exists (st, b2), (x_head x, o, None). unfold receive. rewrite run_bind, run_call, E1. cbn [obind]. rewrite run_bind, E2. cbn [obind].
    rewrite run_bind, run_call. split; [reflexivity|]. split; [exact A|]. split; [exact Hcr|]. split; assumption.
  - intros d xs Hd (Hcr & Hb & Ab). cbn [fst snd] in *. unfold receive. rewrite run_bind, run_call.
    apply begins_app in Hd as [Hd|(d' & -> & Hd)].
    + pose proof Hd as (q & Hq0 & Ed). pose proof (cmp_message_conforms (mh_name (x_head x)) (mh_type (x_head x)) (mh_id (x_head x)) ltac:(unfold is_i32 in Hid; lia) Hnm) as Cf.
      rewrite <- Eh in Cf. apply (proj2 (proj2 (proj2 C73_parts))) in Cf as (ps & Hps & Eps).
      destruct (C73_compact_message size _ _ _ ps st b d q e Hz Hb Hnm Hty Hps ltac:(congruence) Hq0 Ab) as (st' & b' & m & er & E & C).
      rewrite E. cbn [obind run]. exists (st', b'), (m, None), er. split; [reflexivity|].
      eapply sv_header; eauto. intros ->. eapply cut_at_once; exact C.
    + destruct (Hr d' Ab Hb) as (b1 & E1 & Hb1 & Ab1). rewrite E1. cbn [obind]. rewrite run_bind. pose proof Hd as (q & Hq0 & Ed).
      destruct (parts_of tv l Et) as (ps & Hps & Eps).
      assert (C : exists st' b' o er, run (over cmp_reader (bufio_h size))
          (match x_plan x with
           | inl (u, dst) => Unmarshal env n n (Some (RtPtr u, GPtr (Some dst)))
           | inr wt => e <- skip n wt ;; Ret (None, e)
           end) (st, b1) = Done (st', b') (o, Some er) /\
         match x_plan x with
         | inl (u, dst) => exists p v, came compact_format p tv d' /\ partly env p u dst tv v /\ o = Some v
         | inr _ => o = None
         end).
      { destruct (x_plan x) as [[u dst]|wt].
        - destruct (cmp_lefts size Hz e tv Hw ps Hps st d' q Hcr ltac:(congruence) Hq0) as (p & C & B).
          destruct (U u dst eq_refl p _ n B ltac:(lia)) as ([st' s'] & v & er & E & Pt').
          rewrite <- Ab1 in E. destruct (cmp_read_any size _ st st' b1 _ _ ltac:(lia) Hb1 E) as (b2 & E2 & _ & _).
          exists st', b2, (Some v), er. eauto 6.
        - assert (wt = val_type tv) as -> by (eapply thrift_type_fun; [exact Hq|]; clear -S; now apply stands_type in S).
          destruct (C73_compact_value size n tv ps st b1 d' q e Hz Hb1 Hw ltac:(lia) Hcr Hps ltac:(congruence) Hq0 Ab1) as (_ & st' & b2 & er & E2 & _).
          exists st', b2, None, er. rewrite run_bind, E2. auto. }
      destruct C as (st' & b2 & o' & er & E2 & C). rewrite E2. cbn [obind run]. exists (st', b2), (x_head x, o'), er. split; [reflexivity|].
      eapply sv_value; eauto.
Qed.

(** The headers cmp_hd describes are those of the specification. *)
Lemma messages_head xs bs : Forall (fun x => cmp_head (x_head x) /\ 0 <= mh_id (x_head x)) xs ->
  messages env compact_format cmp_hd xs bs -> messages env compact_format compact_head xs bs.
Proof using Type.
  intros H M. induction M as [|x xs tv h l r Hh S El M IH]; [constructor|]. inversion_clear H as [|? ? ((_ & Hid & Hnm) & H0) H1].
  eapply ms_cons; eauto. unfold compact_head. rewrite Hh. apply cmp_message_conforms; unfold is_i32 in Hid; auto; lia.
Qed.
Lemma served_head e xs d ms : Forall (fun x => cmp_head (x_head x) /\ 0 <= mh_id (x_head x)) xs ->
  served env compact_format cmp_hd e xs d ms -> served env compact_format compact_head e xs d ms.
Proof using Type.
  intros H M.
  assert (G : forall x h, cmp_head (x_head x) /\ 0 <= mh_id (x_head x) -> cmp_hd (x_head x) h -> compact_head (x_head x) h).
  { intros x h ((_ & Hid & Hnm) & H0) ->. apply cmp_message_conforms; unfold is_i32 in Hid; auto; lia. }
  induction M; [constructor|inversion_clear H; eapply sv_whole; eauto|inversion_clear H; eapply sv_header; eauto|inversion_clear H; eapply sv_value; eauto].
Qed.

Theorem cmp_crash wsize rsize s xs : 0 < wsize -> 10 <= rsize -> received s = [] ->
  Forall (fun x => cmp_head (x_head x) /\ 0 <= mh_id (x_head x) /\ sendable env P (2 ^ 63) x) xs ->
  exists N, forall n, (N <= n)%nat -> exists bs cw b r,
      messages env compact_format compact_head xs bs /\
      run (over cmp_writer (bufw_h wsize)) (send_all env n xs) (cw0, new_bwriter s) = Done (cw, b) r /\
      (exists q, received (wsink b) ++ q = bs /\ (r = None -> q = [])) /\
      forall src e q n' cr, good_source src -> src_bytes src ++ q = bs -> src_fin src = FErr e -> cr_bool cr = BNone -> (N <= n')%nat ->
        exists cr' b' ms,
          run (over cmp_reader (bufio_h rsize)) (receive_until env n' (map x_plan xs)) (cr, new_breader src) = Done (cr', b') ms /\
          served env compact_format compact_head e xs (src_bytes src) ms.
Proof using Henv Hids Hsup.
  intros Hw Hr He Hxs.
  assert (Hhd : Forall (fun x => cmp_head (x_head x) /\ 0 <= mh_id (x_head x)) xs).
  { eapply Forall_impl; [|exact Hxs]. intros x (? & ? & _). auto. }
  assert (H : exists N, forall n, (N <= n)%nat -> forall st m, fh_type (cw_bool st) = T_Stop -> exists p bs st', halts p /\
      messages env compact_format cmp_hd xs bs /\
      (forall h : handler wireW (cwriter * bwriter), forall b, run h (send_all env n xs) b = run h (p >>! call WFlush) b) /\
      run (over cmp_writer mem_h) p (st, m) = Done (st', m ++ bs) None).
  { clear Hhd. induction Hxs as [|x xs (Hh & _ & Hx) _ IH].
    - exists O. intros n _ st m _. exists (Ret None), [], st. split; [constructor|]. split; [constructor|]. split; [reflexivity|]. cbn. now rewrite app_nil_r.
    - destruct IH as (N & W). pose proof Hx as (Pt & Ht & Hf & Hp & Hq).
      destruct (cmp_exchange env P Henv Hids Hsup rsize x Hr Hh Hx) as (N1 & r1 & _ & W1).
      destruct (send_halts x Pt Ht Hp) as (N2 & H2). exists (N + N1 + N2)%nat. intros n Hn st m Hst.
      destruct (W1 n st m ltac:(lia) Hst) as (l1 & st1 & Hst1 & (tv & lc & S & Hlc & ->) & E1 & _).
      destruct (W n ltac:(lia) st1 (m ++ cmp_message (mh_name (x_head x)) (mh_type (x_head x)) (mh_id (x_head x)) ++ lc) Hst1) as (p & bs & st2 & Hp0 & M & Ep & E2).
      exists (send env n x >>! p), (cmp_message (mh_name (x_head x)) (mh_type (x_head x)) (mh_id (x_head x)) ++ lc ++ bs), st2.
      split; [apply halts_then; [apply H2; lia|exact Hp0]|]. split.
      { apply ms_cons with (tv := tv); [reflexivity|exact S|exact Hlc|exact M]. }
      split.
      + intros h b. cbn [send_all]. rewrite !run_and_then. destruct (run h (send env n x) b) as [b1 [e|]|c]; cbn [obind]; auto.
        now rewrite Ep, run_and_then.
      + rewrite run_and_then, E1. cbn [obind]. rewrite E2, <- !app_assoc. reflexivity. }
  destruct H as (N & W).
  destruct (receive_served (over cmp_reader (bufio_h rsize)) (cmp_rd rsize) compact_format cmp_hd xs) as (N2 & R).
  { eapply Forall_impl; [|exact Hxs]. intros x (Hh & H0 & Hx). exact (cmp_handled rsize x Hr Hh H0 Hx). }
  exists (N + N2)%nat. intros n Hn. destruct (W n ltac:(lia) cw0 [] eq_refl) as (p & bs & st' & Hp & M & Ep & Wp). cbn [app] in Wp.
  destruct (halts_faulty wsize Hw cmp_writer cmp_loud p Hp cw0 (new_bwriter s) [] st' bs) as (st1 & b1 & r1 & E1 & C).
  { rewrite <- He. apply winv_new. exact Hw. } { reflexivity. } { exact Wp. }
  assert (G : exists cw b r, run (over cmp_writer (bufw_h wsize)) (send_all env n xs) (cw0, new_bwriter s) = Done (cw, b) r /\
     exists q, received (wsink b) ++ q = bs /\ (r = None -> q = [])).
  { rewrite Ep, run_and_then, E1. cbn [obind]. destruct C as [(-> & _ & He1 & Hw1)|(Hr1 & q & Hq)].
    - rewrite run_call.
      assert (Fm : run mem_h (cmp_writer _ WFlush st1) bs = Done bs (st1, None)).
      { cbn [cmp_writer]. unfold liftw. rewrite run_bind, run_and_then, run_call. cbn [mem_h obind]. destruct (cw_uw st1); reflexivity. }
      destruct (loud_mem wsize Hw _ _ (cmp_loud _ WFlush st1) b1 bs bs (st1, None) Hw1 He1 Fm) as (b4 & [st4 r4] & E4 & C4).
      assert (E5 : over cmp_writer (bufw_h wsize) _ WFlush (st1, b1) = Done (st4, b4) r4) by (unfold over; cbn [fst snd]; now rewrite E4).
      rewrite E5. exists st4, b4, r4. split; [reflexivity|]. destruct r4 as [er|].
      + destruct C4 as [(C4 & _)|(_ & q & Hq)]; [discriminate|]. exists q. split; [exact Hq|discriminate].
      + destruct (cmp_good_flush wsize st1 b1 bs st4 b4 Hw Hw1 E5) as (_ & -> & _). exists []. rewrite app_nil_r. auto.
    - destruct r1 as [er|]; [|congruence]. exists st1, b1, (Some er). split; [reflexivity|]. exists q. split; [exact Hq|discriminate]. }
  destruct G as (cw & b & r & G1 & G2). exists bs, cw, b, r. split; [now apply messages_head|]. split; [exact G1|]. split; [exact G2|].
  intros src e q n' cr Hg Hb Hfin Hcr Hn'. destruct (R bs M n' (cr, new_breader src) e (src_bytes src) q ltac:(lia) Hb) as ([cr' b'] & ms & E & Sv).
  { split; [exact Hcr|]. split; [apply binv_new; [lia|exact Hg]|]. cbn [snd]. rewrite abs_new. now rewrite Hfin. }
  exists cr', b', ms. split; [exact E|]. now apply served_head.
Qed.
End Pipe.
