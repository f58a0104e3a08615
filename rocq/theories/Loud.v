(** The call during which the transport fails is the one that reports it. *)
From Verif Require Import Base BaseLemmas Prog BufioW BufioWProof Wire Binary BinaryProof Compact CompactProof Ideal Faults.

(** [writes_ok s s']: between [s] and [s'] no Write of the io.Writer failed:
    the answers used up are all "everything accepted". *)
Definition writes_ok (s s' : sink) : Prop :=
  exists k, s_resp s' = skipn k (s_resp s) /\ Forall (eq None) (firstn k (s_resp s)).

Lemma writes_ok_refl s : writes_ok s s.
Proof. exists O. split; [reflexivity|constructor]. Qed.

Lemma skipn_cons {A} (l : list A) : forall k a r, skipn k l = a :: r ->
  skipn (S k) l = r /\ firstn (S k) l = firstn k l ++ [a].
Proof.
  induction l as [|x l IH]; intros [|k] a r H; cbn in H; try discriminate.
  - injection H as -> ->. split; reflexivity.
  - destruct (IH k a r H) as [H1 H2]. split; [exact H1|]. cbn [firstn app] in *. now rewrite H2.
Qed.

Lemma sink_write_ok s p s1 s2 n : writes_ok s s1 -> sink_write p s1 = (s2, (n, None)) -> writes_ok s s2.
Proof.
  intros (k & Hk & Hf) H. unfold sink_write in H.
  destruct (s_resp s1) as [|[[z e]|] r] eqn:E; inversion H; subst; clear H.
  - exists k. cbn [s_resp]. auto.
  - symmetry in Hk. destruct (skipn_cons _ _ _ _ Hk) as [H1 H2]. exists (S k). cbn [s_resp].
    split; [auto|]. rewrite H2. apply Forall_app. auto.
Qed.

Lemma bw_flush_ok s b b' e : writes_ok s (wsink b) -> bw_flush b = (b', e) -> werr b' = None -> writes_ok s (wsink b').
Proof.
  intros Hw H Hn. unfold bw_flush in H. destruct (werr b) as [er|] eqn:Ee; [inversion H; subst; congruence|].
  destruct (wbuf b) as [|c r] eqn:Eb; [inversion H; subst; assumption|].
  destruct (sink_write (c :: r) (wsink b)) as [s' [n [er|]]] eqn:Es.
  - rewrite andb_false_r in H. inversion H; subst. discriminate.
  - destruct ((n <? zlen (c :: r)) && is_none None) eqn:E; inversion H; subst; [discriminate|].
    cbn [wsink]. eapply sink_write_ok; eauto.
Qed.

Lemma loop_err size direct : forall fuel p b b' p' er, werr b = Some er ->
  bw_write_loop size direct fuel p b = Done b' p' -> b' = b.
Proof.
  intros [|f] p b b' p' er He H; cbn [bw_write_loop] in H; rewrite He in H; cbn [is_none] in H;
    rewrite andb_false_r in H; now inversion H.
Qed.

Lemma bw_write_loop_ok s size direct : forall fuel p b b' p', writes_ok s (wsink b) ->
  bw_write_loop size direct fuel p b = Done b' p' -> werr b' = None -> writes_ok s (wsink b').
Proof.
  induction fuel as [|f IH]; intros p b b' p' Hw H Hn; cbn [bw_write_loop] in H.
  - destruct (_ && _); [discriminate|]. now inversion H; subst.
  - destruct (_ && _); [|now inversion H; subst]. destruct ((zlen (wbuf b) =? 0) && direct).
    + destruct (sink_write p (wsink b)) as [s' [n [er|]]] eqn:Es.
      * apply (loop_err _ _ _ _ _ _ _ er) in H; [|reflexivity]. subst b'. discriminate.
      * apply IH in H; auto. cbn [wsink]. eapply sink_write_ok; eauto.
    + match type of H with context [bw_flush ?b0] => destruct (bw_flush b0) as [b1 e1] eqn:Ef end.
      destruct (werr b1) as [er|] eqn:E1.
      * apply (loop_err _ _ _ _ _ _ _ er) in H; auto. subst b'. congruence.
      * apply IH in H; auto. eapply bw_flush_ok; [|exact Ef|exact E1]. exact Hw.
Qed.

(** The error a call on the buffer returned. *)
Definition errB {X} (e : bufW X) : X -> option err :=
  match e in bufW X return X -> option err with
  | BWWrite _ | BWWriteString _ | BWWriteByte _ | BWEnsure _ | BWFlush | BWUnderFlush => fun x => x
  end.

Lemma flush_returns b b' e : bw_flush b = (b', e) -> werr b' = e.
Proof.
  unfold bw_flush. destruct (werr b) eqn:Ee; intros H; [inversion H; subst; auto|].
  destruct (wbuf b) as [|c r]; [inversion H; subst; auto|].
  destruct (sink_write (c :: r) (wsink b)) as [s' [n e1]].
  destruct (if _ && _ then _ else _); inversion H; subst; reflexivity.
Qed.

(** One call on the buffer, no error pending before it: if none is pending
    after it either then no Write failed; otherwise the call returned one. *)
Lemma step_loud s size X (e : bufW X) b b' x : werr b = None -> writes_ok s (wsink b) ->
  bufw_h size X e b = Done b' x ->
  (werr b' = None -> writes_ok s (wsink b')) /\ (werr b' <> None -> errB e x <> None).
Proof.
  intros He Hw H.
  assert (G : forall direct p (x : option err), bw_write_gen size direct p b = Done b' x ->
    (werr b' = None -> writes_ok s (wsink b')) /\ (werr b' <> None -> x <> None)).
  { clear H. intros direct p y H. unfold bw_write_gen in H.
    destruct (bw_write_loop size direct (3 + length p) p b) as [b1 p1|c] eqn:E; [|discriminate].
    cbn [obind] in H. destruct (werr b1) as [er|] eqn:E1; inversion H; subst; clear H; cbn [werr wsink].
    - split; [congruence|discriminate].
    - split; [|congruence]. intros _. eapply bw_write_loop_ok; eauto. }
  assert (F : forall b1 e1, bw_flush b = (b1, e1) ->
    (werr b1 = None -> writes_ok s (wsink b1)) /\ (werr b1 <> None -> e1 <> None)).
  { intros b1 e1 Hf. split; [intros; eapply bw_flush_ok; eauto|]. rewrite (flush_returns _ _ _ Hf). auto. }
  destruct e as [p|p|c|n| |]; cbn [bufw_h errB] in *.
  - exact (G _ _ _ H).
  - exact (G _ _ _ H).
  - unfold bw_write_byte in H. rewrite He in H. destruct (size - zlen (wbuf b) <=? 0).
    + destruct (bw_flush b) as [b1 [e1|]] eqn:Ef; destruct (F _ _ eq_refl) as [F1 F2];
        inversion H; subst; clear H; cbn [werr wsink]; pose proof (flush_returns _ _ _ Ef); split; auto; congruence.
    + inversion H; subst; cbn [werr wsink]. split; auto; congruence.
  - destruct (size - zlen (wbuf b) >=? n).
    + inversion H; subst. split; auto.
    + destruct (bw_flush b) as [b1 e1] eqn:Ef. inversion H; subst. eauto.
  - destruct (bw_flush b) as [b1 e1] eqn:Ef. inversion H; subst. eauto.
  - unfold sink_flush in H. destruct (s_flusher (wsink b)); inversion H; subst; cbn [werr wsink]; split; auto; congruence.
Qed.

(** A program that gives up, with an error, as soon as the buffer returns one. *)
Fixpoint loud {A} (proj : A -> option err) (p : prog bufW A) : Prop :=
  match p with
  | Ret _ => True
  | Crash _ => True
  | Vis e k => forall x,
      (errB e x <> None -> exists a, k x = Ret a /\ proj a <> None) /\ loud proj (k x)
  end.

Lemma loud_run s size {A} (proj : A -> option err) (p : prog bufW A) : loud proj p ->
  forall b b' a, werr b = None -> writes_ok s (wsink b) -> run (bufw_h size) p b = Done b' a ->
  (werr b' = None -> writes_ok s (wsink b')) /\ (werr b' <> None -> proj a <> None).
Proof.
  induction p as [a0|X e k IH|c]; intros Hl b b' a He Hw H; cbn [run] in H; [| |discriminate].
  - inversion H; subst. split; auto; congruence.
  - destruct (bufw_h size X e b) as [b1 x|c] eqn:E; [|discriminate].
    destruct (step_loud s size X e b b1 x He Hw E) as [S1 S2]. cbn [loud] in Hl. destruct (Hl x) as [L1 L2].
    destruct (werr b1) as [er|] eqn:E1.
    + destruct (L1 (S2 ltac:(discriminate))) as (a1 & Ek & Ha). rewrite Ek in H. cbn [run] in H.
      inversion H; subst. split; [congruence|auto].
    + apply (IH x L2 b1 b' a E1 (S1 eq_refl) H).
Qed.

(** [loud] through the sequencing operators. *)
Lemma loud_map {A B} (pa : A -> option err) (pb : B -> option err) (p : prog bufW A) (f : A -> B) :
  (forall a, pa a <> None -> pb (f a) <> None) -> loud pa p -> loud pb (bind p (fun a => Ret (f a))).
Proof.
  intros Hf. induction p as [a|X e k IH|c]; cbn; auto. intros H x. destruct (H x) as [H1 H2]. split; auto.
  intros Hx. destruct (H1 Hx) as (a & -> & Ha). exists (f a). split; [reflexivity|auto].
Qed.

Lemma loud_then (p q : prog bufW (option err)) :
  loud (fun x => x) p -> loud (fun x => x) q -> loud (fun x => x) (p >>! q).
Proof.
  unfold and_then. intros Hp Hq. induction p as [a|X e k IH|c]; cbn; auto; [destruct a; cbn; auto|].
  intros x. destruct (Hp x) as [H1 H2]. split; auto.
  intros Hx. destruct (H1 Hx) as (a & -> & Ha). cbn. destruct a; [|congruence]. eauto.
Qed.

Lemma loud_call (e : bufW (option err)) : (forall x, errB e x = x) -> loud (fun x => x) (call e).
Proof. intros H x. cbn. rewrite H. split; [|exact I]. intros Hx. exists x. auto. Qed.

Ltac ld := repeat first
  [ exact I
  | apply loud_then
  | (apply loud_call; reflexivity)
  | match goal with
    | |- loud _ (match ?x with _ => _ end) => destruct x
    | |- loud _ (if ?x then _ else _) => destruct x
    end ].

Lemma bin_loud strict X (e : wireW X) st : loud (fun r => errW e (snd r)) (bin_writer strict X e st).
Proof.
  unfold bin_writer. destruct e; cbn [bin_write errW];
    (apply (loud_map (fun x => x)); [intros a Ha; exact Ha|]);
    unfold bin_write_message_begin, bin_write_string, bin_write_bytes, bin_write_set_begin, bin_write_size,
      bin_write_type, bin_write_i64, bin_write_i32, bin_write_i16; ld;
    unfold bin_write_string, bin_write_size, bin_write_type, bin_write_i32; ld.
Qed.

Lemma append_write_loud max r : loud (fun x => x) (append_write max r).
Proof. unfold append_write. ld. Qed.

Lemma liftw_loud st (p : prog bufW (option err)) : loud (fun x => x) p -> loud snd (liftw st p).
Proof. intros H. unfold liftw. apply (loud_map (fun x => x)); auto. Qed.

(** A program whose error is passed on, with whatever state. *)
Lemma loud_pass {A B} (pa : A -> option err) (pb : B -> option err) (p : prog bufW A) (f : A -> prog bufW B) :
  (forall a, pa a <> None -> exists b, f a = Ret b /\ pb b <> None) -> (forall a, loud pb (f a)) ->
  loud pa p -> loud pb (bind p f).
Proof.
  intros Hf Hl. induction p as [a|X e k IH|c]; cbn; auto. intros H x. destruct (H x) as [H1 H2]. split; auto.
  intros Hx. destruct (H1 Hx) as (a & -> & Ha). cbn. auto.
Qed.

Lemma field_header_loud st h v : loud snd (cmp_write_field_header st h v).
Proof.
  unfold cmp_write_field_header. apply (loud_pass (fun x => x)); [| |apply append_write_loud].
  - intros [a|] Ha; [|congruence]. eexists. split; [reflexivity|]. exact Ha.
  - intros [a|]; exact I.
Qed.

Lemma cmp_loud X (e : wireW X) st : loud (fun r => errW e (snd r)) (cmp_writer X e st).
Proof.
  destruct e; cbn [cmp_writer errW]; try exact I;
    try (apply liftw_loud; apply append_write_loud);
    try (apply liftw_loud; unfold cmp_write_message_begin, cmp_write_string, cmp_write_bytes, cmp_write_i64,
      cmp_write_size, cmp_write_uvarint; ld; unfold cmp_write_string, cmp_write_size, cmp_write_uvarint; ld).
  - destruct (cw_ids st); [exact I|]. apply liftw_loud. ld.
  - destruct (fh_type h =? T_Bool); [exact I|]. apply field_header_loud.
  - destruct (negb _); [|apply liftw_loud; ld].
    apply (loud_pass snd); [| |apply field_header_loud].
    + intros [st' [a|]] Ha; cbn in *; [|congruence]. eexists. split; [reflexivity|]. discriminate.
    + intros [st' [a|]]; exact I.
Qed.

Section Calls.
Context {St : Type} (L : layer wireW bufW St) (size : Z) (s : sink).
Hypothesis HL : forall X (e : wireW X) st, loud (fun r => errW e (snd r)) (L X e st).
Hypothesis HR : forall b er, werr b = Some er -> forall X (e : wireW X) st,
  exists st' x, over L (bufw_h size) X e (st, b) = Done (st', b) x.

Lemma calls_clean l : forall st b st' b' xs, (werr b = None -> writes_ok s (wsink b)) ->
  do_calls (over L (bufw_h size)) l (st, b) = Done (st', b') xs ->
  werr b' = None -> writes_ok s (wsink b').
Proof.
  induction l as [|[X e] l IH]; intros st b st' b' xs Hw H; cbn [do_calls] in H; [inversion H; subst; auto|].
  destruct (over L (bufw_h size) X e (st, b)) as [[st1 b1] x|c] eqn:E; [|discriminate]. cbn [obind] in H.
  destruct (do_calls (over L (bufw_h size)) l (st1, b1)) as [[st2 b2] ys|c] eqn:E2; [|discriminate].
  cbn [obind] in H. inversion H; subst; clear H. apply (IH _ _ _ _ _ ) with (2 := E2).
  destruct (werr b) as [er|] eqn:Ee.
  - destruct (HR b er Ee X e st) as (st3 & y & E3). rewrite E3 in E. inversion E; subst. congruence.
  - unfold over in E. cbn [fst snd] in E. destruct (run (bufw_h size) (L X e st) b) as [b3 [st3 y]|c] eqn:E3; [|discriminate].
    inversion E; subst. apply (loud_run s size _ _ (HL X e st) b b1 (st1, x) Ee (Hw eq_refl) E3).
Qed.

Theorem fault_reported l st0 st b xs X (e : wireW X) st' b' x :
  do_calls (over L (bufw_h size)) l (st0, new_bwriter s) = Done (st, b) xs ->
  over L (bufw_h size) X e (st, b) = Done (st', b') x ->
  writes_ok s (wsink b) -> ~ writes_ok s (wsink b') -> errW e x <> None.
Proof.
  intros H1 H2 Hok Hbad. destruct (werr b) as [er|] eqn:Ee.
  - destruct (HR b er Ee X e st) as (st3 & y & E3). rewrite E3 in H2. inversion H2; subst. contradiction.
  - unfold over in H2. cbn [fst snd] in H2.
    destruct (run (bufw_h size) (L X e st) b) as [b3 [st3 y]|c] eqn:E3; [|discriminate].
    inversion H2; subst. destruct (loud_run s size _ _ (HL X e st) b b' (st', x) Ee Hok E3) as [A B].
    destruct (werr b') eqn:E4; [exact (B ltac:(discriminate))|]. exfalso. auto.
Qed.
End Calls.
