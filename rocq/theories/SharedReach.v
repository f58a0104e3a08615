(** What the calls on a Writer can reach: its own *bufio.Writer, whatever that
    writes to in the end, and nothing else. *)
From Verif Require Import Base BaseLemmas Prog BufioW Wire Binary Compact Objects SharedW.

(** [feeds w r r']: what is written to [r] may end up in [r']. *)
Inductive feeds (w : wworld) (r : iowriter) : iowriter -> Prop :=
| feeds_self : feeds w r r
| feeds_on k : feeds w r (WBuf k) -> feeds w r (wbo_wr (ww_buf w k)).

(** Outside the set [P] of io.Writers, [w] and [w'] agree; the *bufio.Writers write to what they wrote to before. *)
Definition apart (P : iowriter -> Prop) (w w' : wworld) : Prop :=
  (forall i, ~ P (WPlain i) -> ww_sink w' i = ww_sink w i) /\
  (forall k, ~ P (WBuf k) -> ww_buf w' k = ww_buf w k) /\
  (forall k, wbo_wr (ww_buf w' k) = wbo_wr (ww_buf w k)).
(** [P] is closed under what its members write to. *)
Definition shut (P : iowriter -> Prop) (w : wworld) : Prop := forall k, P (WBuf k) -> P (wbo_wr (ww_buf w k)).

Lemma apart_refl P w : apart P w w.
Proof. repeat split; auto. Qed.
Lemma apart_trans P w1 w2 w3 : apart P w1 w2 -> apart P w2 w3 -> apart P w1 w3.
Proof.
  intros (A1 & B1 & C1) (A2 & B2 & C2). split; [|split].
  - intros i H. rewrite A2, A1; auto.
  - intros k H. rewrite B2, B1; auto.
  - intros k. rewrite C2, C1. reflexivity.
Qed.
Lemma apart_shut P w w' : apart P w w' -> shut P w -> shut P w'.
Proof. intros (_ & _ & C) H k Hk. rewrite C. now apply H. Qed.
Lemma apart_sink (P : iowriter -> Prop) i s w : P (WPlain i) -> apart P w (put_sink i s w).
Proof.
  intros Hi. split; [|split]; cbn; auto. intros j Hj. unfold upd. destruct (Nat.eqb_spec j i); [subst; contradiction|reflexivity].
Qed.
Lemma apart_buf (P : iowriter -> Prop) k o w : P (WBuf k) -> wbo_wr o = wbo_wr (ww_buf w k) -> apart P w (put_wbuf k o w).
Proof.
  intros Hk E. split; [|split]; cbn; auto; intros j; unfold upd; destruct (Nat.eqb_spec j k); subst; auto. contradiction.
Qed.

Section within.
Context (P : iowriter -> Prop) (w0 : wworld).
(** Everything is said relative to the world at the start. *)
Definition ok_out {S X} (get : S -> wworld) (o : outcome S X) : Prop :=
  match o with Done s _ => apart P w0 (get s) | Crashed _ => True end.
Definition safe_wr (wr : list byte -> wworld -> outcome wworld (Z * option err)) : Prop :=
  forall p w, apart P w0 w -> ok_out (fun w => w) (wr p w).

Lemma ok_bind {S T X Y} (g : S -> wworld) (g' : T -> wworld) (o : outcome S X) (f : S -> X -> outcome T Y) :
  ok_out g o -> (forall s x, apart P w0 (g s) -> ok_out g' (f s x)) -> ok_out g' (obind o f).
Proof. intros H F. destruct o; cbn in *; auto. Qed.

Lemma ok_flush wr b : safe_wr wr -> apart P w0 (gw_w b) -> ok_out gw_w (gw_flush wr b).
Proof.
  intros S H. unfold gw_flush. destruct (gw_err b); [exact H|]. destruct (gw_buf b); [exact H|].
  eapply ok_bind; [now apply S|]. intros s [n e] Hs. cbv zeta. destruct (if _ && _ then _ else _); exact Hs.
Qed.
Lemma ok_loop wr size direct f : safe_wr wr -> (forall d, direct = Some d -> safe_wr d) ->
  forall p b, apart P w0 (gw_w b) -> ok_out gw_w (gw_write_loop wr size direct f p b).
Proof.
  intros S D. induction f as [|f IH]; intros p b H; cbn [gw_write_loop]; destruct (_ && _); try exact H; try exact I.
  destruct (if zlen (gw_buf b) =? 0 then direct else None) as [d|] eqn:E.
  - eapply ok_bind; [apply (D d); [destruct (_ =? 0) in E; [exact E|discriminate]|exact H]|]. intros s x Hs. apply IH. exact Hs.
  - eapply ok_bind; [apply ok_flush; [exact S|exact H]|]. intros b' x Hb. now apply IH.
Qed.
Lemma ok_gen wr size direct p b : safe_wr wr -> (forall d, direct = Some d -> safe_wr d) ->
  apart P w0 (gw_w b) -> ok_out gw_w (gw_write_gen wr size direct p b).
Proof.
  intros S D H. unfold gw_write_gen. eapply ok_bind; [now apply ok_loop|]. intros b' r Hb. destruct (gw_err b'); exact Hb.
Qed.
Lemma ok_byte wr size c b : safe_wr wr -> apart P w0 (gw_w b) -> ok_out gw_w (gw_write_byte wr size c b).
Proof.
  intros S H. unfold gw_write_byte. destruct (gw_err b); [exact H|]. destruct (_ <=? 0); [|exact H].
  eapply ok_bind; [now apply ok_flush|]. intros b' e Hb. destruct e; exact Hb.
Qed.

Context (Sh : shut P w0).
Lemma back_apart k g w : P (WBuf k) -> apart P w0 w -> apart P w0 (gw_w g) ->
  apart P w0 (put_wbuf k (mkWBO (wbo_size (ww_buf w k)) (gw_buf g) (gw_err g) (wbo_wr (ww_buf w k))) (gw_w g)).
Proof.
  intros Hk Hw Hg. eapply apart_trans; [exact Hg|]. apply apart_buf; [exact Hk|]. cbn. destruct Hw as (_ & _ & C), Hg as (_ & _ & C'). now rewrite C, C'.
Qed.
Lemma target k w : P (WBuf k) -> apart P w0 w -> P (wbo_wr (ww_buf w k)).
Proof. intros Hk (_ & _ & C). rewrite C. now apply Sh. Qed.

Lemma ok_io d : forall str r, P r -> safe_wr (io_write d str r).
Proof using Sh.
  induction d as [|d IH]; intros str r Hr p w Hw; destruct r as [i|k]; cbn [io_write]; try exact I.
  - destruct (sink_write p (ww_sink w i)) as [s' x]. cbn. eapply apart_trans; [exact Hw|now apply apart_sink].
  - destruct (sink_write p (ww_sink w i)) as [s' x]. cbn. eapply apart_trans; [exact Hw|now apply apart_sink].
  - pose proof (target k w Hr Hw) as Ht. eapply ok_bind with (g := gw_w).
    + destruct str; unfold gw_write_string, gw_write; apply ok_gen; try exact Hw; try (now apply IH); intros dd E.
      * destruct (match wbo_wr (ww_buf w k) with WPlain i => _ | WBuf _ => _ end); [|discriminate]. injection E as <-. now apply IH.
      * injection E as <-. now apply IH.
    + intros g x Hg. now apply back_apart.
Qed.
Lemma ok_flush_buf d k w : P (WBuf k) -> apart P w0 w -> ok_out (fun w => w) (flush_buf d k w).
Proof using Sh.
  intros Hk Hw. unfold flush_buf. eapply ok_bind with (g := gw_w); [apply ok_flush; [apply ok_io; now apply target|exact Hw]|].
  intros g x Hg. now apply back_apart.
Qed.
Lemma ok_call d k under X (e : bufW X) w : P (WBuf k) -> (forall r, under = Some r -> P r) -> apart P w0 w ->
  ok_out (fun w => w) (wbuf_h d k under X e w).
Proof using Sh.
  intros Hk Hu Hw. pose proof (target k w Hk Hw) as Ht. destruct e; cbn [wbuf_h].
  - eapply ok_bind with (g := gw_w); [|intros g x Hg; now apply back_apart].
    eapply ok_bind with (g := gw_w); [|intros g x Hg; exact Hg]. apply ok_gen; [now apply ok_io|intros dd E; injection E as <-; now apply ok_io|exact Hw].
  - eapply ok_bind with (g := gw_w); [|intros g x Hg; now apply back_apart].
    eapply ok_bind with (g := gw_w); [|intros g x Hg; exact Hg]. apply ok_gen; [now apply ok_io| |exact Hw]. intros dd E.
    destruct (match wbo_wr (ww_buf w k) with WPlain i => _ | WBuf _ => _ end); [|discriminate]. injection E as <-. now apply ok_io.
  - eapply ok_bind with (g := gw_w); [apply ok_byte; [now apply ok_io|exact Hw]|]. intros g x Hg. now apply back_apart.
  - destruct (_ >=? _); [exact Hw|]. now apply ok_flush_buf.
  - now apply ok_flush_buf.
  - destruct under as [[i|j]|]; [| |exact Hw].
    + destruct (s_flusher (ww_sink w i)); [|exact Hw]. destruct (sink_flush (ww_sink w i)) as [s' e]. cbn.
      eapply apart_trans; [exact Hw|]. apply apart_sink. now apply Hu.
    + apply ok_flush_buf; [now apply Hu|exact Hw].
Qed.
Lemma ok_run d k under {A} (p : prog bufW A) : P (WBuf k) -> (forall r, under = Some r -> P r) -> forall w, apart P w0 w ->
  ok_out (fun w => w) (run (wbuf_h d k under) p w).
Proof using Sh.
  intros Hk Hu. induction p as [a|X e c IH|c]; intros w Hw; [exact Hw| |exact I].
  pose proof (ok_call d k under X e w Hk Hu Hw) as H. cbn [run]. destruct (wbuf_h d k under X e w) as [w1 y|]; [|exact I]. now apply IH.
Qed.
Lemma ok_writer d {A} (p : prog wireW A) : forall x w, P (WBuf (wr_buf x)) -> (forall r, wr_under x = Some r -> P r) -> apart P w0 w ->
  ok_out (snd (A := writer) (B := wworld)) (run (writer_h d) p (x, w)).
Proof using Sh.
  induction p as [a|X e c IH|c]; intros x w Hk Hu Hw; [exact Hw| |exact I]. cbn [run writer_h]. destruct (wr_st x) as [strict|st].
  - pose proof (ok_run d (wr_buf x) (wr_under x) (bin_write strict e) Hk Hu w Hw) as H.
    destruct (run _ (bin_write strict e) w) as [w1 y|]; [|exact I]. cbn [obind]. now apply IH.
  - pose proof (ok_run d (wr_buf x) (wr_under x) (cmp_writer X e st) Hk Hu w Hw) as H.
    destruct (run _ (cmp_writer X e st) w) as [w1 y|]; [|exact I]. cbn [obind]. now apply IH.
Qed.
End within.
