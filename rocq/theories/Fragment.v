(** Results do not depend on fragmentation or buffer size; reading from a peer
    that has gone silent; the buffered-reading helpers on a real buffered
    reader. *)
From Verif Require Import Base BaseLemmas Prog Bufio BufioProof GoBinary GoBinaryProof
  Wire WireProof Spec Clients Reads Binary BinaryProof Compact CompactProof Layers RoundTrip Messages.

(** ** Buffer size *)
Section Size.
Variables s1 s2 : Z.
Hypothesis H1 : 10 <= s1.
Hypothesis H2 : 10 <= s2.

Definition same {A} (p : prog bufR A) : Prop :=
  forall s, run (stream_h s1) p s = run (stream_h s2) p s.

Lemma same_ret {A} (a : A) : same (Ret a).
Proof. intros s. reflexivity. Qed.

Lemma same_bind {A B} (p : prog bufR A) (f : A -> prog bufR B) :
  same p -> (forall a, same (f a)) -> same (bind p f).
Proof.
  intros Hp Hf s. rewrite !run_bind, Hp. destruct (run (stream_h s2) p s); cbn [obind]; auto. apply Hf.
Qed.

Lemma same_read_byte : same (call BReadByte).
Proof. intros s. reflexivity. Qed.
Lemma same_discard n : same (call (BDiscard n)).
Proof. intros s. reflexivity. Qed.
Lemma same_full n : same (call (BReadFull n)).
Proof. intros s. reflexivity. Qed.
Lemma same_peek n : n <= 10 -> same (call (BPeek n)).
Proof.
  intros Hn s. rewrite !run_call. cbn [stream_h].
  rewrite !Z.min_l by lia. destruct (Z.ltb_spec s1 n); [lia|]. destruct (Z.ltb_spec s2 n); [lia|].
  reflexivity.
Qed.
Lemma same_next n : n <= 10 -> same (next n).
Proof.
  intros Hn. unfold next. apply same_bind; [now apply same_peek|]. intros [buf e].
  apply same_bind; [apply same_discard|]. intros; apply same_ret.
Qed.
Lemma same_read_bytes n buf : same (read_bytes n buf).
Proof. intros [d fi]. rewrite !read_bytes_spec by lia. reflexivity. Qed.
Lemma same_read_string n : same (read_string n).
Proof. intros [d fi]. rewrite !read_string_spec by lia. reflexivity. Qed.
Lemma same_read_uvarint_loop f : forall i s x, same (read_uvarint_loop f i s x).
Proof.
  induction f as [|f IH]; intros i s x; cbn [read_uvarint_loop]; [apply same_ret|].
  apply same_bind; [apply same_read_byte|]. intros [b [e|]]; [apply same_ret|].
  destruct (b2z b <? 128); [|apply IH]. destruct ((i =? MaxVarintLen64 - 1) && (b2z b >? 1)); apply same_ret.
Qed.
Lemma same_read_uvarint : same read_uvarint.
Proof. apply same_read_uvarint_loop. Qed.
Lemma same_read_varint : same read_varint.
Proof. apply same_bind; [apply same_read_uvarint|]. intros [u e]; apply same_ret. Qed.
Lemma same_tw_read_uvarint : same tw_read_uvarint.
Proof.
  apply same_bind; [apply same_peek; unfold MaxVarintLen64; lia|]. intros [buf e].
  destruct (uvarint buf) as [x n]. destruct ((0 <? zlen buf) && (0 <? n)); [|apply same_read_uvarint].
  apply same_bind; [apply same_discard|]. intros [z o]; apply same_ret.
Qed.

Ltac smp :=
  repeat match goal with
  | |- same (bind _ _) => apply same_bind; [|intros]
  | |- same (call BReadByte) => apply same_read_byte
  | |- same (call (BDiscard _)) => apply same_discard
  | |- same (call (BReadFull _)) => apply same_full
  | |- same (call (BPeek _)) => apply same_peek; lia
  | |- same (next _) => apply same_next; lia
  | |- same (read_bytes _ _) => apply same_read_bytes
  | |- same (read_string _) => apply same_read_string
  | |- same read_uvarint => apply same_read_uvarint
  | |- same read_varint => apply same_read_varint
  | |- same tw_read_uvarint => apply same_tw_read_uvarint
  | |- same (Ret _) => apply same_ret
  | |- same (if ?b then _ else _) => destruct b
  | |- same (match ?x with _ => _ end) => destruct x
  | |- forall _, _ => intros
  end.

Lemma bin_reader_same strict X (e : wireR X) st : same (bin_reader strict X e st).
Proof.
  unfold bin_reader. apply same_bind; [|intros; apply same_ret]. destruct e; cbn [bin_read];
  unfold bin_read_message_begin, bin_read_field_begin, bin_read_map_begin, bin_read_set_begin,
    bin_read_bool, bin_read_double, bin_read_i16, bin_read_i64, bin_read_string, bin_read_bytes,
    bin_skip_string, bin_read_size, bin_read_type, bin_read_i32, read_uuid, skip_uuid, bin_read_string,
    bin_read_size, bin_read_i32; smp.
Qed.

Lemma cmp_reader_same X (e : wireR X) st : same (cmp_reader X e st).
Proof.
  unfold cmp_reader, cmp_reader_gen. destruct e;
  unfold lift, cmp_read_message_begin, cmp_read_field_begin, cmp_read_map_begin, cmp_read_set_begin,
    cmp_read_double, cmp_read_i16, cmp_read_i32, cmp_read_i64, cmp_read_string, cmp_read_bytes,
    cmp_skip_string, cmp_read_size, cmp_hdr_size, read_uuid, skip_uuid,
    cmp_read_string, cmp_read_size, cmp_read_i16, cmp_read_i64; smp.
Qed.

Lemma same_interp {E S A} (L : layer E bufR S) (p : prog E A) :
  (forall X (e : E X) st, same (L X e st)) -> forall st, same (interp L p st).
Proof.
  intros HL. induction p as [a|X e k IH|c]; intros st; cbn [interp]; try (intros s; reflexivity).
  apply same_bind; [apply HL|]. intros [st' x]. apply IH.
Qed.
End Size.

(** ** Same bytes, same results *)

(** Two runs ended alike: same result, same protocol state, same bytes left
    and same end. *)
Definition alike {S A} (o1 o2 : outcome (S * breader) A) : Prop :=
  match o1, o2 with
  | Done (st1, b1) a1, Done (st2, b2) a2 => st1 = st2 /\ a1 = a2 /\ abs b1 = abs b2
  | Crashed c1, Crashed c2 => c1 = c2
  | _, _ => False
  end.

Theorem layer_alike {E S A} size1 size2 (L : layer E bufR S) (p : prog E A) st b1 b2 :
  10 <= size1 -> 10 <= size2 -> binv size1 b1 -> binv size2 b2 -> abs b1 = abs b2 ->
  (forall X (e : E X) st, full_ok (L X e st)) ->
  (forall X (e : E X) st, same size1 size2 (L X e st)) ->
  alike (run (over L (bufio_h size1)) p (st, b1)) (run (over L (bufio_h size2)) p (st, b2)).
Proof.
  intros Hs1 Hs2 Hb1 Hb2 Ha Hf HL.
  pose proof (layer_refines size1 L p st b1 ltac:(lia) Hb1 Hf) as R1.
  pose proof (layer_refines size2 L p st b2 ltac:(lia) Hb2 Hf) as R2.
  rewrite Ha in R1. rewrite run_over in R1, R2.
  rewrite (run_over L (stream_h size1)) in R1. rewrite (run_over L (stream_h size2)) in R2.
  rewrite (same_interp size1 size2 L p HL st (abs b2)) in R1.
  rewrite <- run_over in R1, R2. unfold alike.
  destruct (unpair (run (stream_h size2) (interp L p st) (abs b2))) as [[t d] x|c];
  destruct (run (over L (bufio_h size1)) p (st, b1)) as [[t1 d1] x1|c1];
  destruct (run (over L (bufio_h size2)) p (st, b2)) as [[t2 d2] x2|c2];
  cbn [refines_l] in R1, R2; try contradiction; try congruence.
  destruct R1 as (-> & -> & R1 & _), R2 as (-> & -> & R2 & _). conj; congruence.
Qed.

Theorem bin_alike {A} strict size1 size2 (p : prog wireR A) b1 b2 :
  10 <= size1 -> 10 <= size2 -> binv size1 b1 -> binv size2 b2 -> abs b1 = abs b2 ->
  alike (run (over (bin_reader strict) (bufio_h size1)) p (tt, b1))
        (run (over (bin_reader strict) (bufio_h size2)) p (tt, b2)).
Proof.
  intros. apply layer_alike; auto. apply bin_reader_fok. intros. now apply bin_reader_same.
Qed.

Theorem cmp_alike {A} size1 size2 (p : prog wireR A) st b1 b2 :
  10 <= size1 -> 10 <= size2 -> binv size1 b1 -> binv size2 b2 -> abs b1 = abs b2 ->
  alike (run (over cmp_reader (bufio_h size1)) p (st, b1))
        (run (over cmp_reader (bufio_h size2)) p (st, b2)).
Proof.
  intros. apply layer_alike; auto.
  - intros. apply cmp_reader_fok, tw_read_uvarint_fok.
  - intros. now apply cmp_reader_same.
Qed.

(** ** A silent peer *)
Lemma canon_has_string v : has_string (canon v) -> has_string v.
Proof.
  induction v as [b|b|z|z|z|z|x|u|fs IH|kt vt es IH|et es IH|et es IH] using tval_ind'; auto.
  - cbn [canon has_string]. induction IH as [|[id v] r Hv Hr IHr]; cbn [map]; [intros []|].
    cbn [fst snd] in *. intros [H|H]; [left; auto|right; exact (IHr H)].
  - destruct es as [|e0 r0]; [auto|].
    change (canon (VMap kt vt (e0 :: r0))) with
      (VMap kt vt (map (fun e => (canon (fst e), canon (snd e))) (e0 :: r0))).
    revert IH. generalize (e0 :: r0). clear.
    intros es IH. cbn [has_string]. induction IH as [|[k v] r [Hk Hv] Hr IHr]; cbn [map]; [intros []|].
    cbn [fst snd] in *. intros [H|[H|H]]; [left; auto|right; left; auto|right; right; exact (IHr H)].
  - cbn [canon has_string]. induction IH as [|v r Hv Hr IHr]; cbn [map]; [intros []|]. intros [H|H]; [left; auto|right; exact (IHr H)].
  - cbn [canon has_string]. induction IH as [|v r Hv Hr IHr]; cbn [map]; [intros []|]. intros [H|H]; [left; auto|right; exact (IHr H)].
Qed.

Lemma cmp_reads_silent size v l rest st fi :
  10 <= size -> wf (2 ^ 63) v -> compact_enc wrap_field v l -> cr_bool st = BNone ->
  (has_string v -> 9 <= zlen rest) ->
  reads (over cmp_reader (stream_h size)) (canon v)
    (st, mkStream (l ++ rest) fi) (st, mkStream rest fi).
Proof.
  intros Hs Hwf He Hb Hr.
  apply (cmp_reads size) with (okrest := fun r => 9 <= zlen r); auto using canon_wf, canon_canon, canon_enc; try lia.
  - intros l0 r0 H. rewrite zlen_app. pose proof (zlen_nonneg l0). lia.
  - intros v0 r0 Hv Hl. pose proof (put_uvarint_len v0).
    rewrite tw_read_uvarint_drop_in_gen; [now apply read_uvarint_ok|lia|].
    intros _. rewrite zlen_app. lia.
  - apply canon_wf; [exact wrap_field|exact Hwf].
  - intros Hh. apply Hr, canon_has_string, Hh.
Qed.

Theorem cmp_silent size b v l rest fuel st :
  10 <= size -> binv size b -> wf (2 ^ 63) v -> (vsize v <= fuel)%nat ->
  compact_enc wrap_field v l -> cr_bool st = BNone ->
  (has_string v -> 9 <= zlen rest) ->
  sdata (abs b) = l ++ rest ->
  (exists b', run (over cmp_reader (bufio_h size)) (read_val fuel (val_type v)) (st, b)
             = Done (st, b') (inl (canon v)) /\
    binv size b' /\ abs b' = mkStream rest (sfin (abs b))) /\
  (exists b', run (over cmp_reader (bufio_h size)) (skip fuel (val_type v)) (st, b)
             = Done (st, b') None /\
    binv size b' /\ abs b' = mkStream rest (sfin (abs b))).
Proof.
  intros Hs Hb Hwf Hf He Hst Hh Ha. destruct (abs b) as [d fi] eqn:E. cbn [sdata sfin] in *. subst d.
  pose proof (cmp_reads_silent size v l rest st fi Hs Hwf He Hst Hh) as Hr.
  rewrite <- (canon_vsize v) in Hf. rewrite <- canon_val_type.
  split; apply cmp_read_any; auto; try lia; rewrite E.
  - apply read_val_reads; auto.
  - eapply skip_reads; eauto.
Qed.

(** ** The helpers over a real buffered reader *)
Lemma bufio_same_result {A} size (p q : prog bufR A) b :
  0 < size -> binv size b -> full_ok p -> full_ok q ->
  run (stream_h size) p (abs b) = run (stream_h size) q (abs b) ->
  match run (bufio_h size) p b, run (bufio_h size) q b with
  | Done b1 x1, Done b2 x2 => x1 = x2 /\ abs b1 = abs b2
  | Crashed c1, Crashed c2 => c1 = c2
  | _, _ => False
  end.
Proof.
  intros Hs Hb Hp Hq E.
  pose proof (bufio_refines_stream size p b Hs Hb Hp) as R1.
  pose proof (bufio_refines_stream size q b Hs Hb Hq) as R2.
  rewrite E in R1. unfold refines in *.
  destruct (run (stream_h size) q (abs b));
  destruct (run (bufio_h size) p b); destruct (run (bufio_h size) q b); try contradiction; try congruence.
  destruct R1 as (-> & R1 & _), R2 as (-> & R2 & _). split; congruence.
Qed.

(** What a call on the buffered reader did, seen from outside: the result and
    the bytes still to come. *)
Definition seen {A} (o : outcome breader A) : outcome stream A :=
  match o with Done b a => Done (abs b) a | Crashed c => Crashed c end.

Lemma bufio_seen {A} size (p : prog bufR A) b :
  0 < size -> binv size b -> full_ok p ->
  seen (run (bufio_h size) p b) = run (stream_h size) p (abs b).
Proof.
  intros Hs Hb Hp. pose proof (bufio_refines_stream size p b Hs Hb Hp) as R. unfold refines, seen in *.
  destruct (run (bufio_h size) p b), (run (stream_h size) p (abs b)); try contradiction; try congruence.
  destruct R as (-> & -> & _). reflexivity.
Qed.

Lemma bufio_read_bytes size n buf b d fi : 0 < size -> binv size b -> abs b = mkStream d fi ->
  seen (run (bufio_h size) (read_bytes n buf) b) = bytes_spec n buf d fi.
Proof.
  intros Hs Hb Ha. rewrite bufio_seen, Ha, read_bytes_spec; auto. apply read_bytes_fok.
Qed.
Lemma bufio_read_string size n b d fi : 0 < size -> binv size b -> abs b = mkStream d fi ->
  seen (run (bufio_h size) (read_string n) b) = bytes_spec n [] d fi.
Proof.
  intros Hs Hb Ha. rewrite bufio_seen, Ha, read_string_spec; auto. apply read_string_fok.
Qed.
