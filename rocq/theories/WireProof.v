(** Facts about the thriftwire reading helpers over the abstract stream. *)
From Verif Require Import Base BaseLemmas Prog Bufio GoBinary GoBinaryProof Wire.

Lemma kind_of_num k : kind_of (kind_num k) = Some k.
Proof. destruct k; reflexivity. Qed.

Lemma kind_of_some t k : kind_of t = Some k -> t = kind_num k.
Proof.
  unfold kind_of. intros H.
  destruct t as [|p|p]; try discriminate.
  repeat (destruct p as [p|p|]; try discriminate; try (injection H as <-; reflexivity)).
Qed.

Lemma run_vis {E St X A} (h : handler E St) (e : E X) (k : X -> prog E A) s :
  run h (bind (call e) k) s = obind (h X e s) (fun s' x => run h (k x) s').
Proof. cbn. destruct (h X e s); reflexivity. Qed.

(** What a short read of [n] bytes reports. *)
Definition short_err (got : list byte) (e : err) : err :=
  if (0 <? zlen got) && is_eof (Some e) then EUnexpectedEOF else e.

Section Stream.
Variable size : Z.
Hypothesis size_pos : 0 < size.

Lemma firstn_neg {A} n (l : list A) : n <= 0 -> firstn (Z.to_nat n) l = [].
Proof. intros H. replace (Z.to_nat n) with O by lia. reflexivity. Qed.

Lemma next_ok n d fi :
  0 <= n <= size -> n <= zlen d ->
  run (stream_h size) (next n) (mkStream d fi)
  = Done (mkStream (skipn (Z.to_nat n) d) fi) (firstn (Z.to_nat n) d, None).
Proof.
  intros Hn Hd. unfold next. rewrite run_vis. cbn [stream_h sdata sfin].
  destruct (Z.ltb_spec n 0); [lia|]. rewrite Z.min_l by lia.
  destruct (Z.leb_spec n (zlen d)); [|lia]. cbn [obind].
  rewrite run_vis. cbn [stream_h sdata sfin]. rewrite zlen_firstn by lia.
  destruct (Z.ltb_spec n 0); [lia|].
  destruct (Z.leb_spec n (zlen d)); [|lia]. cbn [obind run].
  rewrite Z.eqb_refl. reflexivity.
Qed.

Lemma next_neg n s :
  n < 0 -> run (stream_h size) (next n) s = Done s ([], Some ENegativeCount).
Proof.
  intros Hn. unfold next. rewrite run_vis. cbn [stream_h].
  destruct (Z.ltb_spec n 0); [|lia]. cbn [obind].
  rewrite run_vis. cbn [stream_h]. change (zlen []) with 0.
  destruct (Z.ltb_spec 0 0); [lia|].
  destruct (Z.leb_spec 0 (zlen (sdata s))); [|pose proof (zlen_nonneg (sdata s)); lia].
  cbn [obind run Z.to_nat skipn]. destruct (Z.eqb_spec 0 n); [lia|].
  destruct s; reflexivity.
Qed.

Lemma next_short n d e :
  n <= size -> zlen d < n ->
  run (stream_h size) (next n) (mkStream d (FErr e))
  = Done (mkStream [] (FErr e)) (d, Some (short_err d e)).
Proof.
  intros Hn Hd. pose proof (zlen_nonneg d). unfold next. rewrite run_vis. cbn [stream_h sdata sfin].
  destruct (Z.ltb_spec n 0); [lia|]. rewrite Z.min_l by lia.
  destruct (Z.leb_spec n (zlen d)); [lia|].
  destruct (Z.ltb_spec size n); [lia|]. cbn [obind].
  rewrite run_vis. cbn [stream_h sdata sfin].
  destruct (Z.ltb_spec (zlen d) 0); [lia|].
  destruct (Z.leb_spec (zlen d) (zlen d)); [|lia]. cbn [obind run].
  rewrite skipn_all2 by (unfold zlen; lia).
  destruct (Z.eqb_spec (zlen d) n); [lia|].
  unfold short_err. destruct ((0 <? zlen d) && is_eof (Some e)); reflexivity.
Qed.

Lemma next_silent n d :
  n <= size -> zlen d < n ->
  run (stream_h size) (next n) (mkStream d FSilent) = Crashed Blocked.
Proof.
  intros Hn Hd. pose proof (zlen_nonneg d). unfold next. rewrite run_vis. cbn [stream_h sdata sfin].
  destruct (Z.ltb_spec n 0); [lia|]. rewrite Z.min_l by lia.
  destruct (Z.leb_spec n (zlen d)); [lia|]. reflexivity.
Qed.

(** One specification for ReadString and ReadBytes. *)
Definition bytes_spec (n : Z) (buf d : list byte) (fi : fin)
  : outcome stream (list byte * option err) :=
  if n <? 0 then Done (mkStream d fi) (buf, Some ENegativeCount)
  else if n <=? zlen d
  then Done (mkStream (skipn (Z.to_nat n) d) fi) (buf ++ firstn (Z.to_nat n) d, None)
  else match fi with
       | FErr e => Done (mkStream [] fi) (buf ++ d, Some (short_err d e))
       | FSilent => Crashed Blocked
       end.

Lemma next_bytes_spec n buf d fi :
  n <= size ->
  run (stream_h size) ('(c, e) <- next n ;; Ret (buf ++ c, e)) (mkStream d fi)
  = bytes_spec n buf d fi.
Proof.
  intros Hn. rewrite run_bind. unfold bytes_spec.
  destruct (Z.ltb_spec n 0) as [H|H].
  - rewrite next_neg by lia. cbn. rewrite app_nil_r. reflexivity.
  - destruct (Z.leb_spec n (zlen d)).
    + rewrite next_ok by lia. reflexivity.
    + destruct fi.
      * rewrite next_short by lia. reflexivity.
      * rewrite next_silent by lia. reflexivity.
Qed.

Lemma read_chunks_loop_spec n k : forall rem buf d fi,
  0 <= rem <= Z.of_nat k -> rem <= n ->
  run (stream_h size)
    (x <- loop_nat k (read_chunks_body n) (rem, buf) ;;
     match x with
     | inr r => Ret r
     | inl (rem, buf) => if rem >? 0 then Crash OutOfFuel else Ret (buf, None)
     end) (mkStream d fi)
  = if rem <=? zlen d
    then Done (mkStream (skipn (Z.to_nat rem) d) fi) (buf ++ firstn (Z.to_nat rem) d, None)
    else match fi with
         | FErr e => Done (mkStream [] fi)
                       (buf ++ d,
                        Some (if negb (rem - zlen d =? n) && is_eof (Some e)
                              then EUnexpectedEOF else e))
         | FSilent => Crashed Blocked
         end.
Proof.
  induction k as [|k IH]; intros rem buf d fi Hr Hn.
  - assert (rem = 0) by lia. subst rem. pose proof (zlen_nonneg d).
    destruct (Z.leb_spec 0 (zlen d)); [|lia].
    cbn. rewrite app_nil_r. reflexivity.
  - pose proof (zlen_nonneg d) as Hd.
    cbn [loop_nat]. rewrite run_bind.
    unfold read_chunks_body at 1. destruct (Z.gtb_spec rem 0) as [H|H].
    + rewrite !run_bind. cbn [run call stream_h obind]. rewrite ?run_bind.
      destruct (Z.leb_spec (Z.min rem size) (zlen d)) as [Hm|Hm].
      * rewrite next_ok by lia. cbn [obind run].
        rewrite zlen_firstn by lia.
        rewrite <- (run_bind (stream_h size) (loop_nat k (read_chunks_body n) _)).
        rewrite IH by lia.
        rewrite zlen_skipn by lia.
        destruct (Z.leb_spec (rem - Z.min rem size) (zlen d - Z.min rem size));
          destruct (Z.leb_spec rem (zlen d)); try lia.
        -- rewrite skipn_skipn', <- app_assoc. do 2 f_equal.
           ++ f_equal. f_equal. lia.
           ++ f_equal. f_equal.
              replace (Z.to_nat rem) with (Z.to_nat (Z.min rem size) + Z.to_nat (rem - Z.min rem size))%nat by lia.
              rewrite <- (firstn_skipn (Z.to_nat (Z.min rem size)) d) at 3.
              rewrite firstn_app, firstn_length.
              rewrite (firstn_all2 (firstn _ d)) by (rewrite firstn_length; unfold zlen in *; lia).
              f_equal. f_equal. unfold zlen in *; lia.
        -- destruct fi; auto. rewrite <- app_assoc, firstn_skipn.
           replace (rem - Z.min rem size - (zlen d - Z.min rem size)) with (rem - zlen d) by lia.
           reflexivity.
      * destruct (Z.leb_spec rem (zlen d)); [lia|].
        destruct fi as [e|].
        -- rewrite next_short by lia. cbn [obind run]. do 3 f_equal.
           unfold short_err.
           destruct (Z.ltb_spec 0 (zlen d)) as [Hz|Hz]; cbn [andb].
           ++ destruct (is_eof (Some e)) eqn:Ee.
              ** destruct (Z.eqb_spec (rem - zlen d) n); [lia|]. cbn. reflexivity.
              ** rewrite andb_false_r. destruct e; cbn in *; try discriminate;
                   rewrite andb_false_r; reflexivity.
           ++ assert (zlen d = 0) as Hz0 by lia. rewrite Hz0.
              destruct (negb (rem - 0 =? n) && is_eof (Some e)); reflexivity.
        -- rewrite next_silent by lia. reflexivity.
    + assert (rem = 0) by lia. subst rem. cbn [run obind].
      destruct (Z.leb_spec 0 (zlen d)); [|lia].
      cbn. rewrite app_nil_r. reflexivity.
Qed.

Lemma read_chunks_spec n buf d fi :
  0 < n -> run (stream_h size) (read_chunks n buf) (mkStream d fi) = bytes_spec n buf d fi.
Proof.
  intros Hn. unfold read_chunks. rewrite run_bind, run_loop_Z.
  rewrite <- (run_bind (stream_h size) (loop_nat _ (read_chunks_body n) (n, buf))).
  rewrite read_chunks_loop_spec by lia. unfold bytes_spec.
  destruct (Z.ltb_spec n 0); [lia|].
  destruct (Z.leb_spec n (zlen d)); auto. destruct fi; auto.
  unfold short_err. pose proof (zlen_nonneg d).
  replace (negb (n - zlen d =? n)) with (0 <? zlen d); auto.
  destruct (Z.ltb_spec 0 (zlen d)); destruct (Z.eqb_spec (n - zlen d) n); cbn; auto; lia.
Qed.

(** ReadBytes and ReadString do exactly this on any stream. *)
Lemma read_bytes_spec n buf d fi :
  run (stream_h size) (read_bytes n buf) (mkStream d fi) = bytes_spec n buf d fi.
Proof.
  unfold read_bytes. rewrite run_vis. cbn [stream_h obind].
  destruct (Z.geb_spec size n).
  - apply next_bytes_spec. lia.
  - apply read_chunks_spec. lia.
Qed.

Lemma read_string_spec n d fi :
  run (stream_h size) (read_string n) (mkStream d fi) = bytes_spec n [] d fi.
Proof.
  unfold read_string. rewrite run_vis. cbn [stream_h obind].
  destruct (Z.geb_spec size n).
  - apply (next_bytes_spec n []). lia.
  - apply read_chunks_spec. lia.
Qed.

(** ** ReadUvarint as a drop-in for binary.ReadUvarint *)

Lemma uvarint_loop_read f : forall d i s x v k fi,
  Z.of_nat f = 10 - i -> 0 <= i ->
  uvarint_loop (firstn f d) i s x = (v, k) -> 0 < k ->
  i < k <= i + zlen d /\
  run (stream_h size) (read_uvarint_loop f i s x) (mkStream d fi)
  = Done (mkStream (skipn (Z.to_nat (k - i)) d) fi) (v, None).
Proof.
  induction f as [|f IH]; intros d i s x v k fi Hf Hi H Hk.
  { cbn in H. injection H as <- <-. lia. }
  destruct d as [|b d]; cbn [firstn uvarint_loop] in H.
  { injection H as <- <-. lia. }
  pose proof (zlen_nonneg d). rewrite zlen_cons.
  cbn [read_uvarint_loop]. rewrite run_vis. cbn [stream_h sdata sfin obind].
  unfold MaxVarintLen64 in *.
  destruct (Z.eqb_spec i 10); [lia|].
  destruct (Z.ltb_spec (b2z b) 128).
  - destruct ((i =? 10 - 1) && (b2z b >? 1)).
    + injection H as <- <-. lia.
    + injection H as <- <-. split; [lia|].
      replace (i + 1 - i) with 1 by lia. reflexivity.
  - destruct (IH d (i + 1) (s + 7) _ v k fi ltac:(lia) ltac:(lia) H Hk) as [K1 K2].
    split; [lia|]. rewrite K2.
    replace (Z.to_nat (k - i)) with (S (Z.to_nat (k - (i + 1)))) by lia. reflexivity.
Qed.

Lemma tw_read_uvarint_drop_in_gen d fi :
  10 <= size -> (fi = FSilent -> 10 <= zlen d) ->
  run (stream_h size) tw_read_uvarint (mkStream d fi)
  = run (stream_h size) read_uvarint (mkStream d fi).
Proof.
  intros Hs Hfi. unfold tw_read_uvarint. rewrite run_vis. cbn [stream_h sdata sfin].
  unfold MaxVarintLen64. cbn [Z.ltb Z.compare]. rewrite Z.min_l by lia.
  assert (Hcore : forall buf, buf = firstn 10 d ->
    run (stream_h size)
      (let '(x, n) := uvarint buf in
       if (0 <? zlen buf) && (0 <? n)
       then '(_, e0) <- call (BDiscard n);; Ret (x, e0) else read_uvarint) (mkStream d fi)
    = run (stream_h size) read_uvarint (mkStream d fi)).
  { intros buf ->. unfold uvarint.
    destruct (uvarint_loop (firstn 10 d) 0 0 0) as [v k] eqn:E.
    destruct (Z.ltb_spec 0 k) as [Hk|Hk].
    - destruct (uvarint_loop_read 10 d 0 0 0 v k fi ltac:(lia) ltac:(lia) E Hk) as [H1 H2].
      destruct (Z.ltb_spec 0 (zlen (firstn 10 d))) as [Hl|Hl]; cbn [andb].
      + rewrite run_vis. cbn [stream_h sdata sfin].
        destruct (Z.ltb_spec k 0); [lia|].
        destruct (Z.leb_spec k (zlen d)); [|lia].
        cbn [obind run]. unfold read_uvarint. rewrite H2. rewrite Z.sub_0_r. reflexivity.
      + reflexivity.
    - rewrite andb_false_r. reflexivity. }
  destruct (Z.leb_spec 10 (zlen d)) as [Hd|Hd]; cbn [obind].
  - apply Hcore; auto.
  - destruct fi as [e|]; [|specialize (Hfi eq_refl); lia]. cbn [obind].
    apply (Hcore d). rewrite firstn_all2; auto. unfold zlen in Hd. lia.
Qed.

Lemma tw_read_uvarint_drop_in d e :
  10 <= size ->
  run (stream_h size) tw_read_uvarint (mkStream d (FErr e))
  = run (stream_h size) read_uvarint (mkStream d (FErr e)).
Proof. intros Hs. apply tw_read_uvarint_drop_in_gen; [exact Hs|discriminate]. Qed.

Lemma tw_read_varint_drop_in d e :
  10 <= size ->
  run (stream_h size) tw_read_varint (mkStream d (FErr e))
  = run (stream_h size) read_varint (mkStream d (FErr e)).
Proof.
  intros Hs. pose proof (tw_read_uvarint_drop_in d e Hs) as H.
  unfold tw_read_uvarint in H. unfold tw_read_varint, read_varint. rewrite (run_bind _ read_uvarint), <- H.
  rewrite !run_vis.
  destruct (stream_h size _ (BPeek MaxVarintLen64) (mkStream d (FErr e))) as [s' [buf oe]|c] eqn:E;
    cbn [obind]; auto.
  unfold varint. destruct (uvarint buf) as [u k].
  destruct ((0 <? zlen buf) && (0 <? k)).
  - rewrite !run_vis. destruct (stream_h size _ (BDiscard k) s') as [s2 [z oe2]|c2]; reflexivity.
  - rewrite run_bind. reflexivity.
Qed.

End Stream.
