(** A bufio.Reader on a source that gives no error together with bytes keeps no pending error between calls, so that bytes which
    come to the source after it was found empty are read. *)
From Verif Require Import Base BaseLemmas Prog Bufio BufioProof GoBinary Wire WireProof Spec Clients Reads Binary BinaryProof Compact CompactProof.

Definition calm (b : breader) : Prop :=
  berr b = None /\ Forall (fun p => fst p <> [] /\ snd p = None) (script (bsrc b)).

Section Calm.
Variable size : Z.
Hypothesis Hs : 10 <= size.

Definition quiet (s : source) : Prop := Forall (fun p : list byte * option err => fst p <> [] /\ snd p = None) (script s).

Lemma quiet_read n s s' c eo : 0 < n -> quiet s -> src_read n s = Done s' (c, eo) ->
  quiet s' /\ match c with [] => exists e, eo = Some e | _ => eo = None end.
Proof using.
  unfold src_read, quiet. intros Hn Hq H. destruct (script s) as [|[d eo0] r] eqn:E.
  - destruct (src_fin s); [|discriminate]. injection H as <- <- <-. rewrite E. split; [constructor|eauto].
  - inversion Hq as [|? ? [H1 H2] H3]; subst. cbn in H1, H2. subst eo0. destruct (Z.leb_spec (zlen d) n).
    + injection H as <- <- <-. cbn [script]. split; [exact H3|]. destruct d; [congruence|reflexivity].
    + injection H as <- <- <-. cbn [script]. split.
      * constructor; [|exact H3]. split; [|reflexivity]. cbn. intros X. apply (f_equal (@length byte)) in X.
        rewrite skipn_length in X. cbn in X. unfold zlen in *. lia.
      * destruct d as [|x d]; [congruence|]. destruct (Z.to_nat n) eqn:En; [lia|]. reflexivity.
Qed.

(** After fill: more bytes and no error, or nothing more and an error. *)
Lemma quiet_fill b b' x : calm b -> fill size b = Done b' x ->
  quiet (bsrc b') /\ ((berr b' = None /\ bbuf b' <> []) \/ (bbuf b' = bbuf b /\ exists e, berr b' = Some e)).
Proof using.
  intros (He & Hq) H. unfold fill in H. destruct (Z.leb_spec size (zlen (bbuf b))); [discriminate|].
  change maxEmpty with (S 99) in H. revert H. generalize 99%nat. intros k H. cbn [fill_loop] in H. destruct (src_read _ _) as [s' [c eo]|c] eqn:E; [|discriminate].
  destruct (quiet_read (size - zlen (bbuf b)) _ _ _ _ ltac:(lia) Hq E) as (Hq' & Hc). destruct c as [|y c].
  - destruct Hc as (e & ->). injection H as <- _. cbn [bsrc berr bbuf]. rewrite app_nil_r. split; [exact Hq'|]. right. eauto.
  - subst eo. injection H as <- _. cbn [bsrc berr bbuf]. split; [exact Hq'|]. left. split; [exact He|]. destruct (bbuf b); discriminate.
Qed.

Lemma calm_peek n b b' x : n <= size -> calm b -> peek size n b = Done b' x -> calm b'.
Proof using.
  intros Hn Hc H. unfold peek in H. destruct (n <? 0); [now injection H as <- _|].
  assert (G : forall f b b1 u, calm b -> peek_fill size f n b = Done b1 u ->
    quiet (bsrc b1) /\ (berr b1 = None \/ zlen (bbuf b1) < n)).
  { clear. induction f as [|f IH]; intros b b1 u Hc H; cbn [peek_fill] in H.
    - destruct (_ && _ && _); [discriminate|]. injection H as <- _. split; [apply Hc|left; apply Hc].
    - destruct (_ && _ && _) eqn:E; [|injection H as <- _; split; [apply Hc|left; apply Hc]].
      destruct (fill size b) as [b2 []|c] eqn:F; [|discriminate]. cbn [obind] in H.
      destruct (quiet_fill _ _ _ Hc F) as (Hq & [[E1 E2]|[E1 [e E2]]]).
      + apply (IH b2 b1 u); [split; auto|exact H].
      + apply andb_true_iff in E. destruct E as [E _]. apply andb_true_iff in E. destruct E as [E _]. apply Z.ltb_lt in E.
        assert (b2 = b1).
        { destruct f; cbn [peek_fill] in H; rewrite E2, andb_false_r in H; cbn [is_none] in H; now injection H as ->. }
        subst b2. split; [exact Hq|right]. rewrite E1. exact E. }
  destruct (peek_fill size (Z.to_nat size) n b) as [b1 []|c] eqn:E; [|discriminate]. cbn [obind] in H.
  destruct (G _ _ _ _ Hc E) as (Hq & He). destruct (Z.ltb_spec size n); [lia|].
  destruct (Z.ltb_spec (zlen (bbuf b1)) n).
  - injection H as <- _. split; [reflexivity|exact Hq].
  - injection H as <- _. split; [destruct He; [auto|lia]|exact Hq].
Qed.

Lemma calm_discard n b b' x : calm b -> discard size n b = Done b' x -> calm b'.
Proof using.
  intros Hc H. unfold discard in H. destruct (Z.ltb_spec n 0); [now injection H as <- _|]. destruct (Z.eqb_spec n 0); [now injection H as <- _|].
  assert (G : forall f b rm, 0 < rm -> calm b -> discard_loop size f n rm b = Done b' x -> calm b').
  { clear - b'. induction f as [|f IH]; intros b rm Hrm Hc H; cbn [discard_loop] in H; [discriminate|].
    assert (K : forall b2, quiet (bsrc b2) -> (berr b2 = None \/ (bbuf b2 = [] /\ exists e, berr b2 = Some e)) ->
      (let skip := Z.min (zlen (bbuf b2)) rm in
       let b := mkB (skipn (Z.to_nat skip) (bbuf b2)) (berr b2) (bsrc b2) in
       let remain := rm - skip in
       if remain =? 0 then Done b (n, None)
       else match berr b with
            | Some e => Done (clear_err b) (n - remain, Some e)
            | None => discard_loop size f n remain b
            end) = Done b' x -> calm b').
    { cbv zeta. cbn [berr]. intros b2 Hq Hx Hd. destruct (Z.eqb_spec (rm - Z.min (zlen (bbuf b2)) rm) 0) as [E|E].
      - injection Hd as <- _. split; [|exact Hq]. cbn [berr]. destruct Hx as [?|[X _]]; [auto|]. rewrite X in E. cbn in E. lia.
      - destruct (berr b2) as [e|] eqn:Eb.
        + injection Hd as <- _. split; [reflexivity|exact Hq].
        + pose proof (zlen_nonneg (bbuf b2)). apply IH in Hd; [exact Hd|lia|]. split; [reflexivity|exact Hq]. }
    destruct (Z.eqb_spec (zlen (bbuf b)) 0) as [E0|E0].
    - destruct (fill size b) as [b2 []|c] eqn:F; [|discriminate]. cbn [obind] in H. destruct (quiet_fill _ _ _ Hc F) as (Hq & Hx).
      apply (K b2 Hq); [|exact H]. destruct Hx as [[? _]|[X Y]]; [auto|right]. split; [|exact Y]. rewrite X.
      destruct (bbuf b); [reflexivity|rewrite zlen_cons in E0; pose proof (zlen_nonneg l); lia].
    - cbn [obind] in H. apply (K b); [apply Hc|left; apply Hc|exact H]. }
  apply (G (2 + length (bbuf b) + length (src_bytes (bsrc b)))%nat b n); [lia|exact Hc|exact H].
Qed.

Lemma calm_read_byte b b' x : calm b -> read_byte size b = Done b' x -> calm b'.
Proof using.
  unfold read_byte. generalize 2%nat. intros f. revert b. induction f as [|f IH]; intros b Hc H; cbn [read_byte_loop] in H.
  - destruct (bbuf b); [|injection H as <- _; split; apply Hc]. rewrite (proj1 Hc) in H. discriminate.
  - destruct (bbuf b) eqn:Eb; [|injection H as <- _; split; apply Hc]. rewrite (proj1 Hc) in H.
    destruct (fill size b) as [b2 []|c] eqn:F; [|discriminate]. cbn [obind] in H. destruct (quiet_fill _ _ _ Hc F) as (Hq & [[E1 E2]|[E1 [e E2]]]).
    + apply (IH b2); [split; auto|exact H].
    + destruct f; cbn [read_byte_loop] in H; rewrite E1, Eb, E2 in H; injection H as <- _; (split; [reflexivity|exact Hq]).
Qed.

Lemma calm_bread n b b' x : 0 < n -> calm b -> bread size n b = Done b' x -> calm b'.
Proof using Hs.
  intros Hn (He & Hq) H. unfold bread in H. destruct (bbuf b) as [|y r] eqn:Eb.
  2:{ injection H as <- _. split; [exact He|exact Hq]. }
  rewrite He in H. destruct (Z.leb_spec size n).
  - destruct (src_read n (bsrc b)) as [s' [c eo]|c] eqn:E; [|discriminate]. injection H as <- _.
    destruct (quiet_read n _ _ _ _ Hn Hq E) as (Hq' & _). split; [reflexivity|exact Hq'].
  - destruct (src_read size (bsrc b)) as [s' [c eo]|c] eqn:E; [|discriminate].
    destruct (quiet_read size _ _ _ _ ltac:(lia) Hq E) as (Hq' & Hc). destruct c; [|subst eo]; injection H as <- _; split; auto.
Qed.

Lemma calm_read_full n b b' x : calm b -> read_full size n b = Done b' x -> calm b'.
Proof using Hs.
  unfold read_full. generalize (2 + length (bbuf b) + length (src_bytes (bsrc b)) + length (script (bsrc b)))%nat. intros f.
  generalize (@nil byte). revert b. induction f as [|f IH]; intros b acc Hc H; cbn [read_full_loop] in H;
    (destruct (Z.leb_spec n (zlen acc)); [now injection H as <- _|]); [discriminate|].
  destruct (bread size (n - zlen acc) b) as [b1 [c eo]|c] eqn:E; [|discriminate]. cbn [obind fst snd] in H.
  pose proof (calm_bread (n - zlen acc) b b1 _ ltac:(lia) Hc E) as Hc1. destruct eo; [now injection H as <- _|]. eapply IH; eauto.
Qed.

(** ** Programs *)
Definition calms {A} (p : prog bufR A) : Prop :=
  forall b b' x, calm b -> run (bufio_h size) p b = Done b' x -> calm b'.

Lemma calms_ret {A} (a : A) : calms (Ret a).
Proof using. intros b b' x Hc H. cbn in H. now injection H as <- _. Qed.
Lemma calms_crash {A} c : calms (@Crash bufR A c).
Proof using. intros b b' x Hc H. discriminate. Qed.
Lemma calms_bind {A B} (p : prog bufR A) (f : A -> prog bufR B) : calms p -> (forall a, calms (f a)) -> calms (bind p f).
Proof using.
  intros Hp Hf b b' x Hc H. rewrite run_bind in H. destruct (run (bufio_h size) p b) as [b1 a|c] eqn:E; [|discriminate].
  cbn [obind] in H. apply (Hf a b1 b' x); [eapply Hp; eauto|exact H].
Qed.
Lemma calms_byte : calms (call BReadByte).
Proof using. intros b b' x Hc H. rewrite run_call in H. exact (calm_read_byte _ _ _ Hc H). Qed.
Lemma calms_discard n : calms (call (BDiscard n)).
Proof using. intros b b' x Hc H. rewrite run_call in H. exact (calm_discard _ _ _ _ Hc H). Qed.
Lemma calms_full n : calms (call (BReadFull n)).
Proof using Hs. intros b b' x Hc H. rewrite run_call in H. exact (calm_read_full _ _ _ _ Hc H). Qed.
Lemma calms_peek n : n <= size -> calms (call (BPeek n)).
Proof using. intros Hn b b' x Hc H. rewrite run_call in H. exact (calm_peek _ _ _ _ Hn Hc H). Qed.
Lemma calms_size {A} (f : Z -> prog bufR A) : calms (f size) -> calms (s <- call BSize ;; f s).
Proof using. intros Hf b b' x Hc H. rewrite run_bind, run_call in H. cbn [bufio_h obind] in H. exact (Hf b b' x Hc H). Qed.
Lemma calms_next n : n <= size -> calms (next n).
Proof using.
  intros Hn. unfold next. apply calms_bind; [now apply calms_peek|]. intros [buf e].
  apply calms_bind; [apply calms_discard|]. intros; apply calms_ret.
Qed.
Lemma calms_loop_nat {St R} (body : St -> prog bufR (St + R)) : (forall st, calms (body st)) -> forall k st, calms (loop_nat k body st).
Proof using.
  intros Hb. induction k as [|k IH]; intros st; cbn [loop_nat]; [apply calms_ret|].
  apply calms_bind; [apply Hb|]. intros [st'|r]; [apply IH|apply calms_ret].
Qed.
Lemma calms_loop_Z {St R} (body : St -> prog bufR (St + R)) k st : (forall st, calms (body st)) -> calms (loop_Z k body st).
Proof using. intros Hb b b' x Hc H. rewrite run_loop_Z in H. exact (calms_loop_nat body Hb _ st b b' x Hc H). Qed.
Lemma calms_chunks n buf : calms (read_chunks n buf).
Proof using.
  unfold read_chunks. apply calms_bind.
  - apply calms_loop_Z. intros [rem bf]. unfold read_chunks_body. destruct (rem >? 0); [|apply calms_ret].
    apply calms_size. apply calms_bind; [apply calms_next; lia|]. intros [c [e|]]; apply calms_ret.
  - intros [[rem bf]|r]; [|apply calms_ret]. destruct (rem >? 0); [apply calms_crash|apply calms_ret].
Qed.
Lemma calms_read_bytes n buf : calms (read_bytes n buf).
Proof using.
  unfold read_bytes. apply calms_size. destruct (Z.geb_spec size n); [|apply calms_chunks].
  apply calms_bind; [apply calms_next; lia|]. intros [c e]; apply calms_ret.
Qed.
Lemma calms_read_string n : calms (read_string n).
Proof using.
  unfold read_string. apply calms_size. destruct (Z.geb_spec size n); [|apply calms_chunks].
  apply calms_bind; [apply calms_next; lia|]. intros [c e]; apply calms_ret.
Qed.
Lemma calms_uvarint_loop f : forall i s x, calms (read_uvarint_loop f i s x).
Proof using.
  induction f as [|f IH]; intros i s x; cbn [read_uvarint_loop]; [apply calms_ret|].
  apply calms_bind; [apply calms_byte|]. intros [b [e|]]; [apply calms_ret|].
  destruct (b2z b <? 128); [|apply IH]. destruct ((i =? MaxVarintLen64 - 1) && (b2z b >? 1)); apply calms_ret.
Qed.
Lemma calms_uvarint : calms read_uvarint.
Proof using. apply calms_uvarint_loop. Qed.
Lemma calms_varint : calms read_varint.
Proof using. apply calms_bind; [apply calms_uvarint|]. intros [u e]; apply calms_ret. Qed.
Lemma calms_tw_uvarint : calms tw_read_uvarint.
Proof using Hs.
  apply calms_bind; [apply calms_peek; unfold MaxVarintLen64; lia|]. intros [buf e].
  destruct (uvarint buf) as [x n]. destruct ((0 <? zlen buf) && (0 <? n)); [|apply calms_uvarint].
  apply calms_bind; [apply calms_discard|]. intros [z o]; apply calms_ret.
Qed.

Ltac cmp :=
  repeat match goal with
  | |- calms (bind _ _) => apply calms_bind; [|intros]
  | |- calms (call BReadByte) => apply calms_byte
  | |- calms (call (BDiscard _)) => apply calms_discard
  | |- calms (call (BReadFull _)) => apply calms_full
  | |- calms (call (BPeek _)) => apply calms_peek; lia
  | |- calms (next _) => apply calms_next; lia
  | |- calms (read_bytes _ _) => apply calms_read_bytes
  | |- calms (read_string _) => apply calms_read_string
  | |- calms read_uvarint => apply calms_uvarint
  | |- calms read_varint => apply calms_varint
  | |- calms tw_read_uvarint => apply calms_tw_uvarint
  | |- calms (Ret _) => apply calms_ret
  | |- calms (if ?b then _ else _) => destruct b
  | |- calms (match ?x with _ => _ end) => destruct x
  | |- forall _, _ => intros
  end.

Lemma bin_reader_calm strict X (e : wireR X) st : calms (bin_reader strict X e st).
Proof using Hs.
  unfold bin_reader. apply calms_bind; [|intros; apply calms_ret]. destruct e; cbn [bin_read];
  unfold bin_read_message_begin, bin_read_field_begin, bin_read_map_begin, bin_read_set_begin,
    bin_read_bool, bin_read_double, bin_read_i16, bin_read_i64, bin_read_string, bin_read_bytes,
    bin_skip_string, bin_read_size, bin_read_type, bin_read_i32, read_uuid, skip_uuid, bin_read_string,
    bin_read_size, bin_read_i32; cmp.
Qed.

Lemma cmp_reader_calm X (e : wireR X) st : calms (cmp_reader X e st).
Proof using Hs.
  unfold cmp_reader, cmp_reader_gen. destruct e;
  unfold lift, cmp_read_message_begin, cmp_read_field_begin, cmp_read_map_begin, cmp_read_set_begin,
    cmp_read_double, cmp_read_i16, cmp_read_i32, cmp_read_i64, cmp_read_string, cmp_read_bytes,
    cmp_skip_string, cmp_read_size, cmp_hdr_size, read_uuid, skip_uuid,
    cmp_read_string, cmp_read_size, cmp_read_i16, cmp_read_i64; cmp.
Qed.

Lemma layer_calm {S A} (L : layer wireR bufR S) : (forall X (e : wireR X) st, calms (L X e st)) ->
  forall (p : prog wireR A) s b s' b' x, calm b -> run (over L (bufio_h size)) p (s, b) = Done (s', b') x -> calm b'.
Proof using.
  intros HL. induction p as [a|X e k IH|c]; intros s b s' b' x Hc H; cbn [run] in H.
  - now injection H as _ <- _.
  - unfold over at 1 in H. cbn [fst snd] in H. destruct (run (bufio_h size) (L X e s) b) as [b1 [s1 y]|c] eqn:E; [|discriminate].
    apply (IH y s1 b1 s' b' x); [exact (HL X e s b b1 _ Hc E)|exact H].
  - discriminate.
Qed.
End Calm.
