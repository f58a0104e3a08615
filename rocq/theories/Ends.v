(** A Reader's call that meets the end of the data says so, and no other call does. *)
From Verif Require Import Base BaseLemmas Prog Bufio GoBinary GoBinaryProof Wire WireProof Layers Binary Compact EndSpec.

Section Ends.
Variable size : Z.
Hypothesis size_ok : 10 <= size.
Notation h := (stream_h size).

(** [ends ef p]: on any data and final error, [p] either gives a result that no
    later data or error could change, and then its error [ef] is no end of file;
    or uses up the data and reports their end. *)
Definition ends {A} (ef : A -> option err) (p : prog bufR A) : Prop := forall d e,
  (exists d' x, (forall q e', run h p (mkStream (d ++ q) (FErr e')) = Done (mkStream (d' ++ q) (FErr e')) x) /\
     forall er, ef x = Some er -> not_eof er) \/
  (exists x er, run h p (mkStream d (FErr e)) = Done (mkStream [] (FErr e)) x /\ ef x = Some er /\ end_error e er).

Lemma ends_ret {A} (ef : A -> option err) a : (forall er, ef a = Some er -> not_eof er) -> ends ef (Ret a).
Proof using. intros H d e. left. exists d, a. auto. Qed.

Lemma ends_bind {A B} (ef : A -> option err) (eg : B -> option err) p f :
  ends ef p ->
  (forall a er, ef a = Some er -> exists b, f a = Ret b /\ eg b = Some er) ->
  (forall a, ef a = None -> ends eg (f a)) ->
  ends eg (bind p f).
Proof using.
  intros Hp He Hf d e. destruct (Hp d e) as [(d' & x & R & N)|(x & er & R & E & En)].
  - destruct (ef x) as [er|] eqn:Ex.
    + destruct (He x er Ex) as (b & Fb & Eb). left. exists d', b. split.
      * intros q e'. rewrite run_bind, R. cbn [obind]. rewrite Fb. reflexivity.
      * intros er' H. rewrite Eb in H. injection H as <-. apply N. reflexivity.
    + destruct (Hf x Ex d' e) as [(d2 & y & R2 & N2)|(y & er & R2 & E2 & En2)].
      * left. exists d2, y. split; [|exact N2]. intros q e'. rewrite run_bind, R. cbn [obind]. apply R2.
      * right. exists y, er. split; [|auto]. specialize (R [] e). rewrite !app_nil_r in R. rewrite run_bind, R. cbn [obind]. exact R2.
  - destruct (He x er E) as (b & Fb & Eb). right. exists b, er. split; [|auto]. rewrite run_bind, R. cbn [obind]. rewrite Fb. reflexivity.
Qed.

Lemma not_eof_neg : not_eof ENegativeCount.
Proof using. split; discriminate. Qed.

Lemma short_end d e : end_error e (short_err d e).
Proof using.
  unfold short_err, end_error. destruct (0 <? zlen d); cbn [andb]; auto.
  destruct e; cbn; auto.
Qed.

Lemma ends_readbyte : ends snd (call BReadByte).
Proof using.
  intros d e. destruct d as [|b d].
  - right. exists (x00, Some e), e. split; [reflexivity|]. split; [reflexivity|now left].
  - left. exists d, (b, None). split; [reflexivity|discriminate].
Qed.

Lemma skipn_more n (d q : list byte) : 0 <= n <= zlen d -> skipn (Z.to_nat n) (d ++ q) = skipn (Z.to_nat n) d ++ q.
Proof using. intros H. rewrite skipn_app. replace (Z.to_nat n - length d)%nat with O by (unfold zlen in H; lia). reflexivity. Qed.
Lemma firstn_more n (d q : list byte) : 0 <= n <= zlen d -> firstn (Z.to_nat n) (d ++ q) = firstn (Z.to_nat n) d.
Proof using.
  intros H. rewrite firstn_app. replace (Z.to_nat n - length d)%nat with O by (unfold zlen in H; lia). apply app_nil_r.
Qed.
Lemma zlen_more (d q : list byte) : zlen (d ++ q) = zlen d + zlen q.
Proof using. unfold zlen. rewrite app_length. lia. Qed.

Lemma ends_discard n : ends snd (call (BDiscard n)).
Proof using.
  intros d e. cbn [run call stream_h sdata sfin]. destruct (Z.ltb_spec n 0) as [H|H].
  - left. exists d, (0, Some ENegativeCount). split; [reflexivity|]. intros er E. injection E as <-. apply not_eof_neg.
  - destruct (Z.leb_spec n (zlen d)) as [L|L].
    + left. exists (skipn (Z.to_nat n) d), (n, None). split; [|discriminate]. intros q e'.
      pose proof (zlen_nonneg q). pose proof (zlen_more d q).
      destruct (Z.leb_spec n (zlen (d ++ q))); [|lia]. rewrite skipn_more by lia. reflexivity.
    + right. exists (zlen d, Some e), e. split; [reflexivity|]. split; [reflexivity|now left].
Qed.

Lemma ends_readfull n : 0 <= n -> ends snd (call (BReadFull n)).
Proof using.
  intros Hn d e. cbn [run call stream_h sdata sfin]. destruct (Z.leb_spec n (zlen d)) as [L|L].
  - left. exists (skipn (Z.to_nat n) d), (firstn (Z.to_nat n) d, None). split; [|discriminate]. intros q e'.
    pose proof (zlen_nonneg q). pose proof (zlen_more d q).
    destruct (Z.leb_spec n (zlen (d ++ q))); [|lia]. rewrite skipn_more, firstn_more by lia. reflexivity.
  - right. exists (d, Some (short_err d e)), (short_err d e). split; [|split; [reflexivity|apply short_end]].
    unfold short_err. destruct ((0 <? zlen d) && is_eof (Some e)); reflexivity.
Qed.

Lemma ends_spec n buf p : (forall d fi, run h p (mkStream d fi) = bytes_spec n buf d fi) -> ends snd p.
Proof using.
  intros Hp d e. destruct (Z.ltb_spec n 0) as [H|H].
  - left. exists d, (buf, Some ENegativeCount). split.
    + intros q e'. rewrite Hp. unfold bytes_spec. destruct (Z.ltb_spec n 0); [reflexivity|lia].
    + intros er E. injection E as <-. apply not_eof_neg.
  - destruct (Z.leb_spec n (zlen d)) as [L|L].
    + left. exists (skipn (Z.to_nat n) d), (buf ++ firstn (Z.to_nat n) d, None). split; [|discriminate].
      intros q e'. rewrite Hp. unfold bytes_spec. pose proof (zlen_nonneg q). pose proof (zlen_more d q).
      destruct (Z.ltb_spec n 0); [lia|]. destruct (Z.leb_spec n (zlen (d ++ q))); [|lia].
      rewrite skipn_more, firstn_more by lia. reflexivity.
    + right. exists (buf ++ d, Some (short_err d e)), (short_err d e). split; [|split; [reflexivity|apply short_end]].
      rewrite Hp. unfold bytes_spec. destruct (Z.ltb_spec n 0); [lia|]. destruct (Z.leb_spec n (zlen d)); [lia|]. reflexivity.
Qed.
Lemma ends_read_string n : ends snd (read_string n).
Proof using size_ok. apply (ends_spec n []). intros. apply read_string_spec. lia. Qed.
Lemma ends_read_bytes n buf : ends snd (read_bytes n buf).
Proof using size_ok. apply (ends_spec n buf). intros. apply read_bytes_spec. lia. Qed.

Lemma ends_next n : 0 <= n <= size -> ends snd (next n).
Proof using.
  intros Hn d e. destruct (Z.leb_spec n (zlen d)) as [L|L].
  - left. exists (skipn (Z.to_nat n) d), (firstn (Z.to_nat n) d, None). split; [|discriminate].
    intros q e'. pose proof (zlen_nonneg q). pose proof (zlen_more d q).
    rewrite next_ok by lia. rewrite skipn_more, firstn_more by lia. reflexivity.
  - right. exists (d, Some (short_err d e)), (short_err d e).
    rewrite next_short by lia. split; [reflexivity|]. split; [reflexivity|apply short_end].
Qed.

Lemma ends_uvarint_loop f : forall i s x, ends snd (read_uvarint_loop f i s x).
Proof using.
  induction f as [|f IH]; intros i s x; cbn [read_uvarint_loop].
  - apply ends_ret. intros er E. injection E as <-. split; discriminate.
  - intros d e. destruct d as [|b d].
    + right. cbn. destruct (i >? 0); destruct e; cbn;
        eexists; eexists; (split; [reflexivity|]; split; [reflexivity|]); unfold end_error; auto.
    + assert (K : ends snd (if b2z b <? 0x80 then
          if (i =? MaxVarintLen64 - 1) && (b2z b >? 1) then Ret (x, Some EOverflow)
          else Ret (Z.lor x (u64 (Z.shiftl (b2z b) s)), None)
        else read_uvarint_loop f (i + 1) (s + 7) (Z.lor x (u64 (Z.shiftl (Z.land (b2z b) 0x7f) s))))).
      { destruct (b2z b <? 0x80); [|apply IH].
        destruct (_ && _); apply ends_ret; [|discriminate]. intros er E. injection E as <-. split; discriminate. }
      destruct (K d e) as [(d' & y & R & N)|(y & er & R & E)].
      * left. exists d', y. split; [|exact N]. intros q e'. exact (R q e').
      * right. exists y, er. split; [|exact E]. exact R.
Qed.
Lemma ends_uvarint : ends snd read_uvarint.
Proof using. apply ends_uvarint_loop. Qed.
Lemma ends_varint : ends snd read_varint.
Proof using.
  unfold read_varint. eapply ends_bind; [apply ends_uvarint| |].
  - intros [u e] er E. cbn in E. subst e. eexists. split; reflexivity.
  - intros [u e] E. cbn in E. subst e. apply ends_ret. discriminate.
Qed.
Lemma ends_tw_uvarint : ends snd tw_read_uvarint.
Proof using size_ok.
  intros d e. destruct (ends_uvarint d e) as [(d' & y & R & N)|(y & er & R & E)].
  - left. exists d', y. split; [|exact N]. intros q e'. rewrite tw_read_uvarint_drop_in by lia. apply R.
  - right. exists y, er. split; [|exact E]. rewrite tw_read_uvarint_drop_in by lia. exact R.
Qed.
End Ends.

Ltac ends_solve :=
  lazymatch goal with
  | |- ends _ _ (Ret _) => apply ends_ret; cbn [snd fst errR]; intros ? ?; (discriminate || (split; congruence))
  | |- ends _ _ (call BReadByte) => apply ends_readbyte
  | |- ends _ _ (call (BDiscard _)) => apply ends_discard
  | |- ends _ _ (call (BReadFull _)) => apply ends_readfull; lia
  | |- ends _ _ (next _) => apply ends_next; lia
  | |- ends _ _ (read_string _) => apply ends_read_string; assumption
  | |- ends _ _ (read_bytes _ _) => apply ends_read_bytes; assumption
  | |- ends _ _ read_uvarint => apply ends_uvarint
  | |- ends _ _ read_varint => apply ends_varint
  | |- ends _ _ tw_read_uvarint => apply ends_tw_uvarint; assumption
  | |- ends _ _ (if ?b then _ else _) => destruct b eqn:?; ends_solve
  | |- ends _ _ (let '(_, _) := compact_wire ?t in _) => destruct (compact_wire t) as [? [?|]] eqn:?; cbn [is_none negb orb]; ends_solve
  | |- ends _ _ (match ?o with Some _ => _ | None => _ end) => destruct o eqn:?; ends_solve
  | |- ends _ _ (match ?o with [] => _ | _ => _ end) => destruct o eqn:?; ends_solve
  | |- ends _ _ (match ?o with BNone => _ | BTrue => _ | BFalse => _ end) => destruct o eqn:?; ends_solve
  | |- ends _ _ (bind _ _) =>
      apply (ends_bind _ snd);
      [ ends_solve
      | intros [? ?] ? E; cbn [snd] in E; subst; cbn [is_none negb orb]; eexists; split; reflexivity
      | intros [? ?] E; cbn [snd] in E; subst; cbn [is_none negb orb]; ends_solve ]
  | |- _ => idtac
  end.

Lemma wire_not_eof t ty er : compact_wire t = (ty, Some er) -> not_eof er.
Proof.
  unfold compact_wire. intros E.
  destruct t as [|p|p]; [discriminate| |injection E as <- <-; split; discriminate].
  do 5 (try (destruct p as [p|p|]; try discriminate; try (injection E as <- <-; split; discriminate))).
Qed.

Definition call_ends (size : Z) {S} (L : layer wireR bufR S) : Prop :=
  forall X (c : wireR X) st, ends size (fun r => errR c (snd r)) (L X c st).

Lemma bin_ends size strict : 10 <= size -> call_ends size (bin_reader strict).
Proof.
  intros Hs X c st.
  assert (W : forall p : prog bufR X, ends size (errR c) p -> ends size (fun r => errR c (snd r)) (x <- p ;; Ret (st, x))).
  { intros p Hp. eapply ends_bind; [exact Hp| |].
    - intros a er E. eexists. split; [reflexivity|exact E].
    - intros a E. apply ends_ret. intros er E'. cbn [snd] in E'. congruence. }
  unfold bin_reader. apply W. clear W.
  destruct c; cbn [bin_read errR];
  unfold bin_read_message_begin, bin_read_field_begin, bin_read_map_begin, bin_read_set_begin, bin_read_bool,
    bin_read_double, bin_read_i64, bin_skip_string, bin_read_bytes, bin_read_string, bin_read_type, bin_read_size,
    bin_read_i32, bin_read_i16, read_uuid, skip_uuid; ends_solve.
Qed.

Lemma cmp_ends size : 10 <= size -> call_ends size cmp_reader.
Proof.
  intros Hs X c st.
  assert (W : forall p : prog bufR X, ends size (errR c) p -> ends size (fun r => errR c (snd r)) (lift st p)).
  { intros p Hp. unfold lift. eapply ends_bind; [exact Hp| |].
    - intros a er E. eexists. split; [reflexivity|exact E].
    - intros a E. apply ends_ret. intros er E'. cbn [snd] in E'. congruence. }
  destruct c; unfold cmp_reader; cbn [cmp_reader_gen];
  try (apply W; clear W; cbn [errR];
       unfold cmp_read_message_begin, cmp_read_map_begin, cmp_read_set_begin, cmp_read_double, cmp_read_i32, cmp_read_i16, cmp_read_i64,
         cmp_skip_string, cmp_read_bytes, cmp_read_string, cmp_read_size, cmp_hdr_size, read_uuid, skip_uuid; ends_solve; fail);
  try (clear W; cbn [errR]; ends_solve; fail).
  - clear W. cbn [errR]. unfold cmp_read_field_begin, cmp_read_i16, cmp_read_i64.
    apply (ends_bind _ snd); [apply ends_readbyte| |].
    + intros [b o] er E. cbn in E. subst o. eexists. split; reflexivity.
    + intros [b o] E. cbn in E. subst o. cbv zeta.
      destruct (compact_wire (Z.land (b2z b) 15)) as [ty [er|]] eqn:W; cbn [is_none negb orb].
      * apply ends_ret. cbn [snd]. intros er' E. injection E as <-. exact (wire_not_eof _ _ _ W).
      * ends_solve.
  - apply W. clear W. cbn [errR]. unfold cmp_read_map_begin, cmp_hdr_size.
    apply (ends_bind _ snd); [ends_solve| |].
    + intros [b o] er E. cbn in E. subst o. eexists. split; reflexivity.
    + intros [b o] E. cbn in E. subst o. cbn [is_none negb orb]. destruct (b =? 0); [ends_solve|].
      apply (ends_bind _ snd); [ends_solve| |].
      * intros [b' o] er E. cbn in E. subst o. eexists. split; reflexivity.
      * intros [b' o] E. cbn in E. subst o.
        destruct (compact_wire (Z.shiftr (b2z b') 4)) as [ty [er|]] eqn:W.
        -- apply ends_ret. cbn [snd]. intros er' E. injection E as <-. exact (wire_not_eof _ _ _ W).
        -- destruct (compact_wire (Z.land (b2z b') 15)) as [ty' o] eqn:W2. apply ends_ret. cbn [snd].
           intros er' E. subst o. exact (wire_not_eof _ _ _ W2).
  - apply W. clear W. cbn [errR]. unfold cmp_read_set_begin, cmp_hdr_size.
    apply (ends_bind _ snd); [ends_solve| |].
    + intros [b o] er E. cbn in E. subst o. eexists. split; reflexivity.
    + intros [b o] E. cbn in E. subst o. cbv zeta.
      destruct (compact_wire (Z.land (b2z b) 15)) as [ty [er|]] eqn:W.
      * apply ends_ret. cbn [snd]. intros er' E. injection E as <-. exact (wire_not_eof _ _ _ W).
      * ends_solve.
  - apply W. clear W. cbn [errR]. unfold cmp_read_set_begin, cmp_hdr_size.
    apply (ends_bind _ snd); [ends_solve| |].
    + intros [b o] er E. cbn in E. subst o. eexists. split; reflexivity.
    + intros [b o] E. cbn in E. subst o. cbv zeta.
      destruct (compact_wire (Z.land (b2z b) 15)) as [ty [er|]] eqn:W.
      * apply ends_ret. cbn [snd]. intros er' E. injection E as <-. exact (wire_not_eof _ _ _ W).
      * ends_solve.
Qed.
