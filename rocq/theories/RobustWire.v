(** The single calls of the two readers, on a byte stream that ends with an
    error: they always return, consume a prefix of the stream, and when they
    succeed they also succeed, with the same result, on every longer stream. *)
From Verif Require Import Base BaseLemmas Prog Bufio BufioProof GoBinary GoBinaryProof Wire WireProof
  Spec Clients Binary Compact Layers Robust.

Section Good.
Variable size : Z.
Hypothesis Hsize : 10 <= size.

Notation rs := (run (stream_h size)).

(** [k]: least number of bytes consumed by success. *)
Definition good {A} (k : nat) (er : A -> option err) (p : prog bufR A) : Prop :=
  forall d e, exists c d' a, d = c ++ d' /\ rs p (mkStream d (FErr e)) = Done (mkStream d' (FErr e)) a /\
    (er a = None -> (k <= length c)%nat /\
       forall r, rs p (mkStream (d ++ r) (FErr e)) = Done (mkStream (d' ++ r) (FErr e)) a).

Lemma good_weaken {A} k k' (er : A -> option err) p : good k er p -> (k' <= k)%nat -> good k' er p.
Proof.
  intros H Hk d e. destruct (H d e) as (c & d' & a & E1 & E2 & H3). exists c, d', a.
  conj; auto. intros Ha. destruct (H3 Ha). split; [lia|auto].
Qed.

Lemma good_ret {A} k (er : A -> option err) a : (er a = None -> k = O) -> good k er (Ret a).
Proof.
  intros H d e. exists [], d, a. conj; auto. intros Ha. rewrite (H Ha). auto.
Qed.

Lemma good_bind {A B} k1 k2 (er : A -> option err) (er' : B -> option err) p f :
  good k1 er p ->
  (forall a, er a <> None -> exists b, f a = Ret b /\ er' b <> None) ->
  (forall a, er a = None -> good k2 er' (f a)) ->
  good (k1 + k2) er' (bind p f).
Proof.
  intros Hp Hn Hf d e. rewrite run_bind.
  destruct (Hp d e) as (c1 & d1 & a & E1 & E2 & H3). rewrite E2. cbn [obind].
  destruct (er a) as [x|] eqn:Ea.
  - destruct (Hn a) as (b & E4 & H5); [congruence|]. rewrite E4. cbn [run].
    exists c1, d1, b. conj; auto; intros; congruence.
  - destruct (H3 eq_refl) as [H4 H5]. destruct (Hf a Ea d1 e) as (c2 & d2 & b & E6 & E7 & H8).
    exists (c1 ++ c2), d2, b. conj; auto.
    + now rewrite <- app_assoc, <- E6.
    + intros Hb. destruct (H8 Hb) as [H9 H10]. split; [rewrite app_length; lia|].
      intros r. rewrite run_bind, H5. cbn [obind]. apply H10.
Qed.

(** Result checked by projection [snd], continuation total on errors. *)
Lemma good_read_byte : good 1 snd (call BReadByte).
Proof.
  intros [|b d] e; rewrite run_call; cbn [stream_h sdata sfin].
  - exists [], [], (x00, Some e). conj; auto; discriminate.
  - exists [b], d, (b, None). conj; auto.
Qed.

Lemma split_at (n : Z) (d : list byte) : 0 <= n <= zlen d ->
  d = firstn (Z.to_nat n) d ++ skipn (Z.to_nat n) d /\ length (firstn (Z.to_nat n) d) = Z.to_nat n /\
  forall r, firstn (Z.to_nat n) (d ++ r) = firstn (Z.to_nat n) d /\
            skipn (Z.to_nat n) (d ++ r) = skipn (Z.to_nat n) d ++ r.
Proof.
  intros H. unfold zlen in H. split; [now rewrite firstn_skipn|].
  split; [rewrite firstn_length; lia|]. intros r. rewrite firstn_app, skipn_app.
  replace (Z.to_nat n - length d)%nat with O by lia. cbn. now rewrite app_nil_r.
Qed.

Lemma good_next n : n <= size -> good (Z.to_nat n) snd (next n).
Proof.
  intros Hn d e. destruct (Z.ltb_spec n 0).
  - rewrite next_neg by lia. exists [], d, ([], Some ENegativeCount). conj; auto; discriminate.
  - destruct (Z.leb_spec n (zlen d)).
    + rewrite next_ok by lia. destruct (split_at n d) as (E1 & E2 & E3); [lia|].
      eexists _, _, _. split; [exact E1|]. split; [reflexivity|]. intros _. split; [lia|].
      intros r. destruct (E3 r) as [E4 E5]. rewrite next_ok, E4, E5; auto; try lia.
      rewrite zlen_app. pose proof (zlen_nonneg r). lia.
    + rewrite next_short by lia. exists d, [], (d, Some (short_err d e)).
      conj; auto using app_nil_r; discriminate.
Qed.

Lemma good_discard n : good (Z.to_nat n) snd (call (BDiscard n)).
Proof.
  intros d e. rewrite run_call. cbn [stream_h sdata sfin]. destruct (Z.ltb_spec n 0).
  - exists [], d, (0, Some ENegativeCount). conj; auto; discriminate.
  - destruct (Z.leb_spec n (zlen d)).
    + destruct (split_at n d) as (E1 & E2 & E3); [lia|].
      eexists _, _, _. split; [exact E1|]. split; [reflexivity|]. intros _. split; [lia|].
      intros r. destruct (E3 r) as [E4 E5]. rewrite run_call. cbn [stream_h sdata sfin].
      destruct (Z.ltb_spec n 0); [lia|]. rewrite E5.
      destruct (Z.leb_spec n (zlen (d ++ r))); [reflexivity|].
      rewrite zlen_app in *. pose proof (zlen_nonneg r). lia.
    + exists d, [], (zlen d, Some e). conj; auto using app_nil_r; discriminate.
Qed.

Lemma good_read_full n : 0 <= n -> good (Z.to_nat n) snd (call (BReadFull n)).
Proof.
  intros Hn d e. rewrite run_call. cbn [stream_h sdata sfin].
  destruct (Z.leb_spec n (zlen d)).
  - destruct (split_at n d) as (E1 & E2 & E3); [lia|].
    eexists _, _, _. split; [exact E1|]. split; [reflexivity|]. intros _. split; [lia|].
    intros r. destruct (E3 r) as [E4 E5]. rewrite run_call. cbn [stream_h sdata sfin].
    rewrite E4, E5. destruct (Z.leb_spec n (zlen (d ++ r))); [reflexivity|].
    rewrite zlen_app in *. pose proof (zlen_nonneg r). lia.
  - eexists d, [], _. split; [symmetry; apply app_nil_r|]. split; [reflexivity|].
    cbn [snd]. destruct ((0 <? zlen d) && is_eof (Some e)); discriminate.
Qed.

Lemma good_bytes n (p : prog bufR (list byte * option err)) buf :
  (forall d fi, rs p (mkStream d fi) = bytes_spec n buf d fi) -> good 0 snd p.
Proof.
  intros Hp d e. rewrite Hp. unfold bytes_spec. destruct (Z.ltb_spec n 0).
  - eexists [], d, _. conj; [reflexivity..|]. discriminate.
  - destruct (Z.leb_spec n (zlen d)).
    + destruct (split_at n d) as (E1 & E2 & E3); [lia|].
      eexists _, _, _. split; [exact E1|]. split; [reflexivity|]. intros _. split; [lia|].
      intros r. destruct (E3 r) as [E4 E5]. rewrite Hp. unfold bytes_spec.
      destruct (Z.ltb_spec n 0); [lia|]. rewrite E4, E5.
      destruct (Z.leb_spec n (zlen (d ++ r))); [reflexivity|].
      rewrite zlen_app in *. pose proof (zlen_nonneg r). lia.
    + eexists d, [], _. split; [symmetry; apply app_nil_r|]. split; [reflexivity|]. discriminate.
Qed.

Lemma good_read_bytes n buf : good 0 snd (read_bytes n buf).
Proof. apply (good_bytes n _ buf). intros. apply read_bytes_spec. lia. Qed.
Lemma good_read_string n : good 0 snd (read_string n).
Proof. apply (good_bytes n _ []). intros. apply read_string_spec. lia. Qed.

Ltac errcase := let a := fresh in let x := fresh in intros [a [x|]]; cbn [snd]; intros Hq0; [|now elim Hq0].
Ltac okcase := let a := fresh "a" in let x := fresh in intros [a [x|]]; cbn [snd]; intros Hq0; [discriminate Hq0|]; clear Hq0.

Lemma good_read_uvarint_loop f : forall i s x, good (Nat.min 1 f) snd (read_uvarint_loop f i s x).
Proof.
  induction f as [|f IH]; intros i s x; cbn [read_uvarint_loop].
  - apply good_ret. discriminate.
  - change (Nat.min 1 (S f)) with (1 + 0)%nat. apply (good_bind 1 0 snd snd); [apply good_read_byte| |].
    + errcase. eexists. split; [reflexivity|]. cbn. destruct ((i >? 0) && _); discriminate.
    + okcase. destruct (b2z a <? 128).
      * destruct ((i =? MaxVarintLen64 - 1) && (b2z a >? 1)); now apply good_ret.
      * eapply good_weaken; [apply IH|lia].
Qed.

Lemma good_read_uvarint : good 1 snd read_uvarint.
Proof. apply (good_read_uvarint_loop 10). Qed.

Lemma good_read_varint : good 1 snd read_varint.
Proof.
  unfold read_varint. apply (good_bind 1 0 snd snd); [apply good_read_uvarint| |].
  - errcase. eexists; split; [reflexivity|discriminate].
  - okcase. now apply good_ret.
Qed.

Lemma good_tw_read_uvarint : good 1 snd tw_read_uvarint.
Proof.
  intros d e. rewrite tw_read_uvarint_drop_in by lia.
  destruct (good_read_uvarint d e) as (c & d' & a & H1 & H2 & H3). exists c, d', a. conj; auto.
  intros Ha. destruct (H3 Ha) as [H4 H5]. split; [exact H4|]. intros r.
  rewrite tw_read_uvarint_drop_in by lia. apply H5.
Qed.

Lemma good_tw_read_varint : good 1 snd tw_read_varint.
Proof.
  intros d e. rewrite tw_read_varint_drop_in by lia.
  destruct (good_read_varint d e) as (c & d' & a & H1 & H2 & H3). exists c, d', a. conj; auto.
  intros Ha. destruct (H3 Ha) as [H4 H5]. split; [exact H4|]. intros r.
  rewrite tw_read_varint_drop_in by lia. apply H5.
Qed.

(** Automation: [gd k1 lemma] binds a checked call. *)
Ltac gret := first [apply good_ret; (reflexivity || discriminate || (intros; reflexivity))].
Ltac gbind a b := apply (good_bind a b snd snd).

Lemma good_fixed {A} n (v : list byte -> A) (z : A) : n <= size ->
  good (Z.to_nat n) snd ('(buf, e) <- next n ;;
    match e with Some _ => Ret (z, e) | None => Ret (v buf, None) end).
Proof.
  intros Hn. replace (Z.to_nat n) with (Z.to_nat n + 0)%nat by lia.
  gbind (Z.to_nat n) 0%nat; [now apply good_next| |].
  - errcase. eexists; split; [reflexivity|discriminate].
  - okcase. gret.
Qed.

Lemma good_bin_i32 : good 4 snd bin_read_i32.
Proof. apply (good_fixed 4); lia. Qed.
Lemma good_bin_i16 : good 2 snd bin_read_i16.
Proof. apply (good_fixed 2); lia. Qed.
Lemma good_bin_i64 : good 8 snd bin_read_i64.
Proof. apply (good_fixed 8); lia. Qed.
Lemma good_bin_double : good 8 snd bin_read_double.
Proof. apply (good_fixed 8); lia. Qed.

Lemma good_bin_type : good 1 snd bin_read_type.
Proof.
  unfold bin_read_type. gbind 1%nat 0%nat; [apply good_read_byte| |].
  - errcase. eexists; split; [reflexivity|discriminate].
  - okcase. gret.
Qed.

Lemma good_size_then {A} k (sz : prog bufR (Z * option err)) (z : A) (p : Z -> prog bufR (A * option err)) :
  good k snd sz -> (forall n, good 0 snd (p n)) ->
  good k snd ('(n, e) <- sz ;; match e with Some _ => Ret (z, e) | None => p n end).
Proof.
  intros Hs Hp. replace k with (k + 0)%nat by lia. gbind k 0%nat; [exact Hs| |].
  - errcase. eexists; split; [reflexivity|discriminate].
  - okcase. apply Hp.
Qed.

Lemma good_skip_string k sz : good k snd sz ->
  good k (fun o : option err => o)
    ('(n, e) <- sz ;; match e with Some _ => Ret e | None => '(_, e) <- call (BDiscard n) ;; Ret e end).
Proof.
  intros Hs. replace k with (k + 0)%nat by lia.
  apply (good_bind k 0 snd (fun o => o)); [exact Hs| |].
  - errcase. eexists; split; [reflexivity|discriminate].
  - okcase. eapply good_weaken with (k := (Z.to_nat a + 0)%nat); [|lia].
    apply (good_bind _ _ snd (fun o => o)); [apply good_discard| |].
    + errcase. eexists; split; [reflexivity|discriminate].
    + okcase. gret.
Qed.

Lemma good_skip_uuid : good 16 (fun o : option err => o) skip_uuid.
Proof.
  unfold skip_uuid. apply (good_bind 16 0 snd (fun o => o)); [apply (good_discard 16)| |].
  - errcase. eexists; split; [reflexivity|discriminate].
  - okcase. gret.
Qed.

Lemma good_read_uuid old : good 16 snd (read_uuid old).
Proof.
  unfold read_uuid. apply (good_bind 16 0 snd snd); [apply (good_read_full 16); lia| |].
  - errcase. eexists; split; [reflexivity|discriminate].
  - okcase. gret.
Qed.

Lemma good_bin_string : good 4 snd bin_read_string.
Proof. apply good_size_then; [apply good_bin_i32|apply good_read_string]. Qed.

Ltac gweak := eapply good_weaken; [|match goal with |- (_ <= ?k)%nat => idtac end].

Lemma good_bin_message strict : good 1 snd (bin_read_message_begin strict).
Proof.
  unfold bin_read_message_begin. apply good_weaken with (k := (4 + 0)%nat); [|lia].
  gbind 4%nat 0%nat; [apply good_bin_i32| |].
  { errcase. eexists; split; [reflexivity|discriminate]. }
  okcase. destruct (a <? 0).
  - destruct (negb (Z.land a versionMask =? bin_version1)); [gret|].
    apply good_weaken with (k := (4 + 0)%nat); [|lia].
    gbind 4%nat 0%nat; [apply good_bin_string| |].
    { errcase. eexists; split; [reflexivity|discriminate]. }
    okcase. apply good_weaken with (k := (4 + 0)%nat); [|lia].
    gbind 4%nat 0%nat; [apply good_bin_i32| |].
    { errcase. eexists; split; [reflexivity|discriminate]. }
    okcase. gret.
  - destruct strict; [gret|].
    apply good_weaken with (k := (0 + 0)%nat); [|lia].
    gbind 0%nat 0%nat; [apply good_read_string| |].
    { errcase. eexists; split; [reflexivity|discriminate]. }
    okcase. apply good_weaken with (k := (1 + 0)%nat); [|lia].
    gbind 1%nat 0%nat; [apply good_bin_type| |].
    { errcase. eexists; split; [reflexivity|discriminate]. }
    okcase. apply good_weaken with (k := (4 + 0)%nat); [|lia].
    gbind 4%nat 0%nat; [apply good_bin_i32| |].
    { errcase. eexists; split; [reflexivity|discriminate]. }
    okcase. gret.
Qed.

Lemma good_bin_field : good 1 snd bin_read_field_begin.
Proof.
  unfold bin_read_field_begin. change 1%nat with (1 + 0)%nat.
  gbind 1%nat 0%nat; [apply good_bin_type| |].
  { errcase. eexists; split; [reflexivity|discriminate]. }
  okcase. cbn [is_none negb orb]. destruct (a =? T_Stop); [gret|].
  apply good_weaken with (k := (2 + 0)%nat); [|lia].
  gbind 2%nat 0%nat; [apply good_bin_i16| |].
  { errcase. eexists; split; [reflexivity|discriminate]. }
  okcase. gret.
Qed.

Lemma good_bin_map : good 1 snd bin_read_map_begin.
Proof.
  unfold bin_read_map_begin. change 1%nat with (1 + 0)%nat.
  gbind 1%nat 0%nat; [apply good_bin_type| |].
  { errcase. eexists; split; [reflexivity|discriminate]. }
  okcase. apply good_weaken with (k := (1 + 0)%nat); [|lia].
  gbind 1%nat 0%nat; [apply good_bin_type| |].
  { errcase. eexists; split; [reflexivity|discriminate]. }
  okcase. apply good_weaken with (k := (4 + 0)%nat); [|lia].
  gbind 4%nat 0%nat; [apply good_bin_i32| |].
  { errcase. eexists; split; [reflexivity|discriminate]. }
  okcase. gret.
Qed.

Lemma good_bin_set : good 1 snd bin_read_set_begin.
Proof.
  unfold bin_read_set_begin. change 1%nat with (1 + 0)%nat.
  gbind 1%nat 0%nat; [apply good_bin_type| |].
  { errcase. eexists; split; [reflexivity|discriminate]. }
  okcase. apply good_weaken with (k := (4 + 0)%nat); [|lia].
  gbind 4%nat 0%nat; [apply good_bin_i32| |].
  { errcase. eexists; split; [reflexivity|discriminate]. }
  okcase. gret.
Qed.

Lemma good_bin strict X (e : wireR X) :
  good (if consumes e then 1 else 0) (errR e) (bin_read strict e).
Proof.
  destruct e; cbn [bin_read errR consumes]; try gret;
    auto using good_bin_message, good_bin_field, good_bin_map, good_bin_set, good_read_byte.
  - unfold bin_read_bool. gbind 1%nat 0%nat; [apply good_read_byte| |].
    + errcase. eexists; split; [reflexivity|discriminate].
    + okcase. gret.
  - eapply good_weaken; [apply good_bin_double|lia].
  - eapply good_weaken; [apply good_bin_i16|lia].
  - eapply good_weaken; [apply good_bin_i32|lia].
  - eapply good_weaken; [apply good_bin_i64|lia].
  - eapply good_weaken; [apply good_bin_string|lia].
  - eapply good_weaken; [apply good_size_then; [apply good_bin_i32|intros; apply good_read_bytes]|lia].
  - eapply good_weaken; [apply good_read_uuid|lia].
  - eapply good_weaken; [apply good_skip_string, good_bin_i32|lia].
  - eapply good_weaken; [apply good_skip_uuid|lia].
Qed.

(** ** Compact *)
Lemma good_cmp_size : good 1 snd (cmp_read_size tw_read_uvarint).
Proof.
  unfold cmp_read_size. gbind 1%nat 0%nat; [apply good_tw_read_uvarint| |].
  - errcase. eexists; split; [reflexivity|discriminate].
  - okcase. gret.
Qed.
Lemma good_hdr_size : good 1 snd cmp_hdr_size.
Proof.
  unfold cmp_hdr_size. gbind 1%nat 0%nat; [apply good_read_uvarint| |].
  - errcase. eexists; split; [reflexivity|discriminate].
  - okcase. gret.
Qed.
Lemma good_cmp_i16 : good 1 snd cmp_read_i16.
Proof.
  unfold cmp_read_i16. gbind 1%nat 0%nat; [apply good_read_varint| |].
  - errcase. eexists; split; [reflexivity|discriminate].
  - okcase. gret.
Qed.
Lemma good_cmp_i32 : good 1 snd cmp_read_i32.
Proof.
  unfold cmp_read_i32. gbind 1%nat 0%nat; [apply good_read_varint| |].
  - errcase. eexists; split; [reflexivity|discriminate].
  - okcase. gret.
Qed.
Lemma good_cmp_double : good 8 snd cmp_read_double.
Proof. apply (good_fixed 8); lia. Qed.
Lemma good_cmp_string : good 1 snd (cmp_read_string tw_read_uvarint).
Proof. apply good_size_then; [apply good_cmp_size|apply good_read_string]. Qed.

Lemma good_cmp_message : good 1 snd (cmp_read_message_begin tw_read_uvarint).
Proof.
  unfold cmp_read_message_begin. change 1%nat with (1 + 0)%nat.
  gbind 1%nat 0%nat; [apply good_read_byte| |].
  { errcase. eexists; split; [reflexivity|discriminate]. }
  okcase. destruct (negb (b2z a =? protocolID)); [gret|].
  apply good_weaken with (k := (1 + 0)%nat); [|lia].
  gbind 1%nat 0%nat; [apply good_read_byte| |].
  { errcase. eexists; split; [reflexivity|discriminate]. }
  okcase. destruct (negb (Z.land (b2z a0) 31 =? cmp_version1)); [gret|].
  apply good_weaken with (k := (1 + 0)%nat); [|lia].
  gbind 1%nat 0%nat; [apply good_tw_read_uvarint| |].
  { errcase. eexists; split; [reflexivity|discriminate]. }
  okcase. apply good_weaken with (k := (1 + 0)%nat); [|lia].
  gbind 1%nat 0%nat; [apply good_cmp_string| |].
  { errcase. eexists; split; [reflexivity|discriminate]. }
  okcase. gret.
Qed.

Lemma good_cmp_map : good 1 snd cmp_read_map_begin.
Proof.
  unfold cmp_read_map_begin. change 1%nat with (1 + 0)%nat.
  gbind 1%nat 0%nat; [apply good_hdr_size| |].
  { errcase. eexists; split; [reflexivity|discriminate]. }
  okcase. cbn [is_none negb orb]. destruct (a =? 0); [gret|].
  apply good_weaken with (k := (1 + 0)%nat); [|lia].
  gbind 1%nat 0%nat; [apply good_read_byte| |].
  { errcase. eexists; split; [reflexivity|discriminate]. }
  okcase. destruct (compact_wire (Z.shiftr (b2z a0) 4)) as [k [er|]]; [gret|].
  destruct (compact_wire (Z.land (b2z a0) 15)) as [v [er|]]; gret.
Qed.

Lemma good_cmp_set : good 1 snd cmp_read_set_begin.
Proof.
  unfold cmp_read_set_begin. change 1%nat with (1 + 0)%nat.
  gbind 1%nat 0%nat; [apply good_read_byte| |].
  { errcase. eexists; split; [reflexivity|discriminate]. }
  okcase. destruct (compact_wire (Z.land (b2z a) 15)) as [t [er|]]; [gret|].
  destruct (Z.shiftr (b2z a) 4 =? 15); [|gret].
  apply good_weaken with (k := (1 + 0)%nat); [|lia].
  gbind 1%nat 0%nat; [apply good_hdr_size| |].
  { errcase. eexists; split; [reflexivity|discriminate]. }
  okcase. gret.
Qed.

Lemma good_cmp_field st : good 1 (fun x => snd (snd x)) (cmp_read_field_begin st).
Proof.
  unfold cmp_read_field_begin. change 1%nat with (1 + 0)%nat.
  apply (good_bind 1 0 snd (fun x => snd (snd x))); [apply good_read_byte| |].
  { errcase. eexists; split; [reflexivity|discriminate]. }
  okcase. destruct (compact_wire (Z.land (b2z a) 15)) as [t [er|]]; cbn [is_none negb orb]; [gret|].
  destruct (t =? T_Stop); [gret|]. destruct (Z.shiftr (b2z a) 4 =? 0); [|gret].
  apply good_weaken with (k := (1 + 0)%nat); [|lia].
  apply (good_bind 1 0 snd (fun x => snd (snd x))); [apply good_cmp_i16| |].
  { errcase. eexists; split; [reflexivity|discriminate]. }
  okcase. gret.
Qed.

Lemma good_lift {X} k (er : X -> option err) (p : prog bufR X) (st : creader) :
  good k er p -> good k (fun x => er (snd x)) (lift st p).
Proof.
  intros Hp. unfold lift. replace k with (k + 0)%nat by lia.
  apply (good_bind k 0 er (fun x => er (snd x))); [exact Hp| |].
  - intros a Ha. eexists; split; [reflexivity|exact Ha].
  - intros a Ha. now apply good_ret.
Qed.

(** A pending boolean is delivered without reading. *)
Definition cmp_least {X} (e : wireR X) (st : creader) : nat :=
  match e with
  | RBool => match cr_bool st with BNone => 1 | _ => 0 end
  | _ => if consumes e then 1 else 0
  end.

Lemma good_cmp X (e : wireR X) st :
  good (cmp_least e st) (fun x => errR e (snd x)) (cmp_reader X e st).
Proof.
  unfold cmp_reader, cmp_reader_gen.
  destruct e; cbn [errR consumes cmp_least]; try gret;
    try (apply (good_lift 1 snd); auto using good_cmp_message, good_cmp_map, good_cmp_set, good_read_byte).
  - destruct (cr_ids st); gret.
  - apply good_cmp_field.
  - destruct (cr_bool st); [|gret|gret].
    apply (good_bind 1 0 snd (fun x => snd (snd x))); [apply good_read_byte| |].
    + errcase. eexists; split; [reflexivity|discriminate].
    + okcase. gret.
  - eapply good_weaken; [apply good_cmp_double|lia].
  - apply good_cmp_i16.
  - apply good_cmp_i32.
  - apply good_read_varint.
  - apply good_cmp_string.
  - apply good_size_then; [apply good_cmp_size|intros; apply good_read_bytes].
  - eapply good_weaken; [apply good_read_uuid|lia].
  - apply (good_lift 1 (fun o => o)). apply good_skip_string, good_cmp_size.
  - apply (good_lift 1 (fun o => o)). eapply good_weaken; [apply good_skip_uuid|lia].
Qed.

End Good.
