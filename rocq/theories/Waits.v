(** When a Compact Reader waits for bytes after the value. *)
From Verif Require Import Base BaseLemmas Prog GoBinary GoBinaryProof Codec Bufio BufioProof Layers Wire WireProof Spec Clients Reads Binary BinaryProof Compact CompactProof RoundTrip
  Fragment Messages ThriftTestProof WaitSpec.

Lemma compact_elems_fun es : forall l m, compact_elems compact_field es l -> compact_elems compact_field es m -> l = m.
Proof.
  induction es as [|x r IH]; intros l m A B; inversion A; inversion B; subst; auto. f_equal; [|eauto]. eapply compact_fun; eauto.
Qed.
Lemma compact_entries_fun es : forall l m, compact_entries compact_field es l -> compact_entries compact_field es m -> l = m.
Proof.
  induction es as [|[k v] r IH]; intros l m A B; inversion A; inversion B; subst; auto.
  f_equal; [eapply compact_fun; eauto|]. f_equal; [eapply compact_fun; eauto|]. eauto.
Qed.
Lemma compact_field_value_fun v : forall l m, compact_field_value compact_field v l -> compact_field_value compact_field v m -> l = m.
Proof.
  intros l m A B. inversion A; inversion B; subst; auto; try discriminate; try (cbn in *; congruence). eapply compact_fun; eauto.
Qed.
Lemma compact_fields_fun fs : forall last l m, compact_fields compact_field last fs l -> compact_fields compact_field last fs m -> l = m.
Proof.
  induction fs as [|[id v] r IH]; intros last l m A B; inversion A; inversion B; subst; auto.
  f_equal; [eapply compact_field_fun; eauto|]. f_equal; [eapply compact_field_value_fun; eauto|]. eauto.
Qed.

Section Watch.
Context (size : Z) (Hsize : 10 <= size).

(** ** A stream that goes silent *)
Lemma silent_or_same {A} (p : prog bufR A) : forall d,
  match run (stream_h size) p (mkStream d FSilent) with
  | Done s x => sfin s = FSilent /\ run (stream_h size) p (mkStream d (FErr EEOF)) = Done (mkStream (sdata s) (FErr EEOF)) x
  | Crashed c => c = Blocked \/ run (stream_h size) p (mkStream d (FErr EEOF)) = Crashed c
  end.
Proof using.
  induction p as [a|X e k IH|c]; intros d; cbn [run]; auto.
  assert (H : match stream_h size X e (mkStream d FSilent) with
    | Done s x => sfin s = FSilent /\ stream_h size X e (mkStream d (FErr EEOF)) = Done (mkStream (sdata s) (FErr EEOF)) x
    | Crashed c => c = Blocked \/ stream_h size X e (mkStream d (FErr EEOF)) = Crashed c end).
  { destruct e; cbn [stream_h sdata sfin]; repeat (match goal with |- context [if ?c then _ else _] => destruct c end; auto); destruct d; auto. }
  destruct (stream_h size X e (mkStream d FSilent)) as [[d' f'] x|c].
  - destruct H as (H1 & ->). cbn [sfin sdata] in *. subst f'. cbn [obind]. apply IH.
  - cbn [obind]. destruct H as [->|H]; [now left|right; now rewrite H].
Qed.

(** Runs on a stream that ends, and remembers whether it would have waited, had the stream gone silent. *)
Definition watched : handler wireR (bool * (creader * list byte)) := fun X e s =>
  match over cmp_reader (stream_h size) X e (fst (snd s), mkStream (snd (snd s)) (FErr EEOF)) with
  | Done (st', s') x =>
      Done (fst s && match over cmp_reader (stream_h size) X e (fst (snd s), mkStream (snd (snd s)) FSilent) with Done _ _ => true | _ => false end,
            (st', sdata s')) x
  | Crashed c => Crashed c
  end.

Lemma call_silent X (e : wireR X) st d :
  match over cmp_reader (stream_h size) X e (st, mkStream d FSilent) with
  | Done (st', s) x => sfin s = FSilent /\ over cmp_reader (stream_h size) X e (st, mkStream d (FErr EEOF)) = Done (st', mkStream (sdata s) (FErr EEOF)) x
  | Crashed c => c = Blocked \/ over cmp_reader (stream_h size) X e (st, mkStream d (FErr EEOF)) = Crashed c
  end.
Proof using.
  unfold over. cbn [fst snd]. pose proof (silent_or_same (cmp_reader X e st) d) as H.
  destruct (run (stream_h size) (cmp_reader X e st) (mkStream d FSilent)) as [s [st' x]|c].
  - destruct H as (H1 & ->). auto.
  - destruct H as [->|H]; [now left|right; now rewrite H].
Qed.

Lemma watched_run {A} (p : prog wireR A) : forall a st d a' st' d' x,
  run watched p (a, (st, d)) = Done (a', (st', d')) x ->
  if a then run (over cmp_reader (stream_h size)) p (st, mkStream d FSilent) = if a' then Done (st', mkStream d' FSilent) x else Crashed Blocked
  else a' = false.
Proof using.
  induction p as [y|X e k IH|c]; intros a st d a' st' d' x H; cbn [run] in *; [injection H as -> -> -> ->; destruct a'; auto| |discriminate].
  unfold watched at 1 in H. cbn [fst snd] in H. pose proof (call_silent X e st d) as C.
  destruct (over cmp_reader (stream_h size) X e (st, mkStream d (FErr EEOF))) as [[st1 [d1 f1]] x1|] eqn:E1; [|discriminate]. cbn [obind sdata] in H.
  destruct (over cmp_reader (stream_h size) X e (st, mkStream d FSilent)) as [[st2 [d2 f2]] x2|c2].
  - cbn [sfin sdata] in C. destruct C as (-> & C). injection C as -> -> -> ->. rewrite andb_true_r in H. apply IH in H. destruct a; auto.
  - rewrite andb_false_r in H. apply IH in H. subst a'. destruct a; auto. destruct C as [->|C]; [reflexivity|discriminate].
Qed.

Lemma watched_same X (e : wireR X) a st d st' d' x :
  (forall fi, over cmp_reader (stream_h size) X e (st, mkStream d fi) = Done (st', mkStream d' fi) x) ->
  watched X e (a, (st, d)) = Done (a, (st', d')) x.
Proof using. intros H. unfold watched. cbn [fst snd]. rewrite !H. cbn [sdata]. now rewrite andb_true_r. Qed.

(** ** Reading a value *)
Definition ample (v : tval) (rest : list byte) : Prop := forall m, from_string v m -> 10 <= zlen (m ++ rest).
Definition ample_elems (es : list tval) rest : Prop := forall before v after m n,
  es = before ++ v :: after -> from_string v m -> compact_elems compact_field after n -> 10 <= zlen (m ++ n ++ rest).
Definition ample_entries (es : list (tval * tval)) rest : Prop := forall before k v after n,
  es = before ++ (k, v) :: after -> compact_entries compact_field after n ->
  (forall m b, from_string k m -> compact_encoding v b -> 10 <= zlen (m ++ b ++ n ++ rest)) /\
  (forall m, from_string v m -> 10 <= zlen (m ++ n ++ rest)).
Definition ample_fields (fs : list (Z * tval)) rest : Prop := forall before id v after m n,
  fs = before ++ (id, v) :: after -> from_string v m -> compact_fields compact_field id after n -> 10 <= zlen (m ++ n ++ rest).

Lemma ample_elems_cons v r n rest : compact_elems compact_field r n ->
  (ample_elems (v :: r) rest <-> ample v (n ++ rest) /\ ample_elems r rest).
Proof using.
  intros Hn. split.
  - intros H. split.
    + intros m Hm. now apply (H [] v r m n).
    + intros before w after m q E. apply (H (v :: before)). now rewrite E.
  - intros [A B] [|w before] x after m q E; injection E as <- E; intros Hm Hq.
    + subst after. rewrite (compact_elems_fun r q n Hq Hn). now apply A.
    + now apply (B before x after).
Qed.
Lemma ample_entries_cons k v r b n rest : compact_encoding v b -> compact_entries compact_field r n ->
  (ample_entries ((k, v) :: r) rest <-> ample k (b ++ n ++ rest) /\ ample v (n ++ rest) /\ ample_entries r rest).
Proof using.
  intros Hb Hn. split.
  - intros H. destruct (H [] k v r n eq_refl Hn) as [A B]. conj.
    + intros m Hm. now apply A.
    + intros m Hm. now apply B.
    + intros before k' v' after q E. apply (H ((k, v) :: before)). now rewrite E.
  - intros (A & B & C) [|w before] k' v' after q E Hq; inversion E; subst.
    + rewrite (compact_entries_fun after q n Hq Hn). split; [intros m b' Hm Hb'; rewrite (compact_fun v' b' b Hb' Hb); now apply A|exact B].
    + now apply (C before k' v' after).
Qed.
Lemma ample_fields_cons id v r n rest : compact_fields compact_field id r n ->
  (ample_fields ((id, v) :: r) rest <-> ample v (n ++ rest) /\ ample_fields r rest).
Proof using.
  intros Hn. split.
  - intros H. split.
    + intros m Hm. now apply (H [] id v r m n).
    + intros before id' w after m q E. apply (H ((id, v) :: before)). now rewrite E.
  - intros [A B] [|w before] id' x after m q E; inversion E; subst; intros Hm Hq.
    + rewrite (compact_fields_fun after id' q n Hq Hn). now apply A.
    + now apply (B before id' x after).
Qed.

Lemma ample_list et es rest : ample (VList et es) rest <-> ample_elems es rest.
Proof using.
  split.
  - intros H before v after m n -> Hm Hn. rewrite app_assoc. apply H. now constructor.
  - intros H m Hm. inversion Hm; subst. rewrite <- app_assoc. eapply H; eauto.
Qed.
Lemma ample_set et es rest : ample (VSet et es) rest <-> ample_elems es rest.
Proof using.
  split.
  - intros H before v after m n -> Hm Hn. rewrite app_assoc. apply H. now constructor.
  - intros H m Hm. inversion Hm; subst. rewrite <- app_assoc. eapply H; eauto.
Qed.
Lemma ample_struct fs rest : ample (VStruct fs) rest <-> ample_fields fs rest.
Proof using.
  split.
  - intros H before id v after m n -> Hm Hn. rewrite app_assoc. apply H. now constructor.
  - intros H m Hm. inversion Hm; subst. rewrite <- app_assoc. eapply H; eauto.
Qed.
Lemma ample_map kt vt es rest : ample (VMap kt vt es) rest <-> ample_entries es rest.
Proof using.
  split.
  - intros H before k v after n -> Hn. split.
    + intros m b Hm Hb. replace (m ++ b ++ n ++ rest) with ((m ++ b ++ n) ++ rest) by now rewrite <- !app_assoc. apply H. now constructor.
    + intros m Hm. rewrite app_assoc. apply H. now constructor.
  - intros H m Hm. inversion Hm; subst.
    + rewrite <- !app_assoc. eapply H; eauto.
    + rewrite <- !app_assoc. eapply H; eauto.
Qed.

Lemma size_short l : zlen l < 10 -> run (stream_h size) tw_read_uvarint (mkStream l FSilent) = Crashed Blocked.
Proof using Hsize.
  intros H. unfold tw_read_uvarint. rewrite run_vis. cbn [stream_h sdata sfin]. unfold GoBinary.MaxVarintLen64. change (10 <? 0) with false. cbv iota.
  rewrite Z.min_l by lia. rewrite (proj2 (Z.leb_gt 10 (zlen l))) by lia. reflexivity.
Qed.

Lemma string_calls s l rest fi st : wf (2 ^ 63) (VString s) -> uleb128 (zlen s) l -> (fi = FSilent -> 10 <= zlen ((l ++ s) ++ rest)) ->
  reads (over cmp_reader (stream_h size)) (VString s) (st, mkStream ((l ++ s) ++ rest) fi) (st, mkStream rest fi).
Proof using Hsize.
  cbn [wf reads]. intros Hwf Hl Hf. pose proof (zlen_nonneg s). rewrite <- app_assoc in *.
  assert (S1 : run (stream_h size) (cmp_read_size tw_read_uvarint) (mkStream (l ++ s ++ rest) fi) = Done (mkStream (s ++ rest) fi) (zlen s, None)).
  { assert (is_u64 (zlen s)) by (unfold is_u64; lia). rewrite (uleb128_put (zlen s) l) in * by assumption. unfold cmp_read_size.
    rewrite run_bind, tw_read_uvarint_drop_in_gen by (auto; lia). rewrite read_uvarint_ok by assumption. cbn [obind run].
    now rewrite i64_id by (unfold is_i64; lia). }
  conj.
  - rewrite (cmp_r_lift size tw_read_uvarint _ _ st _ (cmp_read_string tw_read_uvarint)) by reflexivity. unfold cmp_read_string.
    rewrite run_bind, S1. cbn [obind]. rewrite read_string_spec by lia. now rewrite bytes_spec_app.
  - intros buf. rewrite (cmp_r_lift size tw_read_uvarint _ _ st _ (cmp_read_bytes tw_read_uvarint buf)) by reflexivity. unfold cmp_read_bytes.
    rewrite run_bind, S1. cbn [obind]. rewrite read_bytes_spec by lia. now rewrite bytes_spec_app.
  - rewrite (cmp_r_lift size tw_read_uvarint _ _ st _ (cmp_skip_string tw_read_uvarint)) by reflexivity. unfold cmp_skip_string.
    rewrite run_bind, S1. cbn [obind]. rewrite run_vis, discard_app by reflexivity. reflexivity.
Qed.

Lemma string_waits X (e : wireR X) st a d s' x :
  over cmp_reader (stream_h size) X e (st, mkStream d (FErr EEOF)) = Done s' x ->
  zlen d < 10 ->
  match e with RString | RBytes _ | RSkipString => True | _ => False end ->
  watched X e (a, (st, d)) = Done (false, (fst s', sdata (snd s'))) x.
Proof using Hsize.
  intros E Hd He. unfold watched. cbn [fst snd]. rewrite E. destruct s' as [st' s']. cbn [fst snd].
  assert (B : over cmp_reader (stream_h size) X e (st, mkStream d FSilent) = Crashed Blocked).
  { unfold over. cbn [fst snd].
    destruct e; try contradiction; unfold cmp_reader, cmp_reader_gen, lift, cmp_read_string, cmp_read_bytes, cmp_skip_string, cmp_read_size;
    now rewrite !run_bind, size_short. }
  rewrite B. now rewrite andb_false_r.
Qed.

Theorem watched_reads tv : forall l rest st a, wf (2 ^ 63) tv -> compact_encoding tv l -> cr_bool st = BNone ->
  exists a', (a' = true <-> a = true /\ ample tv rest) /\ reads watched (canon tv) (a, (st, l ++ rest)) (a', (st, rest)).
Proof using Hsize.
  assert (El : forall et fin es, (fin = RListEnd \/ fin = RSetEnd) ->
    Forall (fun v => forall l rest st a, wf (2 ^ 63) v -> compact_encoding v l -> cr_bool st = BNone ->
      exists a', (a' = true <-> a = true /\ ample v rest) /\ reads watched (canon v) (a, (st, l ++ rest)) (a', (st, rest))) es ->
    (fix elems (es : list tval) : Prop := match es with [] => True | v :: r => (val_type v = et /\ wf (2 ^ 63) v) /\ elems r end) es ->
    forall l rest st a, compact_elems compact_field es l -> cr_bool st = BNone ->
    exists a', (a' = true <-> a = true /\ ample_elems es rest) /\
      reads_elems watched fin et (a', (st, rest)) (map canon es) (a, (st, l ++ rest))).
  { intros et fin es Hfin. induction 1 as [|v r Hv Hr IHr]; intros Hwf l rest st a He Hb; inversion He; subst; cbn [map reads_elems].
    - exists a. split; [|apply watched_same; intros fi; destruct Hfin as [-> | ->]; reflexivity].
      split; [intros ->; split; [reflexivity|]|tauto]. intros [|w before] x after m n E; discriminate E.
    - destruct Hwf as ((T & W) & Hwr).
      destruct (Hv l0 (m ++ rest) st a W ltac:(eassumption) Hb) as (a1 & I1 & R1).
      destruct (IHr Hwr m rest st a1 ltac:(eassumption) Hb) as (a2 & I2 & R2).
      exists a2. split.
      + rewrite I2, I1, (ample_elems_cons v r m rest) by assumption. tauto.
      + rewrite canon_val_type. split; [exact T|]. eexists. rewrite <- app_assoc. split; [exact R1|exact R2]. }
  induction tv as [b|b|z|z|z|z|x|u|fs IH|kt vt es IH|et es IH|et es IH] using tval_ind'; intros l rest st a Hwf He Hb;
    pose proof (compact_enc_wrap _ l _ Hwf He) as He'.
  1-6: exists a; split;
    [split; [intros ->; split; [reflexivity|]; intros m Hm; inversion Hm|tauto]|];
    cbn [canon reads]; apply watched_same; intros fi;
    refine (cmp_reads_silent size _ l rest st fi Hsize Hwf He' Hb _); intros [].
  - inversion He as [| | | | | |s l0 Hl| | | | |]; subst. cbn [canon reads].
    pose proof (string_calls x l0 rest (FErr EEOF) st Hwf Hl ltac:(discriminate)) as R.
    destruct (Z_lt_le_dec (zlen ((l0 ++ x) ++ rest)) 10) as [L|L].
    + exists false. split.
      * split; [discriminate|]. intros [_ A]. specialize (A _ (fs_string _ _ He)). lia.
      * destruct R as (R1 & R2 & R3). conj; [|intros buf|]; match goal with |- watched _ ?e _ = _ => idtac end.
        -- exact (string_waits _ RString _ _ _ _ _ R1 L I).
        -- exact (string_waits _ (RBytes buf) _ _ _ _ _ (R2 buf) L I).
        -- exact (string_waits _ RSkipString _ _ _ _ _ R3 L I).
    + exists a. split.
      * split; [intros ->; split; [reflexivity|]|tauto]. intros m Hm. inversion Hm; subst.
        match goal with H : compact_encoding _ m |- _ => now rewrite (compact_fun _ m _ H He) end.
      * pose proof (fun fi => string_calls x l0 rest fi st Hwf Hl (fun _ => L)) as Q. cbn [reads] in Q.
        conj; [|intros buf|]; apply watched_same; intros fi; apply (Q fi).
  - exists a. split; [split; [intros ->; split; [reflexivity|]; intros m Hm; inversion Hm|tauto]|].
    pose proof (fun fi => cmp_reads_silent size _ l rest st fi Hsize Hwf He' Hb (fun H : has_string (VUUID u) => match H with end)) as Q.
    cbn [canon reads] in *. split; [intros old Ho|]; apply watched_same; intros fi; now apply (Q fi).
  - assert (F : forall fs, Forall (fun f => forall l rest st a, wf (2 ^ 63) (snd f) -> compact_encoding (snd f) l -> cr_bool st = BNone ->
        exists a', (a' = true <-> a = true /\ ample (snd f) rest) /\ reads watched (canon (snd f)) (a, (st, l ++ rest)) (a', (st, rest))) fs ->
      (fix fields (fs : list (Z * tval)) : Prop := match fs with [] => True | (id, v) :: r => (is_i16 id /\ wf (2 ^ 63) v) /\ fields r end) fs ->
      forall last l a, compact_fields compact_field last fs l ->
      exists a', (a' = true <-> a = true /\ ample_fields fs rest) /\
        reads_fields watched (a', (st, rest)) (map (fun f => (fst f, canon (snd f))) fs) (a, (mkCR (cr_last st :: cr_ids st) last BNone, l ++ rest))).
    { clear IH fs l a Hwf He He'. induction 1 as [|[id v] r Hv Hr IHr]; intros Hwf last l a He; inversion He; subst; cbn [map reads_fields fst snd] in *.
      - exists a. split.
        + split; [intros ->; split; [reflexivity|]|tauto]. intros [|w before] id x after m n E; discriminate E.
        + eexists _, _. split; [apply watched_same; intros fi; unfold over; cbn [fst snd cmp_reader cmp_reader_gen]; unfold cmp_read_field_begin; rewrite run_vis; cbn; reflexivity|]. split; [reflexivity|].
          apply watched_same. intros fi. unfold over. cbn [fst snd cmp_reader cmp_reader_gen run]. cbn. rewrite <- Hb. destruct st; reflexivity.
      - destruct Hwf as ((Hid & W) & Hwr).
        match goal with H : compact_field_value _ _ _ |- _ => rename H into Hfv end.
        match goal with H : compact_field _ _ _ _ |- _ => rename H into Hfh end.
        match goal with H : compact_fields _ _ _ m |- _ => rename H into Hrest end.
        assert (V : exists a1, (a1 = true <-> a = true /\ ample v (m ++ rest)) /\
          reads watched (canon v) (a, (mkCR (cr_last st :: cr_ids st) id (match v with VBool true => BTrue | VBool false => BFalse | _ => BNone end), l0 ++ m ++ rest))
            (a1, (mkCR (cr_last st :: cr_ids st) id BNone, m ++ rest))).
        { inversion Hfv; subst.
          - exists a. split; [split; [intros ->; split; [reflexivity|]; intros q Hq; inversion Hq|tauto]|].
            cbn [canon reads app]. apply watched_same. intros fi. destruct b; reflexivity.
          - replace (match v with VBool true => BTrue | VBool false => BFalse | _ => BNone end) with BNone by (destruct v; try reflexivity; cbn in *; congruence).
            apply Hv; auto. }
        destruct V as (a1 & I1 & R1). destruct (IHr Hwr id m a1 Hrest) as (a2 & I2 & R2).
        exists a2. split.
        + rewrite I2, I1, (ample_fields_cons id v r m rest Hrest). tauto.
        + do 3 eexists. exists []. rewrite <- !app_assoc, canon_val_type. conj; [|exact R1| |exact R2].
          * apply watched_same. intros fi. unfold over. cbn [fst snd cmp_reader cmp_reader_gen].
            rewrite (cmp_read_field_begin_ok size tw_read_uvarint fi (fun _ => False) (fun _ _ H => H) (fun _ _ _ H => match H with end) _ v id) by (auto using compact_field_wrap). reflexivity.
          * apply watched_same. intros fi. unfold over. cbn. reflexivity. }
    inversion He; subst. cbn [wf] in Hwf. destruct (F fs IH Hwf 0 l a ltac:(assumption)) as (a' & I1 & R1).
    exists a'. split; [now rewrite ample_struct|]. cbn [canon reads]. eexists _, []. split; [apply watched_same; intros fi; unfold over; cbn; reflexivity|].
    cbn. rewrite Hb. exact R1.
  - inversion He as [| | | | | | | | |kt' vt' es' h l0 Hh Hen| |]; subst. destruct Hwf as (Hn & Hk & Hv & Hes). pose proof (zlen_nonneg es).
    assert (F : forall es, Forall (fun e => (forall l rest st a, wf (2 ^ 63) (fst e) -> compact_encoding (fst e) l -> cr_bool st = BNone ->
        exists a', (a' = true <-> a = true /\ ample (fst e) rest) /\ reads watched (canon (fst e)) (a, (st, l ++ rest)) (a', (st, rest))) /\
        (forall l rest st a, wf (2 ^ 63) (snd e) -> compact_encoding (snd e) l -> cr_bool st = BNone ->
        exists a', (a' = true <-> a = true /\ ample (snd e) rest) /\ reads watched (canon (snd e)) (a, (st, l ++ rest)) (a', (st, rest)))) es ->
      (fix entries (es : list (tval * tval)) : Prop := match es with [] => True
         | (k, v) :: r => (val_type k = kt /\ val_type v = vt /\ wf (2 ^ 63) k /\ wf (2 ^ 63) v) /\ entries r end) es ->
      forall l a, compact_entries compact_field es l ->
      exists a', (a' = true <-> a = true /\ ample_entries es rest) /\
        reads_entries watched kt vt (a', (st, rest)) (map (fun e => (canon (fst e), canon (snd e))) es) (a, (st, l ++ rest))).
    { clear - Hb. induction 1 as [|[k v] r [Ik Iv] Hr IHr]; intros Hwf l a He; inversion He; subst; cbn [map reads_entries fst snd] in *.
      - exists a. split; [|apply watched_same; intros fi; reflexivity].
        split; [intros ->; split; [reflexivity|]|tauto]. intros [|w before] k v after n E; discriminate E.
      - destruct Hwf as ((Tk & Tv & Wk & Wv) & Hwr). rewrite !canon_val_type.
        match goal with Ha : compact_enc _ k ?x, Hb' : compact_enc _ v ?y, Hm : compact_entries _ r ?z |- _ =>
          destruct (Ik x (y ++ z ++ rest) st a Wk Ha Hb) as (a1 & I1 & R1); destruct (Iv y (z ++ rest) st a1 Wv Hb' Hb) as (a2 & I2 & R2);
          destruct (IHr Hwr z a2 Hm) as (a3 & I3 & R3); exists a3; split;
          [rewrite I3, I2, I1, (ample_entries_cons k v r y z rest) by assumption; tauto|] end.
        conj; auto. do 2 eexists. rewrite <- !app_assoc. conj; [exact R1|exact R2|exact R3]. }
    destruct (F es IH Hes l0 a Hen) as (a' & I1 & R1). exists a'. split; [now rewrite ample_map|].
    assert (C : canon (VMap kt vt es) = VMap (if zlen es =? 0 then 0 else kt) (if zlen es =? 0 then 0 else vt) (map (fun e => (canon (fst e), canon (snd e))) es)).
    { destruct es as [|e0 r0]; [reflexivity|]. rewrite (proj2 (Z.eqb_neq (zlen (e0 :: r0)) 0)); [reflexivity|]. rewrite zlen_cons. pose proof (zlen_nonneg r0). lia. }
    rewrite C. cbn [reads]. eexists. rewrite zlen_map. split.
    + apply watched_same. intros fi.
      rewrite (cmp_r_lift size tw_read_uvarint _ _ st _ cmp_read_map_begin) by reflexivity.
      rewrite <- app_assoc, (cmp_read_map_begin_ok size tw_read_uvarint fi (fun _ => False) (fun _ _ H => H) (fun _ _ _ H => match H with end) (if zlen es =? 0 then 0 else kt) (if zlen es =? 0 then 0 else vt) (zlen es)); [reflexivity| | |lia|].
      * intros ->. auto.
      * intros Ne. rewrite (proj2 (Z.eqb_neq _ _) Ne). eapply first_type; eassumption.
      * destruct (Z.eqb_spec (zlen es) 0) as [E|]; [|assumption]. rewrite E in *. inversion Hh; subst; [now constructor|lia].
    + destruct es as [|e0 r0]; [exact R1|]. rewrite (proj2 (Z.eqb_neq (zlen (e0 :: r0)) 0)); [exact R1|]. rewrite zlen_cons. pose proof (zlen_nonneg r0). lia.
  - inversion He as [| | | | | | | | | |et' es' h l0 Hh Hen|]; subst. destruct Hwf as (Hn & Ht & Hes). pose proof (zlen_nonneg es).
    destruct (El et RSetEnd es (or_intror eq_refl) IH Hes l0 rest st a Hen Hb) as (a' & I1 & R1). exists a'. split; [now rewrite ample_set|].
    cbn [canon reads]. eexists. rewrite zlen_map. split; [|exact R1]. apply watched_same. intros fi.
    rewrite (cmp_r_lift size tw_read_uvarint _ _ st _ cmp_read_set_begin) by reflexivity.
    rewrite <- app_assoc, (cmp_read_set_begin_ok size tw_read_uvarint fi (fun _ => False) (fun _ _ H => H) (fun _ _ _ H => match H with end) et (zlen es)); auto; lia.
  - inversion He as [| | | | | | | | | | |et' es' h l0 Hh Hen]; subst. destruct Hwf as (Hn & Ht & Hes). pose proof (zlen_nonneg es).
    destruct (El et RListEnd es (or_introl eq_refl) IH Hes l0 rest st a Hen Hb) as (a' & I1 & R1). exists a'. split; [now rewrite ample_list|].
    cbn [canon reads]. eexists. rewrite zlen_map. split; [|exact R1]. apply watched_same. intros fi.
    rewrite (cmp_r_lift size tw_read_uvarint _ _ st _ cmp_read_set_begin) by reflexivity.
    rewrite <- app_assoc, (cmp_read_set_begin_ok size tw_read_uvarint fi (fun _ => False) (fun _ _ H => H) (fun _ _ _ H => match H with end) et (zlen es)); auto; lia.
Qed.

(** ** Through a buffered reader *)
Lemma watched_bufio {A} (p : prog wireR A) b st d a st' d' x : binv size b -> abs b = mkStream d FSilent ->
  run watched p (true, (st, d)) = Done (a, (st', d')) x ->
  if a then exists b', run (over cmp_reader (bufio_h size)) p (st, b) = Done (st', b') x /\ binv size b' /\ abs b' = mkStream d' FSilent
  else run (over cmp_reader (bufio_h size)) p (st, b) = Crashed Blocked.
Proof using Hsize.
  intros Hb Ha H. apply watched_run in H.
  pose proof (layer_refines size cmp_reader p st b ltac:(lia) Hb (fun X e s => cmp_reader_fok _ X e s tw_read_uvarint_fok)) as R.
  rewrite Ha, H in R. destruct (run (over cmp_reader (bufio_h size)) p (st, b)) as [[st1 b1] x1|c]; destruct a; cbn [refines_l] in R; try contradiction.
  - destruct R as (-> & -> & R1 & R2). exists b1. auto.
  - now rewrite R.
Qed.

(** ** Message headers *)
Lemma message_calls name t id i m rest fi st :
  is_u8 t -> is_i32 id -> zlen name < 2 ^ 63 -> uleb128 (id mod 2 ^ 32) i -> uleb128 (zlen name) m ->
  run (over cmp_reader (stream_h size)) (call RMessageBegin) (st, mkStream (([x82; z2b (1 + 32 * t)] ++ i ++ m ++ name) ++ rest) fi)
  = match fi with
    | FSilent => if 10 <=? zlen (m ++ name ++ rest) then Done (st, mkStream rest fi) (mkMH name (t mod 8) id, None) else Crashed Blocked
    | _ => Done (st, mkStream rest fi) (mkMH name (t mod 8) id, None)
    end.
Proof using Hsize.
  intros Ht Hid Hn Hi Hm. pose proof (zlen_nonneg name). unfold is_u8 in Ht.
  rewrite run_call. unfold over. cbn [fst snd]. unfold cmp_reader, cmp_reader_gen, lift.
  rewrite run_bind. unfold cmp_read_message_begin. rewrite <- !app_assoc. cbn [app].
  rewrite run_vis. cbn [stream_h sdata sfin obind].
  change (b2z x82 =? protocolID) with true. cbn [negb].
  rewrite run_vis. cbn [stream_h sdata sfin obind].
  rewrite b2z_z2b.
  assert (E : Z.land ((1 + 32 * t) mod 256) 31 = 1).
  { change 31 with (Z.ones 5). rewrite Z.land_ones by lia. lia. }
  rewrite E. change (1 =? cmp_version1) with true. cbn [negb].
  assert (E2 : Z.shiftr ((1 + 32 * t) mod 256) 5 = t mod 8).
  { rewrite Z.shiftr_div_pow2 by lia. lia. }
  rewrite E2.
  assert (Hu : is_u64 (id mod 2 ^ 32)) by (unfold is_u64; lia).
  assert (Hu2 : is_u64 (zlen name)) by (unfold is_u64; lia).
  assert (Ok : (fi = FSilent -> 10 <= zlen (m ++ name ++ rest)) ->
    obind (run (stream_h size) ('(id0, e) <- tw_read_uvarint ;; match e with Some _ => Ret (mkMH [] (t mod 8) (i32 id0), e)
       | None => '(name, e) <- cmp_read_string tw_read_uvarint ;; Ret (mkMH name (t mod 8) (i32 id0), e) end) (mkStream (i ++ m ++ name ++ rest) fi))
      (fun s' x => run (stream_h size) (Ret (st, x)) s') = Done (mkStream rest fi) (st, (mkMH name (t mod 8) id, None))).
  { intros Hf. rewrite run_bind, tw_read_uvarint_drop_in_gen by (try lia; intros F; specialize (Hf F); rewrite zlen_app; pose proof (zlen_nonneg i); lia).
    rewrite (uleb128_put _ i Hu Hi), read_uvarint_ok by assumption. cbn [obind]. unfold cmp_read_string, cmp_read_size.
    rewrite !run_bind, tw_read_uvarint_drop_in_gen by (auto; lia).
    rewrite (uleb128_put _ m Hu2 Hm), read_uvarint_ok by assumption. cbn [obind run].
    rewrite i64_id by (unfold is_i64; lia). rewrite read_string_spec, bytes_spec_app by (auto; lia). cbn [obind app run].
    replace (i32 (id mod 2 ^ 32)) with id by (unfold i32, is_i32 in *; lia). reflexivity. }
  destruct fi as [e|]; [rewrite Ok by discriminate; reflexivity|].
  destruct (Z.leb_spec 10 (zlen (m ++ name ++ rest))) as [L|L]; [rewrite Ok by auto; reflexivity|].
  rewrite run_bind. destruct (Z_lt_le_dec (zlen (i ++ m ++ name ++ rest)) 10) as [L2|L2]; [now rewrite size_short|].
  rewrite tw_read_uvarint_drop_in_gen by (auto; lia). rewrite (uleb128_put _ i Hu Hi), read_uvarint_ok by assumption. cbn [obind].
  unfold cmp_read_string, cmp_read_size. rewrite !run_bind, size_short by exact L. reflexivity.
Qed.
End Watch.
