(** Unmarshal over the two protocols and any bytes. *)
From Coq Require Import Strings.String.
From Verif Require Import Base BaseLemmas GoBinary GoBinaryProof Prog Bufio BufioProof Wire WireProof Spec Clients Fuel
  Binary BinaryProof Compact CompactProof Reads Layers RoundTrip Robust RobustWire Safety
  GoFloat Utf8 GoType Fields Arshal GoTypeProof FieldsProof ArshalSpec ArshalEnc ArshalDec ArshalTrip ArshalTotal
  ArshalThms ArshalSafe.

(** ** More fuel changes nothing *)
Section More.
Context (env : tenv).

Lemma below_rdu {X A} act wt t (e : wireR (X * option err)) (fail : X -> err -> A) k k' :
  (forall x, below (k x) (k' x)) -> below (rdu act wt t e fail k) (rdu act wt t e fail k').
Proof. intros H. unfold rdu. apply below_call. intros [x [er|]]; [apply bl_ret|apply H]. Qed.
Lemma below_rdu0 {A} act wt t (e : wireR (option err)) (fail : err -> A) k k' :
  below k k' -> below (rdu0 act wt t e fail k) (rdu0 act wt t e fail k').
Proof. intros H. unfold rdu0. apply below_call. intros [er|]; [apply bl_ret|apply H]. Qed.
Lemma below_check wt want t dst k k' : below k k' -> below (check wt want t dst k) (check wt want t dst k').
Proof. intros H. unfold check. destruct (_ =? _); [exact H|apply bl_ret]. Qed.

Theorem unmarshal_more n : forall m ln ln' a dst wt, (n <= m)%nat -> (ln <= ln')%nat ->
  below (unmarshal env ln n a dst wt) (unmarshal env ln' m a dst wt).
Proof.
  induction n as [|n IH]; intros m ln ln' a dst wt Hm Hl; [constructor|]. destruct m as [|m]; [lia|].
  cbn [unmarshal]. destruct a as [t'|t'|t' single|t' w|t' w|t'|t'|t'|t'|t' ka va|t' set ea|t' ea]; try apply below_refl.
  - destruct (make_struct_fields env ln t') as [r|] eqn:M; [|constructor].
    rewrite (make_fields_more env ln ln' _ _ Hl M). destruct r as [fs|e]; [|apply below_refl].
    apply below_check. destruct dst; try apply below_refl. apply below_rdu. intros _.
    apply below_fuel_loop; [exact Hm|]. intros vs. unfold unmarshal_field. apply below_rdu. intros x.
    destruct (fh_type x =? T_Stop); [apply below_refl|]. destruct (by_id fs (fh_id x)) as [f|].
    + destruct (nth_error vs (f_index f)); [|apply below_refl]. apply below_bind; [apply IH; lia|].
      intros y. apply below_refl.
    + apply below_bind; [apply skip_more; lia|]. intros y. apply below_refl.
  - apply below_check. destruct dst; try apply below_refl. apply below_rdu. intros x.
    destruct (map_size x >? 0); [|apply below_refl]. apply below_bind; [|intros y; apply below_refl].
    apply below_loop_Z. intros es. unfold unmarshal_entry. apply below_bind; [apply IH; lia|]. intros [k [er|]]; [apply below_refl|].
    apply below_bind; [apply IH; lia|]. intros y. apply below_refl.
  - apply below_check. destruct dst; try apply below_refl. apply below_rdu. intros x.
    destruct (set_size x >? 0); [|apply below_refl]. apply below_bind; [|intros y; apply below_refl].
    apply below_loop_Z. intros [[i arr] mz]. unfold unmarshal_elem.
    destruct (if Nat.eqb i (length arr) then _ else _) as [arr1 mz1]. apply below_bind; [apply IH; lia|]. intros y. apply below_refl.
  - destruct dst; try apply below_refl. apply below_bind; [apply IH; lia|]. intros y. apply below_refl.
Qed.

Lemma below_lookup {E A} ln ln' t (k k' : arsh -> prog E A) : (ln <= ln')%nat -> (forall a, below (k a) (k' a)) ->
  below (match lookup env ln t with None => Crash OutOfFuel | Some a => k a end)
        (match lookup env ln' t with None => Crash OutOfFuel | Some a => k' a end).
Proof.
  intros Hl Hk. destruct (lookup env ln t) as [a|] eqn:L; [|constructor].
  rewrite (lookup_more env ln ln' _ _ Hl L). apply Hk.
Qed.

Theorem Unmarshal_more n m ln ln' o : (n <= m)%nat -> (ln <= ln')%nat ->
  below (Unmarshal env ln n o) (Unmarshal env ln' m o).
Proof.
  intros Hm Hl. destruct o as [[t v]|]; [|apply below_refl]. cbn [Unmarshal]. destruct (is_ptr env t); [|apply below_refl].
  destruct v as [| | | | | | | | | |[v|]| |]; try apply below_refl. apply below_lookup; [exact Hl|]. intros a.
  apply below_bind; [now apply unmarshal_more|]. intros y. apply below_refl.
Qed.

Lemma marshal_fields_more (f g : arsh -> gval -> prog wireW (option err)) t vs : (forall a v, below (f a v) (g a v)) ->
  forall fs, below (marshal_fields env f t vs fs) (marshal_fields env g t vs fs).
Proof.
  intros H. induction fs as [|x r IH]; cbn [marshal_fields]; [apply below_refl|].
  destruct (_ =? _); [apply below_refl|]. destruct (nth_error vs (f_index x)); [|apply below_refl].
  destruct (_ && _); [exact IH|]. repeat (apply below_and_then; [try apply below_refl; try apply H|]). exact IH.
Qed.

Theorem marshal_more n : forall m ln ln' a v, (n <= m)%nat -> (ln <= ln')%nat ->
  below (marshal env ln n a v) (marshal env ln' m a v).
Proof.
  induction n as [|n IH]; intros m ln ln' a v Hm Hl; [constructor|]. destruct m as [|m]; [lia|].
  assert (R : forall a v, below (marshal env ln n a v) (marshal env ln' m a v)) by (intros; apply IH; lia).
  cbn [marshal]. destruct a as [t'|t'|t' single|t' w|t' w|t'|t'|t'|t'|t' ka va|t' set ea|t' ea]; try apply below_refl.
  - destruct (make_struct_fields env ln t') as [r|] eqn:M; [|constructor].
    rewrite (make_fields_more env ln ln' _ _ Hl M). destruct r as [fs|e]; [|apply below_refl].
    destruct v; try apply below_refl. apply below_and_then; [apply below_refl|]. now apply marshal_fields_more.
  - destruct (_ || _); [apply below_refl|]. destruct v as [| | | | | | | | |o|o| |]; try apply below_refl.
    apply below_and_then; [apply below_refl|].
    generalize (match o with Some es => es | None => [] end) as es. induction es as [|[k e] r IHr]; cbn [marshal_entries]; [apply below_refl|].
    repeat (apply below_and_then; [apply R|]). exact IHr.
  - destruct (_ =? _); [apply below_refl|]. destruct v as [| | | | | | | |nl es sp|o|o| |]; try apply below_refl.
    apply below_and_then; [apply below_refl|].
    induction es as [|e r IHr]; cbn [marshal_elems]; [apply below_refl|].
    apply below_and_then; [apply R|]. exact IHr.
  - destruct v as [| | | | | | | | | |[w|]| |]; try apply below_refl; apply R.
Qed.

Theorem Marshal_more n m ln ln' o : (n <= m)%nat -> (ln <= ln')%nat ->
  below (Marshal env ln n o) (Marshal env ln' m o).
Proof.
  intros Hm Hl. destruct o as [[t v]|]; [|apply below_refl]. cbn [Marshal]. destruct (is_ptr env t).
  - destruct v as [| | | | | | | | | |[v|]| |]; try apply below_refl. apply below_lookup; [exact Hl|]. intros a.
    now apply marshal_more.
  - apply below_lookup; [exact Hl|]. intros a. now apply marshal_more.
Qed.
End More.

(** ** Doubles and UUIDs read have the right size *)
Lemma next8_length size s s' buf : 8 <= size ->
  run (stream_h size) (next 8) s = Done s' (buf, None) -> zlen buf = 8.
Proof.
  intros Hs. unfold next. rewrite run_vis. cbn [stream_h]. change (8 <? 0) with false. cbv iota.
  replace (Z.min 8 size) with 8 by lia. destruct (8 <=? zlen (sdata s)) eqn:L.
  - cbn [obind]. intros H. apply Z.leb_le in L.
    assert (Z8 : zlen (firstn (Z.to_nat 8) (sdata s)) = 8) by (unfold zlen in *; rewrite firstn_length; lia).
    rewrite run_vis in H. destruct (stream_h size _ _ _) as [s1 x|]; [|discriminate]. cbn [obind run] in H.
    congruence.
  - destruct (sfin s) as [er|]; [|discriminate]. cbn [obind].
    rewrite run_vis. destruct (stream_h size _ _ _) as [s1 x|]; [|discriminate]. cbn [obind run].
    replace (size <? 8) with false by (symmetry; apply Z.ltb_ge; lia).
    intros H. destruct (Z.eqb_spec (zlen (sdata s)) 8) as [E|E]; [apply Z.leb_gt in L; lia|].
    exfalso. destruct ((0 <? zlen (sdata s)) && is_eof (Some er)); congruence.
Qed.

Lemma uuid_length size old s s' u o : length old = 16%nat ->
  run (stream_h size) (read_uuid old) s = Done s' (u, o) -> length u = 16%nat.
Proof.
  intros Ho. unfold read_uuid. rewrite run_vis. cbn [stream_h]. destruct (16 <=? zlen (sdata s)) eqn:L.
  - cbn [obind run]. intros H. assert (E : u = firstn (Z.to_nat 16) (sdata s) ++ skipn (length (firstn (Z.to_nat 16) (sdata s))) old) by congruence.
    subst u. rewrite app_length, skipn_length, firstn_length. apply Z.leb_le in L. unfold zlen in L. lia.
  - destruct (sfin s) as [er|]; [|discriminate]. cbn [obind run]. intros H.
    assert (E : u = sdata s ++ skipn (length (sdata s)) old) by congruence. subst u.
    rewrite app_length, skipn_length. apply Z.leb_gt in L. unfold zlen in L. lia.
Qed.

Lemma zlen8_u64 (l : list byte) : zlen l = 8 -> is_u64 (be_value l) /\ is_u64 (le_value l).
Proof.
  intros H. pose proof (be_value_range l). pose proof (le_value_range l). rewrite H in *. unfold is_u64. lia.
Qed.

Lemma bin_sane size strict e : 8 <= size -> forall X (c : wireR X) s s' x,
  data_h (bin_reader strict) size e X c s = Done s' x -> sane c x.
Proof.
  intros Hs X c [u d] s' x. unfold data_h. cbn [fst snd]. intros H.
  destruct (run (stream_h size) (bin_reader strict X c u) (mkStream d (FErr e))) as [s1 [u' x']|] eqn:E; [|discriminate].
  injection H as _ ->. unfold bin_reader in E. rewrite run_bind in E.
  destruct (run (stream_h size) (bin_read strict c) (mkStream d (FErr e))) as [s2 y|] eqn:E2; [|discriminate].
  cbn [obind run] in E. assert (Ey : y = x) by congruence. subst y. clear E.
  destruct c; try exact I; cbn [bin_read] in E2; cbn [sane].
  - unfold bin_read_double in E2. rewrite run_bind in E2.
    destruct (run (stream_h size) (next 8) _) as [s3 [buf o]|] eqn:E3; [|discriminate]. cbn [obind] in E2.
    destruct o; cbn [run] in E2; [replace x with (0, Some e0) by congruence; cbn; unfold is_u64; lia|].
    replace x with (be_value buf, @None err) by congruence. apply next8_length in E3; [|exact Hs].
    cbn. apply (zlen8_u64 _ E3).
  - intros Ho. destruct x as [x o]. eapply uuid_length; eauto.
Qed.

Lemma cmp_sane size e : 8 <= size -> forall X (c : wireR X) s s' x,
  data_h cmp_reader size e X c s = Done s' x -> sane c x.
Proof.
  intros Hs X c [u d] s' x. unfold data_h. cbn [fst snd]. intros H.
  destruct (run (stream_h size) (cmp_reader X c u) (mkStream d (FErr e))) as [s1 [u' x']|] eqn:E; [|discriminate].
  injection H as _ ->. destruct c; try exact I; cbn [sane];
    match type of E with
    | run _ (cmp_reader _ RDouble u) _ = _ => change (cmp_reader _ RDouble u) with (lift u cmp_read_double) in E
    | run _ (cmp_reader _ (RUUID ?o) u) _ = _ => change (cmp_reader _ (RUUID o) u) with (lift u (read_uuid o)) in E
    end; unfold lift in E; rewrite run_bind in E.
  - destruct (run (stream_h size) cmp_read_double _) as [s2 y|] eqn:E2; [|discriminate].
    cbn [obind run] in E. assert (Ey : y = x) by congruence. subst y. clear E.
    unfold cmp_read_double in E2. rewrite run_bind in E2.
    destruct (run (stream_h size) (next 8) _) as [s3 [buf o]|] eqn:E3; [|discriminate]. cbn [obind] in E2.
    destruct o; cbn [run] in E2; [replace x with (0, Some e0) by congruence; cbn; unfold is_u64; lia|].
    replace x with (le_value buf, @None err) by congruence. apply next8_length in E3; [|exact Hs].
    cbn. apply (zlen8_u64 _ E3).
  - destruct (run (stream_h size) (read_uuid old) _) as [s2 y|] eqn:E2; [|discriminate].
    cbn [obind run] in E. assert (Ey : y = x) by congruence. subst y. clear E.
    intros Ho. destruct x as [x o]. eapply uuid_length; eauto.
Qed.

(** ** Any argument, any bytes *)
Section Any.
Context (env : tenv) (P : rtype -> Prop).
Hypothesis (Hcl : closed env P) (Henv : env_ok env).

(** What may be passed to Unmarshal: nil, or a value [v] of a dynamic type [t]. *)
Definition target (o : option (rtype * gval)) : Prop :=
  match o with
  | None => True
  | Some (t, v) => has_type env v t /\ (is_ptr env t = true -> P (elem_type env t))
  end.

Definition result_typed (o : option (rtype * gval)) (r : option gval) : Prop :=
  match r with
  | None => True
  | Some v => exists t w, o = Some (t, w) /\ has_type env v (elem_type env t)
  end.

Section Gen.
Context {S : Type} (L : layer wireR bufR S) (mu : S * list byte -> nat) (size : Z).
Hypothesis Hsize : 10 <= size.
Hypothesis HL : forall X (e : wireR X) s, full_ok (L X e s).
Hypothesis Htot : forall e X (c : wireR X) s, exists s' x,
  data_h L size e X c s = Done s' x /\ (mu s' <= mu s)%nat /\
  (errR c x = None -> consumes c = true -> (mu s' < mu s)%nat).
Hypothesis Hsane : forall e X (c : wireR X) s s' x, data_h L size e X c s = Done s' x -> sane c x.

Lemma gen_Unmarshal_total o st b d e : target o -> binv size b -> abs b = mkStream d (FErr e) ->
  exists N st' b' c v r p d', (forall n, (N <= n)%nat ->
    run (counted (over L (bufio_h size))) (Unmarshal env n n o) ((st, b), O) = Done ((st', b'), c) (v, r)) /\
    result_typed o v /\ binv size b' /\ d = p ++ d' /\ abs b' = mkStream d' (FErr e) /\
    (c + 3 * mu (st', d') <= 3 * mu (st, d) + 3)%nat.
Proof using Hcl Henv Hsize HL Htot Hsane.
  intros Ht Hb Ha.
  assert (Hno : forall er, (forall n, Unmarshal env n n o = Ret (None, Some er)) ->
    exists N st' b' c v r p d', (forall n, (N <= n)%nat ->
    run (counted (over L (bufio_h size))) (Unmarshal env n n o) ((st, b), O) = Done ((st', b'), c) (v, r)) /\
    result_typed o v /\ binv size b' /\ d = p ++ d' /\ abs b' = mkStream d' (FErr e) /\
    (c + 3 * mu (st', d') <= 3 * mu (st, d) + 3)%nat).
  { intros er H. exists O, st, b, O, None, (Some er), [], d. conj; auto; [|exact I|lia].
    intros n _. rewrite H. reflexivity. }
  destruct o as [[t v]|]; [|eapply Hno; reflexivity]. destruct Ht as [Tv Pt].
  destruct (is_ptr env t) eqn:Ip; [|eapply Hno; intros n; cbn [Unmarshal]; rewrite Ip; reflexivity].
  specialize (Pt eq_refl). destruct (under env t) as [| | | | | | | | | | | | | | | | | | | | |elem|k elem|kt elem|elem|sid|id] eqn:U;
    unfold is_ptr in Ip; rewrite U in Ip; try discriminate. clear Ip.
  assert (Et : elem_type env t = elem) by (unfold elem_type; now rewrite U). rewrite Et in Pt.
  destruct v as [| | | | | | | | |[]|[v|]| |]; try (cbn [has_type] in Tv; rewrite U in Tv; contradiction);
    [|eapply Hno; intros n; cbn [Unmarshal]; unfold is_ptr; rewrite U; reflexivity].
  assert (Tw : has_type env v elem) by (cbn [has_type] in Tv; now rewrite U in Tv).
  destruct (lookup_ends env elem (cl_eager env P Hcl elem Pt)) as (a & l0 & Ca).
  destruct (unmarshal_total env P Hcl Henv (data_h L size e) mu (Htot e) (Hsane e) (Datatypes.S (mu (st, d))) a elem Pt)
    as (N & HN); [exists l0; exact Ca|].
  set (M := (N + l0)%nat).
  destruct (HN M M ltac:(lia) ltac:(lia) v (wire_type a) (st, d) O Tw ltac:(lia))
    as ([st' d'] & c & v' & r & E & T' & H1 & H2 & H3).
  pose proof (counted_data L size e (unmarshal env M M a v (wire_type a)) st d O) as E2. rewrite E in E2.
  pose proof (counted_suffix _ _ _ _ _ _ _ _ _ _ E2) as [p Hp].
  pose proof (counted_refines size L (unmarshal env M M a v (wire_type a)) ltac:(lia) HL st b O Hb) as H.
  rewrite Ha, E2 in H.
  destruct (run (counted (over L (bufio_h size))) (unmarshal env M M a v (wire_type a)) ((st, b), O))
    as [[[s1 b1] n1] x|] eqn:E3; [|contradiction].
  destruct H as (-> & -> & -> & H4 & H5).
  exists M, st', b1, c, (Some v'), r, p, d'. conj; auto.
  - intros n Hn. eapply below_done; [apply (Unmarshal_more env M n M n); lia|].
    cbn [Unmarshal]. unfold is_ptr. rewrite U, Et, (lookup_more env l0 M _ _ ltac:(lia) Ca), run_bind, E3. reflexivity.
  - exists t, (GPtr (Some v)). split; [reflexivity|]. now rewrite Et.
Qed.
End Gen.

Theorem bin_Unmarshal_total size strict o b d e : 10 <= size -> target o -> binv size b -> abs b = mkStream d (FErr e) ->
  exists N b' c v r p d', (forall n, (N <= n)%nat ->
    run (counted (over (bin_reader strict) (bufio_h size))) (Unmarshal env n n o) ((tt, b), O) = Done ((tt, b'), c) (v, r)) /\
    result_typed o v /\ binv size b' /\ d = p ++ d' /\ abs b' = mkStream d' (FErr e) /\
    (c <= 3 * length p + 3)%nat.
Proof using Hcl Henv.
  intros Hs Ht Hb Ha. destruct (gen_Unmarshal_total (bin_reader strict) bin_mu size Hs (bin_reader_fok strict)
    (fun e => bin_tot size strict e Hs) (fun e => bin_sane size strict e ltac:(lia)) o tt b d e Ht Hb Ha)
    as (N & [] & b' & c & v & r & p & d' & H1 & H2 & H3 & H4 & H5 & H6).
  exists N, b', c, v, r, p, d'. conj; auto. unfold bin_mu in H6. cbn [snd] in H6. subst d. rewrite app_length in H6. lia.
Qed.

Theorem cmp_Unmarshal_total size o st b d e : 10 <= size -> target o -> binv size b -> abs b = mkStream d (FErr e) ->
  exists N st' b' c v r p d', (forall n, (N <= n)%nat ->
    run (counted (over cmp_reader (bufio_h size))) (Unmarshal env n n o) ((st, b), O) = Done ((st', b'), c) (v, r)) /\
    result_typed o v /\ binv size b' /\ d = p ++ d' /\ abs b' = mkStream d' (FErr e) /\
    (c <= 6 * length p + 6)%nat.
Proof using Hcl Henv.
  intros Hs Ht Hb Ha. destruct (gen_Unmarshal_total cmp_reader cmp_mu size Hs
    (fun X e s => cmp_reader_fok _ X e s tw_read_uvarint_fok)
    (fun e => cmp_tot size e Hs) (fun e => cmp_sane size e ltac:(lia)) o st b d e Ht Hb Ha)
    as (N & st' & b' & c & v & r & p & d' & H1 & H2 & H3 & H4 & H5 & H6).
  exists N, st', b', c, v, r, p, d'. conj; auto. subst d. unfold cmp_mu in H6. cbn [fst snd] in H6. rewrite app_length in H6.
  assert (pending st <= 1)%nat by (unfold pending; destruct (cr_bool st); lia). lia.
Qed.
End Any.
