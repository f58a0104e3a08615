(** Unmarshal on arbitrary input: it returns, it makes a bounded number of
    calls, it keeps destinations well typed.  Building codecs ends. *)
From Coq Require Import Strings.String Sorting.Permutation.
From Verif Require Import Base BaseLemmas Prog Wire WireProof Spec Clients Reads Robust GoFloat FloatProof Utf8
  GoType Fields Arshal GoTypeProof FieldsProof ArshalSpec ArshalEnc ArshalDec ArshalTrip ArshalTotal.

Lemma rne_le a k : 0 <= k -> 0 <= a -> 0 <= rne a k <= a / 2 ^ k + 1.
Proof.
  intros Hk Ha. unfold rne. pose proof (Z.pow_pos_nonneg 2 k ltac:(lia) Hk).
  pose proof (Z.div_pos a (2 ^ k) Ha ltac:(lia)). destruct (_ || _); lia.
Qed.

Lemma f64_to_f32_range y : is_u64 y -> is_u32 (f64_to_f32 y).
Proof.
  unfold is_u64, is_u32. intros Hy. unfold f64_to_f32.
  assert (S : 0 <= f64_sign y <= 1).
  { unfold f64_sign. split; [apply Z.div_pos; lia|]. apply Z.lt_succ_r. apply Z.div_lt_upper_bound; lia. }
  assert (M : 0 <= f64_frac y < 2 ^ 52) by (apply Z.mod_pos_bound; lia).
  assert (E : 0 <= f64_exp y < 2 ^ 11) by (apply Z.mod_pos_bound; lia).
  match goal with |- _ <= _ + ?b < _ => assert (B : 0 <= b < 2 ^ 31); [|lia] end.
  destruct (f64_exp y =? 2047).
  - destruct (f64_frac y =? 0).
    { lia. }
    assert (Q : 0 <= f64_frac y / 2 ^ 29 < 2 ^ 23) by (split; [apply Z.div_pos; lia|apply Z.div_lt_upper_bound; lia]).
    destruct (f64_frac y <? 2 ^ 51) eqn:L; [|lia]. apply Z.ltb_lt in L.
    assert (f64_frac y / 2 ^ 29 < 2 ^ 22) by (apply Z.div_lt_upper_bound; lia). lia.
  - destruct (f64_exp y =? 0); [lia|]. destruct (-126 <=? f64_exp y - 1023) eqn:L.
    + apply Z.leb_le in L. pose proof (rne_le (2 ^ 52 + f64_frac y) 29 ltac:(lia) ltac:(lia)). lia.
    + apply Z.leb_gt in L. set (k := 29 + (-126 - (f64_exp y - 1023))).
      pose proof (rne_le (2 ^ 52 + f64_frac y) k ltac:(lia) ltac:(lia)).
      assert (Q : (2 ^ 52 + f64_frac y) / 2 ^ k <= (2 ^ 52 + f64_frac y) / 2 ^ 29).
      { apply Z.div_le_compat_l; [lia|]. split; [lia|]. apply Z.pow_le_mono_r; lia. }
      assert ((2 ^ 52 + f64_frac y) / 2 ^ 29 < 2 ^ 24) by (apply Z.div_lt_upper_bound; lia). lia.
Qed.

(** ** A set of types closed under components, with finite codecs *)
Section Safe.
Context (env : tenv).

Definition parts (P : rtype -> Prop) (t : rtype) : Prop :=
  match under env t with
  | RtSlice e => as_bytes env t = false -> P e
  | RtMap k e => P k /\ P e
  | RtPtr e => P e
  | RtStruct s => forall sf o, In sf (te_struct env s) -> tagged env sf o -> P (sf_type sf)
  | _ => True
  end.
Record closed (P : rtype -> Prop) : Prop := mkClosed {
  cl_parts : forall t, P t -> parts P t;
  cl_eager : forall t, P t -> Acc (eager env) t }.

Lemma supported_closed P : supported env P -> closed P.
Proof.
  intros H. constructor; [|apply (sup_eager env P H)].
  intros t Ht. pose proof (sup_kind env P H t Ht) as K. unfold supported_kind in K. unfold parts.
  destruct (under env t); auto.
  - intros B. destruct K; congruence.
  - destruct K as [K _]. intros sf o Hin Tg. destruct (K sf Hin) as [(o' & _ & Ps)|(o' & Ig)]; [exact Ps|].
    unfold tagged in Tg. rewrite Ig in Tg. discriminate.
Qed.

Context (P : rtype -> Prop) (Hcl : closed P) (Henv : env_ok env).

Lemma table_ends t s : P t -> under env t = RtStruct s -> exists ln r, make_struct_fields env ln t = Some r.
Proof using Hcl Henv.
  intros Ht U. pose proof (cl_parts P Hcl t Ht) as K. unfold parts in K. rewrite U in K.
  assert (C : exists ln, forall i, exists r, collect_fields env ln t i (te_struct env s) = Some r).
  { revert K. generalize (te_struct env s) as fs. induction fs as [|sf r IHr]; intros K.
    - exists O. intros i. eexists; reflexivity.
    - destruct IHr as (ln & Hr); [intros; eapply K; eauto; now right|].
      destruct (parse_field_options (te_uni env) sf) as [[o ig] er] eqn:Pf.
      destruct er as [er|].
      { exists ln. intros i. cbn [collect_fields]. rewrite Pf. destruct ig; eexists; reflexivity. }
      destruct ig.
      { exists ln. intros i. destruct (Hr (S i)) as (x & E). cbn [collect_fields]. rewrite Pf. exists x. exact E. }
      destruct (lookup_ends env _ (cl_eager P Hcl _ (K sf o (or_introl eq_refl) Pf))) as (a & n & L).
      exists (ln + n)%nat. intros i. destruct (Hr (S i)) as (x & E). cbn [collect_fields]. rewrite Pf.
      rewrite (lookup_more env n (ln + n) _ _ ltac:(lia) L).
      rewrite (collect_more env ln (ln + n) _ _ ltac:(lia) _ _ E). destruct x; eexists; reflexivity. }
  destruct C as (ln & C). destruct (C O) as (x & E). exists ln.
  unfold make_struct_fields. replace (struct_def env t) with (te_struct env s) by (unfold struct_def; now rewrite U).
  rewrite E. destruct x as [l|e]; [|eexists; reflexivity].
  destruct (te_struct env s); [eexists; reflexivity|]. destruct l; [|eexists; reflexivity].
  destruct (existsb _ _); eexists; reflexivity.
Qed.

(** ** Values handed out by a Reader *)
Definition sane {X} (e : wireR X) : X -> Prop :=
  match e in wireR X return X -> Prop with
  | RDouble => fun x => is_u64 (fst x)
  | RUUID old => fun x => length old = 16%nat -> length (fst x) = 16%nat
  | _ => fun _ => True
  end.

Section Read.
Context {S : Type} (h : handler wireR S) (mu : S -> nat).
Hypothesis Htot : forall X (e : wireR X) s, exists s' x,
  h X e s = Done s' x /\ (mu s' <= mu s)%nat /\
  (errR e x = None -> consumes e = true -> (mu s' < mu s)%nat).
Hypothesis Hsane : forall X (e : wireR X) s s' x, h X e s = Done s' x -> sane e x.
Notation ch := (counted h).

Lemma safe_call {X} (e : wireR X) s n : exists s' x,
  ch X e (s, n) = Done (s', Datatypes.S n) x /\ (mu s' <= mu s)%nat /\ sane e x /\
  (errR e x = None -> consumes e = true -> (mu s' < mu s)%nat).
Proof using Htot Hsane.
  destruct (Htot X e s) as (s' & x & E & H1 & H2). exists s', x. unfold counted. cbn [fst snd].
  rewrite E. conj; auto. eapply Hsane; eauto.
Qed.

Definition ubound (t : rtype) (s : S) (n : nat) (o : outcome (S * nat) (gval * option err)) : Prop :=
  exists s' n' v r, o = Done (s', n') (v, r) /\ has_type env v t /\ (mu s' <= mu s)%nat /\
    (r = None -> (mu s' < mu s)%nat /\ (n' + 3 * mu s' <= n + 3 * mu s)%nat) /\
    (n' + 3 * mu s' <= n + 3 * mu s + 3)%nat.

(** A loop whose body consumes something whenever it goes on. *)
Lemma safe_loop {St R} (body : St -> prog wireR (St + R)) (Inv : St -> Prop) (Fin : R -> Prop) M k :
  (forall st s n, Inv st -> (mu s <= M)%nat -> exists s' n' x, run ch (body st) (s, n) = Done (s', n') x /\
     (mu s' <= mu s)%nat /\
     match x with
     | inl st' => Inv st' /\ (n' + 3 * mu s' <= n + 3 * mu s)%nat
     | inr r => Fin r /\ (n' + 3 * mu s' <= n + 3 * mu s + 3)%nat
     end) ->
  forall st s n, Inv st -> (mu s <= M)%nat -> exists s' n' x, run ch (loop_nat k body st) (s, n) = Done (s', n') x /\
     (mu s' <= mu s)%nat /\
     match x with
     | inl st' => Inv st' /\ (n' + 3 * mu s' <= n + 3 * mu s)%nat
     | inr r => Fin r /\ (n' + 3 * mu s' <= n + 3 * mu s + 3)%nat
     end.
Proof.
  intros Hb. induction k as [|k IH]; intros st s n Hi HM; cbn [loop_nat].
  - exists s, n, (inl st). cbn. auto.
  - rewrite run_bind. destruct (Hb st s n Hi HM) as (s1 & n1 & x & E & H1 & H2). rewrite E. cbn [obind].
    destruct x as [st'|r].
    + destruct H2 as [H2 H3]. destruct (IH st' s1 n1 H2 ltac:(lia)) as (s2 & n2 & y & E2 & H4 & H5).
      exists s2, n2, y. rewrite E2. conj; [reflexivity|lia|]. destruct y as [st2|r]; destruct H5; split; auto; lia.
    + destruct H2 as [H2 H3]. exists s1, n1, (inr r). cbn. auto.
Qed.

Lemma safe_scalar {X} act wt t (e : wireR (X * option err)) dst (f : X -> gval) s n :
  errR e = snd -> consumes e = true -> has_type env dst t ->
  (forall x o, sane e (x, o) -> has_type env (f x) t) ->
  ubound t s n (run ch (scalar act wt t e dst f) (s, n)).
Proof using Htot Hsane.
  intros He Hc Hd Hf. unfold scalar, rdu. rewrite run_vis.
  destruct (safe_call e s n) as (s' & [x o] & E & H1 & H2 & H3). rewrite E. cbn [obind]. rewrite He in H3. cbn in H3.
  destruct o as [er|]; cbn [run].
  - exists s', (Datatypes.S n). do 2 eexists. conj; [reflexivity|exact Hd|exact H1| |lia]. discriminate.
  - exists s', (Datatypes.S n). do 2 eexists. conj; [reflexivity|eapply Hf; eauto|exact H1| |lia].
    intros _. specialize (H3 eq_refl Hc). lia.
Qed.

Lemma safe_stay t s n v e : has_type env v t -> ubound t s n (Done (s, n) (v, Some e)).
Proof. intros H. exists s, n, v, (Some e). conj; auto; try lia. discriminate. Qed.

Lemma safe_check t wt want dst k s n : has_type env dst t ->
  ubound t s n (run ch k (s, n)) -> ubound t s n (run ch (check wt want t dst k) (s, n)).
Proof. intros Hd Hk. unfold check. destruct (wt =? want); [exact Hk|]. now apply safe_stay. Qed.

Lemma set_nth_Forall {A} (Q : A -> Prop) x l : Forall Q l -> Q x -> forall i, Forall Q (set_nth i x l).
Proof. intros H Hx. induction H as [|y r Hy Hr IH]; intros [|i]; cbn; auto. Qed.

Lemma set_nth_Forall2 {A B} (Q : A -> B -> Prop) x y l m : Forall2 Q l m -> forall i,
  nth_error m i = Some y -> Q x y -> Forall2 Q (set_nth i x l) m.
Proof.
  intros H. induction H as [|a b r r' Hab Hr IH]; intros [|i] Hm Hx; cbn in *; try discriminate; auto.
  injection Hm as ->. auto.
Qed.

Lemma map_set_Forall (Q : gval * gval -> Prop) k v es : Forall Q es -> Q (k, v) -> Forall Q (map_set es k v).
Proof. intros H Hx. induction H as [|[k' v'] r Hy Hr IH]; cbn; auto. destruct (key_eq k k'); auto. Qed.

Lemma map_get_Forall (Q : gval -> Prop) k v es : Forall (fun p => Q (snd p)) es -> map_get es k = Some v -> Q v.
Proof.
  induction 1 as [|[k' v'] r Hy Hr IH]; cbn; [discriminate|]. destruct (key_eq k k'); auto.
  intros H; injection H as <-. exact Hy.
Qed.

Lemma width_signed_typed t w z : under env t = width_int w -> has_type env (GInt (width_signed w z)) t.
Proof.
  intros U. cbn [has_type]. rewrite U. destruct w; cbn [width_int width_signed];
    auto using i8_range, i16_range, i32_range, i64_range.
Qed.
Lemma width_unsigned_typed t w z : under env t = width_uint w -> has_type env (GInt (width_unsigned w z)) t.
Proof.
  intros U. cbn [has_type]. rewrite U. destruct w; cbn [width_uint width_unsigned];
    auto using u8_range, u16_range, u32_range, u64_range.
Qed.

(** [k]: more than what is left of the input. *)
Theorem unmarshal_total k : forall a t, P t -> codec env t a -> exists N, forall n ln, (N <= n)%nat -> (N <= ln)%nat ->
  forall dst wt s c, has_type env dst t -> (mu s < k)%nat ->
    ubound t s c (run ch (unmarshal env ln n a dst wt) (s, c)).
Proof using Htot Hsane Hcl Henv.
  induction k as [|k IHk]; [intros; exists O; intros; lia|].
  induction a as [t'|t'|t' single|t' w|t' w|t'|t'|t'|t'|t' ka _ va _|t' set ea _|t' ea IHe]; intros t Ht Hc;
    pose proof (codec_inv env _ _ Hc) as Hi; cbv iota in Hi;
    pose proof (cl_parts P Hcl t Ht) as Kp; unfold parts in Kp.
  - subst t'. exists 1%nat. intros [|n] ln Hn Hl dst wt s c Hd Hs; [lia|]. now apply safe_stay.
  - destruct Hi as [-> U]. exists 1%nat. intros [|n] ln Hn Hl dst wt s c Hd Hs; [lia|].
    cbn [unmarshal]. apply safe_check; auto. apply safe_scalar; auto. intros x o _. cbn [has_type]. now rewrite U.
  - destruct Hi as [-> U]. exists 1%nat. intros [|n] ln Hn Hl dst wt s c Hd Hs; [lia|].
    cbn [unmarshal]. apply safe_check; auto. apply safe_scalar; auto. intros x o Hx. cbn in Hx.
    destruct single; cbn [has_type]; rewrite U; auto using f64_to_f32_range.
  - destruct Hi as [-> U]. exists 1%nat. intros [|n] ln Hn Hl dst wt s c Hd Hs; [lia|].
    cbn [unmarshal]. apply safe_check; auto.
    destruct w; apply safe_scalar; auto; intros x o _;
      [apply (width_signed_typed t W8)|apply (width_signed_typed t W16)|apply (width_signed_typed t W32)|apply (width_signed_typed t W64)]; auto.
  - destruct Hi as [-> U]. exists 1%nat. intros [|n] ln Hn Hl dst wt s c Hd Hs; [lia|].
    cbn [unmarshal]. apply safe_check; auto.
    destruct w; apply safe_scalar; auto; intros x o _;
      [apply (width_unsigned_typed t W8)|apply (width_unsigned_typed t W16)|apply (width_unsigned_typed t W32)|apply (width_unsigned_typed t W64)]; auto.
  - destruct Hi as [-> U]. exists 1%nat. intros [|n] ln Hn Hl dst wt s c Hd Hs; [lia|].
    cbn [unmarshal]. apply safe_check; auto. apply safe_scalar; auto. intros x o _. cbn [has_type]. now rewrite U.
  - destruct Hi as (-> & U & B). exists 1%nat. intros [|n] ln Hn Hl dst wt s c Hd Hs; [lia|].
    cbn [unmarshal]. apply safe_check; auto. apply safe_scalar; auto. intros x o _. cbn [has_type]. rewrite U.
    split; [exact B|]. destruct dst as [| | | | |[] ? ?| | | | | | |], x; try discriminate; auto.
  - destruct Hi as (-> & U). exists 1%nat. intros [|n] ln Hn Hl dst wt s c Hd Hs; [lia|].
    cbn [unmarshal]. apply safe_check; auto.
    assert (Hu : exists old, dst = GUUID old /\ length old = 16%nat).
    { destruct dst as [| | | | | |u|es| |[]|[]| |]; cbn [has_type] in Hd; rewrite U in Hd; try contradiction; eauto.
      destruct Hd as [Hd _]. now elim Hd. }
    destruct Hu as (old & -> & Ho). unfold rdu. rewrite run_vis.
    destruct (safe_call (RUUID old) s c) as (s' & [x o] & E & H1 & H2 & H3). rewrite E. cbn [obind].
    cbn in H2, H3. specialize (H2 Ho).
    assert (Tx : has_type env (GUUID x) t) by (cbn [has_type]; now rewrite U).
    destruct o as [er|]; cbn [run].
    + exists s', (Datatypes.S c). do 2 eexists. conj; [reflexivity|exact Tx|exact H1| |lia]. discriminate.
    + exists s', (Datatypes.S c). do 2 eexists. conj; [reflexivity|exact Tx|exact H1| |lia].
      intros _. specialize (H3 eq_refl eq_refl). lia.
  - (* struct *)
    destruct Hi as (-> & sid & U). rewrite U in Kp. destruct (table_ends t sid Ht U) as (l0 & r & M).
    destruct r as [fs|e].
    2:{ exists (Datatypes.S l0). intros [|n] ln Hn Hl dst wt s c Hd Hs; [lia|].
        cbn [unmarshal]. rewrite (make_fields_more env l0 ln _ _ ltac:(lia) M). now apply safe_stay. }
    destruct (fields_spec env Henv l0 t fs M) as (F1 & _ & _).
    assert (SD : struct_def env t = te_struct env sid) by (unfold struct_def; now rewrite U). rewrite SD in F1.
    assert (G : exists N, forall f, In f fs -> forall n ln, (N <= n)%nat -> (N <= ln)%nat ->
      exists sf, nth_error (te_struct env sid) (f_index f) = Some sf /\
      forall dst wt s c, has_type env dst (sf_type sf) -> (mu s < k)%nat ->
      ubound (sf_type sf) s c (run ch (unmarshal env ln n (f_fncs f) dst wt) (s, c))).
    { assert (Hsub : forall f, In f fs -> exists sf o, nth_error (te_struct env sid) (f_index f) = Some sf /\ tagged env sf o /\
        codec env (sf_type sf) (f_fncs f)).
      { intros f Hf. apply F1 in Hf as (j & sf & o & a & N & Sr & L & ->). exists sf, o. cbn. conj; auto. now exists l0. }
      clear M F1. induction fs as [|f r IHr]; [exists O; contradiction|].
      destruct IHr as (N & HN); [intros; apply Hsub; now right|].
      destruct (Hsub f (or_introl eq_refl)) as (sf & o & Nf & Tg & C).
      destruct (IHk (f_fncs f) (sf_type sf)) as (N' & HN'); auto.
      { apply (Kp sf o); auto. eapply nth_error_In; eauto. }
      exists (N + N')%nat. intros g [<-|Hg] n ln Hn Hl.
      - exists sf. split; [exact Nf|]. intros. apply HN'; auto; lia.
      - apply HN; auto; lia. }
    destruct G as (N & HN). exists (Datatypes.S (N + l0 + k)).
    intros [|n] ln Hn Hl dst wt s c Hd Hs; [lia|].
    cbn [unmarshal]. rewrite (make_fields_more env l0 ln _ _ ltac:(lia) M). apply safe_check; auto.
    assert (Hv : exists vs, dst = GStruct vs /\ Forall2 (fun v f => has_type env v (sf_type f)) vs (te_struct env sid)).
    { destruct dst as [| | | | | | | | |[]|[]|vs|]; try (cbn [has_type] in Hd; rewrite U in Hd; contradiction).
      apply type_struct in Hd as (s' & U' & Hd). rewrite U in U'. injection U' as <-. eauto. }
    destruct Hv as (vs & -> & Hvs). unfold rdu at 1. rewrite run_vis.
    destruct (safe_call RStructBegin s c) as (s1 & [x o] & E & H1 & _). rewrite E. cbn [obind]. destruct o as [er|].
    { cbn [run]. exists s1, (Datatypes.S c). do 2 eexists. conj; [reflexivity|exact Hd|exact H1| |lia]. discriminate. }
    rewrite run_bind.
    assert (Hloop : forall w s n0 vs, (mu s < w)%nat -> (mu s < Datatypes.S k)%nat ->
      Forall2 (fun v f => has_type env v (sf_type f)) vs (te_struct env sid) ->
      exists s' n' v r, run ch (loop_nat w (unmarshal_field (unmarshal env ln n) (skip n) t fs) vs) (s, n0)
          = Done (s', n') (inr (v, r)) /\ has_type env v t /\
        (mu s' <= mu s)%nat /\ (r = None -> (mu s' < mu s)%nat /\ (n' + 3 * mu s' + 1 <= n0 + 3 * mu s)%nat) /\
        (n' + 3 * mu s' <= n0 + 3 * mu s + 2)%nat).
    { clear E H1 s1 x s c Hd Hs vs Hvs.
      induction w as [|w IHw]; intros s n0 vs Hw Hk Hvs; [lia|]. cbn [loop_nat]. rewrite run_bind.
      assert (Tv : has_type env (GStruct vs) t) by (apply type_struct; eauto).
      unfold unmarshal_field at 1. unfold rdu at 1. rewrite run_vis.
      destruct (safe_call RFieldBegin s n0) as (s1 & [x o] & E & H1 & _ & H2). rewrite E. cbn [obind].
      cbn [errR snd consumes] in H2. destruct o as [er|].
      { cbn [run obind]. exists s1, (Datatypes.S n0). do 2 eexists. conj; [reflexivity|exact Tv|lia| |lia]; discriminate. }
      specialize (H2 eq_refl eq_refl).
      destruct (fh_type x =? T_Stop).
      { unfold rdu0. rewrite run_vis. destruct (safe_call RStructEnd s1 (Datatypes.S n0)) as (s2 & o & E2 & H3 & _).
        rewrite E2. cbn [obind]. destruct o as [er|]; cbn [run obind]; exists s2, (Datatypes.S (Datatypes.S n0));
          do 2 eexists; (conj; [reflexivity|exact Tv|lia| |lia]); [discriminate|]. intros _. lia. }
      assert (Hend : forall s2 n2 vs, (mu s2 < mu s1)%nat -> (n2 + 3 * mu s2 <= Datatypes.S n0 + 3 * mu s1)%nat ->
        Forall2 (fun v f => has_type env v (sf_type f)) vs (te_struct env sid) ->
        exists s' n' v r,
          obind (run ch (rdu0 "ReadFieldEnd" T_Struct t RFieldEnd (fun er => inr (GStruct vs, Some er)) (Ret (inl vs))) (s2, n2))
             (fun s' x => run ch (match x with
                                  | inl st' => loop_nat w (unmarshal_field (unmarshal env ln n) (skip n) t fs) st'
                                  | inr r => Ret (inr r)
                                  end) s') = Done (s', n') (inr (v, r)) /\ has_type env v t /\
          (mu s' <= mu s)%nat /\ (r = None -> (mu s' < mu s)%nat /\ (n' + 3 * mu s' + 1 <= n0 + 3 * mu s)%nat) /\
          (n' + 3 * mu s' <= n0 + 3 * mu s + 2)%nat).
      { intros s2 n2 vs2 H6 H7 Hvs2. assert (Tv2 : has_type env (GStruct vs2) t) by (apply type_struct; eauto).
        unfold rdu0. rewrite run_vis. destruct (safe_call RFieldEnd s2 n2) as (s3 & o & E3 & H8 & _).
        rewrite E3. cbn [obind]. destruct o as [er|].
        { cbn [run obind]. exists s3, (Datatypes.S n2). do 2 eexists. conj; [reflexivity|exact Tv2|lia| |lia]; discriminate. }
        cbn [run obind].
        destruct (IHw s3 (Datatypes.S n2) vs2) as (s4 & n4 & v4 & r & E4 & T4 & H9 & H10 & H11); [lia|lia|auto|].
        exists s4, n4, v4, r. rewrite E4. conj; [reflexivity|exact T4|lia| |lia].
        intros Hr. specialize (H10 Hr). lia. }
      destruct (by_id fs (fh_id x)) as [f|] eqn:Bf.
      - apply find_some in Bf as [Bf _]. apply in_rev in Bf.
        destruct (HN f Bf n ln ltac:(lia) ltac:(lia)) as (sf & Nsf & Hf).
        destruct (nth_error vs (f_index f)) as [v|] eqn:Nv.
        2:{ exfalso. apply nth_error_None in Nv. rewrite (Forall2_len _ _ _ Hvs) in Nv.
            assert (f_index f < length (te_struct env sid))%nat by (apply nth_error_Some; congruence). lia. }
        assert (Tf : has_type env v (sf_type sf)).
        { clear -Hvs Nsf Nv. revert Nsf Nv. generalize (f_index f) as i. induction Hvs as [|a b l m Hab Hl IHl]; intros [|i] Nsf Nv; try discriminate.
          - injection Nsf as <-. injection Nv as <-. exact Hab.
          - eapply IHl; eauto. }
        rewrite run_bind. destruct (Hf v (fh_type x) s1 (Datatypes.S n0) Tf ltac:(lia)) as (s2 & n2 & v' & r & E2 & T2 & H3 & H4 & H5).
        rewrite E2. cbn [obind].
        pose proof (set_nth_Forall2 _ v' sf _ _ Hvs _ Nsf T2) as Hvs'.
        destruct r as [er|].
        { cbn [run obind]. exists s2, n2. do 2 eexists. conj; [reflexivity|apply type_struct; eauto|lia| |lia]; discriminate. }
        destruct (H4 eq_refl) as [H6 H7]. now apply Hend.
      - rewrite run_bind.
        destruct (skip_total h mu Htot n (fh_type x) s1 (Datatypes.S n0) ltac:(lia)) as (s2 & n2 & r & E2 & H3 & H4 & H5).
        rewrite E2. cbn [obind]. destruct r as [er|].
        { cbn [run obind]. exists s2, n2. do 2 eexists. conj; [reflexivity|exact Tv|lia| |lia]; discriminate. }
        destruct (H4 eq_refl) as [H6 H7]. now apply Hend. }
    destruct (Hloop (Datatypes.S n) s1 (Datatypes.S c) vs) as (s2 & n2 & v2 & r & E2 & T2 & H3 & H4 & H5); [lia|lia|auto|].
    rewrite E2. cbn [obind run]. exists s2, n2, v2, r. conj; [reflexivity|exact T2|lia| |lia].
    intros Hr. specialize (H4 Hr). lia.
  - (* map *)
    destruct Hi as (-> & kt & e & U & Hka & Hva). rewrite U in Kp. destruct Kp as [Pk Pe].
    destruct (IHk ka kt Pk Hka) as (N1 & HN1). destruct (IHk va e Pe Hva) as (N2 & HN2).
    assert (Kt : key_type env t = kt) by (unfold key_type; now rewrite U).
    assert (Et : elem_type env t = e) by (unfold elem_type; now rewrite U).
    exists (Datatypes.S (N1 + N2)). intros [|n] ln Hn Hl dst wt s c Hd Hs; [lia|].
    cbn [unmarshal]. apply safe_check; auto.
    set (Inv := fun es : list (gval * gval) => Forall (fun p => has_type env (fst p) kt /\ has_type env (snd p) e) es).
    assert (TI : forall es, Inv es -> has_type env (GMap (Some es)) t) by (intros; apply type_map; eauto).
    assert (Hv : exists o, dst = GMap o /\ Inv (match o with Some es => es | None => [] end)).
    { destruct dst as [| | | | | | | | |[es|]|[]| |]; try (cbn [has_type] in Hd; rewrite U in Hd; contradiction);
        [|exists None; split; [reflexivity|constructor]].
      apply type_map in Hd as (k' & e' & U' & Hd). rewrite U in U'. injection U' as <- <-. exists (Some es). auto. }
    destruct Hv as (o & -> & Ho). unfold rdu. rewrite run_vis.
    destruct (safe_call RMapBegin s c) as (s1 & [x er] & E & H1 & _ & H2). rewrite E. cbn [obind].
    cbn [errR snd consumes] in H2. destruct er as [er|].
    { cbn [run]. exists s1, (Datatypes.S c). do 2 eexists. conj; [reflexivity|exact Hd|exact H1| |lia]. discriminate. }
    specialize (H2 eq_refl eq_refl).
    assert (Hfin : forall d s2 n2, has_type env d t -> (mu s2 <= mu s1)%nat -> (n2 + 3 * mu s2 <= Datatypes.S c + 3 * mu s1)%nat ->
      ubound t s c (run ch (rdu0 "ReadMapEnd" T_Map t RMapEnd (fun er => (d, Some er)) (Ret (d, None))) (s2, n2))).
    { intros d s2 n2 Td H3 H4. unfold rdu0. rewrite run_vis. destruct (safe_call RMapEnd s2 n2) as (s3 & o3 & E3 & H5 & _).
      rewrite E3. cbn [obind]. destruct o3 as [er|]; cbn [run]; exists s3, (Datatypes.S n2);
        do 2 eexists; (conj; [reflexivity|exact Td|lia| |lia]); [discriminate|]. intros _. lia. }
    destruct (map_size x >? 0); [|apply Hfin; auto; lia].
    rewrite run_bind, run_loop_Z.
    destruct (safe_loop (unmarshal_entry env (unmarshal env ln n) t ka va x) Inv
                (fun r => has_type env (fst r) t /\ snd r <> None) (mu s1) (Z.to_nat (map_size x)))
      with (st := match o with Some es => es | None => [] end) (s := s1) (n := Datatypes.S c)
      as (s2 & n2 & y & E2 & H3 & H4); auto.
    { intros es s0 n0 Hes HM. unfold unmarshal_entry. rewrite run_bind, Kt, Et.
      destruct (HN1 n ln ltac:(lia) ltac:(lia) (zero env kt) (map_key x) s0 n0 (zero_typed env Henv kt) ltac:(lia))
        as (s3 & n3 & kv & r & E3 & T3 & H5 & H6 & H7). rewrite E3. cbn [obind].
      destruct r as [er|].
      { cbn [run]. do 3 eexists. conj; [reflexivity|lia|]. cbn [fst snd]. conj; [apply TI; exact Hes|discriminate|lia]. }
      destruct (H6 eq_refl) as [H8 H9]. rewrite run_bind.
      assert (Tv : has_type env (match map_get es kv with Some v => v | None => zero env e end) e).
      { destruct (map_get es kv) as [v|] eqn:G; [|apply (zero_typed env Henv)].
        eapply (map_get_Forall (fun v => has_type env v e)); [|exact G].
        eapply Forall_impl; [|exact Hes]. cbn. tauto. }
      destruct (HN2 n ln ltac:(lia) ltac:(lia) _ (map_val x) s3 n3 Tv ltac:(lia))
        as (s4 & n4 & v & r & E4 & T4 & H10 & H11 & H12). rewrite E4. cbn [obind].
      assert (HI : Inv (map_set es kv v)) by (apply map_set_Forall; auto).
      destruct r as [er|]; cbn [run]; do 3 eexists; (conj; [reflexivity|lia|]).
      - cbn [fst snd]. conj; [apply TI; exact HI|discriminate|lia].
      - split; [exact HI|]. destruct (H11 eq_refl). lia. }
    rewrite E2. cbn [obind]. destruct y as [es|[d r]].
    + destruct H4 as [H4 H5]. apply Hfin; auto.
    + cbn [run]. destruct H4 as [[H4 H5] H6]. cbn [fst snd] in *. exists s2, n2, d, r. conj; [reflexivity|exact H4|lia| |lia].
      intros ->. now elim H5.
  - (* set, list *)
    destruct Hi as (-> & e & U & B & Hea & Hset). rewrite U in Kp. specialize (Kp B).
    destruct (IHk ea e Kp Hea) as (N1 & HN1).
    assert (Et : elem_type env t = e) by (unfold elem_type; now rewrite U).
    exists (Datatypes.S N1). intros [|n] ln Hn Hl dst wt s c Hd Hs; [lia|].
    cbn [unmarshal]. apply safe_check; auto.
    set (Inv := fun st : nat * list gval * bool => Forall (fun v => has_type env v e) (snd (fst st)) /\
                  (fst (fst st) <= length (snd (fst st)))%nat).
    assert (Hsplit : forall (i : nat) arr, Forall (fun v => has_type env v e) arr ->
      has_type env (GSlice false (firstn i arr) (skipn i arr)) t).
    { intros i arr Ha. apply type_slice. exists e. conj; auto; [discriminate| |];
        rewrite <- (firstn_skipn i arr) in Ha; apply Forall_app in Ha; tauto. }
    assert (Hv : exists nl es sp, dst = GSlice nl es sp /\ (nl = true -> es = [] /\ sp = []) /\
      Forall (fun v => has_type env v e) es /\ Forall (fun v => has_type env v e) sp).
    { destruct dst as [| | | | |nl es sp| | |nl es sp|[es|]|[]| |];
        try (cbn [has_type] in Hd; rewrite U in Hd; try contradiction; destruct Hd; congruence).
      apply type_slice in Hd as (e' & U' & _ & Hnl & Hd1 & Hd2). rewrite U in U'. injection U' as <-.
      exists nl, es, sp. auto. }
    destruct Hv as (nl & es & sp & -> & Hnl & Ho1 & Ho2).
    assert (Hcall : exists s1 x er,
      ch _ (if set then RSetBegin else RListBegin) (s, c) = Done (s1, Datatypes.S c) (x, er) /\ (mu s1 <= mu s)%nat /\
      (er = None -> (mu s1 < mu s)%nat)).
    { destruct set.
      - destruct (safe_call RSetBegin s c) as (s1 & [x er] & E & H1 & _ & H2). exists s1, x, er. conj; auto.
      - destruct (safe_call RListBegin s c) as (s1 & [x er] & E & H1 & _ & H2). exists s1, x, er. conj; auto. }
    unfold rdu. rewrite run_vis. destruct Hcall as (s1 & x & er & E & H1 & H2). rewrite E. cbn [obind].
    destruct er as [er|].
    { cbn [run]. exists s1, (Datatypes.S c). do 2 eexists. conj; [reflexivity|exact Hd|exact H1| |lia]. discriminate. }
    specialize (H2 eq_refl).
    assert (Hfin : forall d s2 n2, has_type env d t -> (mu s2 <= mu s1)%nat -> (n2 + 3 * mu s2 <= Datatypes.S c + 3 * mu s1)%nat ->
      ubound t s c (run ch (rdu0 (if set then "ReadSetEnd" else "ReadListEnd") (if set then T_Set else T_List) t
                        (if set then RSetEnd else RListEnd) (fun er => (d, Some er)) (Ret (d, None))) (s2, n2))).
    { intros d s2 n2 Td H3 H4. unfold rdu0. rewrite run_vis.
      destruct (safe_call (if set then RSetEnd else RListEnd) s2 n2) as (s3 & o3 & E3 & H5 & _).
      rewrite E3. cbn [obind]. destruct o3 as [er|]; cbn [run]; exists s3, (Datatypes.S n2);
        do 2 eexists; (conj; [reflexivity|exact Td|lia| |lia]); [discriminate|]. intros _. lia. }
    destruct (set_size x >? 0).
    2:{ apply Hfin; auto; try lia. apply type_slice. exists e. conj; auto.
        - intros Hn0. destruct (Hnl Hn0) as [-> ->]. auto.
        - apply Forall_app; auto. }
    rewrite run_bind, run_loop_Z.
    destruct (safe_loop (unmarshal_elem env (unmarshal env ln n) t ea (set_elem x)) Inv
                (fun r => has_type env (fst r) t /\ snd r <> None) (mu s1) (Z.to_nat (set_size x)))
      with (st := (O, es ++ sp, true)) (s := s1) (n := Datatypes.S c)
      as (s2 & n2 & y & E2 & H3 & H4); auto.
    { intros [[i arr] mz] s0 n0 [Ha Hi] HM. cbn [fst snd] in Ha, Hi. unfold unmarshal_elem. rewrite Et.
      assert (G : exists arr1 mz1, (if Nat.eqb i (length arr)
          then (arr ++ repeat (zero env e) (Datatypes.S (te_grow env (length arr))), false) else (arr, mz)) = (arr1, mz1) /\
          Forall (fun v => has_type env v e) arr1 /\ (i < length arr1)%nat).
      { destruct (Nat.eqb_spec i (length arr)) as [Ei|Ei].
        - do 2 eexists. split; [reflexivity|]. split.
          + apply Forall_app. split; [exact Ha|]. apply Forall_forall. intros v Hv. apply repeat_spec in Hv. subst v.
            apply (zero_typed env Henv).
          + rewrite app_length, repeat_length. lia.
        - do 2 eexists. split; [reflexivity|]. split; [exact Ha|lia]. }
      destruct G as (arr1 & mz1 & -> & Ha1 & Hi1). rewrite run_bind.
      assert (Tv : has_type env (if mz1 then zero env e else nth i arr1 (GOther 0)) e).
      { destruct mz1; [apply (zero_typed env Henv)|]. rewrite Forall_forall in Ha1. apply Ha1. now apply nth_In. }
      destruct (HN1 n ln ltac:(lia) ltac:(lia) _ (set_elem x) s0 n0 Tv ltac:(lia))
        as (s4 & n4 & v & r & E4 & T4 & H10 & H11 & H12). rewrite E4. cbn [obind].
      pose proof (set_nth_Forall _ v _ Ha1 T4 i) as Ha2.
      destruct r as [er|]; cbn [run]; do 3 eexists; (conj; [reflexivity|lia|]).
      - cbn [fst snd]. conj; [apply Hsplit; exact Ha2|discriminate|lia].
      - split; [|destruct (H11 eq_refl); lia]. split; cbn [fst snd]; [exact Ha2|]. rewrite set_nth_length. lia. }
    { split; cbn [fst snd]; [apply Forall_app; auto|lia]. }
    rewrite E2. cbn [obind]. destruct y as [[[i arr] mz]|[d r]].
    + destruct H4 as [[H4 H4'] H5]. cbn [fst snd] in *. apply Hfin; auto.
    + cbn [run]. destruct H4 as [[H4 H5] H6]. cbn [fst snd] in *. exists s2, n2, d, r. conj; [reflexivity|exact H4|lia| |lia].
      intros ->. now elim H5.
  - (* pointer *)
    destruct Hi as (-> & e & U & Hea). rewrite U in Kp. destruct (IHe e Kp Hea) as (N & HN).
    assert (Et : elem_type env t = e) by (unfold elem_type; now rewrite U).
    exists (Datatypes.S N). intros [|n] ln Hn Hl dst wt s c Hd Hs; [lia|].
    cbn [unmarshal]. rewrite Et.
    assert (Hv : exists o, dst = GPtr o /\ has_type env (match o with Some v => v | None => zero env e end) e).
    { destruct dst as [| | | | | | | | |[]|[v|]| |]; try (cbn [has_type] in Hd; rewrite U in Hd; contradiction).
      - exists (Some v). cbn [has_type] in Hd. rewrite U in Hd. auto.
      - exists None. split; [reflexivity|apply (zero_typed env Henv)]. }
    destruct Hv as (o & -> & Tv). rewrite run_bind.
    destruct (HN n ln ltac:(lia) ltac:(lia) _ wt s c Tv ltac:(lia)) as (s2 & n2 & v & r & E & T & H1 & H2 & H3).
    rewrite E. cbn [obind run]. exists s2, n2, (GPtr (Some v)), r. conj; auto. cbn [has_type]. now rewrite U.
Qed.
End Read.
End Safe.
