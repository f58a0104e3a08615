(** Goroutines in Marshal do not disturb one another. *)
From Coq Require Import Strings.String.
From Verif Require Import Base BaseLemmas Prog Wire GoFloat Utf8 GoType Fields Arshal GoTypeProof FieldsProof ArshalSpec
  Heap HeapSpec HeapProof HeapUnmarshal HeapMarshal HeapStep.

Section Env.
Context (env : tenv) (Henv : env_ok env).
Notation size := (size env).
Notation sizes := (sizes env).
Notation zcells := (zcells env).
Notation holds := (holds env).
Notation all_hold := (all_hold env).
Notation entries_hold := (entries_hold env).
Notation size_struct := (size_struct env Henv).
Notation holds_len := (holds_len env Henv).
Notation holds_zero := (holds_zero env Henv).
Context (isZero : rtype -> heap -> nat -> bool).
Hypothesis Hz : forall t z H a v G, field_is_zero env t = Some z ->
  holds true H t (peek H a (size t)) v G -> isZero t H a = z v.
Context (ln : nat).
Notation marshal := (marshal env ln).
Notation smarshal := (smarshal env ln).
(** The addresses below [N0] are shared. *)
Context (N0 : nat).

Definition agrees (D : nat -> Prop) (K H : heap) : Prop := forall x, D x -> mem H x = mem K x.

(** [p], which knows the memory [D], with contents [K], makes the Writer calls
    [q] makes, whatever happens to other memory; it only reads [D], and only
    writes what is in [D] and not shared. *)
Fixpoint tr {A B} (Q : heap -> (nat -> Prop) -> A -> B -> Prop) (p : prog memE A) (K : heap) (D : nat -> Prop) (q : prog wireW B) {struct p} : Prop :=
  match p with
  | Ret a => exists b, q = Ret b /\ Q K D a b
  | Crash c => q = Crash c
  | Vis e k =>
      match e in memE X return (X -> heap -> (nat -> Prop) -> prog wireW B -> Prop) -> Prop with
      | MRead a => fun r => D a /\ r (mem K a) K D q
      | MWrite a c => fun r => D a /\ (N0 <= a)%nat /\ r tt (poke K a [c]) D q
      | MAlloc cs => fun r => forall b K', (N0 <= b)%nat -> (forall x, D x -> ~ In x (seq b (length cs))) ->
          agrees D K K' -> peek K' b (length cs) = cs -> r b K' (fun x => D x \/ In x (seq b (length cs))) q
      | MZero t a => fun r => exists z, (forall H, agrees D K H -> isZero t H a = z) /\ r z K D q
      | MWire e => fun r => exists k', q = Vis e k' /\ forall x, r x K D (k' x)
      end (fun x => tr Q (k x))
  end.

Lemma tr_bind {A B A' B'} (Q : _ -> _ -> A -> B -> Prop) (R : _ -> _ -> A' -> B' -> Prop) f g p : forall K D q,
  tr Q p K D q -> (forall a b K' D', Q K' D' a b -> tr R (f a) K' D' (g b)) -> tr R (bind p f) K D (bind q g).
Proof.
  induction p as [a|X e k IH|c]; intros K D q T F.
  - destruct T as (b & -> & Qb). now apply F.
  - destruct e as [a|a c|cs|t a|X e]; cbn [bind tr] in *.
    + destruct T as [Da T]. split; [exact Da|]. now apply IH.
    + destruct T as (Da & Na & T). conj; auto.
    + intros b K' Hb Hf Ha Hp. apply IH; auto.
    + destruct T as (z & Zz & T). exists z. split; [exact Zz|]. now apply IH.
    + destruct T as (k' & -> & T). exists (fun x => bind (k' x) g). split; [reflexivity|]. intros x. now apply IH.
  - cbn in *. now subst q.
Qed.

Lemma tr_mono {A B} (Q R : _ -> _ -> A -> B -> Prop) p : (forall K D a b, Q K D a b -> R K D a b) -> forall K D q,
  tr Q p K D q -> tr R p K D q.
Proof.
  intros I. induction p as [a|X e k IH|c]; intros K D q T.
  - destruct T as (b & -> & Qb). exists b. auto.
  - destruct e as [a|a c|cs|t a|X e]; cbn [tr] in *.
    + destruct T as [Da T]. split; [exact Da|]. now apply IH.
    + destruct T as (Da & Na & T). conj; auto.
    + intros b K' Hb Hf Ha Hp. apply IH; auto.
    + destruct T as (z & Zz & T). exists z. split; [exact Zz|]. now apply IH.
    + destruct T as (k' & -> & T). exists k'. split; [reflexivity|]. intros x. now apply IH.
  - exact T.
Qed.

Lemma tr_embed {A} (Q : _ -> _ -> A -> A -> Prop) (p : prog wireW A) K D : (forall a, Q K D a a) -> tr Q (embed p) K D p.
Proof.
  intros F. induction p as [a|X e k IH|c]; cbn; [now exists a| |reflexivity].
  exists k. split; [reflexivity|]. exact IH.
Qed.

(** A part that calls no Writer. *)
Lemma tr_quiet {A A' B} (Q : _ -> _ -> A -> unit -> Prop) (R : _ -> _ -> A' -> B -> Prop) p f K D q :
  tr Q p K D (Ret tt) -> (forall a K' D', Q K' D' a tt -> tr R (f a) K' D' q) -> tr R (bind p f) K D q.
Proof.
  intros T F. change q with (bind (E := wireW) (Ret tt) (fun _ => q)). eapply tr_bind; [exact T|].
  intros a [] K' D' Qa. now apply F.
Qed.

Lemma tr_read_cells K (D : nat -> Prop) n : forall a, (forall x, In x (seq a n) -> D x) ->
  tr (fun K' D' cs (_ : unit) => K' = K /\ D' = D /\ cs = peek K a n) (rd_cells a n) K D (Ret tt).
Proof.
  induction n as [|n IH]; intros a Hd; cbn [rd_cells].
  - exists tt. auto.
  - cbn [call bind tr]. split; [apply Hd; now left|].
    eapply tr_quiet; [apply IH; intros x Hx; apply Hd; now right|].
    intros cs K' D' (-> & -> & ->). exists tt. conj; auto.
Qed.

Lemma tr_write_cells (D : nat -> Prop) cs : forall K a, (forall x, In x (seq a (length cs)) -> D x /\ (N0 <= x)%nat) ->
  tr (fun K' D' (_ _ : unit) => D' = D /\ forall x, mem K' x = mem (poke K a cs) x) (wr_cells a cs) K D (Ret tt).
Proof.
  induction cs as [|c cs IH]; intros K a Hd; cbn [wr_cells].
  - exists tt. conj; auto. intros x. cbn [poke mem]. destruct (Nat.leb a x); [|reflexivity]. now destruct (x - a)%nat.
  - cbn [call bind tr]. destruct (Hd a (or_introl eq_refl)) as [Da Na]. conj; auto.
    eapply tr_mono; [|apply IH; intros x Hx; apply Hd; now right].
    cbn beta. intros K' D' _ _ [-> E]. split; [reflexivity|]. intros x. rewrite E. cbn [poke mem].
    destruct (Nat.leb_spec (S a) x), (Nat.leb_spec a x); try lia; try reflexivity.
    + replace (x - a)%nat with (S (x - S a)) by lia. cbn [nth]. now destruct (x - S a)%nat.
    + replace (x - a)%nat with 0%nat by lia. reflexivity.
Qed.

(** *** what is known *)
Definition more (K : heap) (D : nat -> Prop) (K' : heap) (D' : nat -> Prop) : Prop :=
  (forall x, D x -> D' x) /\ agrees D K K'.
Definition spost (K : heap) (D : nat -> Prop) (K' : heap) (D' : nat -> Prop) (e e' : option err) : Prop :=
  e = e' /\ more K D K' D'.
Definition knows (K : heap) (D : nat -> Prop) (t : rtype) (a : nat) (v : gval) : Prop :=
  exists G, holds true K t (peek K a (size t)) v G /\ forall x, In x (seq a (size t) ++ G) -> D x.

Lemma more_refl K D : more K D K D.
Proof. split; [auto|]. intros x _. reflexivity. Qed.
Lemma more_trans K D K1 D1 K2 D2 : more K D K1 D1 -> more K1 D1 K2 D2 -> more K D K2 D2.
Proof. intros [A B] [A' B']. split; [auto|]. intros x Hx. rewrite B' by auto. now apply B. Qed.
Lemma more_peek K D K' D' a n : more K D K' D' -> (forall x, In x (seq a n) -> D x) -> peek K' a n = peek K a n.
Proof. intros [_ B] Hx. apply peek_ext. intros x Hi. apply B. auto. Qed.
Lemma knows_more K D K' D' t a v : more K D K' D' -> knows K D t a v -> knows K' D' t a v.
Proof.
  intros M (G & A & B). exists G. split.
  - rewrite (more_peek K D K' D' a (size t)); [|auto|intros x Hx; apply B, in_or_app; now left].
    eapply holds_frame; [exact A|]. intros x Hx. apply M, B, in_or_app. now right.
  - intros x Hx. apply M. auto.
Qed.

Definition well (n : nat) : Prop := forall t a v va K D, codec env t a -> knows K D t va v ->
  tr (spost K D) (smarshal n a va) K D (marshal n a v).

Lemma tr_swr action wt t e K D : tr (spost K D) (swr action wt t e) K D (wr action wt t e).
Proof. apply tr_embed. intros a. split; [reflexivity|apply more_refl]. Qed.

Lemma tr_then K0 D0 K D p q k k' : tr (spost K D) p K D q -> more K0 D0 K D ->
  (forall K1 D1, more K D K1 D1 -> tr (spost K0 D0) k K1 D1 k') -> tr (spost K0 D0) (p >>! k) K D (q >>! k').
Proof.
  intros A M F. unfold and_then. eapply tr_bind; [exact A|].
  intros e b K1 D1 [-> M1]. destruct b as [er|]; [|now apply F].
  eexists. split; [reflexivity|]. split; [reflexivity|]. eapply more_trans; eauto.
Qed.

Lemma tr_more K0 D0 K D p q : more K0 D0 K D -> tr (spost K D) p K D q -> tr (spost K0 D0) p K D q.
Proof. intros M. apply tr_mono. intros K' D' a b [E X]. split; [exact E|]. eapply more_trans; eauto. Qed.

Lemma tr_read {A B} (R : _ -> _ -> A -> B -> Prop) f a K (D : nat -> Prop) q : D a -> tr R (f (mem K a)) K D q ->
  tr R (bind (call (MRead a)) f) K D q.
Proof. intros Da T. cbn [call bind tr]. auto. Qed.

(** *** fields *)
Lemma knows_field K D t s va vs i ft : under env t = RtStruct s -> knows K D t va (GStruct vs) ->
  nth_error (field_types env t) i = Some ft ->
  exists v, nth_error vs i = Some v /\ knows K D ft (field_addr env t i va) v.
Proof using Henv.
  intros U (G & A & Bd) Ni. unfold field_addr, field_types in *. rewrite U in *.
  inversion A as [| | | | | | |t0 s0 cs vs0 G0 U0 Hs E1 E2 E3 E4]; subst; [contradiction|]. assert (s0 = s) as -> by congruence. clear U0.
  rewrite (size_struct t s U) in *. rewrite peek_S in E2. injection E2 as Eh Ec. subst cs.
  destruct (all_hold_nth env Henv _ _ _ _ _ _ _ Hs Ni) as (v & c1 & c & c2 & G1 & Gi & G2 & Nv & Ecs & L1 & -> & Hv & _).
  pose proof (holds_len _ _ _ _ _ _ Hv) as Lc.
  destruct (peek_split _ _ _ _ _ _ Ecs) as (P1 & P2 & P3 & Ls).
  exists v. split; [exact Nv|]. exists Gi. rewrite Lc, L1 in P2.
  replace (va + S (sizes (firstn i (map sf_type (te_struct env s)))))%nat with (S va + sizes (firstn i (map sf_type (te_struct env s))))%nat by lia.
  rewrite <- P2. split; [exact Hv|]. intros x Hx. apply Bd. rewrite !in_app_iff in *. destruct Hx as [Hx|Hx]; [left|tauto].
  rewrite in_seq in *. lia.
Qed.

Lemma tr_zero f K D va v : f_isZero f = field_is_zero env (f_typ f) -> knows K D (f_typ f) va v ->
  tr (fun K' D' z (_ : unit) => K' = K /\ D' = D /\ z = field_zero env f v) (sfield_zero env f va) K D (Ret tt).
Proof using Hz.
  intros Ef (G & A & Bd). unfold sfield_zero, field_zero. destruct (f_isZero f) as [z|] eqn:E.
  - cbn [call tr]. exists (z v). split; [|exists tt; auto].
    intros H Ag. eapply Hz; [symmetry; exact Ef|].
    rewrite (peek_ext K H) by (intros x Hx; apply Ag, Bd, in_or_app; now left).
    eapply holds_frame; [exact A|]. intros x Hx. apply Ag, Bd, in_or_app. now right.
  - eapply tr_quiet; [apply tr_read_cells; intros x Hx; apply Bd, in_or_app; now left|].
    intros cs K' D' (-> & -> & ->). exists tt. conj; auto. now apply (zero_cells_all env K) in A.
Qed.

Lemma fields_well m t s va K0 D0 vs : well m -> under env t = RtStruct s ->
  forall fs, (forall f, In f fs -> exists j sf a, nth_error (struct_def env t) j = Some sf /\
     codec env (sf_type sf) a /\ f_index f = j /\ f_typ f = sf_type sf /\ f_fncs f = a /\
     f_isZero f = field_is_zero env (sf_type sf)) ->
  forall K D, more K0 D0 K D -> knows K D t va (GStruct vs) ->
  tr (spost K0 D0) (smarshal_fields env (smarshal m) t va fs) K D (marshal_fields env (marshal m) t vs fs).
Proof using Henv Hz.
  intros IH U fs. induction fs as [|f fs IHf]; intros Hfs K D Gr Sv; cbn [marshal_fields smarshal_fields].
  - eapply tr_more; [exact Gr|]. apply tr_swr.
  - destruct (Hfs f (or_introl eq_refl)) as (j & sf & a & Hj & Ca & Ej & Et & Ea & Ez).
    assert (Hr : forall g, In g fs -> In g (f :: fs)) by (intros; now right).
    destruct (wire_type (f_fncs f) =? T_Stop).
    { eexists. split; [reflexivity|]. split; [reflexivity|exact Gr]. }
    unfold struct_def in Hj. rewrite U in Hj.
    assert (Hft : nth_error (field_types env t) j = Some (sf_type sf)).
    { unfold field_types. rewrite U. now apply map_nth_error. }
    destruct (knows_field K D t s va vs j _ U Sv Hft) as (v & Nv & Sf).
    rewrite Ej, Nv, Hft, Ea. cbv zeta.
    eapply (tr_quiet (fun K' D' z _ => K' = K /\ D' = D /\ z = negb (f_required f) && field_zero env f v)).
    { destruct (f_required f); cbn [negb andb]; [exists tt; auto|]. apply tr_zero; rewrite Et; [exact Ez|exact Sf]. }
    intros z K' D' (-> & -> & ->).
    destruct (negb (f_required f) && field_zero env f v); [apply IHf; auto|].
    eapply tr_then; [apply tr_swr|exact Gr|]. intros K1 D1 G1.
    eapply tr_then; [apply (IH (sf_type sf)); [exact Ca|eapply knows_more; eauto]|eapply more_trans; eauto|]. intros K2 D2 G2.
    assert (G02 : more K0 D0 K2 D2) by (eapply more_trans; [exact Gr|]; eapply more_trans; eauto).
    eapply tr_then; [apply tr_swr|exact G02|]. intros K3 D3 G3.
    apply IHf; auto; [eapply more_trans; eauto|].
    eapply knows_more; [|exact Sv]. eapply more_trans; [exact G1|]. eapply more_trans; eauto.
Qed.

(** *** entries *)
(** A value known at [a] copied to own memory at [c]. *)
Lemma tr_copy {A B} (R : _ -> _ -> A -> B -> Prop) p q K0 (D0 : nat -> Prop) K D t a v c :
  more K0 D0 K D -> knows K0 D0 t a v ->
  (forall x, In x (seq c (size t)) -> D x /\ ~ D0 x /\ (N0 <= x)%nat) ->
  (forall K', more K0 D0 K' D -> knows K' D t c v -> tr R p K' D q) ->
  tr R (bind (rd_cells a (size t)) (fun cs => bind (wr_cells c cs) (fun _ => p))) K D q.
Proof.
  intros Gr (G & A0 & B0) Own F.
  eapply tr_quiet; [apply tr_read_cells; intros x Hx; apply Gr, B0, in_or_app; now left|].
  intros cs K1 D1 (-> & -> & ->).
  eapply tr_quiet.
  { apply tr_write_cells. rewrite peek_len. intros x Hx. destruct (Own x Hx) as (P1 & _ & P2). auto. }
  intros _ K' D' [-> E]. apply F.
  - split; [apply Gr|]. intros x Hx. rewrite E, poke_other; [now apply Gr|]. rewrite peek_len. intros I.
    now apply (Own x I).
  - exists G. split.
    + rewrite (peek_ext (poke K c (peek K a (size t))) K') by auto.
      rewrite peek_poke_n by apply peek_len.
      rewrite (more_peek K0 D0 K D) by (auto; intros x Hx; apply B0, in_or_app; now left).
      eapply holds_frame; [exact A0|]. intros x Hx.
      assert (Dx : D0 x) by (apply B0, in_or_app; now right).
      rewrite E, poke_other; [now apply Gr|]. rewrite peek_len. intros I. now apply (Own x I).
    + intros x Hx. apply in_app_or in Hx as [Hx|Hx]; [now apply Own|]. apply Gr, B0, in_or_app. now right.
Qed.

Lemma entries_well m t kt et ka ea k v K0 (D0 : nat -> Prop) ads es G : well m -> under env t = RtMap kt et -> codec env kt ka -> codec env et ea ->
  entries_hold true K0 kt et ads es G -> (forall x, In x G -> D0 x) ->
  forall K (D : nat -> Prop), more K0 D0 K D ->
  (forall x, In x (seq k (size kt)) -> D x /\ ~ D0 x /\ (N0 <= x)%nat) ->
  (forall x, In x (seq v (size et)) -> D x /\ ~ D0 x /\ (N0 <= x)%nat) ->
  tr (spost K0 D0) (smarshal_entries env (smarshal m) t ka ea k v ads) K D (marshal_entries (marshal m) t ka ea es).
Proof using Henv Hz.
  intros IH U Ck Ce E. remember true as b eqn:Eb.
  induction E as [kt et|kt et a b' ads x y es Gx Gy G Hx Hy E IHe]; intros Bd K D Gr Ok Ov;
    cbn [marshal_entries smarshal_entries].
  - eapply tr_more; [exact Gr|]. apply tr_swr.
  - replace (key_type env t) with kt by (unfold key_type; now rewrite U).
    replace (elem_type env t) with et by (unfold elem_type; now rewrite U). subst b.
    assert (Sx : knows K0 D0 kt a x).
    { exists Gx. split; [exact Hx|]. intros z Hz'. apply Bd. rewrite !in_app_iff in *. tauto. }
    assert (Sy : knows K0 D0 et b' y).
    { exists Gy. split; [exact Hy|]. intros z Hz'. apply Bd. rewrite !in_app_iff in *. tauto. }
    unfold and_then at 1 3. eapply (tr_bind (fun K' D' e e' => e = e' /\ more K0 D0 K' D' /\ forall x, D x -> D' x)).
    { eapply tr_copy; [exact Gr|exact Sx|exact Ok|]. intros K1 G1 S1.
      eapply tr_mono; [|apply (IH kt); [exact Ck|exact S1]].
      intros K2 D2 e e' [-> G2]. conj; auto; [eapply more_trans; eauto|apply G2]. }
    intros e e' K1 D1 (-> & G1 & I1). destruct e' as [er|].
    { eexists. split; [reflexivity|]. split; [reflexivity|exact G1]. }
    unfold and_then at 1 2. eapply (tr_bind (fun K' D' e e' => e = e' /\ more K0 D0 K' D' /\ forall x, D1 x -> D' x)).
    { eapply tr_copy; [exact G1|exact Sy|intros z Hz'; destruct (Ov z Hz') as (? & ? & ?); auto|]. intros K2 G2 S2.
      eapply tr_mono; [|apply (IH et); [exact Ce|exact S2]].
      intros K3 D3 e e' [-> G3]. conj; auto; [eapply more_trans; eauto|apply G3]. }
    intros e e' K2 D2 (-> & G2 & I2). destruct e' as [er|].
    { eexists. split; [reflexivity|]. split; [reflexivity|exact G2]. }
    apply IHe; auto.
    + intros z Hz'. apply Bd. rewrite !in_app_iff. tauto.
    + intros z Hz'. destruct (Ok z Hz') as (? & ? & ?); auto.
    + intros z Hz'. destruct (Ov z Hz') as (? & ? & ?); auto.
Qed.

(** *** elements *)
Lemma elems_well m t e set ea K0 (D0 : nat -> Prop) : well m -> under env t = RtSlice e -> codec env e ea ->
  forall es base cs G, all_hold true K0 (repeat e (length es)) cs es G -> cs = peek K0 base (length es * size e) ->
  (forall x, In x (seq base (length es * size e) ++ G) -> D0 x) ->
  forall K D, more K0 D0 K D ->
  tr (spost K0 D0) (smarshal_elems env (smarshal m) t set ea base (length es)) K D (marshal_elems (marshal m) t set ea es).
Proof using Henv Hz.
  intros IH U Ce. induction es as [|v es IHe]; intros base cs G A Ecs Bd K D Gr; cbn [marshal_elems smarshal_elems length].
  - eapply tr_more; [exact Gr|]. destruct set; apply tr_swr.
  - cbn [length repeat] in A. inversion A as [|t0 ts c cs' v0 vs Gv Gs Hv Hs]; subst.
    replace (elem_type env t) with e by (unfold elem_type; now rewrite U).
    match goal with E : _ ++ _ = peek _ _ _ |- _ => rename E into Ec end.
    cbn [length Nat.mul] in *. rewrite peek_app in Ec. apply app_inv_len in Ec as [-> ->]; [|rewrite peek_len; now apply (holds_len _ _ _ _ _ _ Hv)].
    assert (S1 : knows K D e base v).
    { apply (knows_more K0 D0); [exact Gr|]. exists Gv. split; [exact Hv|]. intros x Hx. apply Bd.
      rewrite seq_add. rewrite !in_app_iff in *. tauto. }
    eapply tr_then; [apply (IH e); [exact Ce|exact S1]|exact Gr|]. intros K1 D1 Gr1.
    apply (IHe (base + size e)%nat _ Gs Hs); [reflexivity| |eapply more_trans; eauto].
    intros x Hx. apply Bd. rewrite seq_add. rewrite !in_app_iff in *. tauto.
Qed.

Theorem marshal_well n : well n.
Proof using Henv Hz.
  induction n as [|m IH]; intros t a v va K D Ca S; [reflexivity|].
  pose proof (codec_inv env t a Ca) as Ci. pose proof S as (G & A & Bd).
  assert (Dva : D va) by (apply Bd, in_or_app; left; apply in_seq; pose proof (size_pos env Henv t); lia).
  destruct a as [t'|t'|t' single|t' w|t' w|t'|t'|t'|t'|t' ka ea|t' set ea|t' ea]; cbn [Arshal.marshal HeapStep.smarshal].
  - eexists. split; [reflexivity|]. split; [reflexivity|apply more_refl].
  - destruct Ci as [-> U]. destruct (see_plain env Henv _ _ _ _ _ _ (ltac:(unfold plain; now rewrite U)) A) as (M & L & _).
    apply tr_read; [exact Dva|]. rewrite M. destruct v; try reflexivity; apply tr_swr.
  - destruct Ci as [-> U]. destruct (see_plain env Henv _ _ _ _ _ _ (ltac:(unfold plain; rewrite U; now destruct single)) A) as (M & L & _).
    apply tr_read; [exact Dva|]. rewrite M. destruct v, single; try reflexivity; apply tr_swr.
  - destruct Ci as [-> U]. destruct (see_plain env Henv _ _ _ _ _ _ (ltac:(unfold plain; rewrite U; now destruct w)) A) as (M & L & _).
    apply tr_read; [exact Dva|]. rewrite M. destruct v; try reflexivity; apply tr_swr.
  - destruct Ci as [-> U]. destruct (see_plain env Henv _ _ _ _ _ _ (ltac:(unfold plain; rewrite U; now destruct w)) A) as (M & L & _).
    apply tr_read; [exact Dva|]. rewrite M. destruct v; try reflexivity; apply tr_swr.
  - destruct Ci as [-> U]. destruct (see_plain env Henv _ _ _ _ _ _ (ltac:(unfold plain; now rewrite U)) A) as (M & L & _).
    apply tr_read; [exact Dva|]. rewrite M. destruct v; try reflexivity; apply tr_swr.
  - destruct Ci as (-> & U & B). apply tr_read; [exact Dva|].
    pose proof A as A'. apply (see_cells env Henv) in A'; [|intros s; congruence].
    inversion A' as [| ? nl base s sp cap Bt Lc Ex | | | | | |]; subst; try congruence.
    + exfalso. match goal with P : plain env t |- _ => unfold plain in P; rewrite U in P; exact P end.
    + eapply tr_quiet; [apply tr_read_cells|].
      * intros x Hx. apply Bd, in_or_app. right. rewrite in_seq in *. lia.
      * intros cs K' D' (-> & -> & ->). rewrite (Ex eq_refl), map_byte_of. apply tr_swr.
  - destruct Ci as [-> U]. destruct (see_plain env Henv _ _ _ _ _ _ (ltac:(unfold plain; now rewrite U)) A) as (M & L & _).
    apply tr_read; [exact Dva|]. rewrite M. destruct v; try reflexivity; apply tr_swr.
  - destruct Ci as (-> & s & U).
    destruct (make_struct_fields env ln t) as [[fs|e]|] eqn:Hfs; [| |reflexivity].
    2:{ eexists. split; [reflexivity|]. split; [reflexivity|apply more_refl]. }
    destruct (see_struct env Henv _ _ _ _ _ _ _ U A) as (vs & -> & _).
    eapply tr_then; [apply tr_swr|apply more_refl|]. intros K1 D1 G1.
    apply (fields_well m t s); auto; [|eapply knows_more; eauto].
    intros f Hf. apply (proj1 (fields_spec env Henv ln t fs Hfs)) in Hf as (j & sf & o & a & Hj & _ & La & ->).
    exists j, sf, a. conj; auto. now exists ln.
  - destruct Ci as (-> & kt & et & U & C1 & C2).
    destruct ((wire_type ka =? T_Stop) || (wire_type ea =? T_Stop)).
    { eexists. split; [reflexivity|]. split; [reflexivity|apply more_refl]. }
    apply tr_read; [exact Dva|].
    assert (Go : forall ads es G', entries_hold true K kt et ads es G' -> (forall x, In x G' -> D x) ->
      tr (spost K D)
        (swr "WriteMapBegin" T_Map t (WMapBegin (mkMapH (wire_type ka) (wire_type ea) (zlen ads))) >>!
         (k <- call (MAlloc (zcells (key_type env t))) ;;
          v <- call (MAlloc (zcells (elem_type env t))) ;;
          smarshal_entries env (smarshal m) t ka ea k v ads)) K D
        (wr "WriteMapBegin" T_Map t (WMapBegin (mkMapH (wire_type ka) (wire_type ea) (zlen es))) >>!
         marshal_entries (marshal m) t ka ea es)).
    { intros ads es G' E Bd'.
      assert (L : length ads = length es) by (eapply (holds_len_all env Henv); eauto).
      unfold zlen. rewrite L.
      eapply tr_then; [apply tr_swr|apply more_refl|]. intros K1 D1 G1.
      replace (key_type env t) with kt by (unfold key_type; now rewrite U).
      replace (elem_type env t) with et by (unfold elem_type; now rewrite U).
      cbn [call bind tr]. intros k K2 Nk Fk Ak Pk v' K3 Nv Fv Av Pv.
      eapply (entries_well m t kt et ka ea k v' K D ads es G'); eauto.
      - eapply more_trans; [exact G1|]. split; [intros x Hx; now do 2 left|].
        intros x Hx. rewrite Av by now left. now apply Ak.
      - intros x Hx. conj.
        + left. now right.
        + intros Dx. apply (Fk x); [now apply G1|exact Hx].
        + apply in_seq in Hx. lia.
      - intros x Hx. conj.
        + now right.
        + intros Dx. apply (Fv x); [left; now apply G1|exact Hx].
        + apply in_seq in Hx. lia. }
    destruct (see_map env Henv _ _ _ _ _ _ _ _ U A) as [(-> & -> & ->)|(mp & ads & es & G0 & -> & -> & -> & Ha & He)].
    + apply (Go [] [] []); [constructor|intros x []].
    + cbn [bind call tr]. split; [apply Bd, in_or_app; right; now left|]. rewrite Ha.
      apply (Go ads es G0); [exact He|]. intros x Hx. apply Bd, in_or_app. right. now right.
  - destruct Ci as (-> & e & U & B & C & _).
    destruct (wire_type ea =? T_Stop).
    { eexists. split; [reflexivity|]. split; [reflexivity|apply more_refl]. }
    apply tr_read; [exact Dva|].
    destruct (see_slice env Henv _ _ _ _ _ _ _ U B A) as (nl & base & es & sp & G0 & -> & -> & _ & -> & He).
    unfold zlen.
    eapply tr_then; [destruct set; apply tr_swr|apply more_refl|]. intros K1 D1 G1.
    eapply (elems_well m t e); eauto. intros x Hx. apply Bd.
    rewrite Nat.mul_add_distr_r, seq_add. rewrite !in_app_iff in *. tauto.
  - destruct Ci as (-> & e & U & C). apply tr_read; [exact Dva|].
    destruct (see_ptr env Henv _ _ _ _ _ _ _ U A) as [(-> & -> & ->)|(p & w & G0 & -> & -> & -> & Hw)].
    + replace (elem_type env t) with e by (unfold elem_type; now rewrite U).
      cbn [call bind tr]. intros b K' Nb Fb Ab Pb.
      eapply tr_more; [split; [intros x Hx; now left|exact Ab]|]. apply (IH e); [exact C|]. exists [].
      unfold Heap.size. rewrite Pb. split; [apply holds_zero|].
      intros x Hx. right. now rewrite app_nil_r in Hx.
    + apply (IH e); [exact C|]. exists G0. split; [exact Hw|]. intros x Hx. apply Bd, in_or_app. now right.
Qed.
End Env.
