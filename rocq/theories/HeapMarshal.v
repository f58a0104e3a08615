(** Marshal on memory does what Marshal on values does, and changes no memory. *)
From Coq Require Import Strings.String.
From Verif Require Import Base BaseLemmas Prog Wire GoFloat Utf8 GoType Fields Arshal GoTypeProof FieldsProof ArshalSpec
  Heap HeapSpec HeapProof HeapUnmarshal.

Section Env.
Context (env : tenv) (Henv : env_ok env).
Notation size := (size env).
Notation sizes := (sizes env).
Notation zcells := (zcells env).
Notation holds := (holds env).
Notation all_hold := (all_hold env).
Notation entries_hold := (entries_hold env).
Notation one_cell := (one_cell env).
Notation size_one := (size_one env Henv).
Notation size_struct := (size_struct env Henv).
Notation holds_len := (holds_len env Henv).
Notation holds_zero := (holds_zero env Henv).
Context (isZero : rtype -> heap -> nat -> bool).
Hypothesis Hz : forall t z H a v G, field_is_zero env t = Some z ->
  holds true H t (peek H a (size t)) v G -> isZero t H a = z v.
Context (ln : nat).
Notation hmarshal := (hmarshal env ln isZero).
Notation marshal := (marshal env ln).

(** The old memory is as it was. *)
Definition grows (H H' : heap) : Prop :=
  (next H <= next H')%nat /\ forall x, (x < next H)%nat -> mem H' x = mem H x.
Definition mpost (H : heap) (e : option err) (q : heap * option err) : Prop := snd q = e /\ grows H (fst q).

Lemma grows_refl H : grows H H.
Proof. split; auto. Qed.
Lemma grows_trans H H1 H2 : grows H H1 -> grows H1 H2 -> grows H H2.
Proof. intros [A B] [C D]. split; [lia|]. intros x Hx. rewrite D by lia. auto. Qed.
Lemma grows_alloc H cs : grows H (fst (alloc H cs)).
Proof. split; [rewrite alloc_next; lia|]. apply alloc_old. Qed.
Lemma grows_poke H0 H a cs : grows H0 H -> (next H0 <= a)%nat -> grows H0 (poke H a cs).
Proof.
  intros [A B] L. split; [now rewrite poke_next|]. intros x Hx. rewrite poke_other; [auto|]. rewrite in_seq. lia.
Qed.
Lemma grows_peek H H' a n : grows H H' -> (forall x, In x (seq a n) -> (x < next H)%nat) -> peek H' a n = peek H a n.
Proof. intros [_ B] Hx. apply peek_ext. auto. Qed.

(** The variable at [a] holds [v]; it may share memory. *)
Definition sees (H : heap) (t : rtype) (a : nat) (v : gval) : Prop :=
  exists G, holds true H t (peek H a (size t)) v G /\ forall x, In x (seq a (size t) ++ G) -> (x < next H)%nat.

Lemma sees_grows H H' t a v : grows H H' -> sees H t a v -> sees H' t a v.
Proof.
  intros Gr (G & A & B). pose proof Gr as [Le Eq]. exists G. split.
  - rewrite (grows_peek H H' a (size t)); [|auto|intros x Hx; apply B, in_or_app; now left].
    eapply holds_frame; [exact A|]. intros x Hx. apply Eq, B, in_or_app. now right.
  - intros x Hx. specialize (B x Hx). lia.
Qed.

Definition good (n : nat) : Prop := forall t a v va H, codec env t a -> sees H t va v ->
  sim (mpost H) (marshal n a v) (hmarshal n a va H).

Lemma sim_hwr action wt t e H : sim (mpost H) (wr action wt t e) (hwr action wt t e H).
Proof.
  unfold hwr, wr. constructor. intros x. cbn [bind].
  destruct x; cbn [bind]; constructor; (split; [reflexivity|apply grows_refl]).
Qed.

Lemma sim_then H0 H p q k k' : sim (mpost H) p q -> grows H0 H ->
  (forall H1, grows H H1 -> sim (mpost H0) k (k' H1)) -> sim (mpost H0) (p >>! k) (hthen q k').
Proof.
  intros A Gr K. unfold and_then, hthen. eapply sim_bind; [exact A|].
  intros e [H1 e'] [E G1]. cbn [fst snd] in *. subst e'. destruct e as [er|]; [|now apply K].
  constructor. split; [reflexivity|]. cbn [fst]. eapply grows_trans; eauto.
Qed.

Lemma sim_grows {E0} H0 H (p : prog E0 _) q : grows H0 H -> sim (mpost H) p q -> sim (mpost H0) p q.
Proof. intros Gr A. eapply sim_mono; [exact A|]. intros e q' [E K]. split; [exact E|]. eapply grows_trans; eauto. Qed.

(** *** fields *)
Lemma sees_field H t s va vs i ft : under env t = RtStruct s -> sees H t va (GStruct vs) ->
  nth_error (field_types env t) i = Some ft ->
  exists v, nth_error vs i = Some v /\ sees H ft (field_addr env t i va) v.
Proof using Henv.
  intros U (G & A & Bd) Ni. unfold field_addr, field_types in *. rewrite U in *.
  inversion A as [| | | | | | |t0 s0 cs vs0 G0 U0 Hs E1 E2 E3 E4]; subst; [contradiction|]. assert (s0 = s) as -> by congruence. clear U0.
  rewrite (size_struct t s U) in *. rewrite peek_S in E2. injection E2 as Eh Ec. subst cs.
  destruct (all_hold_nth env Henv _ _ _ _ _ _ _ Hs Ni) as (v & c1 & c & c2 & G1 & Gi & G2 & Nv & Ecs & L1 & -> & Hv & K).
  pose proof (holds_len _ _ _ _ _ _ Hv) as Lc.
  destruct (peek_split _ _ _ _ _ _ Ecs) as (P1 & P2 & P3 & Ls).
  exists v. split; [exact Nv|]. exists Gi. rewrite Lc, L1 in P2.
  replace (va + S (sizes (firstn i (map sf_type (te_struct env s)))))%nat with (S va + sizes (firstn i (map sf_type (te_struct env s))))%nat by lia.
  rewrite <- P2. split; [exact Hv|]. intros x Hx. apply Bd. rewrite !in_app_iff in *. destruct Hx as [Hx|Hx]; [left|tauto].
  rewrite in_seq in *. lia.
Qed.

Lemma zero_cells_all H :
  (forall t cs v G, holds true H t cs v G ->
     forallb (cell_zero env true) cs = is_zero env true v /\ cells_zero env cs = is_zero env false v) /\
  (forall ts cs vs G, all_hold true H ts cs vs G -> forallb (cell_zero env true) cs = forallb (is_zero env true) vs) /\
  (forall k e ads es G, entries_hold true H k e ads es G -> True).
Proof.
  apply holds_mutind; auto; try (intros; cbn; rewrite ?andb_true_r; now auto).
  intros t ts c cs v vs G Gs _ [IH _] _ IHs. rewrite forallb_app, IH, IHs. reflexivity.
Qed.

Lemma sim_field_zero f H va v : f_isZero f = field_is_zero env (f_typ f) -> sees H (f_typ f) va v -> hfield_zero env isZero f H va = field_zero env f v.
Proof using Hz.
  intros Ef (G & A & _). unfold hfield_zero, field_zero. destruct (f_isZero f) as [z|] eqn:E.
  - eapply Hz; [symmetry; exact Ef|exact A].
  - now apply (zero_cells_all H) in A.
Qed.

Lemma fields_case m t s va H0 vs : good m -> under env t = RtStruct s ->
  forall fs, (forall f, In f fs -> exists j sf a, nth_error (struct_def env t) j = Some sf /\
     codec env (sf_type sf) a /\ f_index f = j /\ f_typ f = sf_type sf /\ f_fncs f = a /\
     f_isZero f = field_is_zero env (sf_type sf)) ->
  forall H, grows H0 H -> sees H t va (GStruct vs) ->
  sim (mpost H0) (marshal_fields env (marshal m) t vs fs) (hmarshal_fields env isZero (hmarshal m) t va fs H).
Proof using Henv Hz.
  intros IH U fs. induction fs as [|f fs IHf]; intros Hfs H Gr Sv; cbn [marshal_fields hmarshal_fields].
  - eapply sim_grows; [exact Gr|]. apply sim_hwr.
  - destruct (Hfs f (or_introl eq_refl)) as (j & sf & a & Hj & Ca & Ej & Et & Ea & Ez).
    assert (Hr : forall g, In g fs -> In g (f :: fs)) by (intros; now right).
    destruct (wire_type (f_fncs f) =? T_Stop).
    { constructor. split; [reflexivity|exact Gr]. }
    unfold struct_def in Hj. rewrite U in Hj.
    assert (Hft : nth_error (field_types env t) j = Some (sf_type sf)).
    { unfold field_types. rewrite U. now apply map_nth_error. }
    destruct (sees_field H t s va vs j _ U Sv Hft) as (v & Nv & Sf).
    rewrite Ej, Nv, Hft, Ea. cbv zeta.
    rewrite (sim_field_zero f H _ v) by (rewrite Et; first [exact Sf|exact Ez]).
    destruct (negb (f_required f) && field_zero env f v); [apply IHf; auto|].
    eapply sim_then; [apply sim_hwr|exact Gr|]. intros H1 G1.
    eapply sim_then; [apply (IH (sf_type sf)); [exact Ca|eapply sees_grows; eauto]|eapply grows_trans; eauto|]. intros H2 G2.
    assert (G02 : grows H0 H2) by (eapply grows_trans; [exact Gr|]; eapply grows_trans; eauto).
    eapply sim_then; [apply sim_hwr|exact G02|]. intros H3 G3.
    apply IHf; auto; [eapply grows_trans; eauto|].
    eapply sees_grows; [|exact Sv]. eapply grows_trans; [exact G1|]. eapply grows_trans; eauto.
Qed.

(** *** entries *)
Lemma entries_case m t kt et ka ea k v H0 ads es G : good m -> under env t = RtMap kt et -> codec env kt ka -> codec env et ea ->
  entries_hold true H0 kt et ads es G -> (forall x, In x G -> (x < next H0)%nat) ->
  (next H0 <= k)%nat -> (k + size kt <= v)%nat ->
  forall H, grows H0 H -> (v + size et <= next H)%nat ->
  sim (mpost H0) (marshal_entries (marshal m) t ka ea es) (hmarshal_entries env (hmarshal m) t ka ea k v ads H).
Proof using Henv Hz.
  intros IH U Ck Ce E. revert E.
  replace (key_type env t) with kt by (unfold key_type; now rewrite U).
  intros E. revert k v. remember true as b eqn:Eb.
  induction E as [kt et|kt et a b' ads x y es Gx Gy G Hx Hy E IHe]; intros k v Bd Lk Lv H Gr Bv;
    cbn [marshal_entries hmarshal_entries].
  - eapply sim_grows; [exact Gr|]. apply sim_hwr.
  - replace (key_type env t) with kt by (unfold key_type; now rewrite U).
    replace (elem_type env t) with et by (unfold elem_type; now rewrite U). subst b.
    assert (Sx : sees H0 kt a x).
    { exists Gx. split; [exact Hx|]. intros z Hz'. apply Bd. rewrite !in_app_iff in *. tauto. }
    assert (Sy : sees H0 et b' y).
    { exists Gy. split; [exact Hy|]. intros z Hz'. apply Bd. rewrite !in_app_iff in *. tauto. }
    assert (Copy : forall H' t0 a0 v0 c, grows H0 H' -> sees H0 t0 a0 v0 -> (next H0 <= c)%nat -> (c + size t0 <= next H')%nat ->
              grows H0 (poke H' c (peek H' a0 (size t0))) /\ sees (poke H' c (peek H' a0 (size t0))) t0 c v0).
    { intros H' t0 a0 v0 c Gr' S Lc Bc. split; [now apply grows_poke|].
      destruct S as (G0 & A & B). exists G0.
      assert (Gp : grows H0 (poke H' c (peek H' a0 (size t0)))) by now apply grows_poke.
      rewrite peek_poke_n by apply peek_len. rewrite (grows_peek H0 H') by (auto; intros z Hz'; apply B, in_or_app; now left).
      split.
      - eapply holds_frame; [exact A|]. intros z Hz'. rewrite poke_other.
        + apply Gr'. apply B, in_or_app. now right.
        + rewrite peek_len, in_seq. specialize (B z (in_or_app _ _ _ (or_intror Hz'))). lia.
      - intros z Hz'. rewrite poke_next. apply in_app_or in Hz' as [Hz'|Hz']; [rewrite in_seq in Hz'; lia|].
        specialize (B z (in_or_app _ _ _ (or_intror Hz'))). destruct Gr'. lia. }
    destruct (Copy H kt a x k Gr Sx Lk) as [G1 S1]; [lia|].
    eapply sim_then; [apply (IH kt); [exact Ck|exact S1]|exact G1|]. intros H1 Gr1.
    assert (G01 : grows H0 H1) by (eapply grows_trans; eauto).
    assert (B1 : (next H <= next H1)%nat) by (destruct Gr1 as [N _]; rewrite poke_next in N; exact N).
    destruct (Copy H1 et b' y v G01 Sy) as [G2 S2]; [lia|lia|].
    eapply sim_then; [apply (IH et); [exact Ce|exact S2]|exact G2|]. intros H2 Gr2.
    assert (B2 : (next H1 <= next H2)%nat) by (destruct Gr2 as [N _]; rewrite poke_next in N; exact N).
    apply IHe; auto; [|eapply grows_trans; eauto|lia].
    intros z Hz'. apply Bd. rewrite !in_app_iff. tauto.
Qed.

(** *** elements *)
Lemma elems_case m t e set ea H0 : good m -> under env t = RtSlice e -> codec env e ea ->
  forall es base cs G, all_hold true H0 (repeat e (length es)) cs es G -> cs = peek H0 base (length es * size e) ->
  (forall x, In x (seq base (length es * size e) ++ G) -> (x < next H0)%nat) ->
  forall H, grows H0 H ->
  sim (mpost H0) (marshal_elems (marshal m) t set ea es) (hmarshal_elems env (hmarshal m) t set ea base (length es) H).
Proof using Henv Hz.
  intros IH U Ce. induction es as [|v es IHe]; intros base cs G A Ecs Bd H Gr; cbn [marshal_elems hmarshal_elems length].
  - eapply sim_grows; [exact Gr|]. destruct set; apply sim_hwr.
  - cbn [length repeat] in A. inversion A as [|t0 ts c cs' v0 vs Gv Gs Hv Hs]; subst.
    replace (elem_type env t) with e by (unfold elem_type; now rewrite U).
    match goal with E : _ ++ _ = peek _ _ _ |- _ => rename E into Ec end.
    cbn [length Nat.mul] in *. rewrite peek_app in Ec. apply app_inv_len in Ec as [-> ->]; [|rewrite peek_len; now apply (holds_len _ _ _ _ _ _ Hv)].
    assert (S1 : sees H e base v).
    { apply (sees_grows H0); [exact Gr|]. exists Gv. split; [exact Hv|]. intros x Hx. apply Bd.
      rewrite seq_add. rewrite !in_app_iff in *. tauto. }
    eapply sim_then; [apply (IH e); [exact Ce|exact S1]|exact Gr|]. intros H1 Gr1.
    apply (IHe (base + size e)%nat _ Gs Hs); [reflexivity| |eapply grows_trans; eauto].
    intros x Hx. apply Bd. rewrite seq_add. rewrite !in_app_iff in *. tauto.
Qed.

Lemma map_byte_of s : map byte_of (map CByte s) = s.
Proof. rewrite map_map. apply map_id. Qed.

Theorem marshal_good n : good n.
Proof using Henv Hz.
  induction n as [|m IH]; intros t a v va H Ca S; [constructor|].
  pose proof (codec_inv env t a Ca) as Ci. pose proof S as (G & A & Bd).
  destruct a as [t'|t'|t' single|t' w|t' w|t'|t'|t'|t'|t' ka ea|t' set ea|t' ea]; cbn [Arshal.marshal Heap.hmarshal].
  - constructor. split; [reflexivity|apply grows_refl].
  - destruct Ci as [-> U]. destruct (see_plain env Henv _ _ _ _ _ _ (ltac:(unfold plain; now rewrite U)) A) as (-> & L & _).
    destruct v; try apply sim_crash; apply sim_hwr.
  - destruct Ci as [-> U]. destruct (see_plain env Henv _ _ _ _ _ _ (ltac:(unfold plain; rewrite U; now destruct single)) A) as (-> & L & _).
    destruct v, single; try apply sim_crash; apply sim_hwr.
  - destruct Ci as [-> U]. destruct (see_plain env Henv _ _ _ _ _ _ (ltac:(unfold plain; rewrite U; now destruct w)) A) as (-> & L & _).
    destruct v; try apply sim_crash; apply sim_hwr.
  - destruct Ci as [-> U]. destruct (see_plain env Henv _ _ _ _ _ _ (ltac:(unfold plain; rewrite U; now destruct w)) A) as (-> & L & _).
    destruct v; try apply sim_crash; apply sim_hwr.
  - destruct Ci as [-> U]. destruct (see_plain env Henv _ _ _ _ _ _ (ltac:(unfold plain; now rewrite U)) A) as (-> & L & _).
    destruct v; try apply sim_crash; apply sim_hwr.
  - destruct Ci as (-> & U & B).
    pose proof A as A'. apply (see_cells env Henv) in A'; [|intros s; congruence].
    inversion A' as [| ? nl base s sp cap Bt Lc Ex | | | | | |]; subst; try congruence.
    + exfalso. match goal with P : plain env t |- _ => unfold plain in P; rewrite U in P; exact P end.
    + rewrite (Ex eq_refl), map_byte_of. apply sim_hwr.
  - destruct Ci as [-> U]. destruct (see_plain env Henv _ _ _ _ _ _ (ltac:(unfold plain; now rewrite U)) A) as (-> & L & _).
    destruct v; try apply sim_crash; apply sim_hwr.
  - destruct Ci as (-> & s & U).
    destruct (make_struct_fields env ln t) as [[fs|e]|] eqn:Hfs; [| |constructor].
    2:{ constructor. split; [reflexivity|apply grows_refl]. }
    destruct (see_struct env Henv _ _ _ _ _ _ _ U A) as (vs & -> & ->).
    eapply sim_then; [apply sim_hwr|apply grows_refl|]. intros H1 G1.
    apply (fields_case m t s); auto; [|eapply sees_grows; eauto].
    intros f Hf. apply (proj1 (fields_spec env Henv ln t fs Hfs)) in Hf as (j & sf & o & a & Hj & _ & La & ->).
    exists j, sf, a. conj; auto. now exists ln.
  - destruct Ci as (-> & kt & et & U & C1 & C2).
    destruct ((wire_type ka =? T_Stop) || (wire_type ea =? T_Stop)).
    { constructor. split; [reflexivity|apply grows_refl]. }
    assert (Go : forall ads es G', entries_hold true H kt et ads es G' -> (forall x, In x G' -> (x < next H)%nat) ->
      sim (mpost H)
        (wr "WriteMapBegin" T_Map t (WMapBegin (mkMapH (wire_type ka) (wire_type ea) (zlen es))) >>!
         marshal_entries (marshal m) t ka ea es)
        (hthen (hwr "WriteMapBegin" T_Map t (WMapBegin (mkMapH (wire_type ka) (wire_type ea) (zlen ads))) H) (fun H =>
                let '(H, k) := alloc H (zcells (key_type env t)) in
                let '(H, v) := alloc H (zcells (elem_type env t)) in
                hmarshal_entries env (hmarshal m) t ka ea k v ads H))).
    { intros ads es G' E Bd'.
      assert (L : length ads = length es) by (eapply (holds_len_all env Henv); eauto).
      unfold zlen. rewrite L.
      eapply sim_then; [apply sim_hwr|apply grows_refl|]. intros H1 G1.
      replace (key_type env t) with kt by (unfold key_type; now rewrite U).
      replace (elem_type env t) with et by (unfold elem_type; now rewrite U).
      rewrite (alloc_eq H1), (alloc_eq (fst (alloc H1 _))). destruct G1 as [N1 Q1].
      apply (entries_case m t kt et ka ea _ _ H ads es G'); auto.
      eapply grows_trans; [split; [exact N1|exact Q1]|]. eapply grows_trans; apply grows_alloc. }
    destruct (see_map env Henv _ _ _ _ _ _ _ _ U A) as [(-> & -> & ->)|(mp & ads & es & G0 & -> & -> & -> & Ha & He)].
    + apply (Go [] [] []); [constructor|intros x []].
    + cbv zeta. rewrite Ha. apply (Go ads es G0); [exact He|]. intros x Hx. apply Bd, in_or_app. right. now right.
  - destruct Ci as (-> & e & U & B & C & _).
    destruct (wire_type ea =? T_Stop).
    { constructor. split; [reflexivity|apply grows_refl]. }
    destruct (see_slice env Henv _ _ _ _ _ _ _ U B A) as (nl & base & es & sp & G0 & -> & -> & _ & -> & He).
    unfold zlen.
    eapply sim_then; [destruct set; apply sim_hwr|apply grows_refl|]. intros H1 G1.
    eapply (elems_case m t e); eauto. intros x Hx. apply Bd.
    rewrite Nat.mul_add_distr_r, seq_add. rewrite !in_app_iff in *. tauto.
  - destruct Ci as (-> & e & U & C).
    destruct (see_ptr env Henv _ _ _ _ _ _ _ U A) as [(-> & -> & ->)|(p & w & G0 & -> & -> & -> & Hw)].
    + replace (elem_type env t) with e by (unfold elem_type; now rewrite U). rewrite alloc_eq.
      eapply sim_grows; [apply grows_alloc|]. apply (IH e); [exact C|]. exists [].
      rewrite alloc_peek_n by reflexivity. split; [apply holds_zero|].
      intros x Hx. rewrite app_nil_r, in_seq in Hx. rewrite alloc_next. unfold Heap.size in *. lia.
    + apply (IH e); [exact C|]. exists G0. split; [exact Hw|]. intros x Hx. apply Bd, in_or_app. now right.
Qed.
End Env.
