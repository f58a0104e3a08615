(** Marshal of a finite value ends. *)
From Coq Require Import Strings.String.
From Verif Require Import Base BaseLemmas Prog Wire GoFloat Utf8 GoType Fields Arshal GoTypeProof FieldsProof ArshalSpec ArshalTotal ArshalSafe
  Heap HeapSpec HeapProof HeapUnmarshal AnySpec AnyProof CycleSpec CycleProof.

(** ** Programs that do not crash *)
Inductive calm {A} : prog wireW A -> Prop :=
| calm_ret a : calm (Ret a)
| calm_vis X (e : wireW X) k : (forall x, calm (k x)) -> calm (Vis e k).
Lemma calm_run {S A} (p : prog wireW A) : calm p -> forall (h : handler wireW S) s,
  match run h p s with Done _ _ => True | Crashed c => exists X (e : wireW X) s', h X e s' = Crashed c end.
Proof.
  induction 1 as [a|X e k Hk IH]; intros h s; cbn [run]; auto.
  destruct (h X e s) as [s' x|c] eqn:E; [apply IH|]. eauto.
Qed.
Lemma calm_bind {A B} (Q : A -> Prop) p (f : A -> prog wireW B) : ends Q p -> calm p -> (forall a, Q a -> calm (f a)) -> calm (bind p f).
Proof.
  intros E C. revert E. induction C as [a|X e k Hk IH]; intros E K; cbn [bind].
  - apply K. now inversion E.
  - constructor. intros x. apply IH; [|exact K].
    assert (G : forall q, ends Q q -> q = Vis e k -> ends Q (k x)).
    { intros q [a Ha|X' e' k' Hk'|] Eq; try discriminate.
      set (g := fun (q : prog wireW A) => match q with Vis e k => forall x, ends Q (k x) | _ => True end).
      assert (Gq : g (Vis e k)) by (rewrite <- Eq; exact Hk'). apply Gq. }
    exact (G _ E eq_refl).
Qed.
Lemma calm_hwr action wt t e H : calm (hwr action wt t e H).
Proof. unfold hwr, wr. constructor. intros x. cbn [bind]. destruct x; cbn [bind]; constructor. Qed.
Lemma calm_then (Q : heap * option err -> Prop) p k : ends Q p -> calm p -> (forall H, Q (H, None) -> calm (k H)) -> calm (hthen p k).
Proof. intros E C K. unfold hthen. apply (calm_bind Q); auto. intros [H [e|]] Hq; [constructor|now apply K]. Qed.

Lemma all_bounded {A} (Q : nat -> A -> Prop) (l : list A) : (forall n m x, (n <= m)%nat -> Q n x -> Q m x) ->
  (forall x, In x l -> exists n, Q n x) -> exists n, forall x, In x l -> Q n x.
Proof.
  intros Mo. induction l as [|y l IH]; intros Hx; [exists O; intros x []|].
  destruct IH as [n Hn]; [intros; apply Hx; now right|]. destruct (Hx y) as [m Hm]; [now left|].
  exists (n + m)%nat. intros x [<-|Hi]; [eapply Mo; [|exact Hm]; lia|]. eapply Mo; [|now apply Hn]. lia.
Qed.

Section Env.
Context (env : tenv) (Henv : env_ok env) (isz : rtype -> heap -> list cell -> bool).
Notation size := (size env).
Notation sizes := (sizes env).
Notation zcells := (zcells env).
Notation layout := (layout env).
Notation fits := (fits env).
Notation sound := (sound env).
Notation written := (written env isz).
Notation evolves := (evolves env nothing).
Notation typed := (typed env).
Hypothesis St : steady env isz.
Context (P : rtype -> Prop) (Hcl : closed env P).
Notation hmarshal := (fun ln => hmarshal env ln (at_address env isz)).
Context (T : nat -> option kind) (H : heap) (So : sound T H).

(** With enough depth, the value [x] is written, wherever a copy of it is. *)
Definition settles (N : nat) (x : rtype * list cell) : Prop := forall n ln a va T1 H1, (N <= n)%nat -> (N <= ln)%nat ->
  codec env (fst x) a -> evolves T H T1 H1 -> fits T1 va (fst x) -> Heap.peek H1 va (size (fst x)) = snd x -> calm (hmarshal ln n a va H1).
Lemma settles_more n m x : (n <= m)%nat -> settles n x -> settles m x.
Proof. intros L S k ln a va T1 H1 Lk Ll. apply S; lia. Qed.

Lemma sizes_nth l j t : nth_error l j = Some t -> (sizes (firstn j l) + size t <= sizes l)%nat.
Proof.
  intros Hj. rewrite <- (firstn_skipn j l) at 2. rewrite sizes_app.
  assert (E : exists r, skipn j l = t :: r).
  { revert l Hj. induction j as [|j IH]; intros [|x l] Hj; try discriminate; cbn in *; [injection Hj as ->; eauto|now apply IH]. }
  destruct E as [r ->]. rewrite sizes_cons. lia.
Qed.
(** The cells of a field. *)
Definition part (t : rtype) (j : nat) (ft : rtype) (cs : list cell) : list cell :=
  firstn (size ft) (skipn (S (sizes (firstn j (field_types env t)))) cs).
Lemma part_peek t s j sf H1 va : under env t = RtStruct s -> nth_error (te_struct env s) j = Some sf ->
  Heap.peek H1 (field_addr env t j va) (size (sf_type sf)) = part t j (sf_type sf) (Heap.peek H1 va (size t)).
Proof using Henv.
  intros U Hj. unfold field_addr, part. apply peek_sub with (n := size t); [reflexivity|].
  rewrite (size_struct env Henv t s U).
  assert (Ht : nth_error (map sf_type (te_struct env s)) j = Some (sf_type sf)) by now apply map_nth_error.
  apply sizes_nth in Ht. unfold field_types. rewrite U. lia.
Qed.
Lemma part_written t s j sf o cs : under env t = RtStruct s -> nth_error (te_struct env s) j = Some sf -> tagged env sf o ->
  typed T (t, cs) -> fo_required o = true \/ zero_field env isz H (sf_type sf) (part t j (sf_type sf) cs) = false ->
  written H (t, cs) (sf_type sf, part t j (sf_type sf) cs).
Proof using Henv.
  intros U Hj Ht Ty Hz.
  assert (Ln : length cs = size t) by (rewrite <- (layout_len env Henv t); symmetry; exact (Forall2_length _ _ _ Ty)).
  unfold CycleProof.typed in Ty. cbn [fst snd] in Ty. rewrite (layout_eq env Henv), U in Ty.
  inversion Ty as [|k c ks r Hc _]; subst. destruct c; try contradiction. clear Ty Hc.
  assert (Hn : nth_error (map sf_type (te_struct env s)) j = Some (sf_type sf)) by now apply map_nth_error.
  apply sizes_nth in Hn. rewrite (size_struct env Henv t s U) in Ln. cbn [length] in Ln.
  unfold part in *. unfold field_types in *. rewrite U in *. cbn [skipn] in *.
  set (k := sizes (firstn j (map sf_type (te_struct env s)))) in *. set (m := size (sf_type sf)) in *.
  replace (CHead :: r) with (CHead :: firstn k r ++ firstn m (skipn k r) ++ skipn m (skipn k r)) by (now rewrite !firstn_skipn).
  apply (w_field env isz H t s j sf o); auto.
  - rewrite firstn_length, <- firstn_map. fold k. lia.
  - fold m. rewrite firstn_length, skipn_length. lia.
Qed.

Lemma fields_calm t s N cs : under env t = RtStruct s ->
  forall fs ln n, (N <= n)%nat -> (N <= ln)%nat -> (forall f, In f fs -> exists j sf a, nth_error (te_struct env s) j = Some sf /\
     codec env (sf_type sf) a /\ f_index f = j /\ f_typ f = sf_type sf /\ f_fncs f = a /\ f_isZero f = field_is_zero env (sf_type sf) /\
     typed T (sf_type sf, part t j (sf_type sf) cs) /\
     (f_required f = true \/ zero_field env isz H (sf_type sf) (part t j (sf_type sf) cs) = false -> settles N (sf_type sf, part t j (sf_type sf) cs))) ->
  forall va T1 H1, evolves T H T1 H1 -> fits T1 va t -> Heap.peek H1 va (size t) = cs ->
  calm (hmarshal_fields env (at_address env isz) (hmarshal ln n) t va fs H1).
Proof using Henv St So.
  intros U fs ln n Ln Ll. induction fs as [|f fs IHf]; intros Hfs va T1 H1 E1 F Pk; cbn [hmarshal_fields]; [apply calm_hwr|].
  destruct (Hfs f (or_introl eq_refl)) as (j & sf & a & Hj & Ca & Ej & Et & Ea & Ez & Ty & Se).
  assert (Hr : forall g, In g fs -> In g (f :: fs)) by (intros; now right).
  destruct (wire_type (f_fncs f) =? T_Stop); [constructor|].
  assert (Hft : nth_error (field_types env t) j = Some (sf_type sf)) by (unfold field_types; rewrite U; now apply map_nth_error).
  assert (Ff : fits T1 (field_addr env t j va) (sf_type sf)) by (eapply fits_field; eauto).
  assert (Pp := part_peek t s j sf H1 va U Hj). rewrite Pk in Pp.
  rewrite Ej, Hft. cbv zeta. assert (K := evolves_kept env _ _ _ _ So E1).
  assert (Zf : hfield_zero env (at_address env isz) f H1 (field_addr env t j va) = zero_field env isz H (sf_type sf) (part t j (sf_type sf) cs)).
  { unfold hfield_zero, zero_field, at_address. rewrite Ez, Et, Pp. destruct (field_is_zero env (sf_type sf)); [|reflexivity].
    eapply St; [exact So|exact Ty|exact K]. }
  rewrite Zf. destruct (f_required f) eqn:Rq; cbn [negb andb].
  2: destruct (zero_field env isz H (sf_type sf) _) eqn:Zz; [now apply (IHf ltac:(auto) va T1)|].
  all: specialize (Se ltac:(auto)).
  all: apply (calm_then (fun q => fst q = H1)); [apply ends_hwr; reflexivity|apply calm_hwr|]; intros H2 E2; cbn in E2; subst H2.
  all: rewrite Ea; eapply calm_then; [apply (marshal_ends env Henv isz St ln n (sf_type sf) a _ T1 H1 Ca (evolves_sound env nothing _ _ _ _ E1) Ff)| |].
  1,3: exact (Se n ln a _ T1 H1 Ln Ll Ca E1 Ff Pp).
  all: intros H2 [(T2 & E2) _]; cbn [fst] in E2.
  all: apply (calm_then (fun q => fst q = H2)); [apply ends_hwr; reflexivity|apply calm_hwr|]; intros H3 E3; cbn in E3; subst H3.
  all: apply (IHf ltac:(auto) va T2);
    [eapply evolves_trans; eauto|
     eapply fits_more; [exact (evolves_extends env nothing _ _ _ _ (evolves_sound env nothing _ _ _ _ E1) E2)|exact F]|
     rewrite (kept_peek env Henv T1 H1 H2 va t (evolves_kept env _ _ _ _ (evolves_sound env nothing _ _ _ _ E1) E2) F); exact Pk].
Qed.

Lemma elems_calm e set ea t ln m N : under env t = RtSlice e -> codec env e ea -> (N <= m)%nat -> (N <= ln)%nat ->
  forall n a, (forall i, (i < n)%nat -> fits T (a + i * size e) e /\ settles N (e, Heap.peek H (a + i * size e) (size e))) ->
  forall T1 H1, evolves T H T1 H1 -> calm (hmarshal_elems env (hmarshal ln m) t set ea a n H1).
Proof using Henv St So.
  intros U Ce Lm Ll. induction n as [|n IHn]; intros a F T1 H1 E1; cbn [hmarshal_elems]; [destruct set; apply calm_hwr|].
  replace (elem_type env t) with e by (unfold elem_type; now rewrite U).
  destruct (F O ltac:(lia)) as [F0 S0]. rewrite Nat.add_0_r in F0, S0.
  assert (K := evolves_kept env _ _ _ _ So E1). assert (X := evolves_extends env nothing _ _ _ _ So E1).
  assert (F1 : fits T1 a e) by (eapply fits_more; eauto).
  eapply calm_then; [apply (marshal_ends env Henv isz St ln m e ea a T1 H1 Ce (evolves_sound env nothing _ _ _ _ E1) F1)| |].
  - apply (S0 m ln ea a T1 H1 Lm Ll Ce E1 F1). cbn [fst snd]. now apply (kept_peek env Henv T).
  - intros H2 [(T2 & E2) _]. cbn [fst] in E2. apply (IHn (a + size e)%nat) with (T1 := T2); [|eapply evolves_trans; eauto].
    intros i Hi. replace (a + size e + i * size e)%nat with (a + S i * size e)%nat by lia. apply F. lia.
Qed.

Lemma entries_calm t kt et ka ea k v ln m N : under env t = RtMap kt et -> codec env kt ka -> codec env et ea -> (N <= m)%nat -> (N <= ln)%nat ->
  (next H <= k)%nat -> (next H <= v)%nat ->
  forall es, (forall x y, In (x, y) es -> fits T x kt /\ fits T y et /\ settles N (kt, Heap.peek H x (size kt)) /\ settles N (et, Heap.peek H y (size et))) ->
  forall T1 H1, evolves T H T1 H1 -> fits T1 k kt -> fits T1 v et ->
  calm (hmarshal_entries env (hmarshal ln m) t ka ea k v es H1).
Proof using Henv St So.
  intros U Ck Ce Lm Ll Lk Lv. induction es as [|[x y] es IHe]; intros Fe T1 H1 E1 Fk Fv; cbn [hmarshal_entries]; [apply calm_hwr|].
  replace (key_type env t) with kt by (unfold key_type; now rewrite U).
  replace (elem_type env t) with et by (unfold elem_type; now rewrite U).
  destruct (Fe x y (or_introl eq_refl)) as (Fx & Fy & Sx & Sy).
  assert (Go : forall e a b T2 H2 p, codec env e a -> evolves T H T2 H2 -> (next H <= b)%nat -> fits T2 b e -> fits T p e ->
    settles N (e, Heap.peek H p (size e)) ->
    ends (fun q => exists T', evolves T H T' (fst q) /\ extends T2 T') (hmarshal ln m a b (poke H2 b (Heap.peek H2 p (size e)))) /\
    calm (hmarshal ln m a b (poke H2 b (Heap.peek H2 p (size e))))).
  { intros e a b T2 H2 p Ca E2 Lb Fb Fp Sp. assert (X2 := evolves_extends env nothing _ _ _ _ So E2). assert (K2 := evolves_kept env _ _ _ _ So E2).
    rewrite (kept_peek env Henv T H H2 p e K2 Fp).
    assert (Ty : typed T (e, Heap.peek H p (size e))) by (unfold CycleProof.typed; now apply (peek_ok env Henv)).
    assert (Ty2 : Forall2 (cell_ok env T2) (layout e) (Heap.peek H p (size e))) by (eapply cells_more; [exact X2|exact Ty]).
    assert (E3 := fresh_store env Henv _ _ _ _ b e _ E2 Lb Fb Ty2). assert (S3 := evolves_sound env nothing _ _ _ _ E3). split.
    - eapply ends_mono; [apply (marshal_ends env Henv isz St ln m e a b T2 _ Ca S3 Fb)|]. intros [H4 r] [(T4 & E4) _]. cbn [fst snd] in *.
      exists T4. split; [eapply evolves_trans; eauto|exact (evolves_extends env nothing _ _ _ _ S3 E4)].
    - apply (Sp m ln a b T2 _ Lm Ll Ca E3 Fb). cbn [fst snd]. apply peek_poke_n. apply peek_len. }
  destruct (Go kt ka k T1 H1 x Ck E1 Lk Fk Fx Sx) as [A1 A2]. eapply calm_then; [exact A1|exact A2|].
  intros H2 (T2 & E2 & X2). cbn [fst snd] in *.
  assert (Fk2 : fits T2 k kt) by (eapply fits_more; eauto). assert (Fv2 : fits T2 v et) by (eapply fits_more; eauto).
  destruct (Go et ea v T2 H2 y Ce E2 Lv Fv2 Fy Sy) as [B1 B2]. eapply calm_then; [exact B1|exact B2|].
  intros H3 (T3 & E3 & X3). cbn [fst snd] in *.
  apply (IHe ltac:(intros; apply Fe; now right) T3 H3 E3); eapply fits_more; eauto.
Qed.

Theorem finite_settles x : Acc (within env isz H) x -> P (fst x) -> typed T x -> exists N, settles N x.
Proof using Henv St So Hcl.
  induction 1 as [[t cs] _ IH]. cbn [fst]. intros Pt Ty.
  assert (IH' : forall y, written H (t, cs) y -> P (fst y) -> exists N, settles N y).
  { intros y W Py. apply (IH y W Py). exact (step_typed env Henv isz T H (t, cs) y So Ty W). }
  clear IH. pose proof (cl_parts env P Hcl t Pt) as Pp. unfold parts in Pp.
  assert (Leaf : forall n ln a va T1 H1, codec env t a -> evolves T H T1 H1 -> fits T1 va t ->
    match a with AMap _ _ _ | ASeq _ _ _ | APtr _ _ | AStruct _ => False | _ => True end -> calm (hmarshal ln (S n) a va H1)).
  { intros n ln a va T1 H1 Ca E1 F M.
    pose proof (marshal_ends env Henv isz St ln 1 t a va T1 H1 Ca (evolves_sound env nothing _ _ _ _ E1) F) as En. revert En.
    destruct a as [t'|t'|t' single|t' w|t' w|t'|t'|t'|t'|t' ka ea|t' set ea|t' ea]; try contradiction; cbn [Heap.hmarshal]; [intros _; constructor|..];
      try destruct single;
      (destruct (mem H1 va) as [[]| | | | | |]; intros En; try apply calm_hwr; inversion En). }
  assert (Plain : (forall t' ka ea, ~ codec env t (AMap t' ka ea)) -> (forall t' set ea, ~ codec env t (ASeq t' set ea)) ->
    (forall t' ea, ~ codec env t (APtr t' ea)) -> (forall t', ~ codec env t (AStruct t')) -> settles 1 (t, cs)).
  { intros N1 N2 N3 N4 [|n] ln a va T1 H1 Ln Ll Ca E1 F Pk; [lia|]. cbn [fst snd] in *. eapply Leaf; eauto.
    destruct a; auto; [eapply N4|eapply N1|eapply N2|eapply N3]; eauto. }
  assert (Lc : length cs = size t) by (rewrite <- (layout_len env Henv t); symmetry; exact (Forall2_length _ _ _ Ty)).
  destruct (under env t) as [| | | | | | | | | | | | | | | | | | | | |e|k e|kt e|e|s|id] eqn:U.
  all: try (exists 1%nat; apply Plain; intros; intros Ca; apply codec_inv in Ca; decompose [and ex] Ca; congruence).
  - (* slices *)
    destruct (as_bytes env t) eqn:B.
    { exists 1%nat; apply Plain; intros; intros Ca; apply codec_inv in Ca; decompose [and ex] Ca; congruence. }
    specialize (Pp eq_refl). unfold CycleProof.typed in Ty. cbn [fst snd] in Ty. rewrite (layout_eq env Henv), U, B in Ty.
    inversion Ty as [|k0 c ks r Hc Hr]; subst. inversion Hr; subst. clear Ty Hr. destruct c as [| | |nl base len cap| | |]; try contradiction.
    cbn [AnySpec.cell_ok] in Hc. destruct Hc as (L & _ & Fs).
    destruct (all_bounded (fun N i => settles N (e, Heap.peek H (base + i * size e) (size e))) (seq 0 len)) as [N HN].
    { intros n m x Lnm. now apply settles_more. }
    { intros i Hi. apply in_seq in Hi. apply IH'; [|exact Pp]. apply (w_elem env isz H t e nl base len cap i U B). lia. }
    exists (S N). intros [|n] ln a va T1 H1 Ln Ll Ca E1 F Pk; [lia|]. cbn [fst snd] in *.
    destruct a as [t'|t'|t' single|t' w|t' w|t'|t'|t'|t'|t' ka ea|t' set ea|t' ea] eqn:Ea; try (eapply Leaf; eauto; exact I);
      pose proof (codec_inv env _ _ Ca) as Ci; cbv beta iota in Ci; try (decompose [and ex] Ci; congruence).
    destruct Ci as (-> & e' & U' & _ & C & _). assert (e' = e) as -> by congruence. cbn [Heap.hmarshal].
    destruct (wire_type ea =? T_Stop); [constructor|].
    assert (M : mem H1 va = CSlice nl base len cap) by (rewrite <- Lc in Pk; cbn [length] in Pk; rewrite peek_1 in Pk; now injection Pk).
    rewrite M. apply (calm_then (fun q => fst q = H1)); [destruct set; apply ends_hwr; reflexivity|destruct set; apply calm_hwr|].
    intros H2 E2. cbn in E2. subst H2.
    apply (elems_calm e set ea t ln n N U C ltac:(lia) ltac:(lia) len base) with (T1 := T1); [|exact E1].
    intros i Hi. split; [apply Fs; lia|]. apply HN. apply in_seq. lia.
  - (* maps *)
    destruct Pp as [Pk Pe]. unfold CycleProof.typed in Ty. cbn [fst snd] in Ty. rewrite (layout_eq env Henv), U in Ty.
    inversion Ty as [|k0 c ks r Hc Hr]; subst. inversion Hr; subst. clear Ty Hr. destruct c as [| | | |o| |]; try contradiction.
    set (es := match o with Some mp => match mem H mp with CEntries es => es | _ => [] end | None => [] end).
    assert (Fe : forall x y, In (x, y) es -> fits T x kt /\ fits T y e).
    { unfold es. destruct o as [mp|]; [|intros x y []]. cbn in Hc. destruct (So mp _ Hc) as [_ C]. destruct (mem H mp) eqn:Mm; try contradiction.
      cbn in C. rewrite Forall_forall in C. intros x y Hi. exact (C (x, y) Hi). }
    destruct (all_bounded (fun N (p : nat * nat) => settles N (kt, Heap.peek H (fst p) (size kt)) /\ settles N (e, Heap.peek H (snd p) (size e))) es) as [N HN].
    { intros n m x Lnm [A B]. split; eapply settles_more; eauto. }
    { intros [x y] Hi. cbn [fst snd]. unfold es in Hi. destruct o as [mp|]; [|destruct Hi]. destruct (mem H mp) eqn:Mm; try destruct Hi.
      destruct (IH' _ (w_key env isz H t kt e mp _ x y U Mm Hi) Pk) as [N1 A].
      destruct (IH' _ (w_val env isz H t kt e mp _ x y U Mm Hi) Pe) as [N2 B].
      exists (N1 + N2)%nat. split; eapply settles_more; [|exact A| |exact B]; lia. }
    exists (S N). intros [|n] ln a va T1 H1 Ln Ll Ca E1 F Pc; [lia|]. cbn [fst snd] in *.
    destruct a as [t'|t'|t' single|t' w|t' w|t'|t'|t'|t'|t' ka ea|t' set ea|t' ea] eqn:Ea; try (eapply Leaf; eauto; exact I);
      pose proof (codec_inv env _ _ Ca) as Ci; cbv beta iota in Ci; try (decompose [and ex] Ci; congruence).
    destruct Ci as (-> & kt' & e' & U' & C1 & C2). assert (kt' = kt /\ e' = e) as [-> ->] by (split; congruence). cbn [Heap.hmarshal].
    destruct ((wire_type ka =? T_Stop) || (wire_type ea =? T_Stop)); [constructor|].
    assert (M : mem H1 va = CMap o) by (rewrite <- Lc in Pc; cbn [length] in Pc; rewrite peek_1 in Pc; now injection Pc).
    rewrite M. cbv zeta. assert (K := evolves_kept env _ _ _ _ So E1).
    replace (match o with Some mp => match mem H1 mp with CEntries es => es | _ => [] end | None => [] end) with es
      by (unfold es; destruct o as [mp|]; [now rewrite (K mp _ Hc)|reflexivity]).
    apply (calm_then (fun q => fst q = H1)); [apply ends_hwr; reflexivity|apply calm_hwr|].
    intros H2 E2. cbn in E2. subst H2.
    replace (key_type env t) with kt by (unfold key_type; now rewrite U).
    replace (elem_type env t) with e by (unfold elem_type; now rewrite U).
    rewrite (alloc_eq H1), (alloc_eq (fst (alloc H1 _))).
    assert (S1 := evolves_sound env nothing _ _ _ _ E1).
    destruct (new_ok env nothing T1 H1 kt (zcells kt) S1 (zcells_ok env Henv T1 kt)) as (T2 & E2 & F2).
    assert (S2 := evolves_sound env nothing _ _ _ _ E2).
    destruct (new_ok env nothing T2 _ e (zcells e) S2 (zcells_ok env Henv T2 e)) as (T3 & E3 & F3).
    assert (X3 := evolves_extends env nothing _ _ _ _ S2 E3).
    assert (Nx : (next H <= next H1)%nat) by (now destruct E1 as (_ & Nx & _)).
    apply (entries_calm t kt e ka ea (next H1) (next (fst (alloc H1 (zcells kt)))) ln n N U C1 C2 ltac:(lia) ltac:(lia)) with (T1 := T3).
    + exact Nx.
    + rewrite alloc_next. lia.
    + intros x y Hi. destruct (Fe x y Hi). destruct (HN (x, y) Hi). auto.
    + eapply evolves_trans; [exact E1|]. eapply evolves_trans; eauto.
    + eapply fits_more; eauto.
    + exact F3.
  - (* pointers *)
    unfold CycleProof.typed in Ty. cbn [fst snd] in Ty. rewrite (layout_eq env Henv), U in Ty.
    inversion Ty as [|k0 c ks r Hc Hr]; subst. inversion Hr; subst. clear Ty Hr. destruct c as [| | | | | |o]; try contradiction.
    assert (Sn : exists N, settles N (e, match o with Some b => Heap.peek H b (size e) | None => zcells e end)).
    { destruct o as [b|]; apply IH'; auto; now constructor. }
    destruct Sn as [N HN]. exists (S N). intros [|n] ln a va T1 H1 Ln Ll Ca E1 F Pc; [lia|]. cbn [fst snd] in *.
    destruct a as [t'|t'|t' single|t' w|t' w|t'|t'|t'|t'|t' ka ea|t' set ea|t' ea] eqn:Ea; try (eapply Leaf; eauto; exact I);
      pose proof (codec_inv env _ _ Ca) as Ci; cbv beta iota in Ci; try (decompose [and ex] Ci; congruence).
    destruct Ci as (-> & e' & U' & C). assert (e' = e) as -> by congruence. cbn [Heap.hmarshal].
    assert (M : mem H1 va = CPtr o) by (rewrite <- Lc in Pc; cbn [length] in Pc; rewrite peek_1 in Pc; now injection Pc).
    rewrite M. assert (K := evolves_kept env _ _ _ _ So E1). assert (X := evolves_extends env nothing _ _ _ _ So E1).
    destruct o as [b|].
    + cbn in Hc. apply (HN n ln ea b T1 H1); auto; try lia; cbn [fst snd]; [eapply fits_more; eauto|now apply (kept_peek env Henv T)].
    + replace (elem_type env t) with e by (unfold elem_type; now rewrite U). rewrite alloc_eq.
      assert (S1 := evolves_sound env nothing _ _ _ _ E1).
      destruct (new_ok env nothing T1 H1 e (zcells e) S1 (zcells_ok env Henv T1 e)) as (T2 & E2 & F2).
      apply (HN n ln ea (next H1) T2); auto; try lia; cbn [fst snd]; [eapply evolves_trans; eauto|now apply alloc_peek_n].
  - (* structs *)
    destruct (table_ends env P Hcl Henv t s Pt U) as (l0 & [fs|er] & Tb).
    2:{ exists (S l0). intros [|n] ln a va T1 H1 Ln Ll Ca E1 F Pc; [lia|]. cbn [fst snd] in *.
        destruct a as [t'|t'|t' single|t' w|t' w|t'|t'|t'|t'|t' ka ea|t' set ea|t' ea] eqn:Ea; try (eapply Leaf; eauto; exact I);
          pose proof (codec_inv env _ _ Ca) as Ci; cbv beta iota in Ci; try (decompose [and ex] Ci; congruence).
        destruct Ci as (-> & _). cbn [Heap.hmarshal]. rewrite (make_fields_more env l0 ln t _ ltac:(lia) Tb). constructor. }
    assert (SD : struct_def env t = te_struct env s) by (unfold struct_def; now rewrite U).
    assert (Hd : exists r, cs = CHead :: r).
    { unfold CycleProof.typed in Ty. cbn [fst snd] in Ty. rewrite (layout_eq env Henv), U in Ty.
      inversion Ty as [|k0 c ks r Hc Hr]; subst. destruct c; try contradiction. eauto. }
    assert (Hin : forall f, In f fs -> exists j sf o a, nth_error (te_struct env s) j = Some sf /\ tagged env sf o /\
      codec env (sf_type sf) a /\ f = mkField j (sf_type sf) a (field_is_zero env (sf_type sf)) (fo_id o) (fo_name o) (fo_required o)).
    { intros f Hf. apply (proj1 (fields_spec env Henv l0 t fs Tb)) in Hf as (j & sf & o & a & Hj & Tg & La & ->). rewrite SD in Hj.
      exists j, sf, o, a. conj; auto. exists l0. exact La. }
    destruct (all_bounded (fun N (f : structField) => f_required f = true \/ zero_field env isz H (f_typ f) (part t (f_index f) (f_typ f) cs) = false ->
      settles N (f_typ f, part t (f_index f) (f_typ f) cs)) fs) as [N HN].
    { intros n m x Lnm A Hz. eapply settles_more; eauto. }
    { intros f Hf. destruct (Hin f Hf) as (j & sf & o & a & Hj & Tg & Ca & ->). cbn [f_required f_typ f_index].
      destruct (fo_required o || negb (zero_field env isz H (sf_type sf) (part t j (sf_type sf) cs))) eqn:Z.
      - assert (Hz : fo_required o = true \/ zero_field env isz H (sf_type sf) (part t j (sf_type sf) cs) = false).
        { apply orb_true_iff in Z as [Z|Z]; [auto|right]. now apply negb_true_iff in Z. }
        destruct (IH' _ (part_written t s j sf o cs U Hj Tg Ty Hz)) as [N1 A]; [|exists N1; auto].
        cbn [fst]. eapply Pp; [eapply nth_error_In; eauto|exact Tg].
      - exists O. apply orb_false_iff in Z as [Z1 Z2]. apply negb_false_iff in Z2. intros [Hz|Hz]; congruence. }
    exists (S (N + l0)). intros [|n] ln a va T1 H1 Ln Ll Ca E1 F Pc; [lia|]. cbn [fst snd] in *.
    destruct a as [t'|t'|t' single|t' w|t' w|t'|t'|t'|t'|t' ka ea|t' set ea|t' ea] eqn:Ea; try (eapply Leaf; eauto; exact I);
      pose proof (codec_inv env _ _ Ca) as Ci; cbv beta iota in Ci; try (decompose [and ex] Ci; congruence).
    destruct Ci as (-> & _). cbn [Heap.hmarshal]. rewrite (make_fields_more env l0 ln t _ ltac:(lia) Tb).
    assert (M : mem H1 va = CHead).
    { destruct Hd as [r ->]. rewrite (size_struct env Henv t s U), peek_S in Pc. now injection Pc. }
    rewrite M. apply (calm_then (fun q => fst q = H1)); [apply ends_hwr; reflexivity|apply calm_hwr|].
    intros H2 E2. cbn in E2. subst H2.
    apply (fields_calm t s N cs U fs ln n ltac:(lia) ltac:(lia)) with (T1 := T1); auto.
    intros f Hf. specialize (HN f Hf). destruct (Hin f Hf) as (j & sf & o & b & Hj & Tg & Cf & ->). cbn [f_required f_typ f_index f_fncs f_isZero] in *.
    exists j, sf, b. conj; auto.
    (* the field is typed *)
    assert (Hn : nth_error (map sf_type (te_struct env s)) j = Some (sf_type sf)) by now apply map_nth_error.
    assert (W : exists c1 c2, cs = CHead :: c1 ++ part t j (sf_type sf) cs ++ c2 /\
      length c1 = sizes (map sf_type (firstn j (te_struct env s))) /\ length (part t j (sf_type sf) cs) = size (sf_type sf)).
    { apply sizes_nth in Hn. rewrite (size_struct env Henv t s U) in Lc. destruct Hd as [r ->]. cbn [length] in Lc.
      unfold part, field_types. rewrite U. cbn [skipn]. set (k := sizes (firstn j (map sf_type (te_struct env s)))) in *.
      exists (firstn k r), (skipn (size (sf_type sf)) (skipn k r)). rewrite !firstn_skipn. conj; auto.
      - rewrite firstn_length, <- firstn_map. fold k. lia.
      - rewrite firstn_length, skipn_length. lia. }
    destruct W as (c1 & c2 & Ec & L1 & L2). rewrite Ec in Ty. exact (typed_field env Henv T t s j sf c1 _ c2 U Hj L1 L2 Ty).
Qed.
End Env.
