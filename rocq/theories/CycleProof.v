(** Marshal on memory that is shared in any way. *)
From Coq Require Import Strings.String.
From Verif Require Import Base BaseLemmas Prog Wire GoFloat Utf8 GoType Fields Arshal GoTypeProof FieldsProof ArshalSpec
  Heap HeapSpec HeapProof HeapUnmarshal AnySpec AnyProof CycleSpec.

(** ** Programs that do not panic, and what they return *)
Inductive ends {A} (Q : A -> Prop) : prog wireW A -> Prop :=
| ends_ret a : Q a -> ends Q (Ret a)
| ends_vis X (e : wireW X) k : (forall x, ends Q (k x)) -> ends Q (Vis e k)
| ends_fuel : ends Q (Crash OutOfFuel).
Lemma ends_run {S A} (Q : A -> Prop) p : ends Q p -> forall (h : handler wireW S) s,
  match run h p s with
  | Done _ a => Q a
  | Crashed c => c = OutOfFuel \/ exists X (e : wireW X) s', h X e s' = Crashed c
  end.
Proof.
  induction 1 as [a Ha|X e k Hk IH|]; intros h s; cbn [run]; auto.
  destruct (h X e s) as [s' x|c] eqn:E; [apply IH|]. right. eauto.
Qed.
Lemma ends_bind {A B} (Q : A -> Prop) (R : B -> Prop) p f : ends Q p -> (forall a, Q a -> ends R (f a)) -> ends R (bind p f).
Proof. induction 1; intros K; cbn [bind]; auto; constructor; auto. Qed.
Lemma ends_mono {A} (Q R : A -> Prop) p : ends Q p -> (forall a, Q a -> R a) -> ends R p.
Proof. induction 1; intros K; constructor; auto. Qed.
Lemma ends_hwr (Q : heap * option err -> Prop) action wt t e H : (forall r, Q (H, r)) -> ends Q (hwr action wt t e H).
Proof. intros K. unfold hwr, wr. constructor. intros x. cbn [bind]. destruct x; cbn [bind]; constructor; apply K. Qed.
Lemma ends_then (Q R : heap * option err -> Prop) p k : ends Q p -> (forall H, Q (H, None) -> ends R (k H)) ->
  (forall H e, Q (H, Some e) -> R (H, Some e)) -> ends R (hthen p k).
Proof. intros A K1 K2. unfold hthen. eapply ends_bind; [exact A|]. intros [H [e|]] Hq; [constructor; now apply K2|now apply K1]. Qed.

Lemma app_inj_length {A} (a b c d : list A) : length a = length c -> a ++ b = c ++ d -> a = c /\ b = d.
Proof.
  revert c. induction a as [|x a IH]; intros [|y c] L E; try discriminate L; [auto|].
  cbn in E. injection E as -> E. destruct (IH c ltac:(cbn in L; lia) E) as [-> ->]. auto.
Qed.

Section Env.
Context (env : tenv) (Henv : env_ok env) (isz : rtype -> heap -> list cell -> bool).
Notation size := (size env).
Notation sizes := (sizes env).
Notation zcells := (zcells env).
Notation layout := (layout env).
Notation fits := (fits env).
Notation cell_ok := (cell_ok env).
Notation sound := (sound env).
Notation written := (written env isz).
Hypothesis St : steady env isz.
Context (ln : nat).
Notation hmarshal := (hmarshal env ln (at_address env isz)).
Definition nothing (_ : kind) : Prop := False.
Notation evolves := (evolves env nothing).
Definition kept (T : nat -> option kind) (H H1 : heap) : Prop := forall x k, T x = Some k -> mem H1 x = mem H x.
Definition typed (T : nat -> option kind) (x : rtype * list cell) : Prop := Forall2 (cell_ok T) (layout (fst x)) (snd x).
Definition within (H : heap) (y x : rtype * list cell) : Prop := written H x y.

Lemma evolves_kept T H T1 H1 : sound T H -> evolves T H T1 H1 -> kept T H H1.
Proof. intros So E x k Hx. eapply evolves_keeps; eauto. Qed.
Lemma kept_peek T H H1 a t : kept T H H1 -> fits T a t -> Heap.peek H1 a (size t) = Heap.peek H a (size t).
Proof using Henv.
  intros K F. apply peek_ext. intros x Hx. apply in_seq in Hx.
  destruct (nth_error (layout t) (x - a)) as [k|] eqn:E; [|apply nth_error_None in E; rewrite (layout_len env Henv) in E; lia].
  apply F in E. replace (a + (x - a))%nat with x in E by lia. eapply K; eauto.
Qed.

Lemma typed_field T t s j sf c1 c c2 : under env t = RtStruct s -> nth_error (te_struct env s) j = Some sf ->
  length c1 = sizes (map sf_type (firstn j (te_struct env s))) -> length c = size (sf_type sf) ->
  typed T (t, CHead :: c1 ++ c ++ c2) -> typed T (sf_type sf, c).
Proof using Henv.
  intros U Hj L1 Lc Ty. unfold typed in *. cbn [fst snd] in *. rewrite (layout_eq env Henv), U in Ty.
  inversion Ty as [|? ? ? ? _ Ty1]; subst. clear Ty.
  replace (flat_map (fun f => layout (sf_type f)) (te_struct env s)) with (flat_map layout (map sf_type (te_struct env s))) in Ty1
    by (rewrite flat_map_concat_map, map_map, <- flat_map_concat_map; reflexivity).
  rewrite <- firstn_map in L1. set (ts := map sf_type (te_struct env s)) in *.
  assert (Hj' : nth_error ts j = Some (sf_type sf)) by (now apply map_nth_error).
  assert (E : exists r, skipn j ts = sf_type sf :: r).
  { clear -Hj'. revert Hj'. generalize ts. induction j as [|j IH]; intros [|x l] Hj; try discriminate; cbn in *;
      [injection Hj as ->; eauto|apply IH; exact Hj]. }
  destruct E as [r E]. rewrite <- (firstn_skipn j ts), E, flat_map_app in Ty1. cbn [flat_map] in Ty1.
  apply Forall2_app_inv_l in Ty1 as (d1 & d2 & A & B & Ed). apply Forall2_app_inv_l in B as (d3 & d4 & B & _ & ->).
  pose proof (Forall2_length _ _ _ A) as La. rewrite (layouts_len env Henv) in La.
  pose proof (Forall2_length _ _ _ B) as Lb. rewrite (layout_len env Henv) in Lb.
  assert (c1 = d1 /\ c ++ c2 = d3 ++ d4) as [-> Ed2].
  { apply app_inj_length; [lia|exact Ed]. }
  apply app_inj_length in Ed2 as [-> _]; [exact B|lia].
Qed.
Lemma one_kind T t k c : layout t = [k] -> typed T (t, [c]) -> cell_ok T k c.
Proof. intros E Ty. unfold typed in Ty. cbn [fst snd] in Ty. rewrite E in Ty. now inversion Ty. Qed.

Lemma step_typed T H x y : sound T H -> typed T x -> written H x y -> typed T y.
Proof using Henv.
  intros So Ty W. destruct W as [t e b U|t e U|t e nl base len cap i U B Hi|t k e m ads x y U M Hin|t k e m ads x y U M Hin|t s j sf o c1 c c2 U Hj Ht L1 Lc Hz].
  - apply (one_kind _ _ (KPtr e)) in Ty; [|rewrite (layout_eq env Henv), U; reflexivity]. cbn in Ty. now apply (peek_ok env Henv).
  - apply (zcells_ok env Henv).
  - apply (one_kind _ _ (KSlice e)) in Ty; [|rewrite (layout_eq env Henv), U, B; reflexivity]. cbn [AnySpec.cell_ok] in Ty.
    destruct Ty as (L & _ & F). apply (peek_ok env Henv); [exact So|]. apply F. lia.
  - apply (one_kind _ _ (KMap k e)) in Ty; [|rewrite (layout_eq env Henv), U; reflexivity]. cbn in Ty.
    destruct (So _ _ Ty) as [_ C]. rewrite M in C. cbn in C. rewrite Forall_forall in C. apply C in Hin as [F _]. now apply (peek_ok env Henv).
  - apply (one_kind _ _ (KMap k e)) in Ty; [|rewrite (layout_eq env Henv), U; reflexivity]. cbn in Ty.
    destruct (So _ _ Ty) as [_ C]. rewrite M in C. cbn in C. rewrite Forall_forall in C. apply C in Hin as [_ F]. now apply (peek_ok env Henv).
  - eapply typed_field; eauto.
Qed.
Lemma step_kept T H H1 x y : sound T H -> kept T H H1 -> typed T x -> written H x y -> written H1 x y.
Proof using Henv St.
  intros So K Ty W. pose proof (step_typed T H x y So Ty W) as Ty2.
  destruct W as [t e b U|t e U|t e nl base len cap i U B Hi|t k e m ads x y U M Hin|t k e m ads x y U M Hin|t s j sf o c1 c c2 U Hj Ht L1 Lc Hz].
  - apply (one_kind _ _ (KPtr e)) in Ty; [|rewrite (layout_eq env Henv), U; reflexivity]. cbn in Ty.
    rewrite <- (kept_peek T H H1 b e K Ty). now constructor.
  - now constructor.
  - apply (one_kind _ _ (KSlice e)) in Ty; [|rewrite (layout_eq env Henv), U, B; reflexivity]. cbn [AnySpec.cell_ok] in Ty.
    destruct Ty as (L & _ & F). rewrite <- (kept_peek T H H1 _ e K (F i ltac:(lia))). now constructor.
  - apply (one_kind _ _ (KMap k e)) in Ty; [|rewrite (layout_eq env Henv), U; reflexivity]. cbn in Ty.
    destruct (So _ _ Ty) as [_ C]. rewrite M in C. cbn in C. rewrite Forall_forall in C. destruct (C _ Hin) as [F _]. cbn in F.
    rewrite <- (kept_peek T H H1 _ k K F). eapply w_key; eauto. now rewrite (K _ _ Ty).
  - apply (one_kind _ _ (KMap k e)) in Ty; [|rewrite (layout_eq env Henv), U; reflexivity]. cbn in Ty.
    destruct (So _ _ Ty) as [_ C]. rewrite M in C. cbn in C. rewrite Forall_forall in C. destruct (C _ Hin) as [_ F]. cbn in F.
    rewrite <- (kept_peek T H H1 _ e K F). eapply w_val; eauto. now rewrite (K _ _ Ty).
  - eapply w_field; eauto. destruct Hz as [Hz|Hz]; [now left|right]. rewrite <- Hz. unfold zero_field.
    destruct (field_is_zero env (sf_type sf)); [|reflexivity]. eapply St; eauto.
Qed.
Lemma acc_back T H H1 x : sound T H -> kept T H H1 -> Acc (within H1) x -> typed T x -> Acc (within H) x.
Proof using Henv St.
  intros So K. induction 1 as [x _ IH]; intros Ty. constructor. intros y Hy. apply IH.
  - eapply step_kept; eauto.
  - eapply step_typed; eauto.
Qed.

(** ** Marshal *)
Definition post (T : nat -> option kind) (H : heap) (t : rtype) (va : nat) (q : heap * option err) : Prop :=
  (exists T', evolves T H T' (fst q)) /\ (snd q = None -> Acc (within H) (t, Heap.peek H va (size t))).
Definition good (n : nat) : Prop := forall t a va T H, codec env t a -> sound T H -> fits T va t ->
  ends (post T H t va) (hmarshal n a va H).

Lemma acc_leaf H t cs : (forall y, ~ written H (t, cs) y) -> Acc (within H) (t, cs).
Proof. intros N. constructor. intros y Hy. now elim (N y). Qed.
Lemma post_same T H t va r : sound T H -> (r = None -> Acc (within H) (t, Heap.peek H va (size t))) -> post T H t va (H, r).
Proof. intros So A. split; [exists T; now apply evolves_refl|exact A]. Qed.
(** A later call, on memory with more. *)
Lemma later m e a va T H T1 H1 : good m -> codec env e a -> sound T H -> evolves T H T1 H1 -> fits T va e ->
  ends (fun q => (exists T', evolves T H T' (fst q)) /\ (snd q = None -> Acc (within H) (e, Heap.peek H va (size e)))) (hmarshal m a va H1).
Proof using Henv St.
  intros G C So E F. assert (X := evolves_extends env nothing T H T1 H1 So E).
  eapply ends_mono; [apply (G e a va T1 H1 C)|].
  - eapply evolves_sound; eauto.
  - eapply fits_more; eauto.
  - intros [H2 r] [(T2 & E2) A]. cbn [fst snd] in *. split; [exists T2; eapply evolves_trans; eauto|].
    intros Hr. specialize (A Hr). assert (K := evolves_kept _ _ _ _ So E). rewrite (kept_peek T H H1 va e K F) in A.
    eapply acc_back; eauto. unfold typed. now apply (peek_ok env Henv).
Qed.

Lemma fields_ends m t s va T H : good m -> under env t = RtStruct s -> sound T H -> fits T va t ->
  forall fs, (forall f, In f fs -> exists j sf a, nth_error (struct_def env t) j = Some sf /\
     codec env (sf_type sf) a /\ f_index f = j /\ f_typ f = sf_type sf /\ f_fncs f = a /\
     f_isZero f = field_is_zero env (sf_type sf)) ->
  forall T1 H1, evolves T H T1 H1 ->
  ends (fun q => (exists T', evolves T H T' (fst q)) /\ (snd q = None -> forall f, In f fs ->
      f_required f = true \/ zero_field env isz H (f_typ f) (Heap.peek H (field_addr env t (f_index f) va) (size (f_typ f))) = false ->
      Acc (within H) (f_typ f, Heap.peek H (field_addr env t (f_index f) va) (size (f_typ f)))))
    (hmarshal_fields env (at_address env isz) (hmarshal m) t va fs H1).
Proof using Henv St.
  intros IH U So F fs. induction fs as [|f fs IHf]; intros Hfs T1 H1 E1; cbn [hmarshal_fields].
  - apply ends_hwr. intros r. split; [eauto|intros _ f []].
  - destruct (Hfs f (or_introl eq_refl)) as (j & sf & a & Hj & Ca & Ej & Et & Ea & Ez).
    assert (Hr : forall g, In g fs -> In g (f :: fs)) by (intros; now right).
    destruct (wire_type (f_fncs f) =? T_Stop); [constructor; split; [eauto|discriminate]|].
    unfold struct_def in Hj. rewrite U in Hj.
    assert (Hft : nth_error (field_types env t) j = Some (sf_type sf)).
    { unfold field_types. rewrite U. now apply map_nth_error. }
    assert (Ff : fits T (field_addr env t j va) (sf_type sf)) by (eapply fits_field; eauto).
    rewrite Ej, Hft. cbv zeta. assert (K := evolves_kept _ _ _ _ So E1).
    assert (Zf : hfield_zero env (at_address env isz) f H1 (field_addr env t j va) =
      zero_field env isz H (f_typ f) (Heap.peek H (field_addr env t j va) (size (f_typ f)))).
    { unfold hfield_zero, zero_field, at_address. rewrite Ez, Et. rewrite !(kept_peek T H H1 _ _ K Ff).
      destruct (field_is_zero env (sf_type sf)); [|reflexivity]. eapply St; eauto. now apply (peek_ok env Henv). }
    rewrite Zf. destruct (f_required f) eqn:Rq; cbn [negb andb].
    2: destruct (zero_field env isz H (f_typ f) _) eqn:Zz.
    2: { eapply ends_mono; [apply (IHf ltac:(auto) T1 H1 E1)|]. intros [H2 r] [A B]. split; [exact A|]. intros Hn g [<-|Hg]; [|now apply B].
         rewrite Ej, Rq. intros [|Hz]; [discriminate|congruence]. }
    all: eapply ends_then; [apply (ends_hwr (fun q => fst q = H1)); reflexivity| |intros H2 er E2; cbn in E2; subst H2; split; [eauto|discriminate]].
    all: intros H2 E2; cbn [fst] in E2; subst H2.
    all: rewrite Ea; eapply ends_then; [apply (later m (sf_type sf) a _ T H T1 H1 IH Ca So E1 Ff)| |intros H2 er [A _]; split; [exact A|discriminate]].
    all: intros H2 [(T2 & E2) A2]; cbn [fst snd] in *; specialize (A2 eq_refl).
    all: eapply ends_then; [apply (ends_hwr (fun q => fst q = H2)); reflexivity| |intros H3 er E3; cbn in E3; subst H3; split; [eauto|discriminate]].
    all: intros H3 E3; cbn [fst] in E3; subst H3.
    all: eapply ends_mono; [apply (IHf ltac:(auto) T2 H2 E2)|]; intros [H3 r] [A B]; split; [exact A|].
    all: intros Hn g [<-|Hg]; [|now apply B]; rewrite Ej, Et; intros _; exact A2.
Qed.

Lemma struct_ends m t s va T H : good m -> under env t = RtStruct s -> sound T H -> fits T va t ->
  ends (post T H t va) (hmarshal (S m) (AStruct t) va H).
Proof using Henv St.
  intros IH U So F. cbn [Heap.hmarshal].
  destruct (make_struct_fields env ln t) as [[fs|e]|] eqn:Hfs; [|constructor; apply post_same; [exact So|discriminate]|constructor].
  assert (Ta : T va = Some KHead).
  { specialize (F O KHead). rewrite (layout_eq env Henv), U, Nat.add_0_r in F. now apply F. }
  destruct (So va _ Ta) as [_ C]. destruct (mem H va) eqn:Mh; try contradiction. clear C.
  eapply ends_then; [apply (ends_hwr (fun q => fst q = H)); reflexivity| |intros H2 er E2; cbn in E2; subst H2; apply post_same; [exact So|discriminate]].
  intros H2 E2. cbn in E2. subst H2.
  assert (Hin : forall f, In f fs -> exists j sf a, nth_error (struct_def env t) j = Some sf /\
     codec env (sf_type sf) a /\ f_index f = j /\ f_typ f = sf_type sf /\ f_fncs f = a /\
     f_isZero f = field_is_zero env (sf_type sf)).
  { intros f Hf. apply (proj1 (fields_spec env Henv ln t fs Hfs)) in Hf as (j & sf & o & a & Hj & _ & La & ->).
    exists j, sf, a. conj; auto. exists ln. exact La. }
  eapply ends_mono; [apply (fields_ends m t s va T H IH U So F fs Hin T H); now apply evolves_refl|].
  intros [H3 r] [A B]. cbn [fst snd] in *. split; [exact A|]. cbn [fst snd]. intros Hn. specialize (B Hn).
  constructor. intros y W. unfold within in W. remember (t, Heap.peek H va (size t)) as x eqn:Ex.
  destruct W as [t0 e b U0|t0 e U0|t0 e nl base len cap i U0 B0 Hi|t0 k e mm ads x y U0 M Hm|t0 k e mm ads x y U0 M Hm|t0 s0 j sf o c1 c c2 U0 Hj Ht L1 Lc Hz];
    injection Ex as -> Ec; try congruence.
  assert (s0 = s) as -> by congruence.
  destruct (fields_inl env ln t fs Hfs) as (l & Cl & El).
  destruct (collect_spec env ln t _ _ _ Cl) as (C1 & _ & C3 & _).
  assert (Hd : nth_error (struct_def env t) j = Some sf) by (unfold struct_def; now rewrite U).
  destruct (C3 j sf o Hd Ht) as [a La].
  assert (Hf : In (mkField j (sf_type sf) a (field_is_zero env (sf_type sf)) (fo_id o) (fo_name o) (fo_required o)) fs).
  { apply (proj1 (fields_spec env Henv ln t fs Hfs)). exists j, sf, o, a. auto. }
  assert (Pc : c = Heap.peek H (field_addr env t j va) (size (sf_type sf))).
  { rewrite (size_struct env Henv t s U), peek_S in Ec. injection Ec as _ Ec. symmetry in Ec.
    destruct (peek_split _ _ _ _ _ _ Ec) as (_ & P2 & _). rewrite Lc, L1 in P2. rewrite P2. f_equal.
    unfold field_addr, field_types. rewrite U, firstn_map. lia. }
  rewrite Pc in Hz |- *. exact (B _ Hf Hz).
Qed.

(** *** lists and sets *)
Lemma elems_ends m t e set ea T H : good m -> under env t = RtSlice e -> codec env e ea -> sound T H ->
  forall n a, (forall i, (i < n)%nat -> fits T (a + i * size e) e) -> forall T1 H1, evolves T H T1 H1 ->
  ends (fun q => (exists T', evolves T H T' (fst q)) /\ (snd q = None -> forall i, (i < n)%nat ->
      Acc (within H) (e, Heap.peek H (a + i * size e) (size e)))) (hmarshal_elems env (hmarshal m) t set ea a n H1).
Proof using Henv St.
  intros IH U Ce So. induction n as [|n IHn]; intros a F T1 H1 E1; cbn [hmarshal_elems].
  - destruct set; apply ends_hwr; (intros r; split; [eauto|intros _ i Hi; lia]).
  - replace (elem_type env t) with e by (unfold elem_type; now rewrite U).
    assert (F0 : fits T a e) by (specialize (F O ltac:(lia)); now rewrite Nat.add_0_r in F).
    eapply ends_then; [apply (later m e ea a T H T1 H1 IH Ce So E1 F0)| |intros H2 er [A _]; split; [exact A|discriminate]].
    intros H2 [(T2 & E2) A2]. cbn [fst snd] in *. specialize (A2 eq_refl).
    eapply ends_mono; [apply (IHn (a + size e)%nat) with (T1 := T2); [|exact E2]|].
    + intros i Hi. replace (a + size e + i * size e)%nat with (a + S i * size e)%nat by lia. apply F. lia.
    + intros [H3 r] [A B]. split; [exact A|]. intros Hn i Hi. destruct i as [|i]; [now rewrite Nat.add_0_r|].
      replace (a + S i * size e)%nat with (a + size e + i * size e)%nat by lia. apply (B Hn). lia.
Qed.

(** *** maps *)
Lemma fresh_store T H T1 H1 k t cs : evolves T H T1 H1 -> (next H <= k)%nat -> fits T1 k t -> Forall2 (cell_ok T1) (layout t) cs ->
  evolves T H T1 (poke H1 k cs).
Proof using Henv.
  intros (A & B & C & D) L F Fc. destruct (store_ok env (fun _ => True) T1 H1 k t cs A F Fc) as (A' & B' & C' & _); [auto|].
  unfold AnySpec.evolves. conj; auto. intros x Hx Hn. rewrite poke_other by (rewrite in_seq; lia). now apply D.
Qed.
Lemma entries_ends m t kt et ka ea k v T H : good m -> under env t = RtMap kt et -> codec env kt ka -> codec env et ea -> sound T H ->
  (next H <= k)%nat -> (next H <= v)%nat ->
  forall es, Forall (fun p => fits T (fst p) kt /\ fits T (snd p) et) es ->
  forall T1 H1, evolves T H T1 H1 -> fits T1 k kt -> fits T1 v et ->
  ends (fun q => (exists T', evolves T H T' (fst q)) /\ (snd q = None -> forall x y, In (x, y) es ->
      Acc (within H) (kt, Heap.peek H x (size kt)) /\ Acc (within H) (et, Heap.peek H y (size et))))
    (hmarshal_entries env (hmarshal m) t ka ea k v es H1).
Proof using Henv St.
  intros IH U Ck Ce So Lk Lv. induction es as [|[x y] es IHe]; intros Fe T1 H1 E1 Fk Fv; cbn [hmarshal_entries].
  - apply ends_hwr. intros r. split; [eauto|intros _ x y []].
  - replace (key_type env t) with kt by (unfold key_type; now rewrite U).
    replace (elem_type env t) with et by (unfold elem_type; now rewrite U).
    destruct (Forall_inv Fe) as [Fx Fy]. cbn [fst snd] in Fx, Fy. apply Forall_inv_tail in Fe.
    assert (Go : forall e a b T2 H2 p, codec env e a -> evolves T H T2 H2 -> (next H <= b)%nat -> fits T2 b e -> fits T p e ->
      ends (fun q => (exists T', evolves T H T' (fst q) /\ extends T2 T') /\ (snd q = None -> Acc (within H) (e, Heap.peek H p (size e))))
        (hmarshal m a b (poke H2 b (Heap.peek H2 p (size e))))).
    { intros e a b T2 H2 p Ca E2 Lb Fb Fp. assert (X2 := evolves_extends env nothing _ _ _ _ So E2). assert (K2 := evolves_kept _ _ _ _ So E2).
      assert (S2 := evolves_sound env nothing _ _ _ _ E2). rewrite (kept_peek T H H2 p e K2 Fp).
      assert (Ty : typed T (e, Heap.peek H p (size e))) by (unfold typed; now apply (peek_ok env Henv)).
      assert (Ty2 : Forall2 (cell_ok T2) (layout e) (Heap.peek H p (size e))) by (eapply cells_more; [exact X2|exact Ty]).
      assert (E3 := fresh_store _ _ _ _ b e _ E2 Lb Fb Ty2). assert (S3 := evolves_sound env nothing _ _ _ _ E3).
      eapply ends_mono; [apply (IH e a b T2 _ Ca S3 Fb)|]. intros [H4 r] [(T4 & E4) A4]. cbn [fst snd] in *. split.
      - exists T4. split; [eapply evolves_trans; eauto|eapply evolves_extends; eauto].
      - intros Hr. specialize (A4 Hr). rewrite peek_poke_n in A4 by (rewrite peek_len; reflexivity).
        eapply acc_back; [exact So| |exact A4|exact Ty]. eapply evolves_kept; eauto. }
    eapply ends_then; [apply (Go kt ka k T1 H1 x Ck E1 Lk Fk Fx)| |intros H2 er [(T' & A & _) _]; split; [eauto|discriminate]].
    intros H2 [(T2 & E2 & X2) A2]. cbn [fst snd] in *. specialize (A2 eq_refl).
    assert (Fk2 : fits T2 k kt) by (eapply fits_more; eauto). assert (Fv2 : fits T2 v et) by (eapply fits_more; eauto).
    eapply ends_then; [apply (Go et ea v T2 H2 y Ce E2 Lv Fv2 Fy)| |intros H3 er [(T' & A & _) _]; split; [eauto|discriminate]].
    intros H3 [(T3 & E3 & X3) A3]. cbn [fst snd] in *. specialize (A3 eq_refl).
    eapply ends_mono; [apply (IHe Fe T3 H3 E3); eapply fits_more; eauto|]. intros [H4 r] [A B]. split; [exact A|].
    intros Hn p q [Ep|Hp]; [injection Ep as <- <-; auto|now apply (B Hn)].
Qed.

Theorem marshal_ends n : good n.
Proof using Henv St.
  induction n as [|m IH]; intros t a va T H Ca So F; [constructor|].
  pose proof (codec_inv env t a Ca) as Ci.
  assert (Leaf : forall u, layout t = [KLeaf u] -> under env t = u -> exists v, mem H va = CLeaf v /\ of_sort u v).
  { intros u Ly _. assert (Ta : T va = Some (KLeaf u)) by (eapply fits_one; eauto). destruct (So va _ Ta) as [_ C].
    destruct (mem H va); try contradiction. eauto. }
  assert (One : layout t <> [] -> length (layout t) = 1%nat -> Heap.peek H va (size t) = [mem H va]).
  { intros _ L. rewrite (layout_len env Henv) in L. now rewrite L. }
  assert (Fin : forall action wt e, (forall y, ~ written H (t, Heap.peek H va (size t)) y) -> ends (post T H t va) (hwr action wt t e H)).
  { intros action wt e N. apply ends_hwr. intros r. apply post_same; [exact So|]. intros _. now apply acc_leaf. }
  destruct a as [t'|t'|t' single|t' w|t' w|t'|t'|t'|t'|t' ka ea|t' set ea|t' ea].
  - subst t'. constructor. apply post_same; [exact So|discriminate].
  - destruct Ci as [-> U]. cbn [Heap.hmarshal]. destruct (Leaf RtBool) as (v & -> & C); [rewrite (layout_eq env Henv), U; reflexivity|exact U|].
    destruct v; try contradiction. apply Fin. intros y W. inversion W; subst; congruence.
  - destruct Ci as [-> U]. cbn [Heap.hmarshal]. destruct single.
    + destruct (Leaf RtFloat32) as (v & -> & C); [rewrite (layout_eq env Henv), U; reflexivity|exact U|].
      destruct v; try contradiction. apply Fin. intros y W. inversion W; subst; congruence.
    + destruct (Leaf RtFloat64) as (v & -> & C); [rewrite (layout_eq env Henv), U; reflexivity|exact U|].
      destruct v; try contradiction. apply Fin. intros y W. inversion W; subst; congruence.
  - destruct Ci as [-> U]. cbn [Heap.hmarshal].
    destruct w; cbn in U; (destruct (Leaf _ ltac:(rewrite (layout_eq env Henv), U; reflexivity) U) as (v & -> & C);
      destruct v; try contradiction; apply Fin; intros y W; inversion W; subst; congruence).
  - destruct Ci as [-> U]. cbn [Heap.hmarshal].
    destruct w; cbn in U; (destruct (Leaf _ ltac:(rewrite (layout_eq env Henv), U; reflexivity) U) as (v & -> & C);
      destruct v; try contradiction; apply Fin; intros y W; inversion W; subst; congruence).
  - destruct Ci as [-> U]. cbn [Heap.hmarshal]. destruct (Leaf RtString) as (v & -> & C); [rewrite (layout_eq env Henv), U; reflexivity|exact U|].
    destruct v; try contradiction. apply Fin. intros y W. inversion W; subst; congruence.
  - destruct Ci as (-> & U & B). cbn [Heap.hmarshal].
    assert (Ta : T va = Some KBytes) by (eapply fits_one; [exact F|]; rewrite (layout_eq env Henv), U, B; reflexivity).
    destruct (So va _ Ta) as [_ C]. destruct (mem H va); try contradiction.
    apply Fin. intros y W. inversion W; subst; congruence.
  - destruct Ci as [-> U]. cbn [Heap.hmarshal].
    destruct (Leaf (RtArray 16 RtUint8)) as (v & -> & C); [rewrite (layout_eq env Henv), U; reflexivity|exact U|].
    destruct v; try contradiction. apply Fin. intros y W. inversion W; subst; congruence.
  - destruct Ci as (-> & s & U). now apply (struct_ends m t s).
  - destruct Ci as (-> & kt & et & U & C1 & C2). cbn [Heap.hmarshal].
    destruct ((wire_type ka =? T_Stop) || (wire_type ea =? T_Stop)); [constructor; apply post_same; [exact So|discriminate]|].
    assert (Ly : layout t = [KMap kt et]) by (rewrite (layout_eq env Henv), U; reflexivity).
    assert (Ta : T va = Some (KMap kt et)) by (eapply fits_one; eauto).
    destruct (map_cell env T H va kt et So Ta) as (o & Mo & Ho). rewrite Mo. cbv zeta.
    set (es := match o with Some mp => _ | None => _ end).
    eapply ends_then; [apply (ends_hwr (fun q => fst q = H)); reflexivity| |intros H2 er E2; cbn in E2; subst H2; apply post_same; [exact So|discriminate]].
    intros H2 E2. cbn in E2. subst H2.
    replace (key_type env t) with kt by (unfold key_type; now rewrite U).
    replace (elem_type env t) with et by (unfold elem_type; now rewrite U).
    rewrite (alloc_eq H), (alloc_eq (fst (alloc H _))).
    destruct (new_ok env nothing T H kt (zcells kt) So (zcells_ok env Henv T kt)) as (T2 & E2 & F2).
    assert (S2 := evolves_sound env nothing _ _ _ _ E2).
    destruct (new_ok env nothing T2 _ et (zcells et) S2 (zcells_ok env Henv T2 et)) as (T3 & E3 & F3).
    assert (X3 := evolves_extends env nothing _ _ _ _ S2 E3).
    assert (Fe : Forall (fun p => fits T (fst p) kt /\ fits T (snd p) et) es).
    { unfold es. destruct o as [mp|]; [|constructor]. destruct (So mp _ (Ho mp eq_refl)) as [_ C]. destruct (mem H mp); try contradiction. exact C. }
    eapply ends_mono; [apply (entries_ends m t kt et ka ea (next H) (next (fst (alloc H (zcells kt)))) T H IH U C1 C2 So) with (T1 := T3)|].
    + lia.
    + rewrite alloc_next. lia.
    + exact Fe.
    + eapply evolves_trans; eauto.
    + eapply fits_more; eauto.
    + exact F3.
    + intros [H4 r] [A B]. cbn [fst snd] in *. split; [exact A|]. cbn [fst snd]. intros Hn. specialize (B Hn).
      rewrite One, Mo by (rewrite Ly; (discriminate || reflexivity)). constructor. intros y W. unfold within in W.
      inversion W as [| |t0 e nl base len cap i U0| t0 k e mm ads x z U0 M Hin|t0 k e mm ads x z U0 M Hin|]; subst; try congruence;
        rewrite U in U0; injection U0 as <- <-; unfold es in B; rewrite M in B; destruct (B x z Hin); assumption.
  - destruct Ci as (-> & e & U & B & C & _). cbn [Heap.hmarshal].
    destruct (wire_type ea =? T_Stop); [constructor; apply post_same; [exact So|discriminate]|].
    assert (Ly : layout t = [KSlice e]) by (rewrite (layout_eq env Henv), U, B; reflexivity).
    assert (Ta : T va = Some (KSlice e)) by (eapply fits_one; eauto).
    destruct (slice_cell env T H va e So Ta) as (nl & base & len & cap & M & L & N & Fs). rewrite M.
    eapply (ends_then (fun q => fst q = H)); [destruct set; apply ends_hwr; reflexivity| |intros H2 er E2; cbn in E2; subst H2; apply post_same; [exact So|discriminate]].
    intros H2 E2. cbn in E2. subst H2.
    eapply ends_mono; [apply (elems_ends m t e set ea T H IH U C So len base) with (T1 := T)|].
    + intros i Hi. apply Fs. lia.
    + now apply evolves_refl.
    + intros [H4 r] [A K]. cbn [fst snd] in *. split; [exact A|]. cbn [fst snd]. intros Hn. specialize (K Hn).
      rewrite One, M by (rewrite Ly; (discriminate || reflexivity)). constructor. intros y W. unfold within in W.
      inversion W as [| |t0 e0 nl0 base0 len0 cap0 i U0 B0 Hi| | |]; subst; try congruence.
      rewrite U in U0. injection U0 as <-. now apply K.
  - destruct Ci as (-> & e & U & C). cbn [Heap.hmarshal].
    assert (Ly : layout t = [KPtr e]) by (rewrite (layout_eq env Henv), U; reflexivity).
    assert (Ta : T va = Some (KPtr e)) by (eapply fits_one; eauto).
    destruct (So va _ Ta) as [_ Cp]. destruct (mem H va) as [| | | | | |[b|]] eqn:M; try contradiction; cbn in Cp.
    + eapply ends_mono; [apply (IH e ea b T H C So Cp)|]. intros [H4 r] [A K]. split; [exact A|]. intros Hn. specialize (K Hn).
      rewrite ?One, ?M by (rewrite Ly; (discriminate || reflexivity)). constructor. intros y W. unfold within in W.
      inversion W as [t0 e0 b0 U0| | | | |]; subst; congruence.
    + replace (elem_type env t) with e by (unfold elem_type; now rewrite U). rewrite alloc_eq.
      destruct (new_ok env nothing T H e (zcells e) So (zcells_ok env Henv T e)) as (T1 & E1 & F1).
      eapply ends_mono; [apply (IH e ea _ T1 _ C); [eapply evolves_sound; eauto|exact F1]|].
      assert (K1 := evolves_kept _ _ _ _ So E1).
      intros [H4 r] [(T4 & E4) K]. cbn [fst snd] in *. split; [exists T4; eapply evolves_trans; eauto|]. cbn [fst snd]. intros Hn. specialize (K Hn).
      rewrite alloc_peek_n in K by reflexivity. apply (acc_back T H _ _ So K1) in K; [|apply (zcells_ok env Henv)].
      rewrite ?One, ?M by (rewrite Ly; (discriminate || reflexivity)). constructor. intros y W. unfold within in W. inversion W; subst; congruence.
Qed.

Lemma acc_ends H t cs : Acc (within H) (t, cs) -> ~ endless env isz H t cs.
Proof.
  intros A (f & E0 & Hf). revert f E0 Hf. remember (t, cs) as x eqn:Ex. clear Ex. induction A as [x _ IH]. intros f E0 Hf.
  specialize (Hf O) as H0. rewrite E0 in H0. eapply (IH _ H0 (fun i => f (S i))); auto.
Qed.
End Env.
