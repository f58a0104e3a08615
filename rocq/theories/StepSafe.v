(** Goroutines in Marshal on memory that is shared and cyclic in any way. *)
From Coq Require Import Strings.String.
From Verif Require Import Base BaseLemmas Prog Wire GoFloat Utf8 GoType Fields Arshal GoTypeProof FieldsProof ArshalSpec
  Heap HeapSpec HeapProof HeapUnmarshal AnySpec AnyProof CycleSpec CycleProof HeapStep StepRun.

Section Env.
Context (env : tenv) (Henv : env_ok env).
Notation size := (size env).
Notation zcells := (zcells env).
Notation layout := (layout env).
Notation fits := (fits env).
Notation cell_ok := (cell_ok env).
Notation sound := (sound env).
Context (ln : nat).
Notation smarshal := (smarshal env ln).
(** The addresses below [N0] are shared; [C]: how the goroutine may crash. *)
Context (N0 : nat) (C : crash -> Prop) (Cf : C OutOfFuel).
Notation kinds := (nat -> option kind).

(** [p], which knows the memory [T] is about, with contents [K]: it only reads
    that, and only writes what of it is not shared, with what it is for. *)
Fixpoint sf {A} (Q : heap -> kinds -> A -> Prop) (p : prog memE A) (K : heap) (T : kinds) {struct p} : Prop :=
  match p with
  | Ret a => Q K T a
  | Crash c => C c
  | Vis e k =>
      match e in memE X return (X -> heap -> kinds -> Prop) -> Prop with
      | MRead a => fun r => T a <> None /\ r (mem K a) K T
      | MWrite a c => fun r => exists kd, T a = Some kd /\ cell_ok T kd c /\ (N0 <= a)%nat /\ r tt (poke K a [c]) T
      | MAlloc cs => fun r => forall K1, (N0 <= next K1)%nat -> sound T K1 -> kept T K K1 ->
          exists T', evolves env nothing T K1 T' (fst (alloc K1 cs)) /\ r (next K1) (fst (alloc K1 cs)) T'
      | MZero t a => fun r => forall z, r z K T
      | MWire e => fun r => forall x, r x K T
      end (fun x => sf Q (k x))
  end.

Lemma sf_bind {A B} (Q : _ -> _ -> A -> Prop) (R : _ -> _ -> B -> Prop) f p : forall K T,
  sf Q p K T -> (forall a K' T', Q K' T' a -> sf R (f a) K' T') -> sf R (bind p f) K T.
Proof.
  induction p as [a|X e k IH|c]; intros K T P F; [now apply F| |exact P].
  destruct e as [a|a c|cs|t a|X e]; cbn [bind sf] in *.
  - destruct P as [Ta P]. auto.
  - destruct P as (kd & Ta & Ck & Na & P). exists kd. conj; auto.
  - intros K1 N S K'. destruct (P K1 N S K') as (T' & E & P'). exists T'. auto.
  - auto.
  - auto.
Qed.
Lemma sf_mono {A} (Q R : _ -> _ -> A -> Prop) p : (forall K T a, Q K T a -> R K T a) -> forall K T, sf Q p K T -> sf R p K T.
Proof.
  intros I. induction p as [a|X e k IH|c]; intros K T P; [now apply I| |exact P].
  destruct e as [a|a c|cs|t a|X e]; cbn [sf] in *.
  - destruct P as [Ta P]. auto.
  - destruct P as (kd & Ta & Ck & Na & P). exists kd. conj; auto.
  - intros K1 N S K'. destruct (P K1 N S K') as (T' & E & P'). exists T'. auto.
  - auto.
  - auto.
Qed.

Definition grown (K : heap) (T : kinds) (K' : heap) (T' : kinds) : Prop := extends T T' /\ sound T' K' /\ kept T K K'.
Definition qpost (K : heap) (T : kinds) (K' : heap) (T' : kinds) (_ : option err) : Prop := grown K T K' T'.
Lemma grown_refl K T : sound T K -> grown K T K T.
Proof. intros So. split; [intros x k Hx; exact Hx|]. split; [exact So|]. intros x k _. reflexivity. Qed.
Lemma grown_trans K T K1 T1 K2 T2 : grown K T K1 T1 -> grown K1 T1 K2 T2 -> grown K T K2 T2.
Proof.
  intros (A & B & D) (A' & B' & D'). split; [intros x k Hx; auto|]. split; [exact B'|].
  intros x k Hx. rewrite (D' x k) by auto. eauto.
Qed.
Lemma fits_known T a t x : fits T a t -> In x (seq a (size t)) -> T x <> None.
Proof using Henv.
  intros F Hx. apply in_seq in Hx.
  destruct (nth_error (layout t) (x - a)) as [k|] eqn:E; [|apply nth_error_None in E; rewrite (layout_len env Henv) in E; lia].
  apply F in E. replace (a + (x - a))%nat with x in E by lia. congruence.
Qed.

Lemma sf_swr action wt t e K T K0 T0 : grown K0 T0 K T -> sf (qpost K0 T0) (swr action wt t e) K T.
Proof. intros G. cbn. intros x. destruct x; exact G. Qed.
Lemma sf_then K0 T0 p k K T : sf (qpost K0 T0) p K T -> (forall K1 T1, grown K0 T0 K1 T1 -> sf (qpost K0 T0) k K1 T1) ->
  sf (qpost K0 T0) (p >>! k) K T.
Proof. intros P F. unfold and_then. eapply sf_bind; [exact P|]. intros [e|] K1 T1 G; [exact G|now apply F]. Qed.
Lemma sf_read_cells K T n : forall a, (forall x, In x (seq a n) -> T x <> None) ->
  sf (fun K' T' cs => K' = K /\ T' = T /\ cs = Heap.peek K a n) (rd_cells a n) K T.
Proof.
  induction n as [|n IH]; intros a Hd; cbn [rd_cells]; [cbn; auto|].
  cbn [call bind sf]. split; [apply Hd; now left|].
  eapply sf_bind; [apply IH; intros x Hx; apply Hd; now right|].
  intros cs K' T' (-> & -> & ->). cbn [sf]. conj; auto.
Qed.
Lemma sf_write_cells T ks cs : Forall2 (cell_ok T) ks cs -> forall K a, sound T K ->
  (forall i k, nth_error ks i = Some k -> T (a + i)%nat = Some k) -> (N0 <= a)%nat ->
  sf (fun K' T' (_ : unit) => T' = T /\ sound T K' /\ forall x, ~ In x (seq a (length ks)) -> mem K' x = mem K x) (wr_cells a cs) K T.
Proof.
  induction 1 as [|k c ks cs Ck Fc IH]; intros K a So F Na; cbn [wr_cells]; [cbn; auto|].
  cbn [call bind sf]. pose proof (F O k eq_refl) as Ta. rewrite Nat.add_0_r in Ta. exists k. conj; auto.
  eapply sf_mono; [|apply IH].
  - cbn beta. intros K' T' _ (-> & S' & E). conj; auto. intros x Hx. cbn [length seq In] in Hx.
    rewrite E by tauto. apply poke_other. cbn [length seq In]. tauto.
  - exact (evolves_sound env _ _ _ _ _ (cell_store env (fun _ => True) T K a k c So Ta Ck I)).
  - intros i k' Hi. specialize (F (S i) k' Hi). now rewrite Nat.add_succ_r in F.
  - lia.
Qed.

Definition safe (n : nat) : Prop := forall t a va K T, codec env t a -> sound T K -> fits T va t ->
  sf (qpost K T) (smarshal n a va) K T.
Lemma safe_later m t a va K0 T0 K T : safe m -> codec env t a -> grown K0 T0 K T -> fits T va t ->
  sf (qpost K0 T0) (smarshal m a va) K T.
Proof.
  intros IH Ca G F. eapply sf_mono; [|apply (IH t); auto; apply G].
  intros K' T' e G'. eapply grown_trans; eauto.
Qed.

Lemma fields_safe m t s va K0 T0 : safe m -> under env t = RtStruct s -> fits T0 va t ->
  forall fs, (forall f, In f fs -> exists j sf a, nth_error (struct_def env t) j = Some sf /\
     codec env (sf_type sf) a /\ f_index f = j /\ f_typ f = sf_type sf /\ f_fncs f = a /\
     f_isZero f = field_is_zero env (sf_type sf)) ->
  forall K T, grown K0 T0 K T -> sf (qpost K0 T0) (smarshal_fields env (smarshal m) t va fs) K T.
Proof using Henv Cf.
  intros IH U F fs. induction fs as [|f fs IHf]; intros Hfs K T G; cbn [smarshal_fields]; [now apply sf_swr|].
  destruct (Hfs f (or_introl eq_refl)) as (j & fd & a & Hj & Ca & Ej & Et & Ea & Ez).
  assert (Hr : forall g, In g fs -> In g (f :: fs)) by (intros; now right).
  destruct (wire_type (f_fncs f) =? T_Stop); [exact G|].
  unfold struct_def in Hj. rewrite U in Hj.
  assert (Hft : nth_error (field_types env t) j = Some (sf_type fd)).
  { unfold field_types. rewrite U. now apply map_nth_error. }
  assert (Ff : fits T0 (field_addr env t j va) (sf_type fd)) by (eapply fits_field; eauto).
  rewrite Ej, Hft, Ea. cbv zeta.
  eapply (sf_bind (fun K' T' _ => K' = K /\ T' = T)).
  { destruct (f_required f); [cbn; auto|]. unfold sfield_zero. destruct (f_isZero f); [cbn; auto|].
    eapply sf_bind; [apply sf_read_cells|].
    - intros x Hx. rewrite Et in Hx. eapply fits_known; [|exact Hx]. eapply fits_more; [apply G|exact Ff].
    - intros cs K' T' (-> & -> & _). cbn. auto. }
  intros [] K' T' [-> ->]; [now apply IHf; auto|].
  apply sf_then; [now apply sf_swr|]. intros K1 T1 G1.
  apply sf_then; [apply (safe_later m (sf_type fd)); auto; eapply fits_more; [apply G1|exact Ff]|]. intros K2 T2 G2.
  apply sf_then; [now apply sf_swr|]. intros K3 T3 G3. apply IHf; auto.
Qed.

Lemma copy_safe m t a c src dst K0 T0 K T : safe m -> codec env t a -> sound T0 K0 -> grown K0 T0 K T -> fits T0 src t ->
  fits T dst t -> (forall x, In x (seq dst (size t)) -> T0 x = None) -> (N0 <= dst)%nat -> c = size t ->
  sf (fun K' T' _ => grown K0 T0 K' T' /\ extends T T') (bind (rd_cells src c) (fun cs => bind (wr_cells dst cs) (fun _ => smarshal m a dst))) K T.
Proof using Henv.
  intros IH Ca So G Fs Fd Fr Nd ->. pose proof G as (Ex & S1 & Kp).
  assert (Fs' : fits T src t) by (eapply fits_more; eauto).
  eapply sf_bind; [apply sf_read_cells; intros x Hx; eapply fits_known; eauto|].
  intros cs K' T' (-> & -> & ->).
  eapply sf_bind; [apply (sf_write_cells T (layout t)); auto; now apply (peek_ok env Henv)|].
  intros _ K2 T2 (-> & S2 & E2).
  assert (G2 : grown K0 T0 K2 T).
  { split; [exact Ex|]. split; [exact S2|]. intros x k Hx. rewrite E2; [eauto|]. rewrite (layout_len env Henv). intros I. rewrite (Fr x I) in Hx. discriminate. }
  eapply sf_mono; [|apply (IH t); auto]. intros K3 T3 e G3. split; [eapply grown_trans; eauto|apply G3].
Qed.

Lemma entries_safe m t kt et ka ea k v K0 T0 : safe m -> under env t = RtMap kt et -> codec env kt ka -> codec env et ea -> sound T0 K0 ->
  (N0 <= k)%nat -> (N0 <= v)%nat ->
  (forall x, In x (seq k (size kt)) -> T0 x = None) -> (forall x, In x (seq v (size et)) -> T0 x = None) ->
  forall es, Forall (fun p => fits T0 (fst p) kt /\ fits T0 (snd p) et) es ->
  forall K T, grown K0 T0 K T -> fits T k kt -> fits T v et ->
  sf (qpost K0 T0) (smarshal_entries env (smarshal m) t ka ea k v es) K T.
Proof using Henv.
  intros IH U Ck Ce So Nk Nv Fk Fv. induction es as [|[x y] es IHe]; intros Fe K T G Tk Tv; cbn [smarshal_entries]; [now apply sf_swr|].
  destruct (Forall_inv Fe) as [Fx Fy]. cbn [fst snd] in Fx, Fy. apply Forall_inv_tail in Fe.
  replace (key_type env t) with kt by (unfold key_type; now rewrite U).
  replace (elem_type env t) with et by (unfold elem_type; now rewrite U).
  unfold and_then at 1. eapply sf_bind; [eapply (copy_safe m kt); eauto|].
  intros [e|] K1 T1 [G1 X1]; [exact G1|].
  unfold and_then at 1. eapply sf_bind; [eapply (copy_safe m et); eauto; eapply fits_more; eauto|].
  intros [e|] K2 T2 [G2 X2]; [exact G2|].
  apply IHe; auto; (eapply fits_more; [exact X2|]; eapply fits_more; eauto).
Qed.

Lemma elems_safe m t e set ea K0 T0 : safe m -> under env t = RtSlice e -> codec env e ea ->
  forall n a, (forall i, (i < n)%nat -> fits T0 (a + i * size e) e) -> forall K T, grown K0 T0 K T ->
  sf (qpost K0 T0) (smarshal_elems env (smarshal m) t set ea a n) K T.
Proof using Henv.
  intros IH U Ce. induction n as [|n IHn]; intros a F K T G; cbn [smarshal_elems]; [destruct set; now apply sf_swr|].
  replace (elem_type env t) with e by (unfold elem_type; now rewrite U).
  assert (F0 : fits T0 a e) by (specialize (F O ltac:(lia)); now rewrite Nat.add_0_r in F).
  apply sf_then; [apply (safe_later m e); auto; eapply fits_more; [apply G|exact F0]|]. intros K1 T1 G1.
  apply IHn; auto. intros i Hi. replace (a + size e + i * size e)%nat with (a + S i * size e)%nat by lia. apply F. lia.
Qed.

Lemma evolved_grown K T K1 T1 H1 : kept T K K1 -> sound T K1 -> evolves env nothing T K1 T1 H1 -> grown K T H1 T1.
Proof.
  intros Kp So E. split; [|split].
  - eapply evolves_extends; eauto.
  - eapply evolves_sound; eauto.
  - intros x k Hx. rewrite (evolves_kept env T K1 T1 H1 So E x k Hx). eauto.
Qed.

Theorem marshal_safe n : safe n.
Proof using Henv Cf.
  induction n as [|m IH]; intros t a va K T Ca So F; [exact Cf|].
  pose proof (codec_inv env t a Ca) as Ci. pose proof (grown_refl K T So) as G0.
  assert (Read : forall f, sf (qpost K T) (f (mem K va)) K T -> sf (qpost K T) (bind (call (MRead va)) f) K T).
  { intros f P. cbn [call bind sf]. split; [|exact P]. eapply fits_known; [exact F|]. apply in_seq. pose proof (size_pos env Henv t). lia. }
  assert (Leaf : forall u, layout t = [KLeaf u] -> exists v, mem K va = CLeaf v /\ of_sort u v).
  { intros u Ly. assert (Ta : T va = Some (KLeaf u)) by (eapply fits_one; eauto). destruct (So va _ Ta) as [_ Cc].
    destruct (mem K va); try contradiction. eauto. }
  assert (Lay : forall u, under env t = u -> match u with RtStruct _ | RtSlice _ | RtMap _ _ | RtPtr _ => False | _ => True end -> layout t = [KLeaf u]).
  { intros u U P. rewrite (layout_eq env Henv), U. destruct u; try contradiction; reflexivity. }
  destruct a as [t'|t'|t' single|t' w|t' w|t'|t'|t'|t'|t' ka ea|t' set ea|t' ea]; cbn [HeapStep.smarshal].
  - exact G0.
  - destruct Ci as [-> U]. apply Read. destruct (Leaf _ (Lay _ U I)) as (v & -> & Cv). destruct v; try contradiction. now apply sf_swr.
  - destruct Ci as [-> U]. apply Read. destruct single; destruct (Leaf _ (Lay _ U I)) as (v & -> & Cv); destruct v; try contradiction; now apply sf_swr.
  - destruct Ci as [-> U]. apply Read. destruct w; cbn in U; destruct (Leaf _ (Lay _ U I)) as (v & -> & Cv); destruct v; try contradiction; now apply sf_swr.
  - destruct Ci as [-> U]. apply Read. destruct w; cbn in U; destruct (Leaf _ (Lay _ U I)) as (v & -> & Cv); destruct v; try contradiction; now apply sf_swr.
  - destruct Ci as [-> U]. apply Read. destruct (Leaf _ (Lay _ U I)) as (v & -> & Cv). destruct v; try contradiction. now apply sf_swr.
  - destruct Ci as (-> & U & B). apply Read.
    assert (Ta : T va = Some KBytes) by (eapply fits_one; [exact F|]; rewrite (layout_eq env Henv), U, B; reflexivity).
    destruct (So va _ Ta) as [_ Cc]. destruct (mem K va) as [| | |nl base len cap| | |]; try contradiction. cbn in Cc. destruct Cc as (L & _ & By).
    eapply sf_bind; [apply sf_read_cells|].
    + intros x Hx. apply in_seq in Hx. specialize (By (x - base)%nat ltac:(lia)).
      replace (base + (x - base))%nat with x in By by lia. congruence.
    + intros cs K' T' (-> & -> & _). now apply sf_swr.
  - destruct Ci as [-> U]. apply Read. destruct (Leaf _ (Lay _ U I)) as (v & -> & Cv). destruct v; try contradiction. now apply sf_swr.
  - destruct Ci as (-> & s & U).
    destruct (make_struct_fields env ln t) as [[fs|e]|] eqn:Hfs; [|exact G0|exact Cf].
    apply sf_then; [now apply sf_swr|]. intros K1 T1 G1.
    apply (fields_safe m t s); auto.
    intros f Hf. apply (proj1 (fields_spec env Henv ln t fs Hfs)) in Hf as (j & fd & o & a & Hj & _ & La & ->).
    exists j, fd, a. conj; auto. exists ln. exact La.
  - destruct Ci as (-> & kt & et & U & C1 & C2).
    destruct ((wire_type ka =? T_Stop) || (wire_type ea =? T_Stop)); [exact G0|]. apply Read.
    assert (Ta : T va = Some (KMap kt et)) by (eapply fits_one; [exact F|]; rewrite (layout_eq env Henv), U; reflexivity).
    destruct (map_cell env T K va kt et So Ta) as (o & -> & Ho).
    eapply (sf_bind (fun K' T' es => K' = K /\ T' = T /\ Forall (fun p => fits T (fst p) kt /\ fits T (snd p) et) es)).
    { destruct o as [mp|]; [|cbn; auto]. pose proof (Ho mp eq_refl) as Tm. cbn [call bind sf]. split; [congruence|]. conj; auto.
      destruct (So mp _ Tm) as [_ Cc]. destruct (mem K mp); try contradiction. exact Cc. }
    intros es K' T' (-> & -> & Fe).
    apply sf_then; [now apply sf_swr|]. intros K1 T1 G1.
    replace (key_type env t) with kt by (unfold key_type; now rewrite U).
    replace (elem_type env t) with et by (unfold elem_type; now rewrite U).
    cbn [call bind sf]. intros K2 N2 S2 P2.
    destruct (new_ok env nothing T1 K2 kt (zcells kt) S2 (zcells_ok env Henv T1 kt)) as (T3 & E3 & F3).
    exists T3. split; [exact E3|]. intros K4 N4 S4 P4.
    destruct (new_ok env nothing T3 K4 et (zcells et) S4 (zcells_ok env Henv T3 et)) as (T5 & E5 & F5).
    exists T5. split; [exact E5|].
    pose proof (evolved_grown _ _ _ _ _ P2 S2 E3) as G3. pose proof (evolved_grown _ _ _ _ _ P4 S4 E5) as G5.
    apply (entries_safe m t kt et ka ea _ _ K T); auto.
    + intros x Hx. destruct (T x) as [kd|] eqn:Ex; [|reflexivity]. apply (proj1 G1) in Ex. destruct (S2 x kd Ex) as [L _].
      apply in_seq in Hx. lia.
    + intros x Hx. destruct (T x) as [kd|] eqn:Ex; [|reflexivity]. apply (proj1 G1), (proj1 G3) in Ex. destruct (S4 x kd Ex) as [L _].
      apply in_seq in Hx. lia.
    + eapply grown_trans; [exact G1|]. eapply grown_trans; eauto.
    + eapply fits_more; [apply G5|exact F3].
  - destruct Ci as (-> & e & U & B & Ce & _).
    destruct (wire_type ea =? T_Stop); [exact G0|]. apply Read.
    assert (Ta : T va = Some (KSlice e)) by (eapply fits_one; [exact F|]; rewrite (layout_eq env Henv), U, B; reflexivity).
    destruct (slice_cell env T K va e So Ta) as (nl & base & len & cap & -> & L & _ & Fs).
    apply sf_then; [destruct set; now apply sf_swr|]. intros K1 T1 G1.
    apply (elems_safe m t e); auto. intros i Hi. apply Fs. lia.
  - destruct Ci as (-> & e & U & Ce). apply Read.
    assert (Ta : T va = Some (KPtr e)) by (eapply fits_one; [exact F|]; rewrite (layout_eq env Henv), U; reflexivity).
    destruct (So va _ Ta) as [_ Cp]. destruct (mem K va) as [| | | | | |[b|]]; try contradiction; cbn in Cp.
    + apply (IH e); auto.
    + replace (elem_type env t) with e by (unfold elem_type; now rewrite U).
      cbn [call bind sf]. intros K1 N1 S1 P1.
      destruct (new_ok env nothing T K1 e (zcells e) S1 (zcells_ok env Henv T e)) as (T2 & E2 & F2).
      exists T2. split; [exact E2|]. apply (safe_later m e); auto. eapply evolved_grown; eauto.
Qed.

(** The beginning. *)
Lemma start_safe n t cs K T : sound T K -> Forall2 (cell_ok T) (layout t) cs ->
  sf (fun _ _ _ => True) (sMarshal env ln n t cs) K T.
Proof using Henv Cf.
  intros So Ty. unfold sMarshal. destruct (is_ptr env t) eqn:Ip.
  - assert (U : exists e, under env t = RtPtr e).
    { unfold is_ptr in Ip. destruct (under env t); try discriminate. eauto. }
    destruct U as [e U]. replace (elem_type env t) with e by (unfold elem_type; now rewrite U).
    rewrite (layout_eq env Henv), U in Ty. inversion Ty as [|kd c ks cs' Cc Tl]; subst. inversion Tl; subst.
    destruct c as [| | | | | |[b|]]; try contradiction; [|exact I].
    destruct (lookup env ln e) as [a|] eqn:L; [|exact Cf]. cbn in Cc.
    eapply sf_mono; [|eapply (marshal_safe n e); eauto; now exists ln]. auto.
  - destruct (lookup env ln t) as [a|] eqn:L; [|exact Cf].
    cbn [call bind sf]. intros K1 N1 S1 P1.
    destruct (new_ok env nothing T K1 t cs S1 Ty) as (T2 & E2 & F2). exists T2. split; [exact E2|].
    eapply sf_mono; [|eapply (marshal_safe n t); eauto; [now exists ln|eapply evolves_sound; eauto]]. auto.
Qed.
End Env.

Section Run.
Context (env : tenv) (Henv : env_ok env).
Context (isZero : rtype -> heap -> nat -> bool) {S : Type} (h : nat -> handler wireW S) (H0 : heap).
Notation kinds := (nat -> option kind).
Definition how (i : nat) (c : crash) : Prop := c = OutOfFuel \/ exists X (e : wireW X) s, h i X e s = Crashed c.

(** What goroutine [i] knows. *)
Definition kpart (H : heap) (i : nat) (p : prog memE (option err)) (T : kinds) : Prop :=
  exists K, sf env (next H0) (how i) (fun _ _ _ => True) p K T /\ kept T K H /\ sound env T H.
Definition kapart (T : nat -> kinds) : Prop := forall i j x, i <> j -> T i x <> None -> T j x <> None -> (x < next H0)%nat.
Definition kinv (s : system (S := S)) : Prop :=
  (forall x, (x < next H0)%nat -> mem (fst s) x = mem H0 x) /\ (next H0 <= next (fst s))%nat /\
  exists T, (forall i, kpart (fst s) i (fst (snd s i)) (T i)) /\ kapart T.

Lemma kept_sound T H H' : sound env T H -> kept T H H' -> (next H <= next H')%nat -> sound env T H'.
Proof. intros So Kp N x k Hx. destruct (So x k Hx) as [L Cx]. rewrite (Kp x k Hx). split; [lia|exact Cx]. Qed.

Lemma kpart_other H H' i p T : kpart H i p T -> kept T H H' -> (next H <= next H')%nat -> kpart H' i p T.
Proof.
  intros (K & P & Kp & So) E N. exists K. conj; auto.
  - intros x k Hx. rewrite (E x k Hx). eauto.
  - eapply kept_sound; eauto.
Qed.

Lemma kinv_step H g T i H' p' w' T' :
  (forall x, (x < next H0)%nat -> mem H x = mem H0 x) -> (next H0 <= next H)%nat ->
  (forall j, kpart H j (fst (g j)) (T j)) -> kapart T ->
  kpart H' i p' T' ->
  (forall x, T' x <> None -> T i x <> None \/ (next H <= x)%nat) ->
  (forall x, (x < next H0)%nat \/ T i x = None -> (x < next H)%nat -> mem H' x = mem H x) -> (next H <= next H')%nat ->
  kinv (H', put g i (p', w')).
Proof.
  intros M0 N0 Ps Ap P' ID EM N. split; [|split]; cbn [fst snd].
  - intros x Hx. rewrite EM; [auto|now left|lia].
  - lia.
  - assert (Low : forall j x, T j x <> None -> (x < next H)%nat).
    { intros j x Hx. destruct (Ps j) as (K & _ & _ & So). destruct (T j x) as [k|] eqn:E; [|congruence]. now apply (So x k). }
    exists (put T i T'). split.
    + intros j. destruct (Nat.eq_dec j i) as [->|Nj]; [now rewrite !put_same|].
      rewrite !put_other by exact Nj. eapply kpart_other; [apply Ps| |exact N].
      intros x k Hx. apply EM; [|apply (Low j); congruence].
      destruct (Nat.lt_ge_cases x (next H0)) as [L|L]; [now left|]. right.
      destruct (T i x) as [k'|] eqn:E; [|reflexivity].
      specialize (Ap i j x (not_eq_sym Nj) ltac:(congruence) ltac:(congruence)). lia.
    + intros a b x Nab Da Db.
      assert (Old : forall j, j <> i -> T j x <> None -> T' x <> None -> (x < next H0)%nat).
      { intros j Nj Dj Dx. destruct (ID x Dx) as [Di|L]; [exact (Ap i j x (not_eq_sym Nj) Di Dj)|].
        specialize (Low j x Dj). lia. }
      destruct (Nat.eq_dec a i) as [->|Na].
      * rewrite put_same in Da. rewrite put_other in Db by auto. exact (Old b (not_eq_sym Nab) Db Da).
      * rewrite put_other in Da by exact Na. destruct (Nat.eq_dec b i) as [->|Nb].
        -- rewrite put_same in Db. exact (Old a Na Da Db).
        -- rewrite put_other in Db by exact Nb. exact (Ap a b x Nab Da Db).
Qed.

Lemma kinv_moves s s' : kinv s -> moves isZero h s s' -> kinv s'.
Proof.
  intros (M0 & N0 & T & Ps & Ap) Mv.
  destruct Mv as [H g i X e k w H' w' x Gi A|H g i X e k w c Gi A]; cbn [fst snd] in *;
    pose proof (Ps i) as (K & P & Kp & So); rewrite Gi in P; cbn [fst snd] in P.
  - destruct e as [a|a c|cs|t a|X e]; cbn [sf act fst snd] in P, A.
    + injection A as <- <- <-. destruct P as [Ta P].
      eapply (kinv_step H g T i H _ _ (T i)); auto. exists K. conj; auto.
      destruct (T i a) as [kd|] eqn:E; [|congruence]. now rewrite (Kp a kd E).
    + injection A as <- <- <-. destruct P as (kd & Ta & Ck & Na & P).
      eapply (kinv_step H g T i _ _ _ (T i)); auto.
      * exists (poke K a [c]). conj; auto.
        -- intros x k' Hx. unfold poke. cbn [mem]. destruct (Nat.leb a x); [|eauto].
           destruct (x - a)%nat as [|[|m]]; cbn [nth]; eauto.
        -- exact (evolves_sound env _ _ _ _ _ (cell_store env (fun _ => True) (T i) H a kd c So Ta Ck I)).
      * intros x [L|Nx] _; apply poke_other; cbn [length seq]; intros [<-|[]]; [lia|congruence].
    + rewrite alloc_eq in A. assert (fst (alloc H cs) = H' /\ w = w' /\ next H = x) as (<- & <- & <-) by (inversion A; auto).
      clear A. destruct (P H N0 So Kp) as (T' & E & P').
      eapply (kinv_step H g T i _ _ _ T'); auto.
      * exists (fst (alloc H cs)). conj; auto; [intros x k' _; reflexivity|]. eapply evolves_sound; eauto.
      * intros x Hx. destruct (Nat.lt_ge_cases x (next H)) as [L|L]; [left|now right].
        destruct E as (_ & _ & Et & _). now rewrite <- (Et x L).
      * intros x _ L. now apply alloc_old.
      * rewrite alloc_next. lia.
    + injection A as <- <- <-. eapply (kinv_step H g T i H _ _ (T i)); auto. exists K. conj; auto.
    + destruct (h i X e w) as [w1 x1|c]; [|discriminate].
      injection A as <- <- <-. eapply (kinv_step H g T i H _ _ (T i)); auto. exists K. conj; auto.
  - destruct e as [a|a c'|cs|t a|X e]; cbn [sf act fst snd] in P, A; try discriminate.
    destruct (h i X e w) as [w1 x1|c1] eqn:Eh; [discriminate|].
    injection A as <-. eapply (kinv_step H g T i H _ _ (T i)); auto. exists K. conj; auto. right. eauto.
Qed.

Lemma kinv_reaches s s' : kinv s -> reaches_system isZero h s s' -> kinv s'.
Proof. intros I R. induction R; [exact I|]. eapply kinv_moves; eauto. Qed.

Lemma kinv_start T g : sound env T H0 ->
  (forall i, sf env (next H0) (how i) (fun _ _ _ => True) (fst (g i)) H0 T) -> kinv (H0, g).
Proof.
  intros So P. split; [|split]; cbn [fst snd]; auto. exists (fun _ => T). split.
  - intros i. exists H0. conj; auto. intros x k _. reflexivity.
  - intros i j x _ Hx _. destruct (T x) as [k|] eqn:E; [|congruence]. now apply (So x k).
Qed.

Lemma kinv_races H g i j a b : kinv (H, g) -> i <> j -> about_to (fst (g i)) = Some (a, true) -> about_to (fst (g j)) <> Some (a, b).
Proof.
  intros (_ & _ & T & Ps & Ap) Nij Ai Aj. cbn [fst snd] in *.
  assert (Kn : forall l b', about_to (fst (g l)) = Some (a, b') -> T l a <> None /\ (b' = true -> (next H0 <= a)%nat)).
  { intros l b' Al. destruct (Ps l) as (K & P & _). destruct (fst (g l)) as [e|X e k|c]; cbn [about_to] in Al; try discriminate.
    destruct e as [a'|a' c|cs|t a'|X e]; cbn [sf] in P; try discriminate; injection Al as -> <-.
    - split; [apply P|discriminate].
    - destruct P as (kd & Ta & _ & Na & _). split; [congruence|auto]. }
  destruct (Kn i true Ai) as [Di Ni]. destruct (Kn j b Aj) as [Dj _].
  specialize (Ni eq_refl). specialize (Ap i j a Nij Di Dj). lia.
Qed.

Lemma kinv_crash H g i c : kinv (H, g) -> fst (g i) = Crash c -> how i c.
Proof. intros (_ & _ & T & Ps & _) E. destruct (Ps i) as (K & P & _). cbn [fst snd] in P. now rewrite E in P. Qed.
End Run.
