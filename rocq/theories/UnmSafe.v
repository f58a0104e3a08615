(** Goroutines in Unmarshal on memory that is shared in any way within what
    each of them fills. *)
From Coq Require Import Strings.String.
From Verif Require Import Base BaseLemmas Prog Wire GoFloat Utf8 GoType Fields Arshal GoTypeProof FieldsProof ArshalSpec
  Heap HeapSpec HeapProof HeapUnmarshal AnySpec AnyProof CycleSpec CycleProof HeapStep StepRun UnmStep.

(** Calls of a Reader that do the same but for what is in the array ReadUUID
    fills, and how their results are alike. *)
Inductive alike : forall X, wireR X -> wireR X -> (X -> X -> Prop) -> Prop :=
| al_same X (e : wireR X) : alike X e e eq
| al_uuid u w : length u = 16%nat -> length w = 16%nat ->
    alike _ (RUUID u) (RUUID w) (fun x y => snd x = snd y /\ length (fst x) = 16%nat /\ length (fst y) = 16%nat).
Lemma alike_run {S} (h : handler wireR S) X e e' R s : fills h -> alike X e e' R ->
  match h X e s, h X e' s with
  | Done s1 x, Done s2 y => s1 = s2 /\ R x y
  | Crashed c, Crashed c' => c = c'
  | _, _ => False
  end.
Proof.
  intros F [X' e0|u w Lu Lw]; [destruct (h X' e0 s); auto|].
  specialize (F u w s Lu Lw). destruct (h _ (RUUID u) s) as [s1 [x e1]|c], (h _ (RUUID w) s) as [s2 [y e2]|c']; try contradiction; cbn; tauto.
Qed.

Section Env.
Context (env : tenv) (Henv : env_ok env).
Notation size := (size env).
Notation sizes := (sizes env).
Notation zcells := (zcells env).
Notation layout := (layout env).
Notation fits := (fits env).
Notation cell_ok := (cell_ok env).
Notation sound := (sound env).
Notation evolves := (evolves env).
Notation reaches := (reaches env).
Notation tame := (tame env).
Context (ln : nat) (prefix : nat -> nat -> nat) (room : nat -> nat).
Notation sunmarshal := (sunmarshal env ln prefix room).
Notation ghost := (ghost env ln).
(** [P]: the goroutine may panic. *)
Context (P : Prop).
Notation kinds := (nat -> option kind).

(** [p], which knows the memory [T] is about, with contents [K]: it only reads
    and writes that, puts there what it is for, and asks its Reader what [q]
    does. *)
Fixpoint uf {A B} (Q : heap -> kinds -> A -> B -> Prop) (p : prog memU A) (K : heap) (T : kinds) (q : prog wireR B) {struct p} : Prop :=
  match p with
  | Ret a => exists b, q = Ret b /\ Q K T a b
  | Crash c => (c = Panicked /\ P) \/ q = Crash c
  | Vis e k =>
      match e in memU X return (X -> heap -> kinds -> prog wireR B -> Prop) -> Prop with
      | URead a => fun r => T a <> None /\ r (mem K a) K T q
      | UWrite a c => fun r => exists kd, T a = Some kd /\ cell_ok T kd c /\ r tt (poke K a [c]) T q
      | UAlloc cs => fun r => forall K1, sound T K1 -> kept T K K1 ->
          exists T', evolves nothing T K1 T' (fst (alloc K1 cs)) /\ r (next K1) (fst (alloc K1 cs)) T' q
      | @UWire X e => fun r => exists e' R k', q = Vis e' k' /\ alike X e e' R /\ forall x y, R x y -> r x K T (k' y)
      end (fun x K T q => uf Q (k x) K T q)
  end.

Lemma uf_bind {A B A' B'} (Q : _ -> _ -> A -> B -> Prop) (R : _ -> _ -> A' -> B' -> Prop) f g p : forall K T q,
  uf Q p K T q -> (forall a b K' T', Q K' T' a b -> uf R (f a) K' T' (g b)) -> uf R (bind p f) K T (bind q g).
Proof.
  induction p as [a|X e k IH|c]; intros K T q U F.
  - destruct U as (b & -> & U). now apply F.
  - destruct e as [a|a c|cs|X e]; cbn [bind uf] in *.
    + destruct U as [Ta U]. split; [exact Ta|]. now apply IH.
    + destruct U as (kd & Ta & Ck & U). exists kd. conj; auto.
    + intros K1 S1 P1. destruct (U K1 S1 P1) as (T' & E & U'). exists T'. split; [exact E|]. now apply IH.
    + destruct U as (e' & R0 & k' & -> & Al & U). exists e', R0, (fun y => bind (k' y) g). conj; auto.
  - destruct U as [U| ->]; [now left|now right].
Qed.
Lemma uf_pre {A A' B'} (Q : _ -> _ -> A -> unit -> Prop) (R : _ -> _ -> A' -> B' -> Prop) f p K T q :
  uf Q p K T (Ret tt) -> (forall a K' T', Q K' T' a tt -> uf R (f a) K' T' q) -> uf R (bind p f) K T q.
Proof. intros U F. apply (uf_bind Q R f (fun _ => q) p K T (Ret tt) U). intros a [] K' T'. apply F. Qed.
Lemma uf_mono {A B} (Q R : _ -> _ -> A -> B -> Prop) p : (forall K T a b, Q K T a b -> R K T a b) -> forall K T q, uf Q p K T q -> uf R p K T q.
Proof.
  intros I. induction p as [a|X e k IH|c]; intros K T q U; [destruct U as (b & -> & U); exists b; auto| |exact U].
  destruct e as [a|a c|cs|X e]; cbn [uf] in *.
  - destruct U as [Ta U]. auto.
  - destruct U as (kd & Ta & Ck & U). exists kd. conj; auto.
  - intros K1 S1 P1. destruct (U K1 S1 P1) as (T' & E & U'). exists T'. auto.
  - destruct U as (e' & R0 & k' & -> & Al & U). exists e', R0, k'. conj; auto.
Qed.
Lemma uf_ret {A B} (Q : _ -> _ -> A -> B -> Prop) a b K T : Q K T a b -> uf Q (Ret a) K T (Ret b).
Proof. exists b. auto. Qed.
Lemma uf_read {A B} (Q : _ -> _ -> A -> B -> Prop) f a K T q : T a <> None -> uf Q (f (mem K a)) K T q -> uf Q (bind (call (URead a)) f) K T q.
Proof. intros Ta U. cbn [call bind uf]. auto. Qed.
Lemma uf_embed {A} (p : prog wireR A) K T : uf (fun K' T' a b => K' = K /\ T' = T /\ a = b) (uembed p) K T p.
Proof.
  induction p as [a|X e k IH|c]; cbn [uembed uf]; [exists a; auto| |now right].
  exists e, eq, k. conj; auto; [constructor|]. intros x y <-. apply IH.
Qed.
Lemma uf_urdu {X A B} (R : _ -> _ -> A -> B -> Prop) action wt t (e : wireR (X * option err)) fail fail' k k' K T :
  (forall x er, uf R (fail x er) K T (Ret (fail' x er))) -> (forall x, uf R (k x) K T (k' x)) ->
  uf R (urdu action wt t e fail k) K T (rdu action wt t e fail' k').
Proof.
  intros F U. unfold urdu, rdu. cbn [call bind uf]. eexists e, eq, _. split; [reflexivity|]. split; [constructor|].
  intros [x [er|]] y <-; cbn [bind]; [apply F|apply U].
Qed.
Lemma uf_urdu0 {A B} (R : _ -> _ -> A -> B -> Prop) action wt t (e : wireR (option err)) fail fail' k k' K T :
  (forall er, R K T (fail er) (fail' er)) -> uf R k K T k' ->
  uf R (urdu0 action wt t e fail k) K T (rdu0 action wt t e fail' k').
Proof.
  intros F U. unfold urdu0, rdu0. cbn [call bind uf]. eexists e, eq, _. split; [reflexivity|]. split; [constructor|].
  intros [er|] y <-; cbn [bind]; [apply uf_ret, F|apply U].
Qed.

Definition eith {S S' A B} (I : heap -> kinds -> S -> S' -> Prop) (Q : heap -> kinds -> A -> B -> Prop) (K : heap) (T : kinds)
  (x : S + A) (y : S' + B) : Prop :=
  match x, y with inl s, inl s' => I K T s s' | inr a, inr b => Q K T a b | _, _ => False end.
Lemma uf_loop_nat {S S' A B} (I : heap -> kinds -> S -> S' -> Prop) (Q : _ -> _ -> A -> B -> Prop) (f : S -> prog memU (S + A)) (g : S' -> prog wireR (S' + B)) n :
  (forall K T s s', I K T s s' -> uf (eith I Q) (f s) K T (g s')) ->
  forall K T s s', I K T s s' -> uf (eith I Q) (loop_nat n f s) K T (loop_nat n g s').
Proof.
  intros F. induction n as [|n IH]; intros K T s s' Hs; cbn [loop_nat]; [now apply uf_ret|].
  eapply uf_bind; [now apply F|]. intros [x|x] [y|y] K' T' Hxy; try contradiction; [now apply IH|now apply uf_ret].
Qed.
Lemma uf_loop_pos {S S' A B} (I : heap -> kinds -> S -> S' -> Prop) (Q : _ -> _ -> A -> B -> Prop) (f : S -> prog memU (S + A)) (g : S' -> prog wireR (S' + B)) n :
  (forall K T s s', I K T s s' -> uf (eith I Q) (f s) K T (g s')) ->
  forall K T s s', I K T s s' -> uf (eith I Q) (loop_pos n f s) K T (loop_pos n g s').
Proof.
  intros F. induction n as [n IH|n IH|]; intros K T s s' Hs; cbn [loop_pos]; [| |now apply F].
  - eapply uf_bind; [now apply F|]. intros [x|x] [y|y] K' T' Hxy; try contradiction; [|now apply uf_ret].
    eapply uf_bind; [now apply IH|]. intros [x'|x'] [y'|y'] K2 T2 Hxy'; try contradiction; [now apply IH|now apply uf_ret].
  - eapply uf_bind; [now apply IH|]. intros [x'|x'] [y'|y'] K2 T2 Hxy'; try contradiction; [now apply IH|now apply uf_ret].
Qed.
Lemma uf_loop_Z {S S' A B} (I : heap -> kinds -> S -> S' -> Prop) (Q : _ -> _ -> A -> B -> Prop) (f : S -> prog memU (S + A)) (g : S' -> prog wireR (S' + B)) n :
  (forall K T s s', I K T s s' -> uf (eith I Q) (f s) K T (g s')) ->
  forall K T s s', I K T s s' -> uf (eith I Q) (loop_Z n f s) K T (loop_Z n g s').
Proof. intros F K T s s' Hs. destruct n; cbn [loop_Z]; try (now apply uf_ret). now apply uf_loop_pos. Qed.

(** From [K], [T] to [K'], [T']: of what was there, only what is for something
    in [W] has changed. *)
Definition gro (W : kind -> Prop) (K : heap) (T : kinds) (K' : heap) (T' : kinds) : Prop :=
  extends T T' /\ sound T' K' /\ forall x k, T x = Some k -> ~ W k -> mem K' x = mem K x.
Definition upost (W : kind -> Prop) (K : heap) (T : kinds) (K' : heap) (T' : kinds) (a b : option err) : Prop := a = b /\ gro W K T K' T'.
Lemma gro_refl W K T : sound T K -> gro W K T K T.
Proof. intros So. split; [intros x k Hx; exact Hx|]. auto. Qed.
Lemma gro_trans W K T K1 T1 K2 T2 : gro W K T K1 T1 -> gro W K1 T1 K2 T2 -> gro W K T K2 T2.
Proof.
  intros (A & B & D) (A' & B' & D'). split; [intros x k Hx; auto|]. split; [exact B'|].
  intros x k Hx Hn. rewrite (D' x k) by auto. eauto.
Qed.
Lemma gro_mono (W W' : kind -> Prop) K T K1 T1 : (forall k, W k -> W' k) -> gro W K T K1 T1 -> gro W' K T K1 T1.
Proof. intros I (A & B & D). split; [exact A|]. split; [exact B|]. intros x k Hx Hn. eauto. Qed.
Lemma gro_evolves W K T K1 T1 : sound T K -> evolves W T K T1 K1 -> gro W K T K1 T1.
Proof.
  intros So E. split; [eapply evolves_extends; eauto|]. split; [eapply evolves_sound; eauto|].
  intros x k Hx Hn. eapply evolves_keeps; eauto.
Qed.
Lemma gro_alloc W K T K1 T2 K2 : kept T K K1 -> sound T K1 -> evolves nothing T K1 T2 K2 -> gro W K T K2 T2.
Proof.
  intros Kp So E. destruct (gro_evolves _ _ _ _ _ So E) as (A & B & D). split; [exact A|]. split; [exact B|].
  intros x k Hx _. rewrite (D x k Hx) by auto. eauto.
Qed.
Lemma gro_set (W : kind -> Prop) K T a kd c : sound T K -> T a = Some kd -> cell_ok T kd c -> W kd -> gro W K T (poke K a [c]) T.
Proof. intros So Ta Ck Hw. apply gro_evolves; [exact So|]. eapply cell_store; eauto. Qed.
Lemma fits_knows T a t x : fits T a t -> In x (seq a (size t)) -> T x <> None.
Proof using Henv.
  intros F Hx. apply in_seq in Hx.
  destruct (nth_error (layout t) (x - a)) as [k|] eqn:E; [|apply nth_error_None in E; rewrite (layout_len env Henv) in E; lia].
  apply F in E. replace (a + (x - a))%nat with x in E by lia. congruence.
Qed.

Lemma uf_urd K T n : forall a, (forall x, In x (seq a n) -> T x <> None) ->
  uf (fun K' T' cs _ => K' = K /\ T' = T /\ cs = Heap.peek K a n) (urd a n) K T (Ret tt).
Proof.
  induction n as [|n IH]; intros a Hd; cbn [urd]; [apply uf_ret; auto|].
  apply uf_read; [apply Hd; now left|].
  eapply uf_pre; [apply IH; intros x Hx; apply Hd; now right|].
  intros cs K' T' (-> & -> & ->). apply uf_ret. conj; auto.
Qed.
Lemma uf_var K T a t : fits T a t -> uf (fun K' T' cs _ => K' = K /\ T' = T /\ cs = Heap.peek K a (size t)) (urd a (size t)) K T (Ret tt).
Proof using Henv. intros F. apply uf_urd. intros x Hx. eapply fits_knows; eauto. Qed.
Lemma uf_uwr (W : kind -> Prop) T ks cs : Forall2 (cell_ok T) ks cs -> (forall k, In k ks -> W k) -> forall K a, sound T K ->
  (forall i k, nth_error ks i = Some k -> T (a + i)%nat = Some k) ->
  uf (fun K' T' (_ _ : unit) => T' = T /\ gro W K T K' T) (uwr a cs) K T (Ret tt).
Proof.
  induction 1 as [|k c ks cs Ck Fc IH]; intros Hw K a So F; cbn [uwr]; [apply uf_ret; split; [reflexivity|now apply gro_refl]|].
  cbn [call bind uf]. pose proof (F O k eq_refl) as Ta. rewrite Nat.add_0_r in Ta. exists k. split; [exact Ta|]. split; [exact Ck|].
  assert (G : gro W K T (poke K a [c]) T) by (eapply gro_set; eauto; apply Hw; now left).
  eapply uf_mono; [|apply IH].
  - cbn beta. intros K' T' _ _ (-> & G'). split; [reflexivity|]. eapply gro_trans; eauto.
  - intros k' Hk. apply Hw. now right.
  - apply G.
  - intros i k' Hi. specialize (F (S i) k' Hi). now rewrite Nat.add_succ_r in F.
Qed.
Lemma uf_store (W : kind -> Prop) K T a t cs : sound T K -> fits T a t -> Forall2 (cell_ok T) (layout t) cs -> (forall k, In k (layout t) -> W k) ->
  uf (fun K' T' (_ _ : unit) => T' = T /\ gro W K T K' T) (uwr a cs) K T (Ret tt).
Proof. intros So F Fc Hw. eapply uf_uwr; eauto. Qed.

Definition usafe (n : nat) : Prop := forall t a va K T wt, (~ tame t -> P) -> codec env t a -> sound T K -> fits T va t ->
  uf (upost (reaches t) K T) (sunmarshal n a va wt) K T (ghost n a wt).
Definition panics_if (t : rtype) : Prop := ~ tame t -> P.
Lemma panics_part t e : AnyProof.part env t e -> panics_if t -> panics_if e.
Proof. intros Hp Pt Ne. apply Pt. intros Tt. apply Ne. eapply tame_part; eauto. Qed.

Lemma uf_check W K T wt want t p q : sound T K -> uf (upost W K T) p K T q -> uf (upost W K T) (scheck wt want t p) K T (gcheck wt want t q).
Proof. intros So U. unfold scheck, gcheck. destruct (wt =? want); [exact U|]. apply uf_ret. split; [reflexivity|now apply gro_refl]. Qed.
Lemma uf_scalar {X} (W : kind -> Prop) K T va u action wt t (e : wireR (X * option err)) f : sound T K -> T va = Some (KLeaf u) -> W (KLeaf u) ->
  (forall x, of_sort u (f x)) -> uf (upost W K T) (sscalar action wt t e va f) K T (gscalar action wt t e).
Proof.
  intros So Ta Hw Hf. apply uf_urdu.
  - intros x er. apply uf_ret. split; [reflexivity|now apply gro_refl].
  - intros x. cbn [call bind uf]. exists (KLeaf u). split; [exact Ta|]. split; [apply Hf|]. exists None. split; [reflexivity|]. split; [reflexivity|].
    eapply gro_set; eauto. apply Hf.
Qed.

(** *** structs *)
Lemma field_uf m t s fs va K0 T0 : usafe m -> panics_if t -> under env t = RtStruct s -> make_struct_fields env ln t = Some (inl fs) ->
  fits T0 va t -> forall K T u u', gro (reaches t) K0 T0 K T ->
  uf (eith (fun K T _ _ => gro (reaches t) K0 T0 K T) (upost (reaches t) K0 T0)) (sunmarshal_field env (sunmarshal m) (skip m) t fs va u) K T
    (gfield (ghost m) (skip m) t fs u').
Proof using Henv.
  intros IH Pt U Hfs F K T u u' G. unfold sunmarshal_field, gfield.
  apply uf_urdu; [intros _ er; apply uf_ret; split; auto|]. intros h.
  destruct (fh_type h =? T_Stop).
  { apply uf_urdu0; [intros er; split; auto|]. apply uf_ret. split; auto. }
  cbv zeta. eapply (uf_bind (upost (reaches t) K0 T0)).
  - destruct (by_id fs (fh_id h)) as [f|] eqn:Bf.
    + assert (Hf : In f fs).
      { unfold by_id in Bf. apply find_some in Bf as [Hf _]. now apply in_rev. }
      apply (proj1 (fields_spec env Henv ln t fs Hfs)) in Hf as (j & sf & o & a & Hj & _ & La & ->).
      cbn [f_index f_fncs]. unfold struct_def in Hj. rewrite U in Hj.
      assert (Hft : nth_error (field_types env t) j = Some (sf_type sf)).
      { unfold field_types. rewrite U. now apply map_nth_error. }
      assert (Pf : AnyProof.part env t (sf_type sf)) by (eapply part_field; [exact Henv|exact U|]; eapply nth_error_In; exact Hft).
      rewrite Hft. eapply uf_mono; [|apply (IH (sf_type sf))].
      * intros K' T' e e' [Ee G']. split; [exact Ee|]. eapply gro_trans; [exact G|]. eapply gro_mono; [exact Pf|exact G'].
      * eapply panics_part; eauto.
      * exists ln. exact La.
      * apply G.
      * eapply fits_field; eauto. eapply fits_more; [apply G|exact F].
    + eapply uf_mono; [|apply uf_embed]. intros K' T' e e' (-> & -> & Ee). split; auto.
  - intros e e' K' T' [<- G']. destruct e; [apply uf_ret; split; auto|].
    apply uf_urdu0; [intros er; split; auto|]. apply uf_ret. exact G'.
Qed.

(** *** bytes *)
Lemma bytes_uf (W : kind -> Prop) K T base cap nl x : sound T K -> W KByte -> (nl = true -> cap = O) -> (forall i, (i < cap)%nat -> T (base + i)%nat = Some KByte) ->
  uf (fun K' T' c _ => gro W K T K' T' /\ cell_ok T' KBytes c) (sappend prefix room nl base cap x) K T (Ret tt).
Proof.
  intros So Hy Nl Hb.
  assert (Put : forall y, (length y <= cap)%nat -> uf (fun K' T' (_ _ : unit) => T' = T /\ gro W K T K' T) (uwr base (map CByte y)) K T (Ret tt)).
  { intros y Ly. apply (uf_uwr W T (map (fun _ => KByte) y)); auto.
    - clear. induction y; constructor; auto. exact I.
    - intros k Hk. apply in_map_iff in Hk as (_ & <- & _). exact Hy.
    - intros i k Hi. rewrite nth_error_map in Hi. destruct (nth_error y i) eqn:Ey; [|discriminate]. injection Hi as <-.
      apply Hb. assert (i < length y)%nat by (apply nth_error_Some; congruence). lia. }
  unfold sappend. destruct (Nat.leb_spec (length x) cap) as [Lx|Lx].
  - eapply uf_pre; [now apply Put|]. intros _ K' T' [-> G]. apply uf_ret. split; [exact G|]. cbn. conj; auto. destruct x; auto; discriminate.
  - eapply uf_pre; [apply Put; rewrite firstn_length; lia|]. intros _ K' T' [-> G].
    set (cs := map CByte x ++ repeat (CByte x00) (room (length x))).
    set (ks := repeat KByte (length x + room (length x))).
    assert (Fc : forall T, Forall2 (AnySpec.cell_ok env T) ks cs).
    { intros T1. unfold ks, cs. rewrite repeat_app. apply Forall2_app.
      - clear. induction x; constructor; auto. exact I.
      - clear. induction (room _); constructor; auto. exact I. }
    cbn [call bind uf]. intros K1 S1 P1. destruct (alloc_ok env nothing T K1 ks cs S1 (Fc _)) as [E N].
    exists (added T (next K1) ks). split; [exact E|]. exists tt. split; [reflexivity|]. split.
    + eapply gro_trans; [exact G|]. eapply gro_alloc; eauto.
    + cbn. conj; [lia|discriminate|]. intros i Hi. apply N. unfold ks. now apply nth_error_repeat'.
Qed.

(** *** maps *)
Lemma find_uf K T kt et cs es : Forall (fun p => fits T (fst p) kt /\ fits T (snd p) et) es ->
  uf (fun K' T' f _ => K' = K /\ T' = T /\ forall p, f = Some p -> fits T (fst p) kt /\ fits T (snd p) et) (sfind env kt cs es) K T (Ret tt).
Proof using Henv.
  induction 1 as [|[a b] es [Fa Fb] Fe IH]; cbn [sfind]; [apply uf_ret; conj; auto; discriminate|]. cbn [fst snd] in *.
  eapply uf_pre; [now apply uf_var|]. intros ds K' T' (-> & -> & ->).
  destruct (cells_eq _ _); [|exact IH]. apply uf_ret. conj; auto. intros p E. injection E as <-. auto.
Qed.
Lemma entries_cell K T m kt et : sound T K -> T m = Some (KEntries kt et) ->
  exists es, mem K m = CEntries es /\ Forall (fun p => fits T (fst p) kt /\ fits T (snd p) et) es.
Proof. intros So Tm. destruct (So m _ Tm) as [_ C]. destruct (mem K m); try contradiction. eauto. Qed.
Lemma index_uf (W : kind -> Prop) K T m kt et k v : sound T K -> T m = Some (KEntries kt et) -> fits T k kt -> fits T v et ->
  (forall k, In k (layout et) -> W k) ->
  uf (fun K' T' (_ _ : unit) => T' = T /\ gro W K T K' T) (smap_index env m kt et k v) K T (Ret tt).
Proof using Henv.
  intros So Tm Fk Fv Hw. unfold smap_index. apply uf_read; [congruence|].
  destruct (entries_cell K T m kt et So Tm) as (es & -> & Fe).
  eapply uf_pre; [now apply uf_var|]. intros cs K' T' (-> & -> & ->).
  eapply uf_pre; [now apply (find_uf K T kt et)|]. intros f K' T' (-> & -> & Ff).
  destruct f as [[a b]|].
  - destruct (Ff _ eq_refl) as [_ Fb]. cbn [snd] in Fb. eapply uf_pre; [now apply uf_var|]. intros ds K' T' (-> & -> & ->).
    apply (uf_store W K T v et); auto. now apply (peek_ok env Henv).
  - apply (uf_store W K T v et); auto. now apply (zcells_ok env Henv).
Qed.
Lemma set_index_uf (W : kind -> Prop) K T m kt et k v : sound T K -> T m = Some (KEntries kt et) -> fits T k kt -> fits T v et ->
  W (KEntries kt et) -> (forall k, In k (layout kt) -> W k) -> (forall k, In k (layout et) -> W k) ->
  uf (fun K' T' (_ _ : unit) => gro W K T K' T') (sset_map_index env m kt et k v) K T (Ret tt).
Proof using Henv.
  intros So Tm Fk Fv We Wk Wv. unfold sset_map_index. apply uf_read; [congruence|].
  destruct (entries_cell K T m kt et So Tm) as (es & -> & Fe).
  eapply uf_pre; [now apply uf_var|]. intros cs K' T' (-> & -> & ->).
  eapply uf_pre; [now apply (find_uf K T kt et)|]. intros f K' T' (-> & -> & Ff).
  destruct f as [[a b]|].
  - destruct (Ff _ eq_refl) as [Fa Fb]. cbn [fst snd] in Fa, Fb. eapply uf_pre; [now apply uf_var|]. intros ds K' T' (-> & -> & ->).
    eapply uf_pre; [apply (uf_store W K T a kt); auto; now apply (peek_ok env Henv)|]. intros _ K' T' [-> G1].
    eapply uf_mono; [|apply (uf_store W K' T b et); auto; [apply G1|now apply (peek_ok env Henv)]].
    intros K2 T2 _ _ [-> G2]. eapply gro_trans; eauto.
  - cbn [call bind uf]. intros K1 S1 P1.
    destruct (new_ok env nothing T K1 kt (Heap.peek K k (size kt)) S1) as (T2 & E2 & F2); [now apply (peek_ok env Henv)|].
    exists T2. split; [exact E2|]. pose proof (gro_alloc W _ _ _ _ _ P1 S1 E2) as G2.
    set (K2 := fst (alloc K1 _)) in *. pose proof G2 as (X2 & S2 & _).
    eapply uf_pre; [apply uf_var; eapply fits_more; eauto|]. intros ds K' T' (-> & -> & ->).
    cbn [call bind uf]. intros K3 S3 P3.
    destruct (new_ok env nothing T2 K3 et (Heap.peek K2 v (size et)) S3) as (T4 & E4 & F4); [apply (peek_ok env Henv); auto; eapply fits_more; eauto|].
    exists T4. split; [exact E4|]. pose proof (gro_alloc W _ _ _ _ _ P3 S3 E4) as G4. pose proof G4 as (X4 & S4 & _).
    assert (Cm : cell_ok T4 (KEntries kt et) (CEntries (es ++ [(next K1, next K3)]))).
    { cbn. apply Forall_app. split.
      - eapply Forall_impl; [|exact Fe]. intros [a b] [A B]. split; eapply fits_more; eauto; intros x kk Hx; auto.
      - constructor; [|constructor]. split; [eapply fits_more; eauto|exact F4]. }
    exists (KEntries kt et). split; [auto|]. split; [exact Cm|]. exists tt. split; [reflexivity|].
    eapply gro_trans; [exact G2|]. eapply gro_trans; [exact G4|]. eapply gro_set; eauto.
Qed.

Lemma entry_uf m t kt et ka ea h va k v K0 T0 : usafe m -> panics_if t -> under env t = RtMap kt et -> codec env kt ka -> codec env et ea ->
  T0 va = Some (KMap kt et) -> fits T0 k kt -> fits T0 v et ->
  let I K T (_ _ : unit) := gro (reaches t) K0 T0 K T /\ (tame t -> exists mp, mem K va = CMap (Some mp)) in
  forall K T u u', I K T u u' ->
  uf (eith I (upost (reaches t) K0 T0)) (sunmarshal_entry env (sunmarshal m) t ka ea h va k v u) K T (gentry (ghost m) ka ea h u').
Proof using Henv.
  intros IH Pt U Ck Ce Ta Fk Fv I K T u u' [G M]. unfold sunmarshal_entry, gentry.
  replace (key_type env t) with kt by (unfold key_type; now rewrite U).
  replace (elem_type env t) with et by (unfold elem_type; now rewrite U). cbv zeta.
  assert (Rm : reaches t (KMap kt et)) by (apply own_one; rewrite (layout_eq env Henv), U; auto).
  assert (Pk : AnyProof.part env t kt) by (intros x Hx; eapply r_key; eauto).
  assert (Pe : AnyProof.part env t et) by (intros x Hx; eapply r_val; eauto).
  assert (Nk : tame t -> ~ reaches kt (KMap kt et)) by (intros [_ B]; now apply B).
  assert (Ne : tame t -> ~ reaches et (KMap kt et)) by (intros [_ B]; now apply B).
  eapply uf_pre.
  { apply (uf_store (reaches kt) K T k kt); [apply G|eapply fits_more; [apply G|exact Fk]|now apply (zcells_ok env Henv)|apply own_all]. }
  intros _ K1 T1 [-> G1].
  eapply uf_bind; [apply (IH kt); [eapply panics_part; eauto|exact Ck|apply G1|eapply fits_more; [apply G|exact Fk]]|].
  intros e e' K2 T2 [<- G2]. pose proof (gro_trans _ _ _ _ _ _ _ G1 G2) as G12.
  assert (G02 : gro (reaches t) K0 T0 K2 T2) by (eapply gro_trans; [exact G|]; eapply gro_mono; [exact Pk|exact G12]).
  destruct e as [er|]; [apply uf_ret; split; auto|].
  assert (M2 : tame t -> exists mp, mem K2 va = CMap (Some mp)).
  { intros Ht. destruct G12 as (_ & _ & D). rewrite (D va (KMap kt et)); [now apply M|now apply G|now apply Nk]. }
  pose proof G02 as (X2 & S2 & _).
  apply uf_read; [rewrite (X2 _ _ Ta); discriminate|].
  destruct (map_cell env T2 K2 va kt et S2 (X2 _ _ Ta)) as (o & Ho2 & Ho). rewrite Ho2.
  eapply (uf_pre (fun K' T' (_ _ : unit) => T' = T2 /\ gro (reaches et) K2 T2 K' T2)).
  { destruct o as [mp|].
    - apply index_uf; auto; [eapply fits_more; eauto|eapply fits_more; eauto|apply own_all].
    - apply (uf_store (reaches et) K2 T2 v et); [exact S2|eapply fits_more; eauto|now apply (zcells_ok env Henv)|apply own_all]. }
  intros _ K3 T3 [-> G3].
  eapply uf_bind; [apply (IH et); [eapply panics_part; eauto|exact Ce|apply G3|eapply fits_more; eauto]|].
  intros e e' K4 T4 [<- G4]. pose proof (gro_trans _ _ _ _ _ _ _ G3 G4) as G24.
  assert (G04 : gro (reaches t) K0 T0 K4 T4) by (eapply gro_trans; [exact G02|]; eapply gro_mono; [exact Pe|exact G24]).
  assert (M4 : tame t -> exists mp, mem K4 va = CMap (Some mp)).
  { intros Ht. destruct G24 as (_ & _ & D). rewrite (D va (KMap kt et)); [now apply M2|exact (X2 _ _ Ta)|now apply Ne]. }
  pose proof G04 as (X4 & S4 & _).
  apply uf_read; [rewrite (X4 _ _ Ta); discriminate|].
  destruct (map_cell env T4 K4 va kt et S4 (X4 _ _ Ta)) as ([mp|] & Em & Ho4); rewrite Em.
  2: { left. split; [reflexivity|]. apply Pt. intros Ht. destruct (M4 Ht). congruence. }
  set (W := fun x => reaches kt x \/ reaches et x \/ x = KEntries kt et).
  eapply uf_pre.
  { apply (set_index_uf W K4 T4 mp kt et k v S4 (Ho4 mp eq_refl)); try (eapply fits_more; eauto; fail).
    - unfold W. auto.
    - intros x Hx. left. now apply own_all.
    - intros x Hx. right. left. now apply own_all. }
  intros [] K5 T5 G5. cbn beta in G5.
  assert (Wt : forall x, W x -> reaches t x) by (intros x [Hx|[Hx| ->]]; [auto|auto|now apply r_entries]).
  assert (G05 : gro (reaches t) K0 T0 K5 T5) by (eapply gro_trans; [exact G04|]; eapply gro_mono; [exact Wt|exact G5]).
  destruct e as [er|]; apply uf_ret; [split; auto|]. split; [exact G05|].
  intros Ht. destruct G5 as (_ & _ & D). rewrite (D va (KMap kt et)); [now apply M4|exact (X4 _ _ Ta)|].
  intros [Hx|[Hx|Hx]]; [now apply Nk|now apply Ne|discriminate].
Qed.

Lemma fin_uf W K0 T0 K T action wt t ev : gro W K0 T0 K T ->
  uf (upost W K0 T0) (urdu0 action wt t ev (fun er => Some er) (Ret None)) K T (rdu0 action wt t ev (fun er => Some er) (Ret None)).
Proof. intros G. apply uf_urdu0; [intros er; split; auto|]. apply uf_ret. split; auto. Qed.

Lemma map_uf m t kt et ka ea va K T wt : usafe m -> panics_if t -> under env t = RtMap kt et -> codec env kt ka -> codec env et ea ->
  sound T K -> fits T va t -> uf (upost (reaches t) K T) (sunmarshal (S m) (AMap t ka ea) va wt) K T (ghost (S m) (AMap t ka ea) wt).
Proof using Henv.
  intros IH Pt U Ck Ce So F. cbn [UnmStep.sunmarshal AnyProof.ghost]. apply uf_check; [exact So|].
  assert (Ta : T va = Some (KMap kt et)) by (eapply fits_one; [exact F|]; rewrite (layout_eq env Henv), U; auto).
  assert (Rm : reaches t (KMap kt et)) by (apply own_one; rewrite (layout_eq env Henv), U; auto).
  apply uf_urdu; [intros _ er; apply uf_ret; split; [reflexivity|now apply gro_refl]|]. intros h. cbv zeta.
  destruct (map_size h >? 0); [|apply fin_uf; now apply gro_refl].
  apply uf_read; [congruence|].
  destruct (map_cell env T K va kt et So Ta) as (o & Mo & Ho). rewrite Mo.
  replace (key_type env t) with kt by (unfold key_type; now rewrite U).
  replace (elem_type env t) with et by (unfold elem_type; now rewrite U).
  eapply (uf_pre (fun K' T' (_ _ : unit) => gro (reaches t) K T K' T' /\ exists mp, mem K' va = CMap (Some mp))).
  { destruct o as [mp|]; [apply uf_ret; split; [now apply gro_refl|eauto]|].
    cbn [call bind uf]. intros K1 S1 P1.
    destruct (alloc_ok env nothing T K1 [KEntries kt et] [CEntries []] S1) as [E N].
    { constructor; [|constructor]. cbn. constructor. }
    eexists. split; [exact E|]. pose proof (gro_alloc (reaches t) _ _ _ _ _ P1 S1 E) as G1.
    specialize (N O (KEntries kt et) eq_refl). rewrite Nat.add_0_r in N.
    exists (KMap kt et). split; [exact (proj1 G1 _ _ Ta)|]. split; [exact N|]. exists tt. split; [reflexivity|]. split; [|eexists; apply poke_1].
    eapply gro_trans; [exact G1|]. eapply gro_set; [apply G1|exact (proj1 G1 _ _ Ta)|exact N|exact Rm]. }
  intros _ K1 T1 [G1 (mp & M1)].
  cbn [call bind uf]. intros K2 S2 P2.
  destruct (new_ok env nothing T1 K2 kt (zcells kt) S2 (zcells_ok env Henv T1 kt)) as (T3 & E3 & F3).
  exists T3. split; [exact E3|]. pose proof (gro_alloc nothing _ _ _ _ _ P2 S2 E3) as G3. set (k := next K2). set (K3 := fst (alloc K2 _)) in *.
  intros K4 S4 P4.
  destruct (new_ok env nothing T3 K4 et (zcells et) S4 (zcells_ok env Henv T3 et)) as (T5 & E5 & F5).
  exists T5. split; [exact E5|]. pose proof (gro_alloc nothing _ _ _ _ _ P4 S4 E5) as G5. set (v := next K4). set (K5 := fst (alloc K4 _)) in *.
  pose proof (gro_trans _ _ _ _ _ _ _ G3 G5) as G15.
  assert (G05 : gro (reaches t) K T K5 T5) by (eapply gro_trans; [exact G1|]; eapply gro_mono; [|exact G15]; intros x []).
  eapply uf_bind.
  { eapply uf_loop_Z; [apply (entry_uf m t kt et ka ea h va k v K5 T5 IH Pt U Ck Ce)|].
    - exact (proj1 G05 _ _ Ta).
    - eapply fits_more; [apply G5|exact F3].
    - exact F5.
    - split; [apply gro_refl; apply G5|]. intros _. exists mp. pose proof (proj2 (proj2 G15)) as D. rewrite (D va (KMap kt et)); auto. exact (proj1 G1 _ _ Ta). }
  intros [x|r] [y|r'] K6 T6; cbn [eith]; try contradiction.
  - intros [G6 _]. apply fin_uf. eapply gro_trans; eauto.
  - intros [<- G6]. apply uf_ret. split; [reflexivity|]. eapply gro_trans; eauto.
Qed.

(** *** lists and sets *)
Lemma set_len_uf {A B} (Q : _ -> _ -> A -> B -> Prop) (W : kind -> Prop) f K T va e i q : sound T K -> T va = Some (KSlice e) -> W (KSlice e) ->
  ((exists nl base len cap, mem K va = CSlice nl base len cap /\ (cap < i)%nat) -> P) ->
  (forall nl base len cap, mem K va = CSlice nl base len cap -> (i <= cap)%nat ->
     gro W K T (poke K va [CSlice nl base i cap]) T -> uf Q (f tt) (poke K va [CSlice nl base i cap]) T q) ->
  uf Q (bind (sset_len va i) f) K T q.
Proof.
  intros So Ta Hw Hp Hf. destruct (slice_cell env T K va e So Ta) as (nl & base & len & cap & M & L & N & F).
  unfold sset_len. cbn [call bind uf]. split; [congruence|]. rewrite M.
  destruct (Nat.leb_spec i cap) as [Li|Li]; cbn [bind uf]; [|left; split; [reflexivity|apply Hp; eauto 6]].
  assert (C : cell_ok T (KSlice e) (CSlice nl base i cap)) by (cbn; auto).
  exists (KSlice e). split; [exact Ta|]. split; [exact C|]. eapply Hf; eauto. eapply gro_set; eauto.
Qed.

Lemma grow_uf (W : kind -> Prop) K T va e : sound T K -> T va = Some (KSlice e) -> W (KSlice e) ->
  uf (fun K' T' c (_ : unit) => gro W K T K' T' /\
     forall nl base cap, mem K va = CSlice nl base cap cap -> (cap < c)%nat /\ exists nl' base', mem K' va = CSlice nl' base' c c)
    (sgrow env e va) K T (Ret tt).
Proof using Henv.
  intros So Ta Hw. destruct (slice_cell env T K va e So Ta) as (nl & base & len & cap & M & L & N & F).
  unfold sgrow. apply uf_read; [congruence|]. rewrite M. destruct (Nat.ltb_spec len cap) as [Hl|Hl].
  { assert (C : cell_ok T (KSlice e) (CSlice nl base cap cap)) by (cbn; auto).
    cbn [call bind uf]. exists (KSlice e). split; [exact Ta|]. split; [exact C|]. exists tt. split; [reflexivity|]. split; [eapply gro_set; eauto|].
    intros nl1 b1 c1 E. injection E as -> -> -> ->. lia. }
  assert (len = cap) as -> by lia.
  eapply uf_pre; [apply uf_urd|].
  { intros x Hx. apply in_seq in Hx. pose proof (size_pos env Henv e) as Sp.
    assert (D : ((x - base) / size e < cap)%nat) by (apply Nat.div_lt_upper_bound; lia).
    eapply fits_knows; [apply (F _ D)|]. apply in_seq. pose proof (Nat.div_mod (x - base) (size e) ltac:(lia)) as Dm.
    pose proof (Nat.mod_upper_bound (x - base) (size e) ltac:(lia)). lia. }
  intros cs0 K' T' (-> & -> & ->).
  set (g := S (te_grow env cap)). set (cs := Heap.peek K base (cap * size e) ++ concat (repeat (zcells e) g)).
  set (ks := concat (repeat (layout e) (cap + g))).
  assert (Fz : forall T, Forall2 (AnySpec.cell_ok env T) (concat (repeat (layout e) g)) (concat (repeat (zcells e) g))).
  { intros T1. clearbody g. clear cs ks. induction g as [|g IH]; cbn [repeat concat]; [constructor|]. apply Forall2_app; [now apply (zcells_ok env Henv)|exact IH]. }
  assert (Fp : forall n, (n <= cap)%nat -> Forall2 (AnySpec.cell_ok env T) (concat (repeat (layout e) n)) (Heap.peek K base (n * size e))).
  { induction n as [|n IH]; intros Hn; [constructor|]. rewrite repeat_snoc, concat_app. cbn [concat]. rewrite app_nil_r.
    replace (S n * size e)%nat with (n * size e + size e)%nat by lia. rewrite peek_app. apply Forall2_app; [apply IH; lia|].
    apply (peek_ok env Henv); auto. }
  assert (Fc : Forall2 (AnySpec.cell_ok env T) ks cs).
  { unfold ks, cs. rewrite repeat_app, concat_app. apply Forall2_app; auto. }
  cbn [call bind uf]. intros K1 S1 P1.
  destruct (alloc_ok env nothing T K1 ks cs S1) as [E2 N2].
  { eapply cells_more; [|exact Fc]. intros x k Hx. unfold added. destruct (S1 x k Hx) as [Lx _]. now rewrite (proj2 (Nat.ltb_lt _ _) Lx). }
  set (T2 := added T (next K1) ks) in *. exists T2. split; [exact E2|].
  pose proof (gro_alloc W _ _ _ _ _ P1 S1 E2) as G2.
  assert (C : cell_ok T2 (KSlice e) (CSlice false (next K1) (cap + g) (cap + g))).
  { cbn [AnySpec.cell_ok]. conj; [lia|discriminate|].
    intros i Hi j k Hj. rewrite <- Nat.add_assoc. apply N2. unfold ks. rewrite <- (layout_len env Henv).
    assert (Lj : (j < length (layout e))%nat) by (apply nth_error_Some; congruence).
    clear -Hi Hj Lj. revert i Hi. induction (cap + g)%nat as [|n IH]; intros i Hi; [lia|]. cbn [repeat concat].
    destruct i as [|i]; [rewrite nth_error_app1 by lia; exact Hj|]. rewrite nth_error_app2 by lia.
    replace (S i * length (layout e) + j - length (layout e))%nat with (i * length (layout e) + j)%nat by lia. apply IH. lia. }
  exists (KSlice e). split; [exact (proj1 G2 _ _ Ta)|]. split; [exact C|]. exists tt. split; [reflexivity|]. split.
  - eapply gro_trans; [exact G2|]. eapply gro_set; [apply G2|exact (proj1 G2 _ _ Ta)|exact C|exact Hw].
  - intros nl1 b1 c1 E. injection E as _ _ <-. split; [lia|]. do 2 eexists. apply poke_1.
Qed.

Lemma elem_uf m t e ea wt va K0 T0 : usafe m -> panics_if t -> under env t = RtSlice e -> as_bytes env t = false -> codec env e ea ->
  T0 va = Some (KSlice e) ->
  let I K T (st : nat * nat * bool) (_ : unit) := gro (reaches t) K0 T0 K T /\
    (tame t -> (fst (fst st) <= snd (fst st))%nat /\ exists nl base, mem K va = CSlice nl base (snd (fst st)) (snd (fst st))) in
  forall K T st u, I K T st u ->
  uf (eith I (upost (reaches t) K0 T0)) (sunmarshal_elem env (sunmarshal m) t ea wt va st) K T (gelem (ghost m) ea wt u).
Proof using Henv.
  intros IH Pt U B Ce Ta I K T [[i cap] mz] u [G M]. unfold sunmarshal_elem, gelem. cbn [fst snd] in M.
  replace (elem_type env t) with e by (unfold elem_type; now rewrite U). cbv zeta.
  assert (Rs : reaches t (KSlice e)) by (apply own_one; rewrite (layout_eq env Henv), U, B; auto).
  assert (Pe : AnyProof.part env t e) by (intros x Hx; eapply r_elem; eauto).
  assert (Ne : tame t -> ~ reaches e (KSlice e)) by (intros [A _]; now apply A).
  eapply (uf_pre (fun K' T' (st : nat * bool) (_ : unit) => gro (reaches t) K0 T0 K' T' /\
    (tame t -> (i < fst st)%nat /\ exists nl base, mem K' va = CSlice nl base (fst st) (fst st)))).
  { destruct (Nat.eqb_spec i cap) as [->|Hi].
    - eapply uf_pre; [apply (grow_uf (reaches t) K T va e); [apply G|now apply G|exact Rs]|].
      intros c K' T' [G' Hg]. apply uf_ret. split; [eapply gro_trans; eauto|]. intros Ht. destruct (M Ht) as [_ (nl & base & E)].
      destruct (Hg _ _ _ E) as [Lc X]. auto.
    - apply uf_ret. split; [exact G|]. intros Ht. destruct (M Ht) as [Li X]. split; [cbn; lia|exact X]. }
  intros [cap2 mz2] K2 T2 [G2 M2]. cbn [fst snd] in M2. pose proof G2 as (X2 & S2 & _).
  apply uf_read; [rewrite (X2 _ _ Ta); discriminate|].
  destruct (slice_cell env T2 K2 va e S2 (X2 _ _ Ta)) as (nl & base & len & cp & E & L & N & F). rewrite E.
  assert (Q : tame t -> len = cap2 /\ cp = cap2 /\ (i < cap2)%nat).
  { intros Ht. destruct (M2 Ht) as [Hi (nl0 & base0 & E')]. rewrite E in E'. injection E' as <- <- -> ->. auto. }
  destruct (Nat.ltb_spec i len) as [Hi|Hi]; [|left; split; [reflexivity|]; apply Pt; intros Ht; specialize (Q Ht); lia].
  assert (Fe : fits T2 (base + i * size e) e) by (apply F; lia).
  eapply (uf_pre (fun K' T' (_ _ : unit) => T' = T2 /\ gro (reaches e) K2 T2 K' T2)).
  { destruct mz2; [|apply uf_ret; split; [reflexivity|now apply gro_refl]].
    apply (uf_store (reaches e) K2 T2 _ e); [exact S2|exact Fe|now apply (zcells_ok env Henv)|apply own_all]. }
  intros _ K3 T3 [-> G3].
  eapply uf_bind; [apply (IH e); [eapply panics_part; eauto|exact Ce|apply G3|exact Fe]|].
  intros er er' K4 T4 [<- G4]. pose proof (gro_trans _ _ _ _ _ _ _ G3 G4) as G24.
  assert (G04 : gro (reaches t) K0 T0 K4 T4) by (eapply gro_trans; [exact G2|]; eapply gro_mono; [exact Pe|exact G24]).
  assert (M4 : tame t -> mem K4 va = CSlice nl base len cp).
  { intros Ht. destruct G24 as (_ & _ & D). rewrite (D va (KSlice e)); [exact E|exact (X2 _ _ Ta)|now apply Ne]. }
  pose proof G04 as (X4 & S4 & _).
  destruct er as [er|].
  - eapply (set_len_uf _ (reaches t)); [exact S4|exact (X4 _ _ Ta)|exact Rs| |].
    + intros (nl1 & b1 & l1 & c1 & E1 & L1). apply Pt. intros Ht. specialize (Q Ht). rewrite (M4 Ht) in E1. injection E1 as <- <- <- <-. lia.
    + intros nl1 b1 l1 c1 E1 L1 G5. apply uf_ret. split; [reflexivity|]. eapply gro_trans; eauto.
  - apply uf_ret. split; [exact G04|]. intros Ht. cbn [fst snd]. destruct (Q Ht) as (-> & -> & Q3). split; [lia|]. rewrite (M4 Ht). eauto.
Qed.

Lemma seq_uf m t e set ea va K T wt : usafe m -> panics_if t -> under env t = RtSlice e -> as_bytes env t = false -> codec env e ea ->
  sound T K -> fits T va t -> uf (upost (reaches t) K T) (sunmarshal (S m) (ASeq t set ea) va wt) K T (ghost (S m) (ASeq t set ea) wt).
Proof using Henv.
  intros IH Pt U B Ce So F. cbn [UnmStep.sunmarshal AnyProof.ghost]. cbv zeta. apply uf_check; [exact So|].
  assert (Ta : T va = Some (KSlice e)) by (eapply fits_one; [exact F|]; rewrite (layout_eq env Henv), U, B; auto).
  assert (Rs : reaches t (KSlice e)) by (apply own_one; rewrite (layout_eq env Henv), U, B; auto).
  destruct (slice_cell env T K va e So Ta) as (nl & base & len & cap & M & L & N & Fs).
  apply uf_urdu; [intros _ er; apply uf_ret; split; [reflexivity|now apply gro_refl]|]. intros h.
  destruct (set_size h >? 0).
  2: { eapply (set_len_uf _ (reaches t)); [exact So|exact Ta|exact Rs| |].
       - intros (nl1 & b1 & l1 & c1 & _ & L1). lia.
       - intros nl1 b1 l1 c1 _ _ G. now apply fin_uf. }
  apply uf_read; [congruence|]. rewrite M.
  eapply (set_len_uf _ (reaches t)); [exact So|exact Ta|exact Rs| |].
  { intros (nl1 & b1 & l1 & c1 & E1 & L1). rewrite M in E1. injection E1 as <- <- <- <-. lia. }
  intros nl1 b1 l1 c1 E1 L1 G1. rewrite M in E1. injection E1 as <- <- <- <-.
  eapply uf_bind.
  { eapply uf_loop_Z; [apply (elem_uf m t e ea (set_elem h) va K T IH Pt U B Ce Ta)|]. split; [exact G1|]. intros _. cbn [fst snd]. split; [lia|].
    do 2 eexists. apply poke_1. }
  intros [[[i c] mz]|r] [y|r'] K2 T2; cbn [eith fst snd]; try contradiction.
  2: { intros [<- G2]. apply uf_ret. split; auto. }
  intros [G2 M2]. pose proof G2 as (X2 & S2 & _).
  eapply (set_len_uf _ (reaches t)); [exact S2|exact (X2 _ _ Ta)|exact Rs| |].
  - intros (nl1 & b1 & l1 & c1 & E1 & L2). apply Pt. intros Ht. destruct (M2 Ht) as [Li (nl2 & b2 & E2)]. rewrite E2 in E1. injection E1 as <- <- <- <-. lia.
  - intros nl1 b1 l1 c1 _ _ G3. apply fin_uf. eapply gro_trans; eauto.
Qed.

(** *** pointers *)
Lemma ptr_uf m t e ea va K T wt : usafe m -> panics_if t -> under env t = RtPtr e -> codec env e ea -> sound T K -> fits T va t ->
  uf (upost (reaches t) K T) (sunmarshal (S m) (APtr t ea) va wt) K T (ghost (S m) (APtr t ea) wt).
Proof using Henv.
  intros IH Pt U Ce So F. cbn [UnmStep.sunmarshal AnyProof.ghost].
  assert (Ta : T va = Some (KPtr e)) by (eapply fits_one; [exact F|]; rewrite (layout_eq env Henv), U; auto).
  assert (Rp : reaches t (KPtr e)) by (apply own_one; rewrite (layout_eq env Henv), U; auto).
  assert (Pe : AnyProof.part env t e) by (intros x Hx; eapply r_ptr; eauto).
  assert (Go : forall K1 T1 b, gro (reaches t) K T K1 T1 -> fits T1 b e -> uf (upost (reaches t) K T) (sunmarshal m ea b wt) K1 T1 (ghost m ea wt)).
  { intros K1 T1 b G1 F1. eapply uf_mono; [|apply (IH e); [eapply panics_part; eauto|exact Ce|apply G1|exact F1]].
    intros K' T' a b' [Eab G']. split; [exact Eab|]. eapply gro_trans; [exact G1|]. eapply gro_mono; [exact Pe|exact G']. }
  apply uf_read; [congruence|].
  destruct (So va _ Ta) as [_ C]. destruct (mem K va) as [| | | | | |[b|]]; try contradiction; cbn in C.
  - apply Go; [now apply gro_refl|exact C].
  - replace (elem_type env t) with e by (unfold elem_type; now rewrite U). cbn [call bind uf]. intros K1 S1 P1.
    destruct (new_ok env nothing T K1 e (zcells e) S1 (zcells_ok env Henv T e)) as (T2 & E2 & F2).
    exists T2. split; [exact E2|]. pose proof (gro_alloc (reaches t) _ _ _ _ _ P1 S1 E2) as G2.
    exists (KPtr e). split; [exact (proj1 G2 _ _ Ta)|]. split; [exact F2|]. apply Go; [|exact F2].
    eapply gro_trans; [exact G2|]. eapply gro_set; [apply G2|exact (proj1 G2 _ _ Ta)|exact F2|exact Rp].
Qed.

Theorem unmarshal_uf n : usafe n.
Proof using Henv.
  induction n as [|m IH]; intros t a va K T wt Pt Ca So F; [right; reflexivity|].
  pose proof (codec_inv env t a Ca) as Ci. pose proof (gro_refl (reaches t) K T So) as G0.
  assert (Leaf : forall u, under env t = u -> layout t = [KLeaf u] -> T va = Some (KLeaf u)) by (intros u _ E; eapply fits_one; eauto).
  destruct a as [t'|t'|t' single|t' w|t' w|t'|t'|t'|t'|t' ka ea|t' set ea|t' ea].
  - subst t'. apply uf_ret. split; auto.
  - destruct Ci as [-> U]. assert (Ly : layout t = [KLeaf RtBool]) by (rewrite (layout_eq env Henv), U; reflexivity). apply uf_check; [exact So|].
    eapply uf_scalar; [exact So|apply Leaf; eauto|now apply own_one|intros x; exact I].
  - destruct Ci as [-> U]. apply uf_check; [exact So|].
    eapply uf_scalar; [exact So|apply Leaf; [exact U|rewrite (layout_eq env Henv), U; now destruct single]|apply own_one; rewrite (layout_eq env Henv), U; now destruct single|intros x; now destruct single].
  - destruct Ci as [-> U]. apply uf_check; [exact So|].
    destruct w; (eapply uf_scalar; [exact So|apply Leaf; [exact U|rewrite (layout_eq env Henv), U; reflexivity]|apply own_one; rewrite (layout_eq env Henv), U; reflexivity|intros x; exact I]).
  - destruct Ci as [-> U]. apply uf_check; [exact So|].
    destruct w; (eapply uf_scalar; [exact So|apply Leaf; [exact U|rewrite (layout_eq env Henv), U; reflexivity]|apply own_one; rewrite (layout_eq env Henv), U; reflexivity|intros x; exact I]).
  - destruct Ci as [-> U]. apply uf_check; [exact So|].
    eapply uf_scalar; [exact So|apply Leaf; [exact U|rewrite (layout_eq env Henv), U; reflexivity]|apply own_one; rewrite (layout_eq env Henv), U; reflexivity|intros x; exact I].
  - destruct Ci as (-> & U & B). cbn [UnmStep.sunmarshal AnyProof.ghost]. apply uf_check; [exact So|].
    assert (Ly : layout t = [KBytes]) by (rewrite (layout_eq env Henv), U, B; reflexivity).
    assert (Ta : T va = Some KBytes) by (eapply fits_one; eauto). assert (Hs := own_one env t _ Ly).
    apply uf_read; [congruence|].
    destruct (So va _ Ta) as [_ C]. destruct (mem K va) as [| | |nl base len cap| | |] eqn:M; try contradiction. cbn in C. destruct C as (L & Nl & By).
    apply uf_urdu.
    + intros x er. eapply uf_pre; [apply (bytes_uf (reaches t)); auto; apply r_byte; exact Hs|]. intros c K' T' [G' _]. apply uf_ret. split; auto.
    + intros x. eapply uf_pre; [apply (bytes_uf (reaches t)); auto; apply r_byte; exact Hs|]. intros c K' T' [G' Cc].
      cbn [call bind uf]. exists KBytes. split; [exact (proj1 G' _ _ Ta)|]. split; [exact Cc|]. exists None. split; [reflexivity|]. split; [reflexivity|].
      eapply gro_trans; [exact G'|]. eapply gro_set; [apply G'|exact (proj1 G' _ _ Ta)|exact Cc|exact Hs].
  - destruct Ci as [-> U]. cbn [UnmStep.sunmarshal AnyProof.ghost]. apply uf_check; [exact So|].
    assert (Ly : layout t = [KLeaf (RtArray 16 RtUint8)]) by (rewrite (layout_eq env Henv), U; reflexivity).
    assert (Ta := Leaf _ U Ly). apply uf_read; [congruence|].
    destruct (So va _ Ta) as [_ C]. destruct (mem K va) as [v| | | | | |]; try contradiction.
    destruct v; try contradiction. cbn in C. destruct C as (_ & _ & Lu).
    unfold urdu, gscalar, rdu. cbn [call bind uf]. do 3 eexists. split; [reflexivity|]. split; [apply al_uuid; [exact Lu|reflexivity]|].
    intros [x ex] [y ey] (Ee & Lx & Ly'). cbn [fst snd] in *. subst ey.
    assert (Cx : cell_ok T (KLeaf (RtArray 16 RtUint8)) (CLeaf (GUUID x))) by (cbn; auto).
    destruct ex; cbn [bind uf]; exists (KLeaf (RtArray 16 RtUint8)); (split; [exact Ta|]); (split; [exact Cx|]); eexists; (split; [reflexivity|]);
      (split; [reflexivity|]); (eapply gro_set; eauto; now apply own_one).
  - destruct Ci as (-> & s & U). cbn [UnmStep.sunmarshal AnyProof.ghost].
    destruct (make_struct_fields env ln t) as [[fs|e]|] eqn:Hfs; [|apply uf_ret; split; auto|right; reflexivity].
    apply uf_check; [exact So|]. apply uf_urdu; [intros _ er; apply uf_ret; split; auto|]. intros _.
    eapply uf_bind.
    { apply (uf_loop_nat (fun K' T' (_ _ : unit) => gro (reaches t) K T K' T') (upost (reaches t) K T)); [|exact G0].
      intros K' T' u u' G'. now apply (field_uf m t s fs va K T). }
    intros [x|r] [y|r'] K2 T2; cbn [eith]; try contradiction; [intros _; right; reflexivity|intros Q; now apply uf_ret].
  - destruct Ci as (-> & kt & et & U & C1 & C2). now apply (map_uf m t kt et).
  - destruct Ci as (-> & e & U & B & C & _). now apply (seq_uf m t e).
  - destruct Ci as (-> & e & U & C). now apply (ptr_uf m t e).
Qed.
End Env.
