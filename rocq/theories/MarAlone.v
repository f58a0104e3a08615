(** Marshal one access to memory at a time (HeapStep.v), with no other
    goroutines, does what Marshal in one go (Heap.v) does. *)
From Coq Require Import Strings.String.
From Verif Require Import Base BaseLemmas Prog Wire GoFloat Utf8 GoType Fields Arshal Heap HeapProof HeapStep UnmAlone.

Section IsZero.
Context (isZero : rtype -> heap -> nat -> bool).
(** [p] in memory [H] asks its Writer what [q] does, unless [q] panics. *)
Fixpoint mq {A B} (Q : heap -> A -> B -> Prop) (p : prog memE A) (H : heap) (q : prog wireW B) {struct p} : Prop :=
  q = Crash Panicked \/
  match p with
  | Ret a => exists b, q = Ret b /\ Q H a b
  | Crash c => q = Crash c
  | Vis e k =>
      match e in memE X return (X -> heap -> prog wireW B -> Prop) -> Prop with
      | MRead a => fun r => r (mem H a) H q
      | MWrite a c => fun r => r tt (poke H a [c]) q
      | MZero t a => fun r => r (isZero t H a) H q
      | MAlloc cs => fun r => r (next H) (fst (alloc H cs)) q
      | @MWire X e => fun r => exists k', q = Vis e k' /\ forall x, r x H (k' x)
      end (fun x H q => mq Q (k x) H q)
  end.
Lemma mq_panic {A B} (Q : _ -> A -> B -> Prop) p H : mq Q p H (Crash Panicked).
Proof. destruct p; now left. Qed.
Lemma mq_bind {A B A' B'} (Q : _ -> A -> B -> Prop) (R : _ -> A' -> B' -> Prop) f g p : forall H q,
  mq Q p H q -> (forall a b H', Q H' a b -> mq R (f a) H' (g b)) -> mq R (bind p f) H (bind q g).
Proof.
  induction p as [a|X e k IH|c]; intros H q [-> |U] F; try apply mq_panic.
  - destruct U as (b & -> & U). now apply F.
  - right. destruct e as [a|a c|cs|t a|X e]; cbn [bind] in *; try (apply IH; auto; fail).
    destruct U as (k' & -> & U). exists (fun y => bind (k' y) g). split; [reflexivity|]. intros x. now apply IH.
  - subst q. now right.
Qed.
Lemma mq_pre {A A' B'} (Q : _ -> A -> unit -> Prop) (R : _ -> A' -> B' -> Prop) f p H q :
  mq Q p H (Ret tt) -> (forall a H', Q H' a tt -> mq R (f a) H' q) -> mq R (bind p f) H q.
Proof. intros U F. apply (mq_bind Q R f (fun _ => q) p H (Ret tt) U). intros a [] H'. apply F. Qed.
Lemma mq_ret {A B} (Q : _ -> A -> B -> Prop) a b H : Q H a b -> mq Q (Ret a) H (Ret b).
Proof. right. exists b. auto. Qed.
Lemma mq_crash {A B} (Q : _ -> A -> B -> Prop) c H : mq Q (Crash c) H (Crash c).
Proof. now right. Qed.
Lemma mq_read {A B} (Q : _ -> A -> B -> Prop) f a H q : mq Q (f (mem H a)) H q -> mq Q (bind (call (MRead a)) f) H q.
Proof. intros U. right. exact U. Qed.
Lemma mq_write {A B} (Q : _ -> A -> B -> Prop) f a c H q : mq Q (f tt) (poke H a [c]) q -> mq Q (bind (call (MWrite a c)) f) H q.
Proof. intros U. right. exact U. Qed.
Lemma mq_alloc {A B} (Q : _ -> A -> B -> Prop) f cs H q : mq Q (f (next H)) (fst (alloc H cs)) q -> mq Q (bind (call (MAlloc cs)) f) H q.
Proof. intros U. right. exact U. Qed.
Lemma mq_embed {A} (p : prog wireW A) H : mq (fun H' a b => H' = H /\ a = b) (embed p) H p.
Proof. induction p as [a|X e k IH|c]; right; [exists a; auto|exists k; auto|reflexivity]. Qed.

Lemma mq_run {A B S} (Q : heap -> A -> B -> Prop) (h : handler wireW S) p : forall H q s s' b,
  mq Q p H q -> run h q s = Done s' b -> exists H' a, run (act isZero h) p (H, s) = Done (H', s') a /\ Q H' a b.
Proof.
  induction p as [a|X e k IH|c]; intros H q s s' b [-> |U] R; try discriminate.
  - destruct U as (b' & -> & U). injection R as <- <-. exists H, a. auto.
  - destruct e as [a|a c|cs|t a|X e]; cbn [run act fst snd] in *; try (eapply IH; eauto; fail).
    destruct U as (k' & -> & U). cbn [run] in R. destruct (h X e s) as [s1 x|c]; [|discriminate]. eapply IH; eauto.
  - subst q. discriminate.
Qed.

Lemma mq_mono {A B} (Q R : heap -> A -> B -> Prop) p : forall H q, (forall H a b, Q H a b -> R H a b) -> mq Q p H q -> mq R p H q.
Proof.
  induction p as [a|X e k IH|c]; intros H q Hi [-> |U]; try apply mq_panic.
  - destruct U as (b & -> & U). apply mq_ret. auto.
  - right. destruct e as [a|a c|cs|t a|X e]; auto. destruct U as (k' & -> & U). exists k'. auto.
  - now right.
Qed.
Lemma mq_rd n : forall H a, mq (fun H' cs _ => H' = H /\ cs = Heap.peek H a n) (rd_cells a n) H (Ret tt).
Proof.
  induction n as [|n IH]; intros H a; cbn [rd_cells]; [now apply mq_ret|]. apply mq_read.
  eapply mq_pre; [apply IH|]. intros cs H' [-> ->]. now apply mq_ret.
Qed.
Lemma mq_wr cs : forall H a, mq (fun H' (_ _ : unit) => heq H' (poke H a cs)) (wr_cells a cs) H (Ret tt).
Proof.
  induction cs as [|c cs IH]; intros H a; cbn [wr_cells].
  - apply mq_ret. split; [reflexivity|]. intros x. symmetry. apply poke_none.
  - apply mq_write. pose proof (IH (poke H a [c]) (S a)) as K. clear IH.
    eapply mq_mono; [|exact K]. cbn beta. intros H' _ _ E. eapply heq_trans; [exact E|apply poke_cons].
Qed.

Lemma mq_rd_k {A B} (R : heap -> A -> B -> Prop) f a n H H' q : heq H H' ->
  mq R (f (Heap.peek H' a n)) H q -> mq R (bind (rd_cells a n) f) H q.
Proof. intros E U. eapply mq_pre; [apply mq_rd|]. intros cs H1 [-> ->]. now rewrite (heq_peek _ _ _ _ E). Qed.
Lemma mq_wr_k {A B} (R : heap -> A -> B -> Prop) f a cs H H' q : heq H H' ->
  (forall H1, heq H1 (poke H' a cs) -> mq R (f tt) H1 q) -> mq R (bind (wr_cells a cs) f) H q.
Proof.
  intros E U. eapply mq_pre; [apply mq_wr|]. intros [] H1 E1. apply U. eapply heq_trans; [exact E1|now apply heq_poke].
Qed.
Lemma mq_write_k {A B} (R : heap -> A -> B -> Prop) f a c H H' q : heq H H' ->
  (forall H1, heq H1 (poke H' a [c]) -> mq R (f tt) H1 q) -> mq R (bind (call (MWrite a c)) f) H q.
Proof. intros E U. apply mq_write, U. now apply heq_poke. Qed.
Lemma mq_alloc_k {A B} (R : heap -> A -> B -> Prop) f cs H H' q : heq H H' ->
  (forall H1, heq H1 (fst (alloc H' cs)) -> mq R (f (next H')) H1 q) -> mq R (bind (call (MAlloc cs)) f) H q.
Proof. intros E U. apply mq_alloc. rewrite (proj1 E). apply U. now apply heq_alloc. Qed.
Lemma mq_read_k {A B} (R : heap -> A -> B -> Prop) f a H H' q : heq H H' ->
  mq R (f (mem H' a)) H q -> mq R (bind (call (MRead a)) f) H q.
Proof. intros E U. apply mq_read. now rewrite (proj2 E). Qed.
Lemma mq_call {A} (R : heap -> A -> unit -> Prop) (e : memE A) H q : mq R (bind (call e) Ret) H q -> mq R (call e) H q.
Proof. auto. Qed.
Lemma mq_tail {A} (R : heap -> unit -> A -> Prop) p H q : mq R (bind p (fun _ => Ret tt)) H q -> mq R p H q.
Proof.
  revert H q. induction p as [[]|X e k IH|c]; intros H q U; auto.
  destruct U as [-> |U]; [apply mq_panic|]. right. destruct e as [a|a c|cs|t a|X e]; cbn [bind] in *; auto.
  destruct U as (k' & -> & U). exists k'. auto.
Qed.


Section Alone.
Context (env : tenv) (ln : nat).
(** A method looks at memory, not at how Coq writes it down. *)
Context (Hz : forall t H H' a, heq H H' -> isZero t H a = isZero t H' a).

Lemma mq_hwr action wt t e H H' : heq H H' -> mq same (swr action wt t e) H (hwr action wt t e H').
Proof.
  intros E. unfold swr, hwr. 
  assert (K : forall p : prog wireW (option err), mq same (embed p) H (bind p (fun r => Ret (H', r)))); [|apply K].
  induction p as [a|X ev k IH|c]; [apply mq_ret; now split| |now right].
  right. cbn [embed bind]. eexists. split; [reflexivity|]. exact IH.
Qed.
Lemma mq_then p q k k' H : mq same p H q -> (forall H1 H2, heq H1 H2 -> mq same k H1 (k' H2)) -> mq same (p >>! k) H (hthen q k').
Proof.
  intros U K. unfold and_then, hthen. eapply mq_bind; [exact U|]. intros e [H2 e'] H1 [E Ee]. cbn [fst snd] in *. subst e'.
  destruct e; [apply mq_ret; now split|now apply K].
Qed.
Lemma mq_field_zero {A B} (R : heap -> A -> B -> Prop) f a k H H' q : heq H H' ->
  mq R (k (hfield_zero env isZero f H' a)) H q -> mq R (bind (sfield_zero env f a) k) H q.
Proof using Hz.
  intros E U. unfold hfield_zero, sfield_zero in *. destruct (f_isZero f).
  - right. cbn [bind call]. now rewrite (Hz _ _ _ _ E).
  - eapply mq_pre with (Q := fun H1 z _ => H1 = H /\ z = cells_zero env (Heap.peek H' a (size env (f_typ f)))).
    + eapply mq_rd_k; [exact E|]. now apply mq_ret.
    + intros z H1 [-> ->]. exact U.
Qed.

Section Rec.
Context (rec : arsh -> nat -> prog memE (option err)) (rec' : arsh -> nat -> heap -> prog wireW (heap * option err)).
Context (IH : forall a va H H', heq H H' -> mq same (rec a va) H (rec' a va H')).

Lemma mq_fields t va fs : forall H H', heq H H' -> mq same (smarshal_fields env rec t va fs) H (hmarshal_fields env isZero rec' t va fs H').
Proof using IH Hz.
  induction fs as [|f fs IHf]; intros H H' E; cbn [smarshal_fields hmarshal_fields]; [now apply mq_hwr|].
  destruct (wire_type (f_fncs f) =? T_Stop); [apply mq_ret; now split|].
  destruct (nth_error _ _); [|apply mq_panic]. cbv zeta.
  assert (K : mq same (swr "WriteFieldBegin" T_Struct t (WFieldBegin (mkFH (f_name f) (wire_type (f_fncs f)) (f_id f))) >>!
              rec (f_fncs f) (field_addr env t (f_index f) va) >>!
              swr "WriteFieldEnd" T_Struct t WFieldEnd >>!
              smarshal_fields env rec t va fs) H
             (hthen (hwr "WriteFieldBegin" T_Struct t
                       (WFieldBegin (mkFH (f_name f) (wire_type (f_fncs f)) (f_id f))) H') (fun H =>
              hthen (rec' (f_fncs f) (field_addr env t (f_index f) va) H) (fun H =>
              hthen (hwr "WriteFieldEnd" T_Struct t WFieldEnd H) (fun H =>
              hmarshal_fields env isZero rec' t va fs H))))).
  { apply mq_then; [now apply mq_hwr|]. intros H1 H2 E1. apply mq_then; [now apply IH|]. intros H3 H4 E3.
    apply mq_then; [now apply mq_hwr|]. exact IHf. }
  destruct (f_required f); cbn [negb andb]; [exact K|].
  eapply mq_field_zero; [exact E|]. destruct (hfield_zero _ _ _ _ _); [now apply IHf|exact K].
Qed.
Lemma mq_entries t ka ea k v es : forall H H', heq H H' -> mq same (smarshal_entries env rec t ka ea k v es) H (hmarshal_entries env rec' t ka ea k v es H').
Proof using IH.
  induction es as [|[a b] es IHe]; intros H H' E; cbn [smarshal_entries hmarshal_entries]; [now apply mq_hwr|].
  apply mq_then; [|intros H1 H2 E1; apply mq_then; [|exact IHe]].
  - eapply mq_rd_k; [exact E|]. eapply mq_wr_k; [exact E|]. intros H1 E1. now apply IH.
  - eapply mq_rd_k; [exact E1|]. eapply mq_wr_k; [exact E1|]. intros H3 E3. now apply IH.
Qed.
Lemma mq_elems t set ea n : forall a H H', heq H H' -> mq same (smarshal_elems env rec t set ea a n) H (hmarshal_elems env rec' t set ea a n H').
Proof using IH.
  induction n as [|n IHn]; intros a H H' E; cbn [smarshal_elems hmarshal_elems]; [destruct set; now apply mq_hwr|].
  apply mq_then; [now apply IH|]. intros H1 H2. apply IHn.
Qed.
End Rec.

Theorem smarshal_alone n : forall a va H H', heq H H' ->
  mq same (smarshal env ln n a va) H (hmarshal env ln isZero n a va H').
Proof using Hz.
  induction n as [|m IH]; intros a va H H' E; [apply mq_crash|].
  destruct a as [t|t|t single|t w|t w|t|t|t|t|t ka ea|t set ea|t ea]; cbn [smarshal hmarshal].
  - apply mq_ret. now split.
  - eapply mq_read_k; [exact E|]. destruct (mem H' va) as [v| | | | | |]; try apply mq_panic. destruct v; try apply mq_panic. now apply mq_hwr.
  - eapply mq_read_k; [exact E|]. destruct (mem H' va) as [v| | | | | |]; try apply mq_panic. destruct v, single; try apply mq_panic; now apply mq_hwr.
  - eapply mq_read_k; [exact E|]. destruct (mem H' va) as [v| | | | | |]; try apply mq_panic. destruct v; try apply mq_panic. now apply mq_hwr.
  - eapply mq_read_k; [exact E|]. destruct (mem H' va) as [v| | | | | |]; try apply mq_panic. destruct v; try apply mq_panic. now apply mq_hwr.
  - eapply mq_read_k; [exact E|]. destruct (mem H' va) as [v| | | | | |]; try apply mq_panic. destruct v; try apply mq_panic. now apply mq_hwr.
  - eapply mq_read_k; [exact E|]. destruct (mem H' va); try apply mq_panic.
    eapply mq_rd_k; [exact E|]. now apply mq_hwr.
  - eapply mq_read_k; [exact E|]. destruct (mem H' va) as [v| | | | | |]; try apply mq_panic. destruct v; try apply mq_panic. now apply mq_hwr.
  - destruct (make_struct_fields env ln t) as [[fs|e]|]; [|apply mq_ret; now split|apply mq_crash].
    destruct (mem H' va); try apply mq_panic. apply mq_then; [now apply mq_hwr|]. intros H1 H2 E1. now apply mq_fields.
  - destruct (_ || _); [apply mq_ret; now split|]. eapply mq_read_k; [exact E|].
    destruct (mem H' va) as [| | | |o| |]; try apply mq_panic. cbv zeta.
    eapply mq_pre with (Q := fun H1 es _ => H1 = H /\ es = match o with Some mp => match mem H' mp with CEntries es => es | _ => [] end | None => [] end).
    { destruct o as [mp|]; [|now apply mq_ret]. eapply mq_read_k; [exact E|]. now apply mq_ret. }
    intros es H1 [-> ->]. apply mq_then; [now apply mq_hwr|]. clear H E. intros H H2 E.
    rewrite alloc_eq. eapply mq_alloc_k; [exact E|]. clear H E. intros H E.
    rewrite alloc_eq. eapply mq_alloc_k; [exact E|]. clear H E. intros H E. now apply mq_entries.
  - destruct (wire_type ea =? T_Stop); [apply mq_ret; now split|]. eapply mq_read_k; [exact E|].
    destruct (mem H' va); try apply mq_panic. apply mq_then; [destruct set; now apply mq_hwr|].
    intros H1 H2 E1. now apply mq_elems.
  - eapply mq_read_k; [exact E|]. destruct (mem H' va) as [| | | | | |[b|]]; try apply mq_panic; [now apply IH|].
    rewrite alloc_eq. eapply mq_alloc_k; [exact E|]. intros H1 E1. now apply IH.
Qed.
Theorem sMarshal_alone n t cs H :
  mq same (sMarshal env ln n t cs) H (hMarshal env ln isZero n (Some (t, cs)) H).
Proof using Hz.
  unfold sMarshal, hMarshal. destruct (is_ptr env t).
  - destruct cs as [|c [|c' cs]]; try apply mq_panic; [|destruct c as [| | | | | |[p|]]; apply mq_panic].
    destruct c as [| | | | | |[p|]]; try apply mq_panic.
    + destruct (lookup _ _ _); [|apply mq_crash]. apply smarshal_alone, heq_refl.
    + apply mq_ret. split; [apply heq_refl|reflexivity].
  - destruct (lookup _ _ _); [|apply mq_crash]. rewrite alloc_eq.
    eapply mq_alloc_k; [apply heq_refl|]. intros H1 E1. now apply smarshal_alone.
Qed.
End Alone.

(** A goroutine that goes on while the others wait. *)
Lemma mruns_alone {S} (h : nat -> handler wireW S) i p : forall H w (g : nat -> prog memE (option err) * S) H' w' a,
  g i = (p, w) -> run (act isZero (h i)) p (H, w) = Done (H', w') a ->
  exists g', (forall x, reaches_system isZero h x (H, g) -> reaches_system isZero h x (H', g')) /\ g' i = (Ret a, w') /\ forall j, j <> i -> g' j = g j.
Proof.
  induction p as [a|X e k IH|c]; intros H w g H' w' a' G R; cbn [run] in R; [| |discriminate].
  - injection R as <- <- <-. exists g. auto.
  - destruct (act isZero (h i) X e (H, w)) as [[H1 w1] x|c] eqn:A; [|discriminate].
    destruct (IH x H1 w1 (put g i (k x, w1)) H' w' a') as (g' & K & G' & O).
    + unfold put. now rewrite Nat.eqb_refl.
    + exact R.
    + exists g'. split; [|split; [exact G'|]].
      * intros y Y. apply K. eapply rs_step; [exact Y|]. eapply moves_on; eauto.
      * intros j J. rewrite (O j J). unfold put. destruct (Nat.eqb_spec j i); [contradiction|reflexivity].
Qed.
End IsZero.
