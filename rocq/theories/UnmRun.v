(** Executions of goroutines in Unmarshal. *)
From Coq Require Import Strings.String.
From Verif Require Import Base BaseLemmas Prog Wire GoFloat Utf8 GoType Fields Arshal GoTypeProof FieldsProof ArshalSpec
  Heap HeapSpec HeapProof HeapUnmarshal AnySpec AnyProof CycleSpec CycleProof HeapStep StepRun UnmStep UnmSafe.

Section Run.
Context (env : tenv) {S : Type} (h : nat -> handler wireR S) (Hf : forall i, fills (h i)) (Pn : nat -> Prop).
Notation kinds := (nat -> option kind).
(** The start: memory, what of it belongs to which goroutine, what each asks
    its Reader and the state of that. *)
Context (H0 : heap) (T0 : nat -> kinds) (q0 : nat -> prog wireR (option err)) (w0 : nat -> S).

Definition upart (H : heap) (i : nat) (p : prog memU (option err)) (T : kinds) (q : prog wireR (option err)) : Prop :=
  exists K, uf env (Pn i) (fun _ _ a b => a = b) p K T q /\ kept T K H /\ sound env T H.
Definition uapart (T : nat -> kinds) : Prop := forall i j x, i <> j -> T i x <> None -> T j x = None.
Definition uinv (s : usystem (S := S)) : Prop :=
  (next H0 <= next (fst s))%nat /\
  (forall x, (x < next H0)%nat -> (forall i, T0 i x = None) -> mem (fst s) x = mem H0 x) /\
  exists T q, (forall i x, (x < next H0)%nat -> T i x = T0 i x) /\ uapart T /\
    forall i, upart (fst s) i (fst (snd s i)) (T i) (q i) /\ run (h i) (q i) (snd (snd s i)) = run (h i) (q0 i) (w0 i).

Lemma upart_other H H' i p T q : upart H i p T q -> kept T H H' -> (next H <= next H')%nat -> upart H' i p T q.
Proof.
  intros (K & U & Kp & So) E N. exists K. split; [exact U|]. split.
  - intros x k Hx. rewrite (E x k Hx). eauto.
  - intros x k Hx. destruct (So x k Hx) as [L C]. rewrite (E x k Hx). split; [lia|exact C].
Qed.

Lemma uinv_step H g T q i H' p' w' T' q' :
  (next H0 <= next H)%nat -> (forall x, (x < next H0)%nat -> (forall i, T0 i x = None) -> mem H x = mem H0 x) ->
  (forall i x, (x < next H0)%nat -> T i x = T0 i x) -> uapart T ->
  (forall j, upart H j (fst (g j)) (T j) (q j) /\ run (h j) (q j) (snd (g j)) = run (h j) (q0 j) (w0 j)) ->
  upart H' i p' T' q' -> run (h i) q' w' = run (h i) (q0 i) (w0 i) ->
  (forall x, (x < next H)%nat -> T' x = T i x) ->
  (forall x, (x < next H)%nat -> T i x = None -> mem H' x = mem H x) -> (next H <= next H')%nat ->
  uinv (H', put g i (p', w')).
Proof.
  intros N0 M0 Old Ap Ps P' R' Et EM N. split; [|split]; cbn [fst snd].
  - lia.
  - intros x Hx Hn. rewrite EM; [auto|lia|]. now rewrite Old.
  - assert (Low : forall j x, T j x <> None -> (x < next H)%nat).
    { intros j x Hx. destruct (Ps j) as [(K & _ & _ & So) _]. destruct (T j x) as [k|] eqn:E; [|congruence]. now apply (So x k). }
    exists (put T i T'), (put q i q'). split; [|split].
    + intros j x Hx. destruct (Nat.eq_dec j i) as [->|Nj]; [rewrite put_same, Et by lia; auto|rewrite put_other by exact Nj; auto].
    + intros a b x Nab Da.
      destruct (Nat.eq_dec a i) as [->|Na].
      * rewrite put_same in Da. rewrite put_other by auto. destruct (Nat.lt_ge_cases x (next H)) as [L|L].
        -- rewrite Et in Da by exact L. exact (Ap i b x Nab Da).
        -- destruct (T b x) eqn:E; [|reflexivity]. specialize (Low b x ltac:(congruence)). lia.
      * rewrite put_other in Da by exact Na. pose proof (Low a x Da) as L.
        destruct (Nat.eq_dec b i) as [->|Nb]; [rewrite put_same, Et by exact L|rewrite put_other by exact Nb]; exact (Ap a _ x Nab Da).
    + intros j. destruct (Nat.eq_dec j i) as [->|Nj]; [now rewrite !put_same|].
      rewrite !put_other by exact Nj. destruct (Ps j) as [Pj Rj]. split; [|exact Rj]. eapply upart_other; [exact Pj| |exact N].
      intros x k Hx. apply EM; [apply (Low j); congruence|]. apply (Ap j i x Nj). congruence.
Qed.

(** What a step of goroutine [i] changes is its own. *)
Lemma step_own i s s' T q : umoves h i s s' -> upart (fst s) i (fst (snd s i)) T q ->
  forall x, (x < next (fst s))%nat -> T x = None -> mem (fst s') x = mem (fst s) x.
Proof.
  intros Mv (K & U & _) x Lx Tx. destruct Mv as [H g X e k w H' w' y Gi A|H g X e k w c Gi A]; cbn [fst snd] in *; [|reflexivity].
  rewrite Gi in U. cbn [fst] in U. destruct e as [a|a c|cs|X e]; cbn [uf uact fst snd] in U, A.
  - now injection A as <- _ _.
  - injection A as <- _ _. destruct U as (kd & Ta & _). apply poke_other. cbn [length seq]. intros [<-|[]]. congruence.
  - rewrite alloc_eq in A. assert (fst (alloc H cs) = H') as <- by (inversion A; auto). now apply alloc_old.
  - destruct (h i X e w); [|discriminate]. now injection A as <- _ _.
Qed.

Lemma uinv_moves i s s' : uinv s -> umoves h i s s' -> uinv s'.
Proof using Hf.
  intros (N0 & M0 & T & q & Old & Ap & Ps) Mv. pose proof (step_own i s s' (T i) (q i) Mv (proj1 (Ps i))) as Own.
  destruct Mv as [H g X e k w H' w' x Gi A|H g X e k w c Gi A]; cbn [fst snd] in *;
    pose proof (Ps i) as [(K & U & Kp & So) R]; rewrite Gi in U, R; cbn [fst snd] in U, R.
  - destruct e as [a|a c|cs|X e]; cbn [uf uact fst snd] in U, A.
    + injection A as <- <- <-. destruct U as [Ta U].
      apply (uinv_step H g T q i H _ _ (T i) (q i)); auto. exists K. split; [|auto].
      destruct (T i a) as [kd|] eqn:E; [|congruence]. now rewrite (Kp a kd E).
    + injection A as <- <- <-. destruct U as (kd & Ta & Ck & U).
      apply (uinv_step H g T q i _ _ _ (T i) (q i)); auto.
      exists (poke K a [c]). split; [exact U|]. split.
      * intros x k' Hx. unfold poke. cbn [mem]. destruct (Nat.leb a x); [|eauto].
        destruct (x - a)%nat as [|[|m]]; cbn [nth]; eauto.
      * exact (evolves_sound env _ _ _ _ _ (cell_store env (fun _ => True) (T i) H a kd c So Ta Ck I)).
    + rewrite alloc_eq in A. assert (fst (alloc H cs) = H' /\ w = w' /\ next H = x) as (<- & <- & <-) by (inversion A; auto).
      clear A. destruct (U H So Kp) as (T' & E & U').
      apply (uinv_step H g T q i _ _ _ T' (q i)); auto.
      * exists (fst (alloc H cs)). split; [exact U'|]. split; [intros x k' _; reflexivity|]. eapply evolves_sound; eauto.
      * apply E.
      * rewrite alloc_next. lia.
    + destruct U as (e' & R0 & k' & Eq & Al & U). rewrite Eq in R. cbn [run] in R.
      pose proof (alike_run (h i) X e e' R0 w (Hf i) Al) as Sm.
      destruct (h i X e w) as [w1 x1|c]; [|discriminate]. destruct (h i X e' w) as [w2 y|c]; [|contradiction].
      destruct Sm as [<- Rxy]. injection A as <- <- <-.
      apply (uinv_step H g T q i H _ _ (T i) (k' y)); auto. exists K. split; [|auto]. now apply U.
  - destruct e as [a|a c'|cs|X e]; cbn [uf uact fst snd] in U, A; try discriminate.
    destruct U as (e' & R0 & k' & Eq & Al & U). rewrite Eq in R. cbn [run] in R.
    pose proof (alike_run (h i) X e e' R0 w (Hf i) Al) as Sm.
    destruct (h i X e w) as [w1 x1|c1]; [discriminate|]. destruct (h i X e' w) as [w2 y|c2]; [contradiction|].
    subst c2. injection A as <-. apply (uinv_step H g T q i H _ _ (T i) (Crash c1)); auto.
    exists K. split; [|auto]. now right.
Qed.
Lemma uinv_reaches s s' : uinv s -> ureaches h s s' -> uinv s'.
Proof using Hf. intros I R. induction R; [exact I|]. eapply uinv_moves; eauto. Qed.

Lemma uinv_start g : (forall i, sound env (T0 i) H0) -> uapart T0 -> (forall i, snd (g i) = w0 i) ->
  (forall i, uf env (Pn i) (fun _ _ a b => a = b) (fst (g i)) H0 (T0 i) (q0 i)) -> uinv (H0, g).
Proof.
  intros So Ap Gw U. split; [|split]; cbn [fst snd]; auto. exists T0, q0. split; [auto|]. split; [exact Ap|].
  intros i. split; [|now rewrite Gw]. exists H0. split; [apply U|]. split; [intros x k _; reflexivity|apply So].
Qed.

Lemma uinv_races H g i j a b : uinv (H, g) -> i <> j -> uabout_to (fst (g i)) = Some (a, true) -> uabout_to (fst (g j)) <> Some (a, b).
Proof.
  intros (_ & _ & T & q & _ & Ap & Ps) Nij Ai Aj. cbn [fst snd] in *.
  assert (Kn : forall l b', uabout_to (fst (g l)) = Some (a, b') -> T l a <> None).
  { intros l b' Al. destruct (Ps l) as [(K & U & _) _]. destruct (fst (g l)) as [e|X e k|c]; cbn [uabout_to] in Al; try discriminate.
    destruct e as [a'|a' c|cs|X e]; cbn [uf] in U; try discriminate; injection Al as -> <-; [apply U|].
    destruct U as (kd & Ta & _). congruence. }
  apply (Kn j b Aj). exact (Ap i j a Nij (Kn i true Ai)).
Qed.

(** A goroutine that has come to an end. *)
Lemma uinv_ends H g i : uinv (H, g) ->
  match fst (g i) with
  | Ret e => run (h i) (q0 i) (w0 i) = Done (snd (g i)) e
  | Crash c => (c = Panicked /\ Pn i) \/ run (h i) (q0 i) (w0 i) = Crashed c
  | Vis _ _ => True
  end.
Proof.
  intros (_ & _ & T & q & _ & _ & Ps). destruct (Ps i) as [(K & U & _) R]. cbn [fst snd] in *. rewrite <- R.
  destruct (fst (g i)) as [e|X e k|c]; cbn [uf] in U; [| exact I |].
  - destruct U as (b & -> & <-). reflexivity.
  - destruct U as [U| ->]; [now left|now right].
Qed.
End Run.

(** ** Every execution ends *)
Definition uafter {A} (p' p : prog memU A) : Prop :=
  match p with Vis e k => (exists x, p' = k x) \/ (exists c, p' = Crash c) | _ => False end.
Lemma uafter_wf {A} (p : prog memU A) : Acc uafter p.
Proof.
  induction p as [a|X e k IH|c]; constructor; [intros p' []| |intros p' []].
  intros p' [(x & ->)|(c & ->)]; [apply IH|]. constructor. intros p' [].
Qed.
Definition uone_after {A} (N : nat) (g' g : nat -> prog memU A) : Prop :=
  exists i, (i < N)%nat /\ uafter (g' i) (g i) /\ forall j, j <> i -> g' j = g j.
Lemma uone_after_wf {A} N : forall g : nat -> prog memU A, Acc (uone_after N) g.
Proof.
  induction N as [|N IH]; intros g; [constructor; intros g' (i & L & _); lia|].
  remember (g N) as p eqn:E. revert g E. induction (uafter_wf p) as [p _ IHp]. intros g E.
  induction (IH g) as [g _ IHg]. constructor. intros g' (i & L & Af & Eq).
  destruct (Nat.eq_dec i N) as [->|Ne].
  - eapply IHp; [|reflexivity]. rewrite E. exact Af.
  - apply IHg; [|rewrite Eq by auto; exact E]. exists i. conj; auto. lia.
Qed.
Section Ends.
Context {S : Type} (h : nat -> handler wireR S) (N : nat).
Definition uidle (s : usystem (S := S)) : Prop := forall i, (N <= i)%nat -> fst (snd s i) = Ret None.
Lemma umoves_after i s s' : uidle s -> umoves h i s s' -> uidle s' /\ uone_after N (fun i => fst (snd s' i)) (fun i => fst (snd s i)).
Proof.
  intros Id Mv.
  assert (Go : forall H g X (e : memU X) k w H' p' w', g i = (Vis e k, w) -> uidle (H, g) -> uafter p' (Vis e k) ->
    uidle (H', put g i (p', w')) /\ uone_after N (fun i0 => fst (put g i (p', w') i0)) (fun i0 => fst (g i0))).
  { intros H g X e k w H' p' w' Gi Ig Af. unfold uidle in *. cbn [fst snd] in *.
    assert (L : (i < N)%nat).
    { destruct (Nat.lt_ge_cases i N) as [L|L]; [exact L|]. specialize (Ig i L). rewrite Gi in Ig. discriminate. }
    split.
    - intros j Lj. rewrite put_other by lia. auto.
    - exists i. conj; [exact L| |].
      + rewrite put_same, Gi. exact Af.
      + intros j Nj. now rewrite put_other. }
  destruct Mv as [H g X e k w H' w' x Gi A|H g X e k w c Gi A].
  - eapply Go; eauto. left. eauto.
  - eapply Go; eauto. right. eauto.
Qed.
Lemma umoves_end s : uidle s -> Acc (fun y x => exists i, umoves h i x y) s.
Proof.
  intros Id. remember (fun i => fst (snd s i)) as g eqn:E.
  revert s Id E. induction (uone_after_wf N g) as [g _ IH]. intros s Id E. constructor. intros s' [i Mv].
  destruct (umoves_after i s s' Id Mv) as [Id' O]. eapply IH; [|exact Id'|reflexivity]. now rewrite E.
Qed.
End Ends.
