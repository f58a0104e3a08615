(** Every interleaving of goroutines in Marshal. *)
From Coq Require Import Strings.String.
From Verif Require Import Base BaseLemmas Prog Wire GoFloat Utf8 GoType Fields Arshal GoTypeProof FieldsProof ArshalSpec
  Heap HeapSpec HeapProof HeapUnmarshal HeapMarshal HeapStep StepProof.

Section Run.
Context (isZero : rtype -> heap -> nat -> bool) {S : Type} (h : nat -> handler wireW S).
Context (H0 : heap) (q0 : nat -> prog wireW (option err)) (w0 : nat -> S).

Definition same (K : heap) (D : nat -> Prop) (e e' : option err) : Prop := e = e'.

(** What goroutine [i] knows and has yet to do. *)
Definition part (H : heap) (i : nat) (p : prog memE (option err)) (w : S) (D : nat -> Prop) : Prop :=
  exists K q, tr isZero (next H0) same p K D q /\ agrees D K H /\
    (forall x, (x < next H0)%nat -> D x) /\ (forall x, D x -> (x < next H)%nat) /\
    run (h i) (q0 i) (w0 i) = run (h i) q w.
Definition apart (D : nat -> nat -> Prop) : Prop := forall i j x, i <> j -> D i x -> D j x -> (x < next H0)%nat.
Definition inv (s : system (S := S)) : Prop :=
  (forall x, (x < next H0)%nat -> mem (fst s) x = mem H0 x) /\ (next H0 <= next (fst s))%nat /\
  exists D, (forall i, part (fst s) i (fst (snd s i)) (snd (snd s i)) (D i)) /\ apart D.

Lemma part_other H H' i p w (D : nat -> Prop) : part H i p w D -> (forall x, D x -> mem H' x = mem H x) -> (next H <= next H')%nat ->
  part H' i p w D.
Proof.
  intros (K & q & T & Ag & Lo & Hi & R) E N. exists K, q. conj; auto.
  - intros x Dx. rewrite E by exact Dx. now apply Ag.
  - intros x Dx. specialize (Hi x Dx). lia.
Qed.

Lemma put_same {X} (f : nat -> X) i x : put f i x i = x.
Proof. unfold put. now rewrite Nat.eqb_refl. Qed.
Lemma put_other {X} (f : nat -> X) i j x : j <> i -> put f i x j = f j.
Proof. intros N. unfold put. now rewrite (proj2 (Nat.eqb_neq j i) N). Qed.

(** Only goroutine [i] has changed. *)
Lemma inv_step H g D i H' p' w' (D' : nat -> Prop) :
  (forall x, (x < next H0)%nat -> mem H x = mem H0 x) -> (next H0 <= next H)%nat ->
  (forall j, part H j (fst (g j)) (snd (g j)) (D j)) -> apart D ->
  part H' i p' w' D' ->
  (forall x, D' x -> D i x \/ (next H <= x)%nat) ->
  (forall x, (x < next H0)%nat \/ ~ D i x -> (x < next H)%nat -> mem H' x = mem H x) -> (next H <= next H')%nat ->
  inv (H', put g i (p', w')).
Proof.
  intros M0 N0 Ps Ap P' ID EM N. split; [|split]; cbn [fst snd].
  - intros x Hx. rewrite EM; [auto|now left|lia].
  - lia.
  - exists (put D i D'). split.
    + intros j. destruct (Nat.eq_dec j i) as [->|Nj]; [now rewrite !put_same|].
      rewrite !put_other by exact Nj. eapply part_other; [apply Ps| |exact N].
      intros x Dx. apply EM.
      * destruct (Nat.lt_ge_cases x (next H0)) as [L|G]; [now left|]. right. intros Di.
        specialize (Ap i j x (not_eq_sym Nj) Di Dx). lia.
      * destruct (Ps j) as (K & q & _ & _ & _ & Hi & _). now apply Hi.
    + intros a b x Nab Da Db.
      assert (Old : forall j, j <> i -> D j x -> D' x -> (x < next H0)%nat).
      { intros j Nj Dj Dx. destruct (ID x Dx) as [Di|G]; [exact (Ap i j x (not_eq_sym Nj) Di Dj)|].
        destruct (Ps j) as (K & q & _ & _ & _ & Hi & _). specialize (Hi x Dj). lia. }
      destruct (Nat.eq_dec a i) as [->|Na].
      * rewrite put_same in Da. rewrite put_other in Db by auto. exact (Old b (not_eq_sym Nab) Db Da).
      * rewrite put_other in Da by exact Na. destruct (Nat.eq_dec b i) as [->|Nb].
        -- rewrite put_same in Db. exact (Old a Na Da Db).
        -- rewrite put_other in Db by exact Nb. exact (Ap a b x Nab Da Db).
Qed.

Lemma inv_moves s s' : inv s -> moves isZero h s s' -> inv s'.
Proof.
  intros (M0 & N0 & D & Ps & Ap) Mv.
  destruct Mv as [H g i X e k w H' w' x Gi A|H g i X e k w c Gi A]; cbn [fst snd] in *;
    pose proof (Ps i) as (K & q & T & Ag & Lo & Hi & R); rewrite Gi in T, R; cbn [fst snd] in T, R.
  - destruct e as [a|a c|cs|t a|X e]; cbn [tr act fst snd] in T, A.
    + injection A as <- <- <-. destruct T as [Da T].
      eapply (inv_step H g D i H _ _ (D i)); auto. exists K, q. conj; auto. now rewrite (Ag a Da).
    + injection A as <- <- <-. destruct T as (Da & Na & T).
      eapply (inv_step H g D i _ _ _ (D i)); auto.
      * exists (poke K a [c]), q. conj; auto. intros x Dx. unfold poke. cbn [mem]. destruct (Nat.leb a x); [|now apply Ag].
        destruct (x - a)%nat as [|[|m]]; cbn [nth]; auto.
      * intros x [L|Nx] _; apply poke_other; cbn [length seq]; intros [<-|[]]; [lia|contradiction].
    + rewrite alloc_eq in A. assert (fst (alloc H cs) = H' /\ w = w' /\ next H = x) as (<- & <- & <-) by (inversion A; auto).
      clear A.
      eapply (inv_step H g D i _ _ _ (fun x => D i x \/ In x (seq (next H) (length cs)))); auto.
      * exists (fst (alloc H cs)), q. conj; auto.
        -- apply T; [exact N0| | |apply alloc_peek].
           ++ intros x Dx I. specialize (Hi x Dx). apply in_seq in I. lia.
           ++ intros x Dx. rewrite alloc_old by now apply Hi. now apply Ag.
        -- intros x _. reflexivity.
        -- intros x [Dx|I]; rewrite alloc_next; [specialize (Hi x Dx); lia|apply in_seq in I; lia].
      * intros x [Dx|I]; [now left|]. apply in_seq in I. right. lia.
      * intros x _ L. now apply alloc_old.
      * rewrite alloc_next. lia.
    + injection A as <- <- <-. destruct T as (z & Zz & T). rewrite (Zz H Ag).
      eapply (inv_step H g D i H _ _ (D i)); auto. exists K, q. conj; auto.
    + destruct T as (k' & -> & T). cbn [run] in R. destruct (h i X e w) as [w1 x1|c]; [|discriminate].
      injection A as <- <- <-. eapply (inv_step H g D i H _ _ (D i)); auto. exists K, (k' x1). conj; auto.
  - destruct e as [a|a c'|cs|t a|X e]; cbn [tr act fst snd] in T, A; try discriminate.
    + destruct T as (k' & -> & T). cbn [run] in R. destruct (h i X e w) as [w1 x1|c1]; [discriminate|].
      injection A as <-. eapply (inv_step H g D i H _ _ (D i)); auto. exists K, (Crash c1). conj; auto. reflexivity.
Qed.

Lemma inv_reaches s s' : inv s -> reaches_system isZero h s s' -> inv s'.
Proof. intros I R. induction R; [exact I|]. eapply inv_moves; eauto. Qed.

Lemma inv_start g : (forall i, snd (g i) = w0 i) ->
  (forall i, tr isZero (next H0) same (fst (g i)) H0 (fun x => (x < next H0)%nat) (q0 i)) -> inv (H0, g).
Proof.
  intros W T. split; [|split]; cbn [fst snd]; auto. exists (fun _ x => (x < next H0)%nat). split.
  - intros i. exists H0, (q0 i). rewrite W. conj; auto. intros x _. reflexivity.
  - intros i j x _ L _. exact L.
Qed.

Lemma inv_ends H g i : inv (H, g) ->
  match fst (g i) with
  | Ret e => run (h i) (q0 i) (w0 i) = Done (snd (g i)) e
  | Crash c => run (h i) (q0 i) (w0 i) = Crashed c
  | Vis _ _ => True
  end.
Proof.
  intros (_ & _ & D & Ps & _). destruct (Ps i) as (K & q & T & _ & _ & _ & R). cbn [fst snd] in *.
  destruct (fst (g i)) as [e|X e k|c]; [|exact I|]; cbn [tr] in T.
  - destruct T as (b & -> & E). unfold same in E. now subst b.
  - now subst q.
Qed.

Lemma about_tr (p : prog memE (option err)) K D q a b : tr isZero (next H0) same p K D q -> about_to p = Some (a, b) ->
  D a /\ (b = true -> (next H0 <= a)%nat).
Proof.
  destruct p as [e|X e k|c]; cbn [about_to]; try discriminate.
  destruct e as [a'|a' c|cs|t a'|X e]; cbn [tr]; try discriminate.
  - intros [Da _] E. injection E as <- <-. split; [exact Da|discriminate].
  - intros (Da & N & _) E. injection E as <- <-. auto.
Qed.

Lemma inv_races H g i j a b : inv (H, g) -> i <> j -> about_to (fst (g i)) = Some (a, true) -> about_to (fst (g j)) <> Some (a, b).
Proof.
  intros (_ & _ & D & Ps & Ap) Nij Ai Aj. cbn [fst snd] in *.
  destruct (Ps i) as (K & q & T & _). destruct (Ps j) as (K' & q' & T' & _).
  destruct (about_tr _ _ _ _ _ _ T Ai) as [Di Ni]. destruct (about_tr _ _ _ _ _ _ T' Aj) as [Dj _].
  specialize (Ni eq_refl). specialize (Ap i j a Nij Di Dj). lia.
Qed.

(** On its own from here, a goroutine comes to the end [q] comes to. *)
Lemma tr_run i (p : prog memE (option err)) : forall K (D : nat -> Prop) q H w, tr isZero (next H0) same p K D q -> agrees D K H ->
  (next H0 <= next H)%nat -> (forall x, D x -> (x < next H)%nat) ->
  match run (h i) q w with
  | Done w' e => exists H', run (act isZero (h i)) p (H, w) = Done (H', w') e
  | Crashed c => run (act isZero (h i)) p (H, w) = Crashed c
  end.
Proof.
  induction p as [e|X e k IH|c]; intros K D q H w T Ag N Hi; cbn [tr] in T.
  - destruct T as (b & -> & E). unfold same in E. subst b. cbn [run]. eauto.
  - destruct e as [a|a c|cs|t a|X e]; cbn [run act fst snd].
    + destruct T as [Da T]. rewrite (Ag a Da). eapply IH; eauto.
    + destruct T as (Da & Na & T). eapply IH; eauto.
      intros x Dx. unfold poke. cbn [mem]. destruct (Nat.leb a x); [|now apply Ag].
      destruct (x - a)%nat as [|[|m]]; cbn [nth]; auto.
    + rewrite alloc_eq. eapply (IH _ (fst (alloc H cs)) (fun x => D x \/ In x (seq (next H) (length cs)))).
      * apply T; [exact N| | |apply alloc_peek].
        -- intros x Dx I. specialize (Hi x Dx). apply in_seq in I. lia.
        -- intros x Dx. rewrite alloc_old by now apply Hi. now apply Ag.
      * intros x _. reflexivity.
      * rewrite alloc_next. lia.
      * intros x [Dx|I]; rewrite alloc_next; [specialize (Hi x Dx); lia|apply in_seq in I; lia].
    + destruct T as (z & Zz & T). rewrite (Zz H Ag). eapply IH; eauto.
    + destruct T as (k' & -> & T). cbn [run]. destruct (h i X e w) as [w1 x1|c]; [|reflexivity].
      eapply IH; eauto.
  - subst q. reflexivity.
Qed.

Lemma inv_alone H g i : inv (H, g) ->
  match run (h i) (q0 i) (w0 i) with
  | Done w' e => exists H', run (act isZero (h i)) (fst (g i)) (H, snd (g i)) = Done (H', w') e
  | Crashed c => run (act isZero (h i)) (fst (g i)) (H, snd (g i)) = Crashed c
  end.
Proof.
  intros (_ & N & D & Ps & _). destruct (Ps i) as (K & q & T & Ag & Lo & Hi & R). cbn [fst snd] in *.
  rewrite R. eapply tr_run; eauto.
Qed.
End Run.

(** The beginning. *)
Lemma start_tr env (Henv : env_ok env) isZero (Hz : forall t z H a v G, field_is_zero env t = Some z ->
    holds env true H t (peek H a (size env t)) v G -> isZero t H a = z v) ln n t cs v G H :
  holds env true H t cs v G -> Forall (fun x => (x < next H)%nat) G ->
  tr isZero (next H) same (sMarshal env ln n t cs) H (fun x => (x < next H)%nat) (Marshal env ln n (Some (t, v))).
Proof.
  intros A Bd. rewrite Forall_forall in Bd. unfold Marshal, sMarshal.
  destruct (is_ptr env t) eqn:Ip.
  - assert (U : exists e, under env t = RtPtr e).
    { unfold is_ptr in Ip. destruct (under env t); try discriminate. eauto. }
    destruct U as [e U]. replace (elem_type env t) with e by (unfold elem_type; now rewrite U).
    inversion A; subst; try congruence.
    + exfalso. match goal with P : plain env t |- _ => unfold plain in P; rewrite U in P; exact P end.
    + eexists. split; reflexivity.
    + replace e0 with e in * by congruence.
      destruct (lookup env ln e) as [c|] eqn:L; [|reflexivity].
      eapply tr_mono; [|eapply (marshal_well env Henv isZero Hz ln (next H) n e); [now exists ln|]].
      * intros K D a b' [E _]. exact E.
      * eexists. split; [eassumption|]. exact Bd.
  - destruct (lookup env ln t) as [c|] eqn:L; [|reflexivity].
    pose proof (holds_len env Henv _ _ _ _ _ _ A) as Lc.
    cbn [call bind tr]. intros b K Nb Fb Ab Pb.
    eapply tr_mono; [|eapply (marshal_well env Henv isZero Hz ln (next H) n t); [now exists ln|]].
    + intros K' D a b' [E _]. exact E.
    + exists G. rewrite <- Lc, Pb. split.
      * eapply holds_frame; [exact A|]. intros x Hx. apply Ab. now apply Bd.
      * intros x Hx. apply in_app_or in Hx as [Hx|Hx]; [now right|left; now apply Bd].
Qed.

(** ** Every execution ends *)
(** What a program may become by one step, whatever it is answered. *)
Definition after {A} (p' p : prog memE A) : Prop :=
  match p with Vis e k => (exists x, p' = k x) \/ (exists c, p' = Crash c) | _ => False end.
Lemma after_wf {A} (p : prog memE A) : Acc after p.
Proof.
  induction p as [a|X e k IH|c]; constructor; [intros p' []| |intros p' []].
  intros p' [(x & ->)|(c & ->)]; [apply IH|]. constructor. intros p' [].
Qed.

Definition one_after {A} (N : nat) (g' g : nat -> prog memE A) : Prop :=
  exists i, (i < N)%nat /\ after (g' i) (g i) /\ forall j, j <> i -> g' j = g j.
Lemma one_after_wf {A} N : forall g : nat -> prog memE A, Acc (one_after N) g.
Proof.
  induction N as [|N IH]; intros g; [constructor; intros g' (i & L & _); lia|].
  remember (g N) as p eqn:E. revert g E. induction (after_wf p) as [p _ IHp]. intros g E.
  induction (IH g) as [g _ IHg]. constructor. intros g' (i & L & Af & Eq).
  destruct (Nat.eq_dec i N) as [->|Ne].
  - eapply IHp; [|reflexivity]. rewrite E. exact Af.
  - apply IHg; [|rewrite Eq by auto; exact E]. exists i. conj; auto. lia.
Qed.

Section Ends.
Context (isZero : rtype -> heap -> nat -> bool) {S : Type} (h : nat -> handler wireW S) (N : nat).
Definition idle (s : system (S := S)) : Prop := forall i, (N <= i)%nat -> fst (snd s i) = Ret None.

Lemma moves_after s s' : idle s -> moves isZero h s s' -> idle s' /\ one_after N (fun i => fst (snd s' i)) (fun i => fst (snd s i)).
Proof.
  intros Id Mv.
  assert (Go : forall H g i X (e : memE X) k w H' p' w', g i = (Vis e k, w) -> idle (H, g) -> after p' (Vis e k) ->
    idle (H', put g i (p', w')) /\ one_after N (fun i0 => fst (put g i (p', w') i0)) (fun i0 => fst (g i0))).
  { intros H g i X e k w H' p' w' Gi Ig Af. cbn [fst snd idle] in *. unfold idle in *. cbn [fst snd] in *.
    assert (L : (i < N)%nat).
    { destruct (Nat.lt_ge_cases i N) as [L|L]; [exact L|]. specialize (Ig i L). rewrite Gi in Ig. discriminate. }
    split.
    - intros j Lj. rewrite put_other by lia. auto.
    - exists i. conj; [exact L| |].
      + rewrite put_same, Gi. exact Af.
      + intros j Nj. now rewrite put_other. }
  destruct Mv as [H g i X e k w H' w' x Gi A|H g i X e k w c Gi A].
  - eapply Go; eauto. left. eauto.
  - eapply Go; eauto. right. eauto.
Qed.

Lemma moves_end s : idle s -> Acc (fun y x => moves isZero h x y) s.
Proof.
  intros Id. remember (fun i => fst (snd s i)) as g eqn:E.
  revert s Id E. induction (one_after_wf N g) as [g _ IH]. intros s Id E. constructor. intros s' Mv.
  destruct (moves_after s s' Id Mv) as [Id' O]. eapply IH; [|exact Id'|reflexivity]. now rewrite E.
Qed.

Lemma no_chain {A} (R : A -> A -> Prop) (f : nat -> A) : (forall n, R (f (1 + n)%nat) (f n)) -> forall n, Acc R (f n) -> False.
Proof. intros F n Ac. remember (f n) as x eqn:E. revert n E. induction Ac as [x _ IH]. intros n ->. eapply IH; [apply F|reflexivity]. Qed.
End Ends.
