(** Fuel is only a device: a program that has run to its end with some fuel does
    the same with more. *)
From Verif Require Import Base Prog Wire Spec Clients.

(** [belowc cut p q]: [q] does what [p] does, except that it may go on where [p]
    ran out of fuel or returned a value in [cut]. *)
Inductive belowc {E : Type -> Type} {A} (cut : A -> Prop) : prog E A -> prog E A -> Prop :=
| bl_fuel q : belowc cut (Crash OutOfFuel) q
| bl_cut a q : cut a -> belowc cut (Ret a) q
| bl_ret a : belowc cut (Ret a) (Ret a)
| bl_crash c : belowc cut (Crash c) (Crash c)
| bl_vis X (e : E X) k k' : (forall x, belowc cut (k x) (k' x)) -> belowc cut (Vis e k) (Vis e k').

Definition never {A} (_ : A) : Prop := False.
Notation below := (belowc never).

Lemma below_refl {E A} cut (p : prog E A) : belowc cut p p.
Proof. induction p; [apply bl_ret|apply bl_vis; auto|apply bl_crash]. Qed.

Lemma belowc_bind {E A B} cut cut' (p q : prog E A) (f g : A -> prog E B) :
  belowc cut p q -> (forall a, belowc cut' (f a) (g a)) ->
  (forall a, cut a -> f a = Crash OutOfFuel \/ exists b, f a = Ret b /\ cut' b) ->
  belowc cut' (bind p f) (bind q g).
Proof.
  induction 1; cbn [bind]; intros Hf Hc; auto; try (first [apply bl_fuel|apply bl_crash|apply bl_vis; auto]; fail).
  destruct (Hc a H) as [->|(b & -> & Hb)]; [constructor|now apply bl_cut].
Qed.
Lemma below_bind {E A B} cut' (p q : prog E A) (f g : A -> prog E B) :
  below p q -> (forall a, belowc cut' (f a) (g a)) -> belowc cut' (bind p f) (bind q g).
Proof. intros H1 H2. eapply belowc_bind; [exact H1|exact H2|intros a []]. Qed.
Lemma below_call {E X B} cut' (e : E X) (f g : X -> prog E B) :
  (forall a, belowc cut' (f a) (g a)) -> belowc cut' (bind (call e) f) (bind (call e) g).
Proof. intros H. apply below_bind; [apply below_refl|exact H]. Qed.

Lemma below_run {E S A} (h : handler E S) (p q : prog E A) : below p q ->
  forall s, run h p s = run h q s \/ run h p s = Crashed OutOfFuel.
Proof.
  induction 1; intros s; cbn [run]; auto; [destruct H|]. destruct (h X e s); auto.
Qed.

Lemma below_done {E S A} (h : handler E S) (p q : prog E A) s s' a :
  below p q -> run h p s = Done s' a -> run h q s = Done s' a.
Proof. intros H E1. destruct (below_run h p q H s) as [E2|E2]; congruence. Qed.

Definition is_left {A B} (x : A + B) : Prop := match x with inl _ => True | inr _ => False end.

(** A loop cut short after [n] rounds. *)
Lemma below_loop {E St R} (b1 b2 : St -> prog E (St + R)) n : forall m st,
  (n <= m)%nat -> (forall st, below (b1 st) (b2 st)) ->
  belowc is_left (loop_nat n b1 st) (loop_nat m b2 st).
Proof.
  induction n as [|n IH]; intros m st Hm Hb; cbn [loop_nat]; [apply bl_cut; exact I|].
  destruct m as [|m]; [lia|]. cbn [loop_nat].
  apply below_bind; [apply Hb|]. intros [st'|r]; [apply IH; [lia|exact Hb]|apply bl_ret].
Qed.

Lemma below_fuel_loop {E St R} (b1 b2 : St -> prog E (St + R)) n m st :
  (n <= m)%nat -> (forall st, below (b1 st) (b2 st)) ->
  below (x <- loop_nat n b1 st ;; match x with inr r => Ret r | inl _ => Crash OutOfFuel end)
        (x <- loop_nat m b2 st ;; match x with inr r => Ret r | inl _ => Crash OutOfFuel end).
Proof.
  intros Hm Hb. eapply belowc_bind; [apply below_loop; eauto| |].
  - intros [x|r]; [apply bl_fuel|apply bl_ret].
  - intros [x|r] H; [now left|destruct H].
Qed.

Lemma below_loop_pos {E St R} (b1 b2 : St -> prog E (St + R)) p :
  (forall st, below (b1 st) (b2 st)) -> forall st, below (loop_pos p b1 st) (loop_pos p b2 st).
Proof.
  intros Hb. induction p as [q IH|q IH|]; intros st; cbn [loop_pos].
  - apply below_bind; [apply Hb|]. intros [st0|r]; [|apply bl_ret].
    apply below_bind; [apply IH|]. intros [st'|r]; [apply IH|apply bl_ret].
  - apply below_bind; [apply IH|]. intros [st'|r]; [apply IH|apply bl_ret].
  - apply Hb.
Qed.
Lemma below_loop_Z {E St R} (b1 b2 : St -> prog E (St + R)) n st :
  (forall st, below (b1 st) (b2 st)) -> below (loop_Z n b1 st) (loop_Z n b2 st).
Proof. intros Hb. destruct n; cbn [loop_Z]; [apply bl_ret|now apply below_loop_pos|apply bl_ret]. Qed.

Lemma below_and_then {E : Type -> Type} (p p' q q' : prog E (option err)) :
  below p p' -> below q q' -> below (p >>! q) (p' >>! q').
Proof.
  intros H1 H2. unfold and_then. apply below_bind; [exact H1|]. intros [e|]; [apply bl_ret|exact H2].
Qed.

Lemma below_skip_loop n p p' q : below p p' -> below (skip_loop n p q) (skip_loop n p' q).
Proof.
  intros H. unfold skip_loop. apply below_bind.
  - apply below_loop_Z. intros u. unfold skip_elem. apply below_bind; [exact H|].
    intros a. apply below_refl.
  - intros a. apply below_refl.
Qed.

Theorem skip_more f : forall g t, (f <= g)%nat -> below (skip f t) (skip g t).
Proof.
  induction f as [|f IH]; intros g t Hg; cbn [skip]; [constructor|].
  destruct g as [|g]; [lia|]. cbn [skip].
  destruct (kind_of t) as [k|]; [|apply below_refl].
  destruct k; try apply below_refl; apply below_call; intros [x [e|]]; try apply below_refl.
  - apply below_fuel_loop; [exact Hg|]. intros u. unfold skip_field.
    apply below_call. intros [h [e|]]; [apply below_refl|].
    destruct (fh_type h =? T_Stop); [apply below_refl|].
    apply below_bind; [apply IH; lia|]. intros a. apply below_refl.
  - apply below_skip_loop. apply below_and_then; apply IH; lia.
  - apply below_skip_loop. apply IH; lia.
  - apply below_skip_loop. apply IH; lia.
Qed.

Lemma below_rdp {A B} (p p' : prog wireR (A + err)) (k k' : A -> prog wireR (B + err)) :
  below p p' -> (forall a, below (k a) (k' a)) -> below (rdp p k) (rdp p' k').
Proof.
  intros H1 H2. unfold rdp. apply below_bind; [exact H1|]. intros [a|e]; [apply H2|apply bl_ret].
Qed.
Lemma below_rd_loop {A B} n (p p' : prog wireR (A + err)) (fin : list A -> prog wireR (B + err)) :
  below p p' -> below (rd_loop n p fin) (rd_loop n p' fin).
Proof.
  intros H. unfold rd_loop. apply below_bind.
  - apply below_loop_Z. intros u. unfold rd_step. apply below_bind; [exact H|].
    intros a. apply below_refl.
  - intros a. apply below_refl.
Qed.

Theorem read_val_more f : forall g t, (f <= g)%nat -> below (read_val f t) (read_val g t).
Proof.
  induction f as [|f IH]; intros g t Hg; cbn [read_val]; [constructor|].
  destruct g as [|g]; [lia|]. cbn [read_val].
  destruct (kind_of t) as [k|]; [|apply below_refl].
  destruct k; try apply below_refl; unfold rd; apply below_call; intros [x [e|]]; try apply below_refl.
  - apply below_fuel_loop; [exact Hg|]. intros u. unfold rd_field.
    apply below_call. intros [h [e|]]; [apply below_refl|].
    destruct (fh_type h =? T_Stop); [apply below_refl|].
    apply below_bind; [apply IH; lia|]. intros a. apply below_refl.
  - apply below_rd_loop. apply below_rdp; [apply IH; lia|]. intros k.
    apply below_rdp; [apply IH; lia|]. intros v. apply below_refl.
  - apply below_rd_loop. apply IH; lia.
  - apply below_rd_loop. apply IH; lia.
Qed.
