(** Programs: Go functions that call an interface are values of the free monad
    over that interface's calls; a [handler] is an implementation of the
    interface with state.  Nothing here models a particular Go file. *)
From Verif Require Import Base.

Inductive prog (E : Type -> Type) (A : Type) : Type :=
| Ret (a : A)
| Vis {X : Type} (e : E X) (k : X -> prog E A)
| Crash (c : crash).
Arguments Ret {E A} a.
Arguments Vis {E A X} e k.
Arguments Crash {E A} c.

Fixpoint bind {E A B} (p : prog E A) (f : A -> prog E B) : prog E B :=
  match p with
  | Ret a => f a
  | Vis e k => Vis e (fun x => bind (k x) f)
  | Crash c => Crash c
  end.

Definition call {E X} (e : E X) : prog E X := Vis e (fun x => Ret x).

Declare Scope prog_scope.
Delimit Scope prog_scope with prog.
Notation "x <- p ;; q" := (bind p (fun x => q))
  (at level 100, p at next level, right associativity) : prog_scope.
Notation "' pat <- p ;; q" := (bind p (fun x => match x with pat => q end))
  (at level 100, pat pattern, p at next level, right associativity) : prog_scope.
Global Open Scope prog_scope.

(** Result of running a program: a final state and value, or no return. *)
Inductive outcome (S A : Type) : Type :=
| Done (s : S) (a : A)
| Crashed (c : crash).
Arguments Done {S A} s a.
Arguments Crashed {S A} c.

Definition handler (E : Type -> Type) (S : Type) : Type :=
  forall X, E X -> S -> outcome S X.

Fixpoint run {E S A} (h : handler E S) (p : prog E A) (s : S) : outcome S A :=
  match p with
  | Ret a => Done s a
  | Vis e k =>
      match h _ e s with
      | Done s' x => run h (k x) s'
      | Crashed c => Crashed c
      end
  | Crash c => Crashed c
  end.

Definition obind {S A T B} (o : outcome S A) (f : S -> A -> outcome T B) : outcome T B :=
  match o with Done s a => f s a | Crashed c => Crashed c end.

Lemma run_bind {E S A B} (h : handler E S) (p : prog E A) (f : A -> prog E B) s :
  run h (bind p f) s = obind (run h p s) (fun s' a => run h (f a) s').
Proof.
  revert s; induction p as [a | X e k IH | c]; intros s; cbn; try reflexivity.
  destruct (h X e s) as [s' x | c]; cbn; [apply IH | reflexivity].
Qed.

Lemma run_call {E S X} (h : handler E S) (e : E X) s : run h (call e) s = h X e s.
Proof. cbn. destruct (h X e s); reflexivity. Qed.

(** A layer implements the calls [E] by programs over the calls [F], keeping
    its own state [S]. *)
Definition layer (E F : Type -> Type) (S : Type) : Type :=
  forall X, E X -> S -> prog F (S * X).

(** The interface [E] as implemented by a layer on top of a handler of [F]. *)
Definition over {E F S B} (L : layer E F S) (h : handler F B) : handler E (S * B) :=
  fun X e sb =>
    match run h (L X e (fst sb)) (snd sb) with
    | Done b' (s', x) => Done (s', b') x
    | Crashed c => Crashed c
    end.

(** ** Loops *)

(** [loop_nat n body st]: at most [n] iterations of [body] from state [st];
    [inl st'] continues, [inr r] leaves the loop (Go [break]/[return]). *)
Fixpoint loop_nat {E St R} (n : nat) (body : St -> prog E (St + R)) (st : St)
  : prog E (St + R) :=
  match n with
  | O => Ret (inl st)
  | S m => x <- body st ;;
           match x with
           | inl st' => loop_nat m body st'
           | inr r => Ret (inr r)
           end
  end.

(** The same, with a binary iteration count, so that huge counts can be
    executed lazily: [loop_pos p] does at most [p] iterations. *)
Fixpoint loop_pos {E St R} (p : positive) (body : St -> prog E (St + R)) (st : St)
  : prog E (St + R) :=
  match p with
  | xH => body st
  | xO q => x <- loop_pos q body st ;;
            match x with inl st' => loop_pos q body st' | inr r => Ret (inr r) end
  | xI q => x <- body st ;;
            match x with
            | inl st0 =>
                y <- loop_pos q body st0 ;;
                match y with inl st' => loop_pos q body st' | inr r => Ret (inr r) end
            | inr r => Ret (inr r)
            end
  end.

Definition loop_Z {E St R} (n : Z) (body : St -> prog E (St + R)) (st : St)
  : prog E (St + R) :=
  match n with Zpos p => loop_pos p body st | _ => Ret (inl st) end.

Lemma run_loop_nat_add {E S St R} (h : handler E S) (body : St -> prog E (St + R)) m n st s :
  run h (loop_nat (m + n) body st) s =
  obind (run h (loop_nat m body st) s)
    (fun s' x => match x with
                 | inl st' => run h (loop_nat n body st') s'
                 | inr r => Done s' (inr r)
                 end).
Proof.
  revert st s; induction m as [|m IH]; intros st s; cbn [loop_nat Nat.add run obind].
  - reflexivity.
  - rewrite !run_bind.
    destruct (run h (body st) s) as [s' [st'|r] | c]; cbn [obind run]; auto.
Qed.

Lemma run_loop_pos {E S St R} (h : handler E S) (body : St -> prog E (St + R)) p st s :
  run h (loop_pos p body st) s = run h (loop_nat (Pos.to_nat p) body st) s.
Proof.
  revert st s; induction p as [q IH | q IH |]; intros st s; cbn [loop_pos].
  - rewrite Pos2Nat.inj_xI.
    replace (Datatypes.S (2 * Pos.to_nat q))%nat with (1 + (Pos.to_nat q + Pos.to_nat q))%nat by lia.
    cbn [Nat.add loop_nat]. rewrite !run_bind.
    destruct (run h (body st) s) as [s' [st'|r] | c]; cbn [obind run]; auto.
    rewrite run_bind, IH, run_loop_nat_add.
    destruct (run h (loop_nat (Pos.to_nat q) body st') s') as [s2 [st2|r2]|c2];
      cbn [obind run]; auto.
  - rewrite Pos2Nat.inj_xO.
    replace (2 * Pos.to_nat q)%nat with (Pos.to_nat q + Pos.to_nat q)%nat by lia.
    rewrite run_bind, IH, run_loop_nat_add.
    destruct (run h (loop_nat (Pos.to_nat q) body st) s) as [s2 [st2|r2]|c2];
      cbn [obind run]; auto.
  - change (Pos.to_nat 1) with 1%nat. cbn [loop_nat]. rewrite run_bind.
    destruct (run h (body st) s) as [s' [st'|r] | c]; cbn [obind run]; auto.
Qed.

Lemma run_loop_Z {E S St R} (h : handler E S) (body : St -> prog E (St + R)) n st s :
  run h (loop_Z n body st) s = run h (loop_nat (Z.to_nat n) body st) s.
Proof. destruct n; cbn [loop_Z]; try reflexivity. apply run_loop_pos. Qed.
