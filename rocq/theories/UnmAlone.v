(** Unmarshal one access to memory at a time (UnmStep.v), with no other
    goroutines, does what Unmarshal in one go (Heap.v) does. *)
From Coq Require Import Strings.String.
From Verif Require Import Base BaseLemmas Prog Wire GoFloat Utf8 GoType Fields Arshal Heap HeapProof HeapStep UnmStep.

(** The same memory. *)
Definition heq (H H' : heap) : Prop := next H = next H' /\ forall x, mem H x = mem H' x.
Lemma heq_refl H : heq H H.
Proof. split; auto. Qed.
Lemma heq_trans H1 H2 H3 : heq H1 H2 -> heq H2 H3 -> heq H1 H3.
Proof. intros [A B] [C D]. split; [congruence|]. intros x. now rewrite B. Qed.
Lemma heq_poke H H' a cs : heq H H' -> heq (poke H a cs) (poke H' a cs).
Proof. intros [A B]. split; [exact A|]. intros x. unfold poke. cbn [mem]. now rewrite B. Qed.
Lemma heq_peek H H' a n : heq H H' -> Heap.peek H a n = Heap.peek H' a n.
Proof. intros [A B]. unfold Heap.peek. apply map_ext. exact B. Qed.
Lemma heq_alloc H H' cs : heq H H' -> heq (fst (alloc H cs)) (fst (alloc H' cs)).
Proof.
  intros E. pose proof E as [A B]. split; [now rewrite !alloc_next, A|].
  intros x. unfold alloc. cbn [fst]. unfold poke. cbn [mem]. now rewrite A, B.
Qed.
Lemma poke_cons H a c cs : heq (poke (poke H a [c]) (S a) cs) (poke H a (c :: cs)).
Proof.
  split; [reflexivity|]. intros x. unfold poke. cbn [mem].
  destruct (Nat.leb_spec (S a) x) as [L|L]; destruct (Nat.leb_spec a x) as [L'|L']; try lia; auto.
  - replace (x - a)%nat with (S (x - S a)) by lia. cbn [nth]. f_equal. destruct (x - S a)%nat; reflexivity.
  - replace (x - a)%nat with O by lia. reflexivity.
Qed.
Lemma poke_none H a : heq (poke H a []) H.
Proof. split; [reflexivity|]. intros x. unfold poke. cbn [mem]. destruct (Nat.leb a x); auto. destruct (x - a)%nat; reflexivity. Qed.

(** [p] in memory [H] asks its Reader what [q] does, unless [q] panics. *)
Fixpoint sq {A B} (Q : heap -> A -> B -> Prop) (p : prog memU A) (H : heap) (q : prog wireR B) {struct p} : Prop :=
  q = Crash Panicked \/
  match p with
  | Ret a => exists b, q = Ret b /\ Q H a b
  | Crash c => q = Crash c
  | Vis e k =>
      match e in memU X return (X -> heap -> prog wireR B -> Prop) -> Prop with
      | URead a => fun r => r (mem H a) H q
      | UWrite a c => fun r => r tt (poke H a [c]) q
      | UAlloc cs => fun r => r (next H) (fst (alloc H cs)) q
      | @UWire X e => fun r => exists k', q = Vis e k' /\ forall x, r x H (k' x)
      end (fun x H q => sq Q (k x) H q)
  end.
Lemma sq_panic {A B} (Q : _ -> A -> B -> Prop) p H : sq Q p H (Crash Panicked).
Proof. destruct p; now left. Qed.
Lemma sq_bind {A B A' B'} (Q : _ -> A -> B -> Prop) (R : _ -> A' -> B' -> Prop) f g p : forall H q,
  sq Q p H q -> (forall a b H', Q H' a b -> sq R (f a) H' (g b)) -> sq R (bind p f) H (bind q g).
Proof.
  induction p as [a|X e k IH|c]; intros H q [-> |U] F; try apply sq_panic.
  - destruct U as (b & -> & U). now apply F.
  - right. destruct e as [a|a c|cs|X e]; cbn [bind] in *; try (apply IH; auto; fail).
    destruct U as (k' & -> & U). exists (fun y => bind (k' y) g). split; [reflexivity|]. intros x. now apply IH.
  - subst q. now right.
Qed.
Lemma sq_pre {A A' B'} (Q : _ -> A -> unit -> Prop) (R : _ -> A' -> B' -> Prop) f p H q :
  sq Q p H (Ret tt) -> (forall a H', Q H' a tt -> sq R (f a) H' q) -> sq R (bind p f) H q.
Proof. intros U F. apply (sq_bind Q R f (fun _ => q) p H (Ret tt) U). intros a [] H'. apply F. Qed.
Lemma sq_ret {A B} (Q : _ -> A -> B -> Prop) a b H : Q H a b -> sq Q (Ret a) H (Ret b).
Proof. right. exists b. auto. Qed.
Lemma sq_crash {A B} (Q : _ -> A -> B -> Prop) c H : sq Q (Crash c) H (Crash c).
Proof. now right. Qed.
Lemma sq_read {A B} (Q : _ -> A -> B -> Prop) f a H q : sq Q (f (mem H a)) H q -> sq Q (bind (call (URead a)) f) H q.
Proof. intros U. right. exact U. Qed.
Lemma sq_write {A B} (Q : _ -> A -> B -> Prop) f a c H q : sq Q (f tt) (poke H a [c]) q -> sq Q (bind (call (UWrite a c)) f) H q.
Proof. intros U. right. exact U. Qed.
Lemma sq_alloc {A B} (Q : _ -> A -> B -> Prop) f cs H q : sq Q (f (next H)) (fst (alloc H cs)) q -> sq Q (bind (call (UAlloc cs)) f) H q.
Proof. intros U. right. exact U. Qed.
Lemma sq_embed {A} (p : prog wireR A) H : sq (fun H' a b => H' = H /\ a = b) (uembed p) H p.
Proof. induction p as [a|X e k IH|c]; right; [exists a; auto|exists k; auto|reflexivity]. Qed.
Lemma sq_urdu {X A B} (R : _ -> A -> B -> Prop) action wt t (e : wireR (X * option err)) fail fail' k k' H :
  (forall x er, sq R (fail x er) H (Ret (fail' x er))) -> (forall x, sq R (k x) H (k' x)) ->
  sq R (urdu action wt t e fail k) H (rdu action wt t e fail' k').
Proof. intros F U. right. eexists. split; [reflexivity|]. intros [x [er|]]; cbn [bind]; [apply F|apply U]. Qed.
Lemma sq_urdu0 {A B} (R : _ -> A -> B -> Prop) action wt t (e : wireR (option err)) fail fail' k k' H :
  (forall er, R H (fail er) (fail' er)) -> sq R k H k' -> sq R (urdu0 action wt t e fail k) H (rdu0 action wt t e fail' k').
Proof. intros F U. right. eexists. split; [reflexivity|]. intros [er|]; cbn [bind]; [apply sq_ret, F|apply U]. Qed.
Definition eih {S S' A B} (I : heap -> S -> S' -> Prop) (Q : heap -> A -> B -> Prop) (H : heap) (x : S + A) (y : S' + B) : Prop :=
  match x, y with inl s, inl s' => I H s s' | inr a, inr b => Q H a b | _, _ => False end.
Lemma sq_loop_nat {S S' A B} (I : heap -> S -> S' -> Prop) (Q : heap -> A -> B -> Prop) (f : S -> prog memU (S + A)) (g : S' -> prog wireR (S' + B)) n :
  (forall H s s', I H s s' -> sq (eih I Q) (f s) H (g s')) ->
  forall H s s', I H s s' -> sq (eih I Q) (loop_nat n f s) H (loop_nat n g s').
Proof.
  intros F. induction n as [|n IH]; intros H s s' Hs; cbn [loop_nat]; [now apply sq_ret|].
  eapply sq_bind; [now apply F|]. intros [x|x] [y|y] H' Hxy; try contradiction; [now apply IH|now apply sq_ret].
Qed.
Lemma sq_loop_Z {S S' A B} (I : heap -> S -> S' -> Prop) (Q : heap -> A -> B -> Prop) (f : S -> prog memU (S + A)) (g : S' -> prog wireR (S' + B)) n :
  (forall H s s', I H s s' -> sq (eih I Q) (f s) H (g s')) ->
  forall H s s', I H s s' -> sq (eih I Q) (loop_Z n f s) H (loop_Z n g s').
Proof.
  intros F H s s' Hs. destruct n as [|n|n]; cbn [loop_Z]; try (now apply sq_ret). revert H s s' Hs.
  induction n as [n IH|n IH|]; intros H s s' Hs; cbn [loop_pos]; [| |now apply F].
  - eapply sq_bind; [now apply F|]. intros [x|x] [y|y] H' Hxy; try contradiction; [|now apply sq_ret].
    eapply sq_bind; [now apply IH|]. intros [x'|x'] [y'|y'] H2 Hxy'; try contradiction; [now apply IH|now apply sq_ret].
  - eapply sq_bind; [now apply IH|]. intros [x'|x'] [y'|y'] H2 Hxy'; try contradiction; [now apply IH|now apply sq_ret].
Qed.

Lemma sq_run {A B S} (Q : heap -> A -> B -> Prop) (h : handler wireR S) p : forall H q s s' b,
  sq Q p H q -> run h q s = Done s' b -> exists H' a, run (uact h) p (H, s) = Done (H', s') a /\ Q H' a b.
Proof.
  induction p as [a|X e k IH|c]; intros H q s s' b [-> |U] R; try discriminate.
  - destruct U as (b' & -> & U). injection R as <- <-. exists H, a. auto.
  - destruct e as [a|a c|cs|X e]; cbn [run uact fst snd] in *; try (eapply IH; eauto; fail).
    destruct U as (k' & -> & U). cbn [run] in R. destruct (h X e s) as [s1 x|c]; [|discriminate]. eapply IH; eauto.
  - subst q. discriminate.
Qed.

Lemma sq_mono {A B} (Q R : heap -> A -> B -> Prop) p : forall H q, (forall H a b, Q H a b -> R H a b) -> sq Q p H q -> sq R p H q.
Proof.
  induction p as [a|X e k IH|c]; intros H q Hi [-> |U]; try apply sq_panic.
  - destruct U as (b & -> & U). apply sq_ret. auto.
  - right. destruct e as [a|a c|cs|X e]; auto. destruct U as (k' & -> & U). exists k'. auto.
  - now right.
Qed.
Lemma sq_urd n : forall H a, sq (fun H' cs _ => H' = H /\ cs = Heap.peek H a n) (urd a n) H (Ret tt).
Proof.
  induction n as [|n IH]; intros H a; cbn [urd]; [now apply sq_ret|]. apply sq_read.
  eapply sq_pre; [apply IH|]. intros cs H' [-> ->]. now apply sq_ret.
Qed.
Lemma sq_uwr cs : forall H a, sq (fun H' (_ _ : unit) => heq H' (poke H a cs)) (uwr a cs) H (Ret tt).
Proof.
  induction cs as [|c cs IH]; intros H a; cbn [uwr].
  - apply sq_ret. split; [reflexivity|]. intros x. symmetry. apply poke_none.
  - apply sq_write. pose proof (IH (poke H a [c]) (S a)) as K. clear IH.
    eapply sq_mono; [|exact K]. cbn beta. intros H' _ _ E. eapply heq_trans; [exact E|apply poke_cons].
Qed.

Lemma sq_urd_k {A B} (R : heap -> A -> B -> Prop) f a n H H' q : heq H H' ->
  sq R (f (Heap.peek H' a n)) H q -> sq R (bind (urd a n) f) H q.
Proof. intros E U. eapply sq_pre; [apply sq_urd|]. intros cs H1 [-> ->]. now rewrite (heq_peek _ _ _ _ E). Qed.
Lemma sq_uwr_k {A B} (R : heap -> A -> B -> Prop) f a cs H H' q : heq H H' ->
  (forall H1, heq H1 (poke H' a cs) -> sq R (f tt) H1 q) -> sq R (bind (uwr a cs) f) H q.
Proof.
  intros E U. eapply sq_pre; [apply sq_uwr|]. intros [] H1 E1. apply U. eapply heq_trans; [exact E1|now apply heq_poke].
Qed.
Lemma sq_write_k {A B} (R : heap -> A -> B -> Prop) f a c H H' q : heq H H' ->
  (forall H1, heq H1 (poke H' a [c]) -> sq R (f tt) H1 q) -> sq R (bind (call (UWrite a c)) f) H q.
Proof. intros E U. apply sq_write, U. now apply heq_poke. Qed.
Lemma sq_alloc_k {A B} (R : heap -> A -> B -> Prop) f cs H H' q : heq H H' ->
  (forall H1, heq H1 (fst (alloc H' cs)) -> sq R (f (next H')) H1 q) -> sq R (bind (call (UAlloc cs)) f) H q.
Proof. intros E U. apply sq_alloc. rewrite (proj1 E). apply U. now apply heq_alloc. Qed.
Lemma sq_read_k {A B} (R : heap -> A -> B -> Prop) f a H H' q : heq H H' ->
  sq R (f (mem H' a)) H q -> sq R (bind (call (URead a)) f) H q.
Proof. intros E U. apply sq_read. now rewrite (proj2 E). Qed.
Lemma sq_call {A} (R : heap -> A -> unit -> Prop) (e : memU A) H q : sq R (bind (call e) Ret) H q -> sq R (call e) H q.
Proof. auto. Qed.
Lemma sq_tail {A} (R : heap -> unit -> A -> Prop) p H q : sq R (bind p (fun _ => Ret tt)) H q -> sq R p H q.
Proof.
  revert H q. induction p as [[]|X e k IH|c]; intros H q U; auto.
  destruct U as [-> |U]; [apply sq_panic|]. right. destruct e as [a|a c|cs|X e]; cbn [bind] in *; auto.
  destruct U as (k' & -> & U). exists k'. auto.
Qed.

Section Alone.
Context (env : tenv) (ln : nat) (prefix : nat -> nat -> nat) (room : nat -> nat).

Lemma sq_sfind0 kt k H H' es : heq H H' ->
  sq (fun H1 r (_ : unit) => H1 = H /\ r = find_entry env H' kt k es) (sfind env kt (Heap.peek H' k (size env kt)) es) H (Ret tt).
Proof.
  intros E. induction es as [|[ka va] es IH]; cbn [sfind find_entry]; [now apply sq_ret|].
  eapply sq_urd_k; [exact E|]. destruct (cells_eq _ _); [now apply sq_ret|exact IH].
Qed.
Lemma sq_sfind {A B} (R : heap -> A -> B -> Prop) kt k f q H H' es : heq H H' ->
  sq R (f (find_entry env H' kt k es)) H q ->
  sq R (bind (sfind env kt (Heap.peek H' k (size env kt)) es) f) H q.
Proof. intros E U. eapply sq_pre; [now apply sq_sfind0|]. intros r H1 [-> ->]. exact U. Qed.

Definition to (H' : heap) (H : heap) (_ _ : unit) : Prop := heq H H'.
Lemma sq_map_index H H' m kt et k v : heq H H' ->
  sq (to (map_index env H' m kt et k v)) (smap_index env m kt et k v) H (Ret tt).
Proof.
  intros E. unfold smap_index, map_index. eapply sq_read_k; [exact E|].
  destruct (mem H' m); try (now apply sq_ret).
  eapply sq_urd_k; [exact E|]. eapply sq_sfind; [exact E|].
  destruct (find_entry _ _ _ _ _) as [[? a]|].
  - eapply sq_urd_k; [exact E|]. apply sq_tail. eapply sq_uwr_k; [exact E|]. intros H1 E1. now apply sq_ret.
  - apply sq_tail. eapply sq_uwr_k; [exact E|]. intros H1 E1. now apply sq_ret.
Qed.
Lemma sq_set_map_index H H' m kt et k v : heq H H' ->
  sq (to (set_map_index env H' m kt et k v)) (sset_map_index env m kt et k v) H (Ret tt).
Proof.
  intros E. unfold sset_map_index, set_map_index. eapply sq_read_k; [exact E|].
  destruct (mem H' m); try (now apply sq_ret).
  eapply sq_urd_k; [exact E|]. eapply sq_sfind; [exact E|].
  destruct (find_entry _ _ _ _ _) as [[ka va]|].
  - eapply sq_urd_k; [exact E|]. eapply sq_uwr_k; [exact E|]. intros H1 E1.
    apply sq_tail. eapply sq_uwr_k; [exact E1|]. intros H2 E2. now apply sq_ret.
  - eapply sq_alloc_k; [exact E|]. intros H1 E1. rewrite alloc_eq.
    eapply sq_urd_k; [exact E1|]. eapply sq_alloc_k; [exact E1|]. intros H2 E2. rewrite alloc_eq.
    apply sq_tail. eapply sq_write_k; [exact E2|]. intros H3 E3. now apply sq_ret.
Qed.
(** [SetLen] panics in both, or does the same. *)
Lemma sq_set_len {A B} (R : heap -> A -> B -> Prop) f q H H' va i : heq H H' ->
  (forall H1, heq H1 (set_len H' va i) -> sq R (f tt) H1 q) ->
  sq R (bind (sset_len va i) f) H (if can_set_len H' va i then q else Crash Panicked).
Proof.
  intros E U.
  assert (K : sq (to (set_len H' va i)) (sset_len va i) H (if can_set_len H' va i then Ret tt else Crash Panicked)).
  { unfold sset_len, set_len, can_set_len in *. eapply sq_read_k; [exact E|].
    destruct (mem H' va); try (now apply sq_panic). destruct (Nat.leb i cap); [|apply sq_panic].
    apply sq_tail. eapply sq_write_k; [exact E|]. intros H1 E1. now apply sq_ret. }
  destruct (can_set_len H' va i); [|apply sq_panic].
  eapply sq_pre; [exact K|]. intros [] H1 E1. now apply U.
Qed.
Definition cap_of (c : cell) : nat := match c with CSlice _ _ _ cap => cap | _ => O end.
Lemma sq_grow {A B} (R : heap -> A -> B -> Prop) f q H H' et va : heq H H' ->
  (match mem H' va with CSlice _ _ _ _ => True | _ => q = Crash Panicked end) ->
  (forall H1, heq H1 (grow env H' et va) -> sq R (f (cap_of (mem (grow env H' et va) va))) H1 q) ->
  sq R (bind (sgrow env et va) f) H q.
Proof.
  intros E P U.
  destruct (mem H' va) as [| | |nl base len cap| | |] eqn:M; try (rewrite P; apply sq_panic).
  assert (K : sq (fun H1 c (_ : unit) => heq H1 (grow env H' et va) /\ c = cap_of (mem (grow env H' et va) va)) (sgrow env et va) H (Ret tt)).
  { unfold sgrow, grow. rewrite M. eapply sq_read_k; [exact E|]. rewrite M.
    destruct (Nat.ltb len cap).
    - eapply sq_write_k; [exact E|]. intros H1 E1. apply sq_ret. rewrite poke_1. auto.
    - eapply sq_urd_k; [exact E|]. eapply sq_alloc_k; [exact E|]. intros H1 E1. rewrite alloc_eq, poke_1.
      eapply sq_write_k; [exact E1|]. intros H2 E2. apply sq_ret. auto. }
  eapply sq_pre; [exact K|]. intros c H1 [E1 ->]. now apply U.
Qed.
Lemma sq_append {A B} (R : heap -> A -> B -> Prop) f q H H' nl base cap x : heq H H' ->
  (forall H1, heq H1 (fst (append prefix room H' nl base cap x)) ->
    sq R (f (snd (append prefix room H' nl base cap x))) H1 q) ->
  sq R (bind (sappend prefix room nl base cap x) f) H q.
Proof.
  intros E U.
  assert (K : sq (fun H1 c (_ : unit) => heq H1 (fst (append prefix room H' nl base cap x)) /\
                    c = snd (append prefix room H' nl base cap x)) (sappend prefix room nl base cap x) H (Ret tt)).
  { clear U. unfold sappend, append. destruct (Nat.leb (length x) cap).
    - eapply sq_uwr_k; [exact E|]. intros H1 E1. now apply sq_ret.
    - eapply sq_uwr_k; [exact E|]. intros H1 E1. rewrite alloc_eq.
      eapply sq_alloc_k; [exact E1|]. intros H2 E2. now apply sq_ret. }
  eapply sq_pre; [exact K|]. intros c H1 [E1 ->]. now apply U.
Qed.

(** The same memory and the same error. *)
Definition same (H : heap) (e : option err) (y : heap * option err) : Prop := heq H (fst y) /\ e = snd y.

Lemma sq_check wt want t H H' p q : heq H H' -> sq same p H q -> sq same (scheck wt want t p) H (hcheck wt want t H' q).
Proof. intros E U. unfold scheck, hcheck. destruct (wt =? want); [exact U|]. apply sq_ret. now split. Qed.
Lemma sq_scalar {X} action wt t (e : wireR (X * option err)) H H' va f : heq H H' ->
  sq same (sscalar action wt t e va f) H (hscalar action wt t e H' va f).
Proof.
  intros E. apply sq_urdu; [intros x er; apply sq_ret; now split|]. intros x.
  eapply sq_write_k; [exact E|]. intros H1 E1. apply sq_ret. now split.
Qed.

Section Rec.
Context (rec : arsh -> nat -> Z -> prog memU (option err)) (rec' : arsh -> nat -> heap -> Z -> prog wireR (heap * option err)).
Context (IH : forall a va wt H H', heq H H' -> sq same (rec a va wt) H (rec' a va H' wt)).

Lemma sq_field sk t fs va H H' : heq H H' ->
  sq (eih (fun H (_ : unit) H' => heq H H') same) (sunmarshal_field env rec sk t fs va tt) H (hunmarshal_field env rec' sk t fs va H').
Proof using IH.
  intros E. apply sq_urdu; [intros x er; apply sq_ret; now split|]. intros h.
  destruct (fh_type h =? T_Stop).
  { apply sq_urdu0; [intros er; now split|]. apply sq_ret. now split. }
  cbv zeta. destruct (by_id fs (fh_id h)) as [f|].
  - destruct (nth_error _ _); [|apply sq_panic].
    eapply sq_bind; [apply IH, E|]. intros e [H2 e'] H1 [E1 Ee]. cbn [fst snd] in *. subst e'.
    destruct e; [apply sq_ret; now split|]. apply sq_urdu0; [intros er; now split|]. now apply sq_ret.
  - eapply sq_bind; [apply sq_embed|]. intros e e' H1 [-> ->].
    destruct e'; [apply sq_ret; now split|]. apply sq_urdu0; [intros er; now split|]. now apply sq_ret.
Qed.

Lemma sq_entry t ka ea h va k v H H' : heq H H' ->
  sq (eih (fun H (_ : unit) H' => heq H H') same) (sunmarshal_entry env rec t ka ea h va k v tt) H (hunmarshal_entry env rec' t ka ea h va k v H').
Proof using IH.
  intros E. unfold sunmarshal_entry, hunmarshal_entry. cbv zeta.
  eapply sq_uwr_k; [exact E|]. clear H E. intros H E.
  eapply sq_bind; [apply IH, E|]. clear H H' E. intros e [H' e'] H [E Ee]. cbn [fst snd] in *. subst e'.
  destruct e; [apply sq_ret; now split|].
  eapply sq_read_k; [exact E|]. destruct (mem H' va) as [| | | |o| |]; try apply sq_panic.
  eapply sq_pre with (Q := to (match o with Some m => map_index env H' m (key_type env t) (elem_type env t) k v
                              | None => poke H' v (zcells env (elem_type env t)) end)).
  { destruct o as [m|]; [now apply sq_map_index|]. apply sq_tail. eapply sq_uwr_k; [exact E|]. intros H1 E1. now apply sq_ret. }
  clear H E. intros [] H E. unfold to in E.
  eapply sq_bind; [apply IH, E|]. clear H H' E. intros e [H' e'] H [E Ee]. cbn [fst snd] in *. subst e'.
  eapply sq_read_k; [exact E|]. destruct (mem H' va) as [| | | |[m|]| |]; try apply sq_panic.
  eapply sq_pre; [apply sq_set_map_index; exact E|]. clear H E. intros [] H E. unfold to in E.
  destruct e; apply sq_ret; [now split|exact E].
Qed.

Definition at_elem (H : heap) (s : nat * nat * bool) (s' : heap * nat * nat * bool) : Prop :=
  let '(i, cap, mz) := s in let '(H', i', cap', mz') := s' in heq H H' /\ i = i' /\ cap = cap' /\ mz = mz'.
Lemma sq_elem t ea wt va H s s' : at_elem H s s' ->
  sq (eih at_elem same) (sunmarshal_elem env rec t ea wt va s) H (hunmarshal_elem env rec' t ea wt va s').
Proof using IH.
  destruct s as [[i cap] mz], s' as [[[H' i'] cap'] mz']. intros (E & <- & <- & <-).
  unfold sunmarshal_elem, hunmarshal_elem. cbv zeta.
  destruct (mem H' va) as [| | |nl0 base0 len0 c0| | |] eqn:M;
    try (destruct (Nat.eqb i cap); unfold grow; rewrite M, ?M; apply sq_panic).
  set (st := if Nat.eqb i cap then _ else _ : heap * nat * bool).
  eapply sq_pre with (Q := fun H1 x _ => match mem (fst (fst st)) va with CSlice _ _ _ _ => heq H1 (fst (fst st)) /\ x = (snd (fst st), snd st) | _ => True end).
  { subst st. destruct (Nat.eqb i cap); cbn [fst snd].
    - eapply sq_grow; [exact E|now rewrite M|]. intros H1 E1. apply sq_ret.
      destruct (mem (grow env H' (elem_type env t) va) va) eqn:M'; auto.
    - apply sq_ret. rewrite M. auto. }
  clear H E M. intros [cap1 mz1] H Ex. destruct st as [[H1 cap2] mz2]. cbn [fst snd] in *.
  destruct (mem H1 va) as [| | |nl base len c| | |] eqn:M; try apply sq_panic. destruct Ex as [E [= -> ->]].
  eapply sq_read_k; [exact E|]. rewrite M.
  destruct (Nat.ltb i len); [|apply sq_panic].
  eapply sq_pre with (Q := to (if mz2 then poke H1 (base + i * size env (elem_type env t)) (zcells env (elem_type env t)) else H1)).
  { destruct mz2; [|now apply sq_ret]. apply sq_tail. eapply sq_uwr_k; [exact E|]. intros H3 E3. now apply sq_ret. }
  clear H E. intros [] H E. unfold to in E.
  eapply sq_bind; [apply IH, E|]. clear H M E. intros e [H2 e'] H [E Ee]. cbn [fst snd] in *. subst e'.
  destruct e.
  - eapply sq_set_len; [exact E|]. intros H3 E3. apply sq_ret. now split.
  - apply sq_ret. cbn. auto.
Qed.
End Rec.

Theorem sunmarshal_alone n : forall a va wt H H', heq H H' ->
  sq same (sunmarshal env ln prefix room n a va wt) H (hunmarshal env ln prefix room n a va H' wt).
Proof.
  induction n as [|m IH]; intros a va wt H H' E; [apply sq_crash|].
  destruct a as [t|t|t single|t w|t w|t|t|t|t|t ka ea|t set ea|t ea]; cbn [sunmarshal hunmarshal].
  - apply sq_ret. now split.
  - apply sq_check; [exact E|]. now apply sq_scalar.
  - apply sq_check; [exact E|]. now apply sq_scalar.
  - apply sq_check; [exact E|]. destruct w; now apply sq_scalar.
  - apply sq_check; [exact E|]. destruct w; now apply sq_scalar.
  - apply sq_check; [exact E|]. now apply sq_scalar.
  - apply sq_check; [exact E|]. eapply sq_read_k; [exact E|].
    destruct (mem H' va) as [| | |nl base len cap| | |]; try apply sq_panic.
    apply sq_urdu.
    + intros x er. eapply sq_append; [exact E|]. intros H1 E1. apply sq_ret. now split.
    + intros x. eapply sq_append; [exact E|]. intros H1 E1. destruct (append prefix room H' nl base cap x) as [H2 c].
      eapply sq_write_k; [exact E1|]. intros H3 E3. apply sq_ret. now split.
  - apply sq_check; [exact E|]. eapply sq_read_k; [exact E|].
    destruct (mem H' va) as [v| | | | | |]; try apply sq_panic. destruct v; try apply sq_panic.
    apply sq_urdu; intros; (eapply sq_write_k; [exact E|]); intros H1 E1; apply sq_ret; now split.
  - destruct (make_struct_fields env ln t) as [[fs|e]|]; [|apply sq_ret; now split|apply sq_crash].
    apply sq_check; [exact E|]. destruct (mem H' va); try apply sq_panic.
    apply sq_urdu; [intros x er; apply sq_ret; now split|]. intros x.
    eapply sq_bind.
    + apply (sq_loop_nat (fun H (_ : unit) H' => heq H H') same); [|exact E]. intros H1 [] H2 E1. now apply sq_field.
    + intros [u|e] [H2|[H2 e']] H1 E1; try contradiction; [apply sq_crash|now apply sq_ret].
  - apply sq_check; [exact E|]. destruct (mem H' va) as [| | | |o| |] eqn:M; try apply sq_panic.
    apply sq_urdu; [intros x er; apply sq_ret; now split|]. intros h. cbv zeta.
    destruct (map_size h >? 0).
    2:{ apply sq_urdu0; [intros er; now split|]. apply sq_ret. now split. }
    eapply sq_read_k; [exact E|]. rewrite M.
    eapply sq_pre with (Q := to (match o with Some _ => H' | None => let '(H, mp) := alloc H' [CEntries []] in poke H va [CMap (Some mp)] end)).
    { destruct o as [mp|]; [now apply sq_ret|]. rewrite alloc_eq. eapply sq_alloc_k; [exact E|]. intros H1 E1.
      apply sq_tail. eapply sq_write_k; [exact E1|]. intros H2 E2. now apply sq_ret. }
    clear H E. intros [] H E. unfold to in E. set (H2 := match o with Some _ => H' | None => _ end) in *. clearbody H2. clear H' M.
    rewrite alloc_eq. eapply sq_alloc_k; [exact E|]. clear H E. intros H E.
    rewrite alloc_eq. eapply sq_alloc_k; [exact E|]. clear H E. intros H E.
    eapply sq_bind.
    + apply (sq_loop_Z (fun H (_ : unit) H' => heq H H') same); [|exact E]. intros H1 [] H3 E1. now apply sq_entry.
    + intros [u|e] [H3|[H3 e']] H1 E1; try contradiction; [|now apply sq_ret].
      apply sq_urdu0; [intros er; now split|]. apply sq_ret. now split.
  - apply sq_check; [exact E|]. destruct (mem H' va) as [| | |nl base len cap| | |] eqn:M; try apply sq_panic.
    apply sq_urdu; [intros x er; apply sq_ret; now split|]. intros h. cbv zeta.
    destruct (set_size h >? 0).
    2:{ match goal with |- sq _ _ _ ?q => replace q with (if can_set_len H' va 0 then q else Crash Panicked) by (unfold can_set_len; now rewrite M) end.
        eapply sq_set_len; [exact E|]. intros H1 E1. apply sq_urdu0; [intros er; now split|]. apply sq_ret. now split. }
    eapply sq_read_k; [exact E|]. rewrite M.
    match goal with |- sq _ _ _ ?q => replace q with (if can_set_len H' va cap then q else Crash Panicked) by (unfold can_set_len; now rewrite M, Nat.leb_refl) end.
    eapply sq_set_len; [exact E|]. clear H E. intros H E.
    eapply sq_bind.
    + apply (sq_loop_Z at_elem same); [|cbn; auto]. intros H1 s s' E1. now apply sq_elem.
    + intros [[[i c] mz]|e] [[[[H3 i'] c'] mz']|[H3 e']] H1 E1; try contradiction; [|now apply sq_ret].
      destruct E1 as (E1 & <- & _ & _). eapply sq_set_len; [exact E1|]. intros H4 E4.
      apply sq_urdu0; [intros er; now split|]. apply sq_ret. now split.
  - eapply sq_read_k; [exact E|]. destruct (mem H' va) as [| | | | | |[b|]]; try apply sq_panic; [now apply IH|].
    rewrite alloc_eq. eapply sq_alloc_k; [exact E|]. intros H1 E1.
    eapply sq_write_k; [exact E1|]. intros H2 E2. now apply IH.
Qed.
End Alone.

(** A goroutine that goes on while the others wait. *)
Lemma runs_alone {S} (h : nat -> handler wireR S) i p : forall H w (g : nat -> prog memU (option err) * S) H' w' a,
  g i = (p, w) -> run (uact (h i)) p (H, w) = Done (H', w') a ->
  exists g', (forall x, ureaches h x (H, g) -> ureaches h x (H', g')) /\ g' i = (Ret a, w') /\ forall j, j <> i -> g' j = g j.
Proof.
  induction p as [a|X e k IH|c]; intros H w g H' w' a' G R; cbn [run] in R; [| |discriminate].
  - injection R as <- <- <-. exists g. auto.
  - destruct (uact (h i) X e (H, w)) as [[H1 w1] x|c] eqn:A; [|discriminate].
    destruct (IH x H1 w1 (put g i (k x, w1)) H' w' a') as (g' & K & G' & O).
    + unfold put. now rewrite Nat.eqb_refl.
    + exact R.
    + exists g'. split; [|split; [exact G'|]].
      * intros y Y. apply K. eapply us_step; [exact Y|]. eapply umoves_on; eauto.
      * intros j J. rewrite (O j J). unfold put. destruct (Nat.eqb_spec j i); [contradiction|reflexivity].
Qed.
