(** Property C78: goroutines may marshal values that share memory at the same time. *)
From Coq Require Import Strings.String.
From Verif Require Import Base BaseLemmas Prog Wire Binary BufioW GoFloat Utf8 GoType Fields Arshal GoTypeProof FieldsProof ArshalSpec
  ArshalExample Properties_Arshal Heap HeapSpec HeapProof HeapUnmarshal HeapMarshal Properties_Heap AnySpec AnyProof Properties_Any CycleSpec Properties_Cycle HeapStep StepProof StepRun StepSafe UnmAlone MarAlone.

(** One call of Marshal: of a value of dynamic type [j_type] with the cells [j_cells], which hold the value [j_value];
    [j_depth] bounds how deep it may recurse, as in C58. *)
Record job := mkJob { j_depth : nat; j_type : rtype; j_cells : list cell; j_value : gval }.

(** Every goroutine is about to call Marshal, goroutine [i] with the [i]-th job and a Writer in state [w i]. *)
Definition about_to_start env ln (js : list job) {S} (w : nat -> S) : nat -> prog memE (option err) * S :=
  fun i => (match nth_error js i with Some j => sMarshal env ln (j_depth j) (j_type j) (j_cells j) | None => Ret None end, w i).

(** The values are in the memory [H].  They may share any of it, within a value and between values. *)
Definition in_memory env (H : heap) (js : list job) : Prop :=
  Forall (fun j => exists G, holds env true H (j_type j) (j_cells j) (j_value j) G /\ Forall (fun x => (x < next H)%nat) G) js.

(** What Marshal does with the job on its own: Marshal on values (Arshal.v), which the other properties are about. *)
Definition alone env ln (j : job) {S} (h : handler wireW S) (w : S) : outcome S (option err) :=
  run h (Marshal env ln (j_depth j) (Some (j_type j, j_value j))) w.

Section Goroutines.
Context (env : tenv) (ln : nat) (isZero : rtype -> heap -> nat -> bool) (js : list job) {S : Type}.
Context (h : nat -> handler wireW S) (w : nat -> S) (H0 H : heap) (g : nat -> prog memE (option err) * S).
Hypothesis Henv : env_ok env.
Hypothesis Hz : fair_methods env isZero.
Hypothesis Hjs : in_memory env H0 js.
(** In any order, some of the goroutines have done some of their steps. *)
Hypothesis Hr : reaches_system isZero h (H0, about_to_start env ln js w) (H, g).

Let q0 (i : nat) : prog wireW (option err) :=
  match nth_error js i with Some j => Marshal env ln (j_depth j) (Some (j_type j, j_value j)) | None => Ret None end.
Lemma inv_now : inv isZero h H0 q0 w (H, g).
Proof using Henv Hz Hjs Hr.
  eapply inv_reaches; [|exact Hr]. apply inv_start; [reflexivity|].
  intros i. unfold about_to_start, q0. cbn [fst]. destruct (nth_error js i) as [j|] eqn:E.
  - apply nth_error_In in E. unfold in_memory in Hjs. rewrite Forall_forall in Hjs.
    destruct (Hjs j E) as (G & A & B). eapply start_tr; eauto.
  - exists None. split; reflexivity.
Qed.

(** All memory there was is as it was, at every moment.  A goroutine that has returned has returned, and has made its Writer, what
    it would have on its own. *)
Theorem C78_marshal :
  (forall x, (x < next H0)%nat -> mem H x = mem H0 x) /\
  forall i j, nth_error js i = Some j ->
    match fst (g i) with
    | Ret e => alone env ln j (h i) (w i) = Done (snd (g i)) e
    | Crash c => alone env ln j (h i) (w i) = Crashed c
    | Vis _ _ => True
    end.
Proof using Henv Hz Hjs Hr.
  pose proof inv_now as I. split; [exact (proj1 I)|].
  intros i j E. pose proof (inv_ends isZero h H0 q0 w H g i I) as K. unfold q0 in K. now rewrite E in K.
Qed.

(** No goroutine waits for another: at every moment, a goroutine that goes on while the others stand still comes to the
    end it comes to on its own. *)
Theorem C78_progress i j : nth_error js i = Some j ->
  match alone env ln j (h i) (w i) with
  | Done w' e => exists H', run (act isZero (h i)) (fst (g i)) (H, snd (g i)) = Done (H', w') e
  | Crashed c => run (act isZero (h i)) (fst (g i)) (H, snd (g i)) = Crashed c
  end.
Proof using Henv Hz Hjs Hr.
  intros E. pose proof (inv_alone isZero h H0 q0 w H g i inv_now) as K. unfold q0 in K. now rewrite E in K.
Qed.

(** No data race: never are two goroutines about to access one address, one of them to write. *)
Theorem C78_races i j a b : i <> j -> about_to (fst (g i)) = Some (a, true) -> about_to (fst (g j)) <> Some (a, b).
Proof using Henv Hz Hjs Hr. apply (inv_races isZero h H0 q0 w H g i j a b inv_now). Qed.

(** When no goroutine can go on, each has come to the end it comes to on its own. *)
Theorem C78_end i j : (forall s, ~ moves isZero h (H, g) s) -> nth_error js i = Some j ->
  match alone env ln j (h i) (w i) with
  | Done w' e => g i = (Ret e, w')
  | Crashed c => fst (g i) = Crash c
  end.
Proof using Henv Hz Hjs Hr.
  intros Stop E. pose proof (proj2 C78_marshal i j E) as K.
  destruct (g i) as [[e|X e k|c] w'] eqn:Gi; cbn [fst snd] in *; [now rewrite K| |now rewrite K].
  exfalso. destruct (act isZero (h i) X e (H, w')) as [[H' w1] x|c] eqn:A.
  - eapply Stop. eapply moves_on; eauto.
  - eapply Stop. eapply moves_crash; eauto.
Qed.
End Goroutines.
Print Assumptions C78_marshal.
Print Assumptions C78_progress.
Print Assumptions C78_races.
Print Assumptions C78_end.

(** And that moment comes, whatever the order: there is no execution without end (given that each call of a Writer
    ends; an endless value ends it by [j_depth]). *)
Theorem C78_ends env ln isZero js {S} (h : nat -> handler wireW S) w H0 :
  ~ exists f, f 0%nat = (H0, about_to_start env ln js w) /\ forall n, moves isZero h (f n) (f (1 + n)%nat).
Proof.
  intros (f & F0 & F). apply (no_chain (fun y x => moves isZero h x y) f F 0%nat). rewrite F0. apply (moves_end isZero h (length js)).
  intros i L. cbn [fst snd]. unfold about_to_start. cbn [fst]. now rewrite (proj2 (nth_error_None js i) L).
Qed.
Print Assumptions C78_ends.

(** So the order does not matter: goroutine [i] returns the same, and leaves its Writer the same, in any two executions. *)
Theorem C78_order env ln isZero js {S} (h : nat -> handler wireW S) w H0 H1 g1 H2 g2 i e1 e2 :
  env_ok env -> fair_methods env isZero -> in_memory env H0 js -> (i < length js)%nat ->
  reaches_system isZero h (H0, about_to_start env ln js w) (H1, g1) ->
  reaches_system isZero h (H0, about_to_start env ln js w) (H2, g2) ->
  fst (g1 i) = Ret e1 -> fst (g2 i) = Ret e2 -> e1 = e2 /\ snd (g1 i) = snd (g2 i).
Proof.
  intros Henv Hz Hjs L R1 R2 E1 E2.
  destruct (nth_error js i) as [j|] eqn:Ej; [|apply nth_error_None in Ej; lia].
  pose proof (proj2 (C78_marshal env ln isZero js h w H0 H1 g1 Henv Hz Hjs R1) i j Ej) as K1.
  pose proof (proj2 (C78_marshal env ln isZero js h w H0 H2 g2 Henv Hz Hjs R2) i j Ej) as K2.
  rewrite E1 in K1. rewrite E2 in K2. rewrite K1 in K2. now injection K2.
Qed.
Print Assumptions C78_order.

(** The values may also contain themselves, so that Marshal of them only ends when the Writer fails or the stack is used up
    (C77): [T] says what each cell of memory is for, and memory is as it says.  Then too, at every moment all memory there was is as it
    was, there is no data race, and no goroutine has panicked, unless its Writer has ([OutOfFuel]: the value is nested more
    deeply than [j_depth]). *)
Theorem C78_any env ln isZero js T {S} (h : nat -> handler wireW S) w H0 H g :
  env_ok env -> sound env T H0 -> Forall (fun j => Forall2 (cell_ok env T) (layout env (j_type j)) (j_cells j)) js ->
  reaches_system isZero h (H0, about_to_start env ln js w) (H, g) ->
  (forall x, (x < next H0)%nat -> mem H x = mem H0 x) /\
  (forall i j a b, i <> j -> about_to (fst (g i)) = Some (a, true) -> about_to (fst (g j)) <> Some (a, b)) /\
  (forall i c, fst (g i) = Crash c -> c = OutOfFuel \/ exists X (e : wireW X) s, h i X e s = Crashed c).
Proof.
  intros Henv So Ty R.
  assert (K : kinv env h H0 (H, g)).
  { eapply kinv_reaches; [|exact R]. apply (kinv_start env h H0 T); [exact So|]. intros i. unfold about_to_start. cbn [fst].
    destruct (nth_error js i) as [j|] eqn:E; [|exact I]. apply nth_error_In in E. rewrite Forall_forall in Ty.
    apply start_safe; auto. now left. }
  conj; [exact (proj1 K)| |].
  - intros i j a b. now apply (kinv_races env h H0 H g).
  - intros i c. now apply (kinv_crash env h H0 H g).
Qed.
Print Assumptions C78_any.

(** What the steps add up to: a call of Marshal that is let go on while the others wait writes and returns exactly what [hMarshal], the
    Marshal of C58 and C77 that does all its accesses in one go, does, whatever is in memory; it leaves the same memory.  (An
    IsZero method answers the same about the same contents of memory.) *)
Theorem C78_alone env ln isZero {S} (h : nat -> handler wireW S) i n t cs H (g : nat -> prog memE (option err) * S) w H' w' e :
  (forall t H1 H2 a, next H1 = next H2 -> (forall x, mem H1 x = mem H2 x) -> isZero t H1 a = isZero t H2 a) ->
  g i = (sMarshal env ln n t cs, w) ->
  run (h i) (hMarshal env ln isZero n (Some (t, cs)) H) w = Done w' (H', e) ->
  exists H'' g', reaches_system isZero h (H, g) (H'', g') /\ g' i = (Ret e, w') /\ (forall j, j <> i -> g' j = g j) /\
    next H'' = next H' /\ forall x, mem H'' x = mem H' x.
Proof.
  intros Hz G R.
  assert (Hz' : forall t H H' a, heq H H' -> isZero t H a = isZero t H' a) by (intros t1 H1 H2 a [N M]; now apply Hz).
  destruct (mq_run isZero _ (h i) _ H _ w w' (H', e) (sMarshal_alone isZero env ln Hz' n t cs H) R) as (H'' & e' & R' & [[N M] ->]).
  cbn [fst snd] in *. destruct (mruns_alone isZero h i _ H w g H'' w' e G R') as (g' & K & G' & O).
  exists H'', g'. split; [apply K; apply rs_start|]. auto.
Qed.
Print Assumptions C78_alone.

(** ** A concrete case *)
(** The execution in which the goroutines [is] take their turns. *)
Definition turn (isZero : rtype -> heap -> nat -> bool) {S} (h : nat -> handler wireW S) (s : system (S := S)) (i : nat) : system (S := S) :=
  match snd s i with
  | (Vis e k, w) =>
      match act isZero (h i) _ e (fst s, w) with
      | Done (H', w') x => (H', put (snd s) i (k x, w'))
      | Crashed c => (fst s, put (snd s) i (Crash c, w))
      end
  | _ => s
  end.
Lemma turns_reach isZero {S} (h : nat -> handler wireW S) is : forall s s', reaches_system isZero h s s' ->
  reaches_system isZero h s (fold_left (turn isZero h) is s').
Proof.
  induction is as [|i is IH]; intros s s' R; [exact R|]. apply IH. destruct s' as [H g]. unfold turn. cbn [fst snd].
  destruct (g i) as [[e|X e k|c] w] eqn:E; try exact R.
  destruct (act isZero (h i) X e (H, w)) as [[H' w'] x|c] eqn:A.
  - eapply rs_step; [exact R|]. eapply moves_on; eauto.
  - eapply rs_step; [exact R|]. eapply moves_crash; eauto.
Qed.

(** Two goroutines marshal the same Node, by the same pointer, each with a Writer of the binary protocol.  They take turns.  At
    some moment both are about to write to memory, each to its own (for the key of the map's entry), and in the end both
    have written the Node. *)
Definition shared_jobs : list job :=
  [mkJob 9 (RtPtr Node) [CPtr (Some 0%nat)] (GPtr (Some heap_value)); mkJob 9 (RtPtr Node) [CPtr (Some 0%nat)] (GPtr (Some heap_value))].
Definition two_writers (i : nat) : handler wireW (unit * list byte) := over (bin_writer true) mem_h.
Definition in_turns (n : nat) : system :=
  fold_left (turn (fun _ _ _ => false) two_writers) (concat (repeat [0; 1]%nat n))
    (memory node_cells, about_to_start node_env 9 shared_jobs (fun _ => (tt, []))).
Example C78_sample :
  in_memory node_env (memory node_cells) shared_jobs /\ fair_methods node_env (fun _ _ _ => false) /\
  (forall n, reaches_system (fun _ _ _ => false) two_writers
     (memory node_cells, about_to_start node_env 9 shared_jobs (fun _ => (tt, []))) (in_turns n)) /\
  (exists n a b, about_to (fst (snd (in_turns n) 0%nat)) = Some (a, true) /\ about_to (fst (snd (in_turns n) 1%nat)) = Some (b, true) /\ a <> b) /\
  (exists n w, snd (in_turns n) 0%nat = (Ret None, w) /\ snd (in_turns n) 1%nat = (Ret None, w) /\ (10 < length (snd w))%nat).
Proof.
  conj.
  - assert (A : exists G, holds node_env true (memory node_cells) (RtPtr Node) [CPtr (Some 0%nat)] (GPtr (Some heap_value)) G /\
      Forall (fun x => (x < next (memory node_cells))%nat) G).
    { destruct C57_sample as ((G & A & E) & _ & B). exists (seq 0 (size node_env Node) ++ G). split.
      - apply (h_ptr node_env true _ _ Node); [reflexivity|exact A].
      - rewrite <- E. exact B. }
    constructor; [exact A|]. constructor; [exact A|constructor].
  - apply C58_sample.
  - intros n. apply turns_reach, rs_start.
  - exists 21%nat, 17%nat, 18%nat. conj; [vm_compute; reflexivity|vm_compute; reflexivity|discriminate].
  - exists 60%nat, (snd (snd (in_turns 60) 0%nat)). conj; [vm_compute; reflexivity|vm_compute; reflexivity|].
    apply Nat.ltb_lt. vm_compute. reflexivity.
Qed.

(** C78_any's hypotheses are met by a Node that is its own Next, given to two goroutines.  They take turns, and after several
    hundred turns both are still at it. *)
Definition ring_jobs : list job := [mkJob 90 (RtPtr Node) [CPtr (Some 0%nat)] (GPtr None); mkJob 90 (RtPtr Node) [CPtr (Some 0%nat)] (GPtr None)].
Example C78_ring :
  sound node_env ring_kinds ring /\
  Forall (fun j => Forall2 (cell_ok node_env ring_kinds) (layout node_env (j_type j)) (j_cells j)) ring_jobs /\
  exists s, reaches_system (fun _ _ _ => false) two_writers (ring, about_to_start node_env 9 ring_jobs (fun _ => (tt, []))) s /\
    (exists a, about_to (fst (snd s 0%nat)) = Some (a, false) /\ about_to (fst (snd s 1%nat)) = Some (a, false)) /\
    (100 < length (snd (snd (snd s 0%nat))))%nat.
Proof.
  destruct C77_ring as (So & F & _). conj; [exact So|constructor; [exact F|constructor; [exact F|constructor]]|].
  exists (fold_left (turn (fun _ _ _ => false) two_writers) (concat (repeat [0; 1]%nat 302)) (ring, about_to_start node_env 9 ring_jobs (fun _ => (tt, [])))).
  conj; [apply turns_reach, rs_start| |].
  - eexists. split; vm_compute; reflexivity.
  - apply Nat.ltb_lt. vm_compute. reflexivity.
Qed.

(** In one go, goroutine 0 of C78_sample gets to the end too. *)
Example C78_alone_sample : exists w H',
  run (two_writers 0) (hMarshal node_env 9 (fun _ _ _ => false) 9 (Some (RtPtr Node, [CPtr (Some 0%nat)])) (memory node_cells)) (tt, []) = Done w (H', None) /\
  (10 <? length (snd w))%nat = true.
Proof.
  set (r := run _ _ _).
  assert (K : match r with Done w (_, None) => (10 <? length (snd w))%nat = true | _ => False end) by (vm_compute; reflexivity).
  destruct r as [w [H' [e|]]|c]; try contradiction. exists w, H'. auto.
Qed.
