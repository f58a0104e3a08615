(** Property C79: goroutines may unmarshal into variables that share no memory at the same time. *)
From Coq Require Import Strings.String.
From Verif Require Import Base BaseLemmas Prog Wire Bufio BufioProof Binary Compact WireProof Properties_Values GoFloat Utf8 GoType Fields Arshal GoTypeProof
  FieldsProof ArshalSpec ArshalExample Properties_Arshal Heap HeapSpec HeapProof HeapUnmarshal Properties_Heap AnySpec AnyProof Properties_Any
  HeapStep StepRun UnmStep UnmSafe UnmRun UnmAlone.

(** One call of Unmarshal, with a pointer to the variable of type [u_type] at [u_var]; [u_depth] bounds how deep it may recurse and how many
    fields a struct may have, as in C57. *)
Record ujob := mkUJob { u_depth : nat; u_type : rtype; u_var : nat }.

(** Every goroutine is about to call Unmarshal, goroutine [i] with the [i]-th job and a Reader in state [w i]. *)
Definition ustart env ln prefix room (js : list ujob) {S} (w : nat -> S) : nat -> prog memU (option err) * S :=
  fun i => (match nth_error js i with Some j => sUnmarshal env ln prefix room (u_depth j) (u_type j) (u_var j) | None => Ret None end, w i).

(** [T i] says of the memory that goroutine [i]'s variable consists of and refers to what each cell is for, and that memory is as it says; within
    it, memory may be shared in any way, and may be cyclic.  The goroutines have no memory in common. *)
Definition separate env (H : heap) (js : list ujob) (T : nat -> nat -> option kind) : Prop :=
  (forall i, sound env (T i) H) /\
  (forall i j x, i <> j -> T i x <> None -> T j x = None) /\
  forall i j, nth_error js i = Some j -> fits env (T i) (u_var j) (u_type j).

(** What Unmarshal does with the job on its own, into a new variable: Unmarshal on values (Arshal.v), which the other properties are about. *)
Definition ualone env ln (j : ujob) {S} (h : handler wireR S) (w : S) : outcome S (option gval * option err) :=
  run h (Unmarshal env ln (u_depth j) (Some (RtPtr (u_type j), GPtr (Some (zero env (u_type j)))))) w.

(** What [ualone] asks its Reader. *)
Lemma ghost_alone env ln j c {S} (h : handler wireR S) w w' v e : env_ok env -> fills h -> lookup env ln (u_type j) = Some c ->
  ualone env ln j h w = Done w' (v, e) -> run h (ghost env ln (u_depth j) c (wire_type c)) w = Done w' e.
Proof.
  intros Henv Hf L R. unfold ualone in R. destruct j as [n t a]. cbn [u_depth u_type] in *.
  set (H0 := mkHeap (fun _ => CHead) O). set (prefix := fun _ _ : nat => O). set (room := fun _ : nat => O).
  assert (U : under env (RtPtr t) = RtPtr t) by reflexivity.
  pose proof (C57_new env H0 t Henv) as Un. rewrite alloc_eq in Un. set (H1 := fst (alloc H0 _)) in Un.
  pose proof (C57_unmarshal env ln prefix room n (RtPtr t) t (next H0) (zero env t) _ H1 h w Henv U Un) as K. rewrite R in K.
  destruct K as (v' & H1' & _ & _ & K & _). clear Un.
  assert (S0 : sound env (fun _ => None) H0) by (intros x k Hx; discriminate).
  destruct (new_ok env (fun _ => True) (fun _ => None) H0 t (zcells env t) S0 (zcells_ok env Henv _ t)) as (T1 & E1 & F1).
  unfold hUnmarshal in K. unfold is_ptr in K. rewrite U in K.
  replace (elem_type env (RtPtr t)) with t in K by (unfold elem_type; now rewrite U). rewrite L in K.
  pose proof (like_run _ _ _ _ (unmarshal_like env Henv ln prefix room n t c (next H0) T1 H1 (wire_type c) ltac:(exists ln; exact L) (proj1 E1) F1) h w Hf) as G.
  rewrite K in G. destruct G as (e0 & G & Ee & _). cbn [snd] in Ee. subst e0. exact G.
Qed.

Section Goroutines.
Context (env : tenv) (ln : nat) (prefix : nat -> nat -> nat) (room : nat -> nat) (js : list ujob) (T : nat -> nat -> option kind) {S : Type}.
Context (h : nat -> handler wireR S) (w : nat -> S) (H0 H : heap) (g : nat -> prog memU (option err) * S).
Hypothesis Henv : env_ok env.
Hypothesis Hf : forall i, fills (h i).
Hypothesis Hjs : separate env H0 js T.
(** In any order, some of the goroutines have done some of their steps. *)
Hypothesis Hr : ureaches h (H0, ustart env ln prefix room js w) (H, g).

Let q0 (i : nat) : prog wireR (option err) :=
  match nth_error js i with
  | Some j => match lookup env ln (u_type j) with Some c => ghost env ln (u_depth j) c (wire_type c) | None => Crash OutOfFuel end
  | None => Ret None
  end.
Let Pn (i : nat) : Prop := match nth_error js i with Some j => ~ tame env (u_type j) | None => False end.
Lemma uinv_now : uinv env h Pn H0 T q0 w (H, g).
Proof using Henv Hf Hjs Hr.
  destruct Hjs as (So & Ap & Ft). eapply uinv_reaches; [exact Hf| |exact Hr].
  apply uinv_start; [exact So|exact Ap|reflexivity|]. intros i. unfold ustart, q0, Pn. cbn [fst].
  destruct (nth_error js i) as [j|] eqn:E; [|exists None; auto].
  unfold sUnmarshal. destruct (lookup env ln (u_type j)) as [c|] eqn:L; [|right; reflexivity].
  eapply uf_mono; [|apply (unmarshal_uf env Henv ln prefix room _ (u_depth j) (u_type j)); [auto|exists ln; exact L|apply So|now apply Ft]].
  intros K' T' a b [Eab _]. exact Eab.
Qed.

(** If Unmarshal into a new variable returns, then a goroutine that has returned has returned the same error, and has left its Reader in the
    same state; and it does not panic, unless what C76_panic_refuted shows is at work, which is not so for a tame type. *)
Theorem C79_unmarshal i j v w' e : nth_error js i = Some j -> ualone env ln j (h i) (w i) = Done w' (v, e) ->
  match fst (g i) with
  | Ret e' => e' = e /\ snd (g i) = w'
  | Crash c => c = Panicked /\ ~ tame env (u_type j)
  | Vis _ _ => True
  end.
Proof using Henv Hf Hjs Hr.
  intros E R. pose proof (uinv_ends env h Pn H0 T q0 w H g i uinv_now) as K. unfold q0, Pn in K. rewrite E in K.
  assert (L : exists c, lookup env ln (u_type j) = Some c).
  { destruct (lookup env ln (u_type j)) as [c|] eqn:L; [eauto|]. exfalso. unfold ualone, Unmarshal in R. cbn in R.
    change (elem_type env (RtPtr (u_type j))) with (u_type j) in R. rewrite L in R. discriminate. }
  destruct L as [c L]. rewrite L in K. rewrite (ghost_alone env ln j c (h i) (w i) w' v e Henv (Hf i) L R) in K.
  destruct (fst (g i)) as [e'|X e' k|cr]; [injection K as <- <-; auto|exact I|]. destruct K as [K|K]; [exact K|discriminate].
Qed.

(** At every moment: memory that was there and belongs to none of the goroutines is as it was.  And each cell belongs to at most one, at first as
    [T] says and then with memory added that is new; what each has is as its kind says, so that every variable holds a value of its type; and whatever a
    goroutine does next leaves what belongs to the others as it is. *)
Theorem C79_memory :
  (forall x, (x < next H0)%nat -> (forall i, T i x = None) -> mem H x = mem H0 x) /\
  exists T', (forall i x, (x < next H0)%nat -> T' i x = T i x) /\ (forall i, sound env (T' i) H) /\
    (forall i j x, i <> j -> T' i x <> None -> T' j x = None) /\
    forall i s, umoves h i (H, g) s -> forall j x, i <> j -> T' j x <> None -> mem (fst s) x = mem H x.
Proof using Henv Hf Hjs Hr.
  destruct uinv_now as (_ & M & T' & q & Old & Ap & Ps). cbn [fst snd] in *. split; [exact M|].
  assert (So : forall i, sound env (T' i) H) by (intros i; destruct (Ps i) as [(K & _ & _ & So) _]; exact So).
  exists T'. split; [exact Old|]. split; [exact So|]. split; [exact Ap|].
  intros i s Mv j x Nij Tx. apply (step_own env h Pn i (H, g) s (T' i) (q i) Mv (proj1 (Ps i))); cbn [fst].
  - destruct (T' j x) as [k|] eqn:E; [|congruence]. now apply (So j x k).
  - apply (Ap j i x); auto.
Qed.

(** No data race: never are two goroutines about to access one address, one of them to write. *)
Theorem C79_races i j a b : i <> j -> uabout_to (fst (g i)) = Some (a, true) -> uabout_to (fst (g j)) <> Some (a, b).
Proof using Henv Hf Hjs Hr. apply (uinv_races env h Pn H0 T q0 w H g i j a b uinv_now). Qed.

(** When no goroutine can go on, each has come to the end it comes to on its own. *)
Theorem C79_end i j v w' e : (forall l s, ~ umoves h l (H, g) s) -> nth_error js i = Some j -> tame env (u_type j) ->
  ualone env ln j (h i) (w i) = Done w' (v, e) -> g i = (Ret e, w').
Proof using Henv Hf Hjs Hr.
  intros Stop E Ht R. pose proof (C79_unmarshal i j v w' e E R) as K.
  destruct (g i) as [[e'|X e' k|c] w1] eqn:Gi; cbn [fst snd] in K; [destruct K as [-> ->]; reflexivity| |destruct K; contradiction].
  exfalso. destruct (uact (h i) X e' (H, w1)) as [[H' w2] x|c] eqn:A.
  - eapply (Stop i). eapply umoves_on; eauto.
  - eapply (Stop i). eapply umoves_crash; eauto.
Qed.
End Goroutines.
Print Assumptions C79_unmarshal.
Print Assumptions C79_memory.
Print Assumptions C79_races.
Print Assumptions C79_end.

(** And that moment comes, whatever the order: there is no execution without end (given that each call of a Reader ends, and
    [u_depth] bounds the number of fields). *)
Theorem C79_ends env ln prefix room js {S} (h : nat -> handler wireR S) w H0 :
  ~ exists f i, f 0%nat = (H0, ustart env ln prefix room js w) /\ forall n : nat, umoves h (i n : nat) (f n) (f (1 + n)%nat).
Proof.
  intros (f & i & F0 & F). apply (no_chain (fun y x => exists l, umoves h l x y) f (fun n => ex_intro _ (i n) (F n)) 0%nat).
  rewrite F0. apply (umoves_end h (length js)).
  intros l L. cbn [fst snd]. unfold ustart. cbn [fst]. now rewrite (proj2 (nth_error_None js l) L).
Qed.
Print Assumptions C79_ends.

(** What the steps add up to: a call of Unmarshal that is let go on while the others wait leaves in memory exactly what [hUnmarshal], the
    Unmarshal of C57 to C77 that does all its accesses in one go, leaves there, and returns the same, whatever is in memory. *)
Theorem C79_alone env ln prefix room {S} (h : nat -> handler wireR S) i n t p H (g : nat -> prog memU (option err) * S) w H' w' e :
  is_ptr env t = true -> g i = (sUnmarshal env ln prefix room n (elem_type env t) p, w) ->
  run (h i) (hUnmarshal env ln prefix room n (Some (t, Some p)) H) w = Done w' (H', e) ->
  exists H'' g', ureaches h (H, g) (H'', g') /\ g' i = (Ret e, w') /\ (forall j, j <> i -> g' j = g j) /\
    next H'' = next H' /\ forall x, mem H'' x = mem H' x.
Proof.
  intros P G R. unfold hUnmarshal in R. rewrite P in R. unfold sUnmarshal in G.
  destruct (lookup env ln (elem_type env t)) as [a|]; [|discriminate].
  destruct (sq_run _ (h i) _ H _ w w' (H', e) (sunmarshal_alone env ln prefix room n a p (wire_type a) H H (heq_refl H)) R)
    as (H'' & e' & R' & [[N M] ->]). cbn [fst snd] in *.
  destruct (runs_alone h i _ H w g H'' w' e G R') as (g' & K & G' & O).
  exists H'', g'. split; [apply K; apply us_start|]. auto.
Qed.
Print Assumptions C79_alone.

(** ** A concrete case *)
(** The execution in which the goroutines [is] take their turns. *)
Definition uturn {S} (h : nat -> handler wireR S) (s : usystem (S := S)) (i : nat) : usystem (S := S) :=
  match snd s i with
  | (Vis e k, w) =>
      match uact (h i) _ e (fst s, w) with
      | Done (H', w') x => (H', put (snd s) i (k x, w'))
      | Crashed c => (fst s, put (snd s) i (Crash c, w))
      end
  | _ => s
  end.
Lemma uturns_reach {S} (h : nat -> handler wireR S) is : forall s s', ureaches h s s' -> ureaches h s (fold_left (uturn h) is s').
Proof.
  induction is as [|i is IH]; intros s s' R; [exact R|]. apply IH. destruct s' as [H g]. unfold uturn. cbn [fst snd].
  destruct (g i) as [[e|X e k|c] w] eqn:E; try exact R.
  destruct (uact (h i) X e (H, w)) as [[H' w'] x|c] eqn:A.
  - eapply us_step; [exact R|]. eapply umoves_on; eauto.
  - eapply us_step; [exact R|]. eapply umoves_crash; eauto.
Qed.

(** Two Nodes, each its own Next, and two goroutines, each of which unmarshals into one of them.  For Next there is a Node with the Count 2 (and
    so that is the Node itself), for Tags a set of one string, for Count 3. *)
Definition rings : heap := memory
  [CHead; CLeaf (GInt 7); CMap None; CSlice true 0 0 0; CPtr (Some 0%nat); CLeaf (GInt 0);
   CHead; CLeaf (GInt 8); CMap None; CSlice true 0 0 0; CPtr (Some 6%nat); CLeaf (GInt 0)].
Definition rings_kinds (i x : nat) : option kind :=
  match i with
  | 0%nat => nth_error (layout node_env Node) x
  | 1%nat => if Nat.leb 6 x then nth_error (layout node_env Node) (x - 6) else None
  | _ => None
  end.
Definition rings_jobs : list ujob := [mkUJob 9 Node 0; mkUJob 9 Node 6].
Definition two_readers (i : nat) : handler wireR (unit * breader) := over (bin_reader true) (bufio_h 4096).
Definition rings_input : list byte :=
  [x0c; x00; x04; x08; x00; x01; x00; x00; x00; x02; x00;
   x0e; x00; x02; x0b; x00; x00; x00; x01; x00; x00; x00; x01; x61;
   x08; x00; x01; x00; x00; x00; x03; x00].
Definition rings_turns (n : nat) : usystem :=
  fold_left (uturn two_readers) (concat (repeat [0; 1]%nat n))
    (rings, ustart node_env 9 (fun _ _ => 0%nat) (fun _ => 0%nat) rings_jobs (fun _ => (tt, new_breader (drip rings_input)))).
Example C79_sample :
  separate node_env rings rings_jobs rings_kinds /\ (forall i, fills (two_readers i)) /\ tame node_env Node /\
  (forall n, ureaches two_readers
     (rings, ustart node_env 9 (fun _ _ => 0%nat) (fun _ => 0%nat) rings_jobs (fun _ => (tt, new_breader (drip rings_input)))) (rings_turns n)) /\
  (exists n a b, uabout_to (fst (snd (rings_turns n) 0%nat)) = Some (a, true) /\ uabout_to (fst (snd (rings_turns n) 1%nat)) = Some (b, true) /\ a <> b) /\
  (exists n w, snd (rings_turns n) 0%nat = (Ret None, w) /\ snd (rings_turns n) 1%nat = (Ret None, w) /\
     Heap.peek (fst (rings_turns n)) 0 14 =
       [CHead; CLeaf (GInt 3); CMap None; CSlice false 12 1 1; CPtr (Some 0%nat); CLeaf (GInt 0);
        CHead; CLeaf (GInt 3); CMap None; CSlice false 13 1 1; CPtr (Some 6%nat); CLeaf (GInt 0);
        CLeaf (GString (lit "a")); CLeaf (GString (lit "a"))]) /\
  exists w v, ualone node_env 9 (mkUJob 9 Node 0) (two_readers 0) (tt, new_breader (drip rings_input)) = Done w (v, None).
Proof.
  assert (Ly : layout node_env Node = [KHead; KLeaf RtInt32; KMap RtString RtFloat32; KSlice RtString; KPtr Node; KLeaf RtInt]) by reflexivity.
  conj.
  - split; [|split].
    + intros [|[|i]] x k Hx; [| |discriminate]; unfold rings_kinds in Hx; rewrite Ly in Hx.
      * destruct x as [|[|[|[|[|[|x]]]]]]; [..|destruct x; discriminate]; injection Hx as <-; (split; [cbn; lia|]); cbn; auto.
        -- conj; auto. intros i Hi. lia.
        -- intros i k Hi. exact Hi.
      * destruct x as [|[|[|[|[|[|x]]]]]]; try discriminate.
        destruct x as [|[|[|[|[|[|x]]]]]]; [..|destruct x; discriminate]; injection Hx as <-; (split; [cbn; lia|]); cbn; auto.
        -- conj; auto. intros i Hi. lia.
        -- intros i k Hi. change (6 + i)%nat with (S (S (S (S (S (S i)))))). cbn [rings_kinds Nat.leb Nat.sub]. rewrite Nat.sub_0_r. exact Hi.
    + assert (L0 : forall x, rings_kinds 0 x <> None -> (x < 6)%nat).
      { intros x Hx. unfold rings_kinds in Hx. apply nth_error_Some in Hx. exact Hx. }
      assert (L1 : forall x, rings_kinds 1 x <> None -> (6 <= x)%nat).
      { intros x Hx. unfold rings_kinds in Hx. destruct (Nat.leb_spec 6 x); [assumption|congruence]. }
      intros [|[|i]] [|[|j]] x Nij Hx; try congruence; try reflexivity.
      * destruct (rings_kinds 1 x) eqn:E; [|reflexivity]. specialize (L0 x Hx). specialize (L1 x ltac:(congruence)). lia.
      * destruct (rings_kinds 0 x) eqn:E; [|reflexivity]. specialize (L1 x Hx). specialize (L0 x ltac:(congruence)). lia.
      * now elim Hx.
      * now elim Hx.
    + intros [|[|i]] j E; [injection E as <-|injection E as <-|destruct i; discriminate]; intros l k Hl; [exact Hl|].
      cbn [u_var u_type] in *. change (6 + l)%nat with (S (S (S (S (S (S l)))))). cbn [rings_kinds Nat.leb Nat.sub]. rewrite Nat.sub_0_r. exact Hl.
  - intros i. apply C76_readers.
  - exact C76_sample_tame.
  - intros n. apply uturns_reach, us_start.
  - exists 6%nat, 1%nat, 7%nat. conj; [vm_compute; reflexivity|vm_compute; reflexivity|discriminate].
  - exists 60%nat, (snd (snd (rings_turns 60) 0%nat)). conj; vm_compute; reflexivity.
  - eexists. eexists. vm_compute. reflexivity.
Qed.

(** In one go, goroutine 0 of [rings] gets to the end too. *)
Example C79_alone_sample : is_ptr node_env (RtPtr Node) = true /\ elem_type node_env (RtPtr Node) = Node /\
  exists w H', run (two_readers 0) (hUnmarshal node_env 9 (fun _ _ => 0%nat) (fun _ => 0%nat) 9 (Some (RtPtr Node, Some 0%nat)) rings)
      (tt, new_breader (drip rings_input)) = Done w (H', None) /\ next H' = 13%nat /\
    Heap.peek H' 0 13 =
      [CHead; CLeaf (GInt 3); CMap None; CSlice false 12 1 1; CPtr (Some 0%nat); CLeaf (GInt 0);
       CHead; CLeaf (GInt 8); CMap None; CSlice true 0 0 0; CPtr (Some 6%nat); CLeaf (GInt 0); CLeaf (GString (lit "a"))].
Proof.
  split; [reflexivity|]. split; [reflexivity|].
  set (r := run _ _ _).
  assert (K : match r with Done _ (H', None) => (next H', Heap.peek H' 0 13) = (13%nat, [CHead; CLeaf (GInt 3); CMap None; CSlice false 12 1 1; CPtr (Some 0%nat); CLeaf (GInt 0);
       CHead; CLeaf (GInt 8); CMap None; CSlice true 0 0 0; CPtr (Some 6%nat); CLeaf (GInt 0); CLeaf (GString (lit "a"))]) | _ => False end) by (vm_compute; reflexivity).
  destruct r as [w [H' [e|]]|c]; try contradiction. exists w, H'. split; [reflexivity|]. split; [exact (f_equal fst K)|exact (f_equal snd K)].
Qed.
