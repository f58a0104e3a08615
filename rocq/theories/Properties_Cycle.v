(** Property C77: Marshal of a value that shares memory in any way, and of one that contains itself. *)
From Coq Require Import Strings.String.
From Verif Require Import Base BaseLemmas Prog Wire BufioW Binary GoFloat Utf8 GoType Fields Arshal GoTypeProof
  FieldsProof ArshalSpec ArshalTotal ArshalSafe ArshalExample Heap HeapSpec HeapProof Properties_Heap AnySpec AnyProof Properties_Any CycleSpec CycleProof CycleEnds.

(** ** C77 *)
(** [T] says what each cell of memory is for, and memory is as it says; [cs] is a value of type [t] in it.  Apart from
    that, it may share memory in any way, and it may contain itself.  Marshal does not panic, on any Writer that does
    not.  When it returns, all memory there was is as before; and if it returns nil then the value is finite.
    ([OutOfFuel]: the value is nested more deeply than [n].  The program has no such limit: on an endless value it goes on
    until the Writer fails or the stack is used up.) *)
Theorem C77_marshal env isz ln n t cs T H {S} (h : handler wireW S) s :
  env_ok env -> steady env isz -> sound env T H -> Forall2 (cell_ok env T) (layout env t) cs ->
  match run h (hMarshal env ln (at_address env isz) n (Some (t, cs)) H) s with
  | Done _ (H', e) => (forall x, (x < next H)%nat -> mem H' x = mem H x) /\ (e = None -> finite env isz H t cs)
  | Crashed c => c = OutOfFuel \/ exists X (e : wireW X) s', h X e s' = Crashed c
  end.
Proof.
  intros Henv St So Ty. unfold hMarshal.
  assert (Old : forall T' H', evolves env nothing T H T' H' -> forall x, (x < next H)%nat -> mem H' x = mem H x).
  { intros T' H' (_ & _ & _ & D) x Hx. apply D; [exact Hx|]. intros k _ []. }
  destruct (is_ptr env t) eqn:Ip.
  - assert (U : exists e, under env t = RtPtr e) by (unfold is_ptr in Ip; destruct (under env t); try discriminate; eauto).
    destruct U as [e U]. replace (elem_type env t) with e by (unfold elem_type; now rewrite U).
    rewrite (layout_eq env Henv), U in Ty. inversion Ty as [|k c ks l Hc Hl]; subst. inversion Hl; subst. cbn in Hc.
    destruct c as [| | | | | |[p|]]; try contradiction; cbn [run].
    + destruct (lookup env ln e) as [a|] eqn:L; [|left; reflexivity].
      assert (Ca : codec env e a) by (exists ln; exact L).
      pose proof (ends_run _ _ (marshal_ends env Henv isz St ln n e a p T H Ca So Hc) h s) as K.
      destruct (run h _ s) as [s1 [H' er]|c]; [|exact K]. destruct K as [(T' & E) A]. cbn [fst snd] in *.
      split; [now apply (Old T')|]. intros Hn. change (Acc (within env isz H) (t, [CPtr (Some p)])). constructor. intros y W. unfold within in W.
      specialize (A Hn). inversion W; subst; congruence.
    + split; [auto|discriminate].
  - destruct (lookup env ln t) as [a|] eqn:L; [|left; reflexivity]. rewrite alloc_eq.
    assert (Ca : codec env t a) by (exists ln; exact L).
    destruct (new_ok env nothing T H t cs So Ty) as (T1 & E1 & F1).
    pose proof (ends_run _ _ (marshal_ends env Henv isz St ln n t a (next H) T1 _ Ca (evolves_sound env _ _ _ _ _ E1) F1) h s) as K.
    destruct (run h _ s) as [s1 [H' er]|c]; [|exact K]. destruct K as [(T' & E) A]. cbn [fst snd] in *.
    assert (Lc : length cs = size env t) by (rewrite <- (Forall2_length _ _ _ Ty); apply (layout_len env Henv)).
    split; [apply (Old T'); eapply evolves_trans; eauto|]. intros Hn. specialize (A Hn). rewrite alloc_peek_n in A by exact Lc.
    refine (acc_back env Henv isz St T H _ _ So _ A Ty). exact (evolves_kept env T H T1 _ So E1).
Qed.
Print Assumptions C77_marshal.

(** Whatever the Writer and however deep it goes, Marshal does not return nil for a value that contains itself. *)
Corollary C77_endless env isz ln n t cs T H {S} (h : handler wireW S) s :
  env_ok env -> steady env isz -> sound env T H -> Forall2 (cell_ok env T) (layout env t) cs -> endless env isz H t cs ->
  forall s' H', run h (hMarshal env ln (at_address env isz) n (Some (t, cs)) H) s <> Done s' (H', None).
Proof.
  intros Henv St So Ty En s' H' R. pose proof (C77_marshal env isz ln n t cs T H h s Henv St So Ty) as K. rewrite R in K.
  exact (acc_ends env isz H t cs (proj2 K eq_refl) En).
Qed.
Print Assumptions C77_endless.

(** And with enough depth it does return for one that is finite, on any Writer that does.  The types are ones whose codecs can be built
    (C31_codec). *)
Theorem C77_ends env isz P t cs T H :
  env_ok env -> steady env isz -> closed env P -> P t -> sound env T H -> Forall2 (cell_ok env T) (layout env t) cs -> finite env isz H t cs ->
  exists N, forall n, (N <= n)%nat -> forall S (h : handler wireW S) s, (forall X (e : wireW X) s c, h X e s <> Crashed c) ->
    exists s' H' e, run h (hMarshal env n (at_address env isz) n (Some (t, cs)) H) s = Done s' (H', e).
Proof.
  intros Henv St Hcl Pt So Ty Fi. unfold hMarshal.
  assert (Go : forall t0 c0 T1 H1 va, Acc (within env isz H) (t0, c0) -> P t0 -> Forall2 (cell_ok env T) (layout env t0) c0 ->
    evolves env nothing T H T1 H1 -> fits env T1 va t0 -> Heap.peek H1 va (size env t0) = c0 ->
    exists N, forall n, (N <= n)%nat -> forall S (h : handler wireW S) s, (forall X (e : wireW X) s c, h X e s <> Crashed c) ->
      exists s' H' e, run h (match lookup env n t0 with None => Crash OutOfFuel | Some a => hmarshal env n (at_address env isz) n a va H1 end) s
        = Done s' (H', e)).
  { intros t0 c0 T1 H1 va A Pt0 Ty0 E F Pk. destruct (finite_settles env Henv isz St P Hcl T H So (t0, c0) A Pt0 Ty0) as [N HN].
    destruct (lookup_ends env t0 (cl_eager env P Hcl t0 Pt0)) as (a & l0 & L).
    exists (N + l0)%nat. intros n Ln S h s Hh. rewrite (lookup_more env l0 n _ _ ltac:(lia) L).
    pose proof (calm_run _ (HN n n a va T1 H1 ltac:(lia) ltac:(lia) (ex_intro _ l0 L) E F Pk) h s) as K.
    destruct (run h _ s) as [s' [H' e]|c]; [eauto|]. destruct K as (X & e & s' & K). now apply Hh in K. }
  destruct (is_ptr env t) eqn:Ip.
  - assert (U : exists e, under env t = RtPtr e) by (unfold is_ptr in Ip; destruct (under env t); try discriminate; eauto).
    destruct U as [e U]. replace (elem_type env t) with e by (unfold elem_type; now rewrite U).
    rewrite (layout_eq env Henv), U in Ty. inversion Ty as [|k c ks l Hc Hl]; subst. inversion Hl; subst. cbn in Hc.
    destruct c as [| | | | | |[p|]]; try contradiction.
    + apply (Go e (Heap.peek H p (size env e)) T H p); auto; [| |now apply (peek_ok env Henv)|now apply evolves_refl].
      * apply (Acc_inv Fi). now constructor.
      * pose proof (cl_parts env P Hcl t Pt) as Pp. unfold parts in Pp. now rewrite U in Pp.
    + exists O. intros n _ S h s _. cbn [run]. eauto.
  - rewrite alloc_eq. destruct (new_ok env nothing T H t cs So Ty) as (T1 & E1 & F1).
    apply (Go t cs T1 _ (next H) Fi Pt Ty E1 F1). apply alloc_peek_n. rewrite <- (Forall2_length _ _ _ Ty). apply (layout_len env Henv).
Qed.
Print Assumptions C77_ends.

(** ** Concrete cases *)
(** A Node that is its own Next (see C76_sample). *)
Example C77_steady env : steady env (fun _ _ _ => false).
Proof. intros T H H' t cs _ _ _. reflexivity. Qed.
Definition ring_cells : list cell := peek ring 0 6.
Example C77_ring : sound node_env ring_kinds ring /\ Forall2 (cell_ok node_env ring_kinds) (layout node_env (RtPtr Node)) [CPtr (Some 0%nat)] /\
  endless node_env (fun _ _ _ => false) ring (RtPtr Node) [CPtr (Some 0%nat)].
Proof.
  destruct C76_sample as [So F]. conj; [exact So|constructor; [exact F|constructor]|].
  exists (fun i => if Nat.even i then (RtPtr Node, [CPtr (Some 0%nat)]) else (Node, ring_cells)). split; [reflexivity|].
  intros i. rewrite Nat.even_succ, <- Nat.negb_even. destruct (Nat.even i); cbn [negb].
  - apply (w_ptr node_env (fun _ _ _ => false) ring (RtPtr Node) Node 0). reflexivity.
  - apply (w_field node_env (fun _ _ _ => false) ring Node 0 3 (nth 3 node_fields (mkSF [] true None RtInt)) (opts_of (nth 3 node_fields (mkSF [] true None RtInt)))
      [CLeaf (GInt 7); CMap None; CSlice true 0 0 0] [CPtr (Some 0%nat)] [CLeaf (GInt 0)]); try reflexivity. right. reflexivity.
Qed.
(** A Writer that fails at its sixth struct. *)
Definition counting : handler wireW nat := fun X e =>
  match e in wireW X return nat -> outcome nat X with
  | WStructBegin _ => fun k => Done (S k) (if (5 <=? k)%nat then Some (EIO 1) else None)
  | _ => fun k => Done k None
  end.
(** It is written over and over again: up to any depth tried here, or until the Writer fails. *)
Example C77_ring_runs :
  run (over (bin_writer true) mem_h) (hMarshal node_env 9 (at_address node_env (fun _ _ _ => false)) 60 (Some (RtPtr Node, [CPtr (Some 0%nat)])) ring) (tt, [])
    = Crashed OutOfFuel /\
  exists H e, run counting (hMarshal node_env 9 (at_address node_env (fun _ _ _ => false)) 60 (Some (RtPtr Node, [CPtr (Some 0%nat)])) ring) 0%nat
    = Done 6%nat (H, Some e).
Proof. split; [|eexists; eexists]; vm_compute; reflexivity. Qed.

(** Sharing alone does no harm: with type Pair struct { L *Pair `thrift:"1"`; R *Pair `thrift:"2"` }, of one Pair whose L and R
    are the same other one, the latter is written twice. *)
Definition pair_env : tenv :=
  ex_env (fun s => match s with
    | O => [mkSF (lit "L") true (Some (lit "1")) (RtPtr (RtNamed 0)); mkSF (lit "R") true (Some (lit "2")) (RtPtr (RtNamed 0))]
    | _ => [] end)
    (fun i => mkND (lit "Pair") (match i with O => RtStruct 0 | _ => RtInt end) false false).
Definition Pair : rtype := RtNamed 0.
Lemma pair_ok : env_ok pair_env.
Proof.
  apply ex_env_ok.
  - intros [|s] f Hf; [|destruct Hf]. unfold flat. repeat (destruct Hf as [<-|Hf]; [cbn; lia|]). destruct Hf.
  - intros [|i]; cbn; auto.
Qed.
Definition twins : heap := memory [CHead; CPtr (Some 3%nat); CPtr (Some 3%nat); CHead; CPtr None; CPtr None].
Definition twin_kinds (x : nat) : option kind := nth_error (layout pair_env Pair ++ layout pair_env Pair) x.
Definition pair_types (t : rtype) : Prop := t = Pair \/ t = RtPtr Pair.
Example C77_twins : sound pair_env twin_kinds twins /\ fits pair_env twin_kinds 0 Pair /\ closed pair_env pair_types /\
  finite pair_env (fun _ _ _ => false) twins (RtPtr Pair) [CPtr (Some 0%nat)] /\
  exists H, run (over (bin_writer true) mem_h) (hMarshal pair_env 9 (at_address pair_env (fun _ _ _ => false)) 9 (Some (RtPtr Pair, [CPtr (Some 0%nat)])) twins) (tt, [])
    = Done (tt, [x0c; x00; x01; x00; x0c; x00; x02; x00; x00]) (H, None).
Proof.
  assert (So : sound pair_env twin_kinds twins).
  { intros x k Hx. unfold twin_kinds in Hx. change (layout pair_env Pair) with [KHead; KPtr Pair; KPtr Pair] in Hx.
    destruct x as [|[|[|[|[|[|x]]]]]]; [..|destruct x; discriminate]; injection Hx as <-; (split; [cbn; lia|]); cbn; auto;
      intros i k Hi; exact Hi || (unfold twin_kinds; change (3 + i)%nat with (length (layout pair_env Pair) + i)%nat;
        rewrite nth_error_app2 by lia; replace (length (layout pair_env Pair) + i - length (layout pair_env Pair))%nat with i by lia; exact Hi). }
  assert (F : fits pair_env twin_kinds 0 Pair).
  { intros i k Hi. unfold twin_kinds. rewrite Nat.add_0_l, nth_error_app1; [exact Hi|]. apply nth_error_Some. congruence. }
  assert (R : exists H, run (over (bin_writer true) mem_h) (hMarshal pair_env 9 (at_address pair_env (fun _ _ _ => false)) 9 (Some (RtPtr Pair, [CPtr (Some 0%nat)])) twins) (tt, [])
    = Done (tt, [x0c; x00; x01; x00; x0c; x00; x02; x00; x00]) (H, None)) by (eexists; vm_compute; reflexivity).
  conj; auto.
  { assert (Ap : Acc (eager pair_env) Pair) by (constructor; intros e []).
    constructor; intros t [->| ->].
    - intros sf o [<-|[<-|[]]] _; now right.
    - now left.
    - exact Ap.
    - constructor. intros e ->. exact Ap. }
  destruct R as [H R].
  pose proof (C77_marshal pair_env (fun _ _ _ => false) 9 9 (RtPtr Pair) [CPtr (Some 0%nat)] twin_kinds twins (over (bin_writer true) mem_h) (tt, [])
    pair_ok (C77_steady _) So) as K.
  rewrite R in K. apply K; [|reflexivity]. constructor; [exact F|constructor].
Qed.
