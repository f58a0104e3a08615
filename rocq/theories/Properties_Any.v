(** Property C76: Unmarshal into a destination that shares memory in any way. *)
From Coq Require Import Strings.String.
From Verif Require Import Base BaseLemmas Prog Wire Bufio BufioProof Binary Compact WireProof Properties_Values GoFloat Utf8 GoType Fields Arshal GoTypeProof
  FieldsProof ArshalSpec ArshalExample Properties_Arshal Heap HeapSpec HeapProof HeapUnmarshal Properties_Heap AnySpec AnyProof.

(** ** C76 *)
(** [T] says what each cell of memory is for, and memory is as it says: apart from that, the destination may share
    memory in any way, among its own parts and with anything else, and it may contain itself.
    Unmarshal into it, given that Unmarshal into a new variable returns, returns too: it leaves the Reader in the same state
    and returns the same error.  Memory is as [T] says afterwards too (so every variable holds a value of its type), new
    memory may have been added, and only memory is written to that is for something the type of the destination can
    refer to; memory which [T] says nothing about is not, and [T] may leave out all that the destination does not reach.
    Or else it panics, but not if the type is tame: no slice type in it is reached again from its elements, and no map type
    from its keys or elements. *)
Theorem C76_unmarshal env ln prefix room n pt t a T H {S} (h : handler wireR S) s s1 w e :
  env_ok env -> fills h -> under env pt = RtPtr t -> sound env T H -> fits env T a t ->
  run h (Unmarshal env ln n (Some (pt, GPtr (Some (zero env t))))) s = Done s1 (w, e) ->
  (exists T' H', run h (hUnmarshal env ln prefix room n (Some (pt, Some a)) H) s = Done s1 (H', e) /\
     evolves env (reaches env t) T H T' H') \/
  (~ tame env t /\ run h (hUnmarshal env ln prefix room n (Some (pt, Some a)) H) s = Crashed Panicked).
Proof.
  intros Henv Hf U So F R.
  (* a new variable, in empty memory *)
  set (H0 := mkHeap (fun _ => CHead) O).
  pose proof (C57_new env H0 t Henv) as Un. rewrite alloc_eq in Un. set (H1 := fst (alloc H0 _)) in Un.
  pose proof (C57_unmarshal env ln prefix room n pt t (next H0) (zero env t) _ H1 h s Henv U Un) as K. rewrite R in K.
  destruct K as (v' & H1' & _ & _ & K & _). clear Un.
  assert (S0 : sound env (fun _ => None) H0) by (intros x k Hx; discriminate).
  destruct (new_ok env (fun _ => True) (fun _ => None) H0 t (zcells env t) S0 (zcells_ok env Henv _ t)) as (T1 & E1 & F1).
  unfold hUnmarshal in *. unfold is_ptr in *. rewrite U in *.
  replace (elem_type env pt) with t in * by (unfold elem_type; now rewrite U).
  destruct (lookup env ln t) as [c|] eqn:L; [|discriminate].
  assert (Cd : codec env t c) by (exists ln; exact L).
  pose proof (like_run _ _ _ _ (unmarshal_like env Henv ln prefix room n t c (next H0) T1 H1 (wire_type c) Cd (proj1 E1) F1) h s Hf) as G.
  rewrite K in G. destruct G as (e0 & G & Ee & _). cbn [snd] in Ee. subst e0.
  pose proof (like_run _ _ _ _ (unmarshal_like env Henv ln prefix room n t c a T H (wire_type c) Cd So F) h s Hf) as G2.
  destruct (run h (hunmarshal env ln prefix room n c a H (wire_type c)) s) as [s2 [H' e']|cr].
  - left. destruct G2 as (e0 & G2 & Ee & T' & Ev). cbn [fst snd] in *. subst e0. rewrite G in G2. injection G2 as <- <-. eauto.
  - right. destruct G2 as [[Ht ->]|G2]; [auto|congruence].
Qed.
Print Assumptions C76_unmarshal.
Corollary C76_tame env ln prefix room n pt t a T H {S} (h : handler wireR S) s s1 w e :
  env_ok env -> fills h -> under env pt = RtPtr t -> sound env T H -> fits env T a t -> tame env t ->
  run h (Unmarshal env ln n (Some (pt, GPtr (Some (zero env t))))) s = Done s1 (w, e) ->
  exists T' H', run h (hUnmarshal env ln prefix room n (Some (pt, Some a)) H) s = Done s1 (H', e) /\ evolves env (reaches env t) T H T' H'.
Proof.
  intros Henv Hf U So F Ht R.
  destruct (C76_unmarshal env ln prefix room n pt t a T H h s s1 w e Henv Hf U So F R) as [K|[Hn _]]; [exact K|contradiction].
Qed.
Print Assumptions C76_tame.

(** The Readers of this library are ones C76_unmarshal applies to. *)
Lemma bread_short size n b b' c e : 0 <= n -> bread size n b = Done b' (c, e) -> zlen c <= n.
Proof.
  intros Hn. assert (Fs : forall l : list byte, zlen (firstn (Z.to_nat n) l) <= n) by (intros l; unfold zlen; rewrite firstn_length; lia).
  assert (Sr : forall s s' x eo, src_read n s = Done s' (x, eo) -> zlen x <= n).
  { intros s s' x eo. unfold src_read. destruct (script s) as [|[c0 eo0] r].
    - destruct (src_fin s); intros E; [injection E as <- <- <-; cbn; lia|discriminate].
    - destruct (Z.leb_spec (zlen c0) n); intros E; injection E as <- <- <-; auto. }
  unfold bread. destruct (bbuf b) as [|y r].
  - destruct (berr b); [intros E; injection E as <- <- <-; cbn; lia|]. destruct (size <=? n).
    + destruct (src_read n (bsrc b)) as [s' [x eo]|] eqn:Es; intros E; [|discriminate]. injection E as <- <- <-. eapply Sr; eauto.
    + destruct (src_read size (bsrc b)) as [s' [[|z x] eo]|]; intros E; [| |discriminate]; injection E as <- <- <-; [cbn; lia|apply Fs].
  - intros E. injection E as <- <- <-. apply Fs.
Qed.
Lemma read_full_short size n b b' c e : 0 <= n -> read_full size n b = Done b' (c, e) -> zlen c <= n.
Proof.
  intros Hn. unfold read_full. assert (G : forall f acc b, zlen acc <= n -> read_full_loop size f n acc b = Done b' (c, e) -> zlen c <= n).
  { induction f as [|f IH]; intros acc b0 Ha; cbn [read_full_loop]; destruct (Z.leb_spec n (zlen acc)); try discriminate;
      try (intros E; injection E as <- <- <-; exact Ha).
    destruct (bread size (n - zlen acc) b0) as [b1 [x eo]|] eqn:Eb; cbn [obind]; [|discriminate]. cbn [fst snd].
    apply bread_short in Eb; [|lia]. assert (La : zlen (acc ++ x) <= n) by (rewrite zlen_app; lia).
    destruct eo; [intros E; injection E as <- <- <-; exact La|now apply IH]. }
  apply G. cbn. exact Hn.
Qed.
Lemma uuid_fills size u w b : length u = 16%nat -> length w = 16%nat ->
  match run (bufio_h size) (read_uuid u) b, run (bufio_h size) (read_uuid w) b with
  | Done s1 (x, e), Done s2 (y, e') => s1 = s2 /\ e = e' /\ length x = 16%nat /\ length y = 16%nat
  | Crashed c, Crashed c' => c = c'
  | _, _ => False
  end.
Proof.
  intros Lu Lw. unfold read_uuid. rewrite !run_vis. cbn [bufio_h].
  destruct (read_full size 16 b) as [b' [c e]|] eqn:E; [|reflexivity]. cbn [run].
  apply read_full_short in E; [|lia]. unfold zlen in E. cbn [obind run]. rewrite !app_length, !skipn_length, Lu, Lw. conj; auto; lia.
Qed.
Theorem C76_readers size strict : fills (over (bin_reader strict) (bufio_h size)) /\ fills (over cmp_reader (bufio_h size)).
Proof.
  split; intros u w [st b] Lu Lw; pose proof (uuid_fills size u w b Lu Lw) as K; unfold over; cbn [fst snd].
  - change (bin_reader strict (list byte * option err)%type (RUUID u) st) with (x <- read_uuid u ;; Ret (st, x)).
    change (bin_reader strict (list byte * option err)%type (RUUID w) st) with (x <- read_uuid w ;; Ret (st, x)).
    rewrite !run_bind. destruct (run (bufio_h size) (read_uuid u) b) as [b1 [x e]|c], (run (bufio_h size) (read_uuid w) b) as [b2 [y e']|c'];
      cbn [obind run]; try contradiction; auto. destruct K as (-> & K). auto.
  - change (cmp_reader (list byte * option err)%type (RUUID u) st) with (lift st (read_uuid u)).
    change (cmp_reader (list byte * option err)%type (RUUID w) st) with (lift st (read_uuid w)).
    unfold lift. rewrite !run_bind. destruct (run (bufio_h size) (read_uuid u) b) as [b1 [x e]|c], (run (bufio_h size) (read_uuid w) b) as [b2 [y e']|c'];
      cbn [obind run]; try contradiction; auto. destruct K as (-> & K). auto.
Qed.
Print Assumptions C76_readers.

(** ** Concrete cases *)
(** A Node that is its own Next. *)
Definition ring : heap := memory [CHead; CLeaf (GInt 7); CMap None; CSlice true 0 0 0; CPtr (Some 0%nat); CLeaf (GInt 0)].
Definition ring_kinds (x : nat) : option kind := nth_error (layout node_env Node) x.
Example C76_sample : sound node_env ring_kinds ring /\ fits node_env ring_kinds 0 Node.
Proof.
  split; [|intros i k Hi; exact Hi].
  intros x k Hx. unfold ring_kinds in Hx. change (layout node_env Node) with
    [KHead; KLeaf RtInt32; KMap RtString RtFloat32; KSlice RtString; KPtr Node; KLeaf RtInt] in Hx.
  destruct x as [|[|[|[|[|[|x]]]]]]; [..|destruct x; discriminate]; injection Hx as <-; (split; [cbn; lia|]); cbn; auto.
  - conj; auto. intros i Hi. lia.
  - intros i k Hi. exact Hi.
Qed.
Example C76_sample_tame : tame node_env Node.
Proof.
  assert (G : forall t k, reaches node_env t k ->
    (t = Node -> In k [KHead; KLeaf RtInt32; KMap RtString RtFloat32; KEntries RtString RtFloat32; KSlice RtString;
                       KPtr Node; KLeaf RtInt; KLeaf RtString; KLeaf RtFloat32]) /\
    (t = RtString -> k = KLeaf RtString) /\ (t = RtFloat32 -> k = KLeaf RtFloat32)).
  { intros t k R. induction R as [t k Hk|t R IH|t e k R IH R2 IH2|t kt et R IH|t kt et k R IH R2 IH2|t kt et k R IH R2 IH2|t e k R IH R2 IH2];
      (conj; [intros ->|intros ->|intros ->]); try (destruct IH as (I1 & I2 & I3)); try (destruct IH2 as (J1 & J2 & J3));
      try (specialize (I1 eq_refl)); try (specialize (I2 eq_refl)); try (specialize (I3 eq_refl)); try discriminate.
    - cbn in Hk |- *. tauto.
    - cbn in Hk. destruct Hk as [<-|[]]. reflexivity.
    - cbn in Hk. destruct Hk as [<-|[]]. reflexivity.
    - cbn in I1. intuition discriminate.
    - cbn in I1. repeat (destruct I1 as [I1|I1]; [try discriminate I1; injection I1 as <-|]); [|contradiction]. rewrite J2; cbn; auto 10.
    - cbn in I1. repeat (destruct I1 as [I1|I1]; [try discriminate I1; injection I1 as <- <-; cbn; auto 10|]). contradiction.
    - cbn in I1. repeat (destruct I1 as [I1|I1]; [try discriminate I1; injection I1 as <- <-|]); [|contradiction]. rewrite J2; cbn; auto 10.
    - cbn in I1. repeat (destruct I1 as [I1|I1]; [try discriminate I1; injection I1 as <- <-|]); [|contradiction]. rewrite J3; cbn; auto 10.
    - cbn in I1. repeat (destruct I1 as [I1|I1]; [try discriminate I1; injection I1 as <-|]); [|contradiction]. now apply J1. }
  split.
  - intros e R R2. apply G in R. destruct R as (R & _). specialize (R eq_refl). cbn in R.
    repeat (destruct R as [R|R]; [try discriminate R; injection R as <-|]); [|contradiction].
    apply G in R2. destruct R2 as (_ & R2 & _). discriminate (R2 eq_refl).
  - intros k e R. apply G in R. destruct R as (R & _). specialize (R eq_refl). cbn in R.
    repeat (destruct R as [R|R]; [try discriminate R; injection R as <- <-|]); [|contradiction].
    split; intros R2; apply G in R2; destruct R2 as (_ & R2 & R3); [discriminate (R2 eq_refl)|discriminate (R3 eq_refl)].
Qed.
(** What arrives for Next is for the same Node: it sets Count to 2 through Next, and then it is set to 3. *)
Example C76_ring : exists b H,
  run (over (bin_reader true) (bufio_h 4096)) (hUnmarshal node_env 9 (fun _ _ => 0%nat) (fun _ => 0%nat) 9 (Some (RtPtr Node, Some 0%nat)) ring)
    (tt, new_breader (drip [x0c; x00; x04; x08; x00; x01; x00; x00; x00; x02; x00; x08; x00; x01; x00; x00; x00; x03; x00]))
  = Done (tt, b) (H, None) /\
  peek H 0 6 = [CHead; CLeaf (GInt 3); CMap None; CSlice true 0 0 0; CPtr (Some 0%nat); CLeaf (GInt 0)].
Proof. eexists. eexists. split; vm_compute; reflexivity. Qed.

(** It does panic for some: with type Tree struct { Kids []Tree `thrift:"1"` }, of a slice of one Tree whose own Kids is that slice.
    Its element is made zero before a value is read into it, and so is then the slice the value is the element of: it has no
    capacity left for the element. *)
Definition tree_env : tenv :=
  ex_env (fun s => match s with O => [mkSF (lit "Kids") true (Some (lit "1")) (RtSlice (RtNamed 0))] | _ => [] end)
    (fun i => mkND (lit "Tree") (match i with O => RtStruct 0 | _ => RtInt end) false false).
Definition Tree : rtype := RtNamed 0.
Definition knot : heap := memory [CHead; CSlice false 0 1 1].
Definition knot_kinds (x : nat) : option kind := nth_error (layout tree_env Tree) x.
Lemma tree_ok : env_ok tree_env.
Proof.
  apply ex_env_ok.
  - intros [|s] f Hf; [|destruct Hf]. unfold flat. repeat (destruct Hf as [<-|Hf]; [cbn; lia|]). destruct Hf.
  - intros [|i]; cbn; auto.
Qed.
Example C76_knot : env_ok tree_env /\ sound tree_env knot_kinds knot /\ fits tree_env knot_kinds 0 Tree.
Proof.
  split; [exact tree_ok|]. split; [|intros i k Hi; exact Hi].
  intros x k Hx. unfold knot_kinds in Hx. change (layout tree_env Tree) with [KHead; KSlice Tree] in Hx.
  destruct x as [|[|x]]; [..|destruct x; discriminate]; injection Hx as <-; (split; [cbn; lia|]); cbn; auto.
  conj; auto; [discriminate|]. intros i Hi. assert (i = O) as -> by lia. intros j k Hj. exact Hj.
Qed.
Definition one_kid : list byte := [x0f; x00; x01; x0c; x00; x00; x00; x01; x00; x00].
Theorem C76_panic_refuted : exists b,
  run (over (bin_reader true) (bufio_h 4096)) (Unmarshal tree_env 9 9 (Some (RtPtr Tree, GPtr (Some (zero tree_env Tree)))))
    (tt, new_breader (drip one_kid))
  = Done (tt, b) (Some (GStruct [GSlice false [GStruct [GSlice true [] []]] []]), None) /\
  run (over (bin_reader true) (bufio_h 4096)) (hUnmarshal tree_env 9 (fun _ _ => 0%nat) (fun _ => 0%nat) 9 (Some (RtPtr Tree, Some 0%nat)) knot)
    (tt, new_breader (drip one_kid)) = Crashed Panicked.
Proof. eexists. split; vm_compute; reflexivity. Qed.
Print Assumptions C76_panic_refuted.
