(** Properties C57 and C58: what Unmarshal and Marshal do to memory. *)
From Coq Require Import Strings.String.
From Verif Require Import Base BaseLemmas Prog Wire GoFloat Utf8 GoType Fields Arshal GoTypeProof FieldsProof ArshalSpec
  ArshalExample Properties_Arshal Heap HeapSpec HeapProof HeapUnmarshal HeapMarshal.

(** ** C57 *)
(** Unmarshal into a variable of type [t] at address [a], no part of which is shared: on every Reader it makes the same
    calls as Unmarshal on values (Arshal.v), which the other properties are about.  Afterwards the variable holds
    the value that one gives, and still no part of it is shared.  Only memory of the variable is written to,
    and what the variable has beyond it is newly allocated.  If there was an error, what the variable
    holds is known except for the bytes within its []byte values. *)
Theorem C57_unmarshal env ln prefix room n pt t a v F H {S} (h : handler wireR S) s :
  env_ok env -> under env pt = RtPtr t -> unshared env true H t a v F ->
  match run h (Unmarshal env ln n (Some (pt, GPtr (Some v)))) s with
  | Done s1 (w, e) => exists v' H' F', w = Some v' /\
      run h (hUnmarshal env ln prefix room n (Some (pt, Some a)) H) s = Done s1 (H', e) /\
      unshared env (is_none e) H' t a v' F' /\ confined H H' F F'
  | Crashed c => run h (hUnmarshal env ln prefix room n (Some (pt, Some a)) H) s = Crashed c
  end.
Proof.
  intros Henv U ((G & A & ->) & Nd & Bd). unfold Unmarshal, hUnmarshal, is_ptr. rewrite U.
  replace (elem_type env pt) with t by (unfold elem_type; now rewrite U).
  destruct (lookup env ln t) as [c|] eqn:L; [|reflexivity].
  assert (O : own env true H t a v G) by (unfold own; conj; auto; now rewrite <- Forall_forall).
  pose proof (sim_run _ _ _ (unmarshal_good env Henv prefix room ln n t c v a H G (wire_type c) (ex_intro _ ln L) O) h s) as K.
  rewrite run_bind. destruct (run h (unmarshal env ln n c v (wire_type c)) s) as [s1 [v' e]|cr]; [|exact K].
  destruct K as ([H' e'] & R & E & G' & (A' & Nd' & Bd') & C). cbn [fst snd run] in *. subst e'.
  exists v', H', (seq a (size env t) ++ G'). conj; auto. unfold unshared. conj; auto; [|now apply Forall_forall].
  exists G'. auto.
Qed.
Print Assumptions C57_unmarshal.

(** So no other variable notices: whatever else held a value in memory apart from the destination's still holds it, and the
    destination shares no memory with it afterwards either, also if there was an error. *)
Theorem C57_others env ln prefix room n pt t a v F H {S} (h : handler wireR S) s s1 H' e x t2 a2 w F2 :
  env_ok env -> under env pt = RtPtr t -> unshared env true H t a v F ->
  variable env x H t2 a2 w F2 -> Forall (fun y => (y < next H)%nat) F2 -> (forall y, In y F -> In y F2 -> False) ->
  run h (hUnmarshal env ln prefix room n (Some (pt, Some a)) H) s = Done s1 (H', e) ->
  variable env x H' t2 a2 w F2 /\
  exists v' F', unshared env (is_none e) H' t a v' F' /\ (forall y, In y F' -> In y F2 -> False).
Proof.
  intros Henv U Un (G2 & A2 & ->) Bd Dj R.
  pose proof (C57_unmarshal env ln prefix room n pt t a v F H h s Henv U Un) as K.
  destruct (run h (Unmarshal env ln n (Some (pt, GPtr (Some v)))) s) as [s2 [w' e']|c]; [|congruence].
  destruct K as (v' & H2 & F' & -> & R2 & Un' & (C1 & C2 & C3)). rewrite R in R2. injection R2 as <- <- <-.
  rewrite Forall_forall in Bd. split.
  - exists G2. split; [|reflexivity].
    assert (P : forall y, In y (seq a2 (size env t2) ++ G2) -> mem H' y = mem H y).
    { intros y Hy. apply C2; [now apply Bd|]. intros Hf. eapply Dj; eauto. }
    rewrite (peek_ext H H') by (intros y Hy; apply P, in_or_app; now left).
    eapply holds_frame; [exact A2|]. intros y Hy. apply P, in_or_app. now right.
  - exists v', F'. split; [exact Un'|]. intros y Hy Hy2. destruct (C3 y Hy) as [Hf|Hf]; [now apply (Dj y)|].
    specialize (Bd y Hy2). lia.
Qed.
Print Assumptions C57_others.

(** Given anything but a non-nil pointer, Unmarshal calls no method of the Reader and leaves memory alone.  The error names the type
    that was given, or for a nil pointer the one it would point to. *)
Theorem C57_rejects env ln prefix room n out H :
  match out with Some (t, Some _) => forall e, under env t <> RtPtr e | _ => True end ->
  hUnmarshal env ln prefix room n out H =
    Ret (H, Some (ESemantic "unmarshal" 0
      (match out with None => None | Some (t, _) => Some (match under env t with RtPtr e => e | _ => t end) end) (Some ENonNilPointer))).
Proof.
  intros Ho. unfold hUnmarshal, is_ptr, elem_type. destruct out as [[t [p|]]|]; [| |reflexivity].
  - destruct (under env t) as [| | | | | | | | | | | | | | | | | | | | |e|k e|kt e|e|sid|id]; try reflexivity. now elim (Ho e).
  - destruct (under env t); reflexivity.
Qed.
Print Assumptions C57_rejects.

(** A new variable is one C57_unmarshal applies to, and by C57_unmarshal so is one that was unmarshalled into without error. *)
Theorem C57_new env H t : env_ok env ->
  let '(H', a) := alloc H (zcells env t) in unshared env true H' t a (zero env t) (seq a (size env t)).
Proof.
  intros Henv. rewrite alloc_eq. split; [|split; [apply seq_NoDup|]].
  - exists []. rewrite app_nil_r, alloc_peek_n by reflexivity. split; [|reflexivity]. now apply holds_zero.
  - apply Forall_forall. intros x Hx. apply in_seq in Hx. rewrite alloc_next. exact (proj2 Hx).
Qed.
Print Assumptions C57_new.

(** ** C58 *)
(** What the IsZero methods of field types answer about a variable depends on its value only. *)
Definition fair_methods (env : tenv) (isZero : rtype -> heap -> nat -> bool) : Prop :=
  forall t z H a v G, field_is_zero env t = Some z ->
    holds env true H t (peek H a (size env t)) v G -> isZero t H a = z v.

(** Marshal is given a value of dynamic type [t]: the cells [cs], which hold [v] and may share memory, among
    themselves and with anything else.  On every Writer it makes the same calls as Marshal on values (Arshal.v),
    and all memory there was is as before. *)
Theorem C58_marshal env ln isZero n t cs v G H {S} (h : handler wireW S) s :
  env_ok env -> fair_methods env isZero -> holds env true H t cs v G -> Forall (fun x => (x < next H)%nat) G ->
  match run h (Marshal env ln n (Some (t, v))) s with
  | Done s1 e => exists H', run h (hMarshal env ln isZero n (Some (t, cs)) H) s = Done s1 (H', e) /\
      forall x, (x < next H)%nat -> mem H' x = mem H x
  | Crashed c => run h (hMarshal env ln isZero n (Some (t, cs)) H) s = Crashed c
  end.
Proof.
  intros Henv Hz A Bd. rewrite Forall_forall in Bd. unfold Marshal, hMarshal.
  assert (Go : forall t0 c a v0 H0, lookup env ln t0 = Some c -> grows H H0 -> sees env H0 t0 a v0 ->
    match run h (marshal env ln n c v0) s with
    | Done s1 e => exists H', run h (hmarshal env ln isZero n c a H0) s = Done s1 (H', e) /\
        forall x, (x < next H)%nat -> mem H' x = mem H x
    | Crashed cr => run h (hmarshal env ln isZero n c a H0) s = Crashed cr
    end).
  { intros t0 c a v0 H0 L Gr Se.
    pose proof (sim_run _ _ _ (marshal_good env Henv isZero Hz ln n t0 c v0 a H0 (ex_intro _ ln L) Se) h s) as K.
    destruct (run h (marshal env ln n c v0) s) as [s1 e|cr]; [|exact K].
    destruct K as ([H' e'] & R & E & Gr'). cbn [fst snd] in *. subst e'. exists H'. split; [exact R|].
    apply (grows_trans _ _ _ Gr Gr'). }
  destruct (is_ptr env t) eqn:Ip.
  - assert (U : exists e, under env t = RtPtr e).
    { unfold is_ptr in Ip. destruct (under env t); try discriminate. eauto. }
    destruct U as [e U]. replace (elem_type env t) with e by (unfold elem_type; now rewrite U).
    inversion A; subst; try congruence.
    + exfalso. match goal with P : plain env t |- _ => unfold plain in P; rewrite U in P; exact P end.
    + exfalso. match goal with P : as_bytes env t = true |- _ => apply as_bytes_under in P; congruence end.
    + exists H. split; [reflexivity|auto].
    + replace e0 with e in * by congruence.
      destruct (lookup env ln e) as [c|] eqn:L; [|reflexivity].
      apply (Go e); [exact L|apply grows_refl|]. eexists. split; [eassumption|]. exact Bd.
  - destruct (lookup env ln t) as [c|] eqn:L; [|reflexivity]. rewrite alloc_eq.
    pose proof (holds_len env Henv _ _ _ _ _ _ A) as Lc.
    apply (Go t); [exact L|apply grows_alloc|]. exists G. rewrite alloc_peek_n by exact Lc. split.
    + eapply holds_frame; [exact A|]. intros x Hx. apply alloc_old. now apply Bd.
    + intros x Hx. rewrite alloc_next. apply in_app_or in Hx as [Hx|Hx]; [rewrite in_seq in Hx; lia|].
      specialize (Bd x Hx). lia.
Qed.
Print Assumptions C58_marshal.

(** So sharing cannot be seen in what is written: two places that hold the same value, shared in whatever ways, are
    marshalled by the same calls, with the same results. *)
Theorem C58_sharing env ln isZero n t cs1 cs2 v G1 G2 H1 H2 {S} (h : handler wireW S) s :
  env_ok env -> fair_methods env isZero ->
  holds env true H1 t cs1 v G1 -> Forall (fun x => (x < next H1)%nat) G1 ->
  holds env true H2 t cs2 v G2 -> Forall (fun x => (x < next H2)%nat) G2 ->
  match run h (hMarshal env ln isZero n (Some (t, cs1)) H1) s with
  | Done s1 (_, e) => exists H', run h (hMarshal env ln isZero n (Some (t, cs2)) H2) s = Done s1 (H', e)
  | Crashed c => run h (hMarshal env ln isZero n (Some (t, cs2)) H2) s = Crashed c
  end.
Proof.
  intros Henv Hz A1 B1 A2 B2.
  pose proof (C58_marshal env ln isZero n t cs1 v G1 H1 h s Henv Hz A1 B1) as K1.
  pose proof (C58_marshal env ln isZero n t cs2 v G2 H2 h s Henv Hz A2 B2) as K2.
  destruct (run h (Marshal env ln n (Some (t, v))) s) as [s1 e|c].
  - destruct K1 as (H1' & -> & _), K2 as (H2' & K2 & _). eauto.
  - now rewrite K1.
Qed.
Print Assumptions C58_sharing.

(** ** Concrete cases *)
(** A Node whose map has an entry and whose set has spare capacity, pointing to another Node. *)
Definition memory (cs : list cell) : heap := mkHeap (fun a => nth a cs CHead) (length cs).
Definition nil_node : list cell := [CHead; CLeaf (GInt 0); CMap None; CSlice true 0 0 0; CPtr None; CLeaf (GInt 0)].
Definition node_cells : list cell :=
  [CHead; CLeaf (GInt 7); CMap (Some 6%nat); CSlice false 9 1 2; CPtr (Some 11%nat); CLeaf (GInt 0)] ++
  [CEntries [(7, 8)%nat]; CLeaf (GString (lit "k")); CLeaf (GF32 5)] ++
  [CLeaf (GString (lit "a")); CLeaf (GString [])] ++
  nil_node.
Definition nil_value : gval := GStruct [GInt 0; GMap None; GSlice true [] []; GPtr None; GInt 0].
Definition heap_value : gval :=
  GStruct [GInt 7; GMap (Some [(GString (lit "k"), GF32 5)]); GSlice false [GString (lit "a")] [GString []];
           GPtr (Some nil_value); GInt 0].

Lemma nil_node_holds H : holds node_env true H Node nil_node nil_value [].
Proof. exact (holds_zero node_env node_ok true H Node). Qed.

Ltac leaf_cell := apply h_leaf; exact I.
Example C57_sample : unshared node_env true (memory node_cells) Node 0 heap_value (seq 0 17).
Proof.
  split; [|split; [apply seq_NoDup|apply Forall_forall; intros x Hx; apply in_seq in Hx; cbn; lia]].
  exists (seq 6 11). split; [|reflexivity].
  change (seq 6 11) with ([] ++ (6%nat :: ((seq 7 1 ++ []) ++ (seq 8 1 ++ []) ++ [])) ++ (seq 9 2 ++ [] ++ []) ++ (seq 11 6 ++ []) ++ [] ++ []).
  apply (h_struct node_env true _ Node O [CLeaf (GInt 7); CMap (Some 6%nat); CSlice false 9 1 2; CPtr (Some 11%nat); CLeaf (GInt 0)]); [reflexivity|].
  apply (hs_cons node_env true _ RtInt32 _ [CLeaf (GInt 7)]); [leaf_cell|].
  apply (hs_cons node_env true _ (RtMap RtString RtFloat32) _ [CMap (Some 6%nat)]).
  { apply (h_map node_env true _ _ RtString RtFloat32 6%nat [(7, 8)%nat]); [reflexivity|reflexivity|].
    apply he_cons; [leaf_cell|leaf_cell|apply he_nil]. }
  apply (hs_cons node_env true _ (RtNamed 1) _ [CSlice false 9 1 2]).
  { apply (h_slice node_env true _ (RtNamed 1) RtString false 9%nat [GString (lit "a")] [GString []]); [reflexivity|reflexivity|discriminate|].
    apply (hs_cons node_env true _ RtString _ [CLeaf (GString (lit "a"))]); [leaf_cell|apply hs_nil]. }
  apply (hs_cons node_env true _ (RtPtr (RtNamed 0)) _ [CPtr (Some 11%nat)]).
  { apply (h_ptr node_env true _ _ (RtNamed 0)); [reflexivity|]. apply nil_node_holds. }
  apply (hs_cons node_env true _ RtInt _ [CLeaf (GInt 0)]); [leaf_cell|apply hs_nil].
Qed.

(** Two pointers to one Node, and pointers to two equal Nodes: C58_sharing applies. *)
Lemma two_nodes p q cs : holds node_env true (memory ([CPtr (Some p); CPtr (Some q)] ++ cs)) Node (peek (memory ([CPtr (Some p); CPtr (Some q)] ++ cs)) p 6) nil_value [] ->
  holds node_env true (memory ([CPtr (Some p); CPtr (Some q)] ++ cs)) Node (peek (memory ([CPtr (Some p); CPtr (Some q)] ++ cs)) q 6) nil_value [] ->
  holds node_env true (memory ([CPtr (Some p); CPtr (Some q)] ++ cs)) (RtSlice (RtPtr Node)) [CSlice false 0 2 2]
    (GSlice false [GPtr (Some nil_value); GPtr (Some nil_value)] []) (seq 0 2 ++ (seq p 6 ++ []) ++ (seq q 6 ++ []) ++ []).
Proof.
  intros A B.
  apply (h_slice node_env true _ (RtSlice (RtPtr Node)) (RtPtr Node) false 0%nat [_; _] []); [reflexivity|reflexivity|discriminate|].
  apply (hs_cons node_env true _ (RtPtr Node) _ [CPtr (Some p)]); [apply (h_ptr node_env true _ _ Node); [reflexivity|exact A]|].
  apply (hs_cons node_env true _ (RtPtr Node) _ [CPtr (Some q)]); [apply (h_ptr node_env true _ _ Node); [reflexivity|exact B]|].
  apply hs_nil.
Qed.
Example C58_sample :
  let t := RtSlice (RtPtr Node) in
  let v := GSlice false [GPtr (Some nil_value); GPtr (Some nil_value)] [] in
  let H1 := memory ([CPtr (Some 2%nat); CPtr (Some 2%nat)] ++ nil_node) in
  let H2 := memory ([CPtr (Some 2%nat); CPtr (Some 8%nat)] ++ nil_node ++ nil_node) in
  let cs := [CSlice false 0 2 2] in
  holds node_env true H1 t cs v (seq 0 2 ++ seq 2 6 ++ seq 2 6) /\
  holds node_env true H2 t cs v (seq 0 2 ++ seq 2 6 ++ seq 8 6) /\
  fair_methods node_env (fun _ _ _ => false).
Proof.
  cbv zeta. conj.
  - apply two_nodes; apply nil_node_holds.
  - apply two_nodes; apply nil_node_holds.
  - intros t z H a v G E. unfold field_is_zero in E. cbn in E. destruct (under node_env t); discriminate.
Qed.

(** IsZero methods of C27_is_zero's types, on memory. *)
Definition dates_is_zero (t : rtype) (H : heap) (a : nat) : bool :=
  match t, mem H a with
  | RtNamed 1, CLeaf (GInt z) => z <? 1
  | RtNamed 2, CLeaf (GInt z) => z =? 7
  | RtPtr (RtNamed 1), CPtr None => true
  | RtPtr (RtNamed 1), CPtr (Some p) => match mem H p with CLeaf (GInt z) => z <? 1 | _ => false end
  | RtPtr (RtNamed 2), CPtr None => true
  | RtPtr (RtNamed 2), CPtr (Some p) => match mem H p with CLeaf (GInt z) => z =? 7 | _ => false end
  | _, _ => false
  end.
Lemma dates_leaf i H p v G : (i <> O)%nat -> holds dates_env true H (RtNamed i) (peek H p (size dates_env (RtNamed i))) v G ->
  mem H p = CLeaf v.
Proof.
  intros Hi A. assert (P : plain dates_env (RtNamed i)) by (destruct i; [now elim Hi|exact I]).
  replace (size dates_env (RtNamed i)) with 1%nat in A by (destruct i; [now elim Hi|reflexivity]). rewrite peek_1 in A.
  inversion A as [| ? ? ? ? ? ? B | ? e ? ? ? ? ? U | ? ? ? U | ? ? ? ? ? ? ? U | ? ? U | ? ? ? ? ? U | ? ? ? ? ? U]; subst; auto;
    destruct i; try discriminate; now elim Hi.
Qed.
Example C58_methods : fair_methods dates_env dates_is_zero.
Proof.
  intros t z H a v G E A. unfold field_is_zero in E.
  assert (Ptr : forall i, (i <> O)%nat -> t = RtPtr (RtNamed i) ->
    (mem H a = CPtr None /\ v = GPtr None) \/ exists p w, mem H a = CPtr (Some p) /\ v = GPtr (Some w) /\ mem H p = CLeaf w).
  { intros i Hi ->. change (size dates_env (RtPtr (RtNamed i))) with 1%nat in A. rewrite peek_1 in A.
    inversion A as [? ? P | ? ? ? ? ? ? B | ? e ? ? ? ? ? U | ? ? ? U | ? ? ? ? ? ? ? U | ? ? U | ? ? ? ? ? U | ? ? ? ? ? U]; subst; try discriminate.
    - contradiction.
    - left. auto.
    - right. injection U as <-. do 2 eexists. conj; eauto. eapply dates_leaf; eauto. }
  destruct t as [| | | | | | | | | | | | | | | | | | | | |e|k e|kt e|e|sid|[|[|[|i]]]]; try discriminate E.
  - destruct e as [| | | | | | | | | | | | | | | | | | | | |e|k e|kt e|e|sid|[|[|[|i]]]]; try discriminate E;
      cbn in E; injection E as <-.
    + destruct (Ptr 1%nat) as [[Hm ->]|(p & w & Hm & -> & Hp)]; auto; cbn; rewrite Hm; [reflexivity|]. rewrite Hp. now destruct w.
    + destruct (Ptr 2%nat) as [[Hm ->]|(p & w & Hm & -> & Hp)]; auto; cbn; rewrite Hm; [reflexivity|]. rewrite Hp. now destruct w.
  - cbn in E. injection E as <-. apply dates_leaf in A; [|discriminate]. cbn. rewrite A. now destruct v.
  - cbn in E. injection E as <-. apply dates_leaf in A; [|discriminate]. cbn. rewrite A. now destruct v.
Qed.
