(** Unmarshal on memory does what Unmarshal on values does. *)
From Coq Require Import Strings.String.
From Verif Require Import Base BaseLemmas Prog Wire GoFloat Utf8 GoType Fields Arshal GoTypeProof FieldsProof ArshalSpec
  Heap HeapSpec HeapProof.

Section Env.
Context (env : tenv) (Henv : env_ok env).
Notation size := (size env).
Notation sizes := (sizes env).
Notation zcells := (zcells env).
Notation holds := (holds env).
Notation all_hold := (all_hold env).
Notation entries_hold := (entries_hold env).
Notation one_cell := (one_cell env).
Notation own := (own env).
Notation post := (post env).
Notation filling := (filling env).
Notation mapping := (mapping env).
Notation size_one := (size_one env Henv).
Notation size_struct := (size_struct env Henv).
Notation size_pos := (size_pos env Henv).
Notation holds_len := (holds_len env Henv).
Notation all_hold_len := (all_hold_len env Henv).
Notation holds_zero := (holds_zero env Henv).
Notation own_set := (own_set env Henv).
Notation field_focus := (field_focus env Henv).
Notation grow_ok := (grow_ok env Henv).
Notation elem_focus := (elem_focus env Henv).
Notation fill_end := (fill_end env Henv).
Notation key_focus := (key_focus env Henv).
Notation value_focus := (value_focus env Henv).
Notation bytes_one := (bytes_one env).
Notation plain_one := (plain_one env).

Context (prefix : nat -> nat -> nat) (room : nat -> nat).

Lemma sim_check {R} wt want t dst H p q : sim R p q ->
  R (dst, Some (sem "unmarshal" wt t None)) (H, Some (sem "unmarshal" wt t None)) ->
  sim R (check wt want t dst p) (hcheck wt want t H q).
Proof. intros A B. unfold check, hcheck. destruct (wt =? want); [exact A|now constructor]. Qed.

Lemma sim_scalar {X} action wt t (e : wireR (X * option err)) H va dst G f : plain env t -> own true H t va dst G ->
  (forall x, leaf (f x)) ->
  sim (post H (seq va (size t) ++ G) t va) (scalar action wt t e dst f) (hscalar action wt t e H va f).
Proof using Henv.
  intros O A L. apply sim_rdu.
  - intros _ er. apply post_same with (G := G); auto using confined_refl.
  - intros x. constructor. destruct (own_set H t va dst G true (f x) O A (L x)) as [B C].
    eapply post_same; eauto.
Qed.

Lemma own_cell H t va v G c : one_cell t -> mem H va = c -> own true H t va v G -> holds true H t [c] v G.
Proof using Henv. intros O E (A & _). rewrite (size_one t O), peek_1, E in A. exact A. Qed.

Lemma seq_in x a n : In x (seq a n) <-> (a <= x < a + n)%nat.
Proof. apply in_seq. Qed.

Lemma firstn_map_len {A B} (f : A -> B) n l : length (map f (firstn n l)) = Nat.min n (length l).
Proof. now rewrite map_length, firstn_length. Qed.

Lemma peek_prefix H a n m cs : peek H a (n + m) = cs -> peek H a n = firstn n cs.
Proof. intros <-. rewrite peek_app, firstn_app, peek_len, Nat.sub_diag, firstn_all2 by (rewrite peek_len; lia). now rewrite app_nil_r. Qed.

(** Bytes: [append(buf[:0], x...)] *)
Lemma append_ok H t va nl s sp base cap x : as_bytes env t = true -> (length s <= cap)%nat ->
  mem H va = CSlice nl base (length s) cap -> NoDup (va :: seq base cap) ->
  (forall y, In y (va :: seq base cap) -> (y < next H)%nat) ->
  let '(H1, c) := append prefix room H nl base cap x in
  (own false H1 t va (GBytes nl s sp) (seq base cap) /\ confined H H1 (va :: seq base cap) (va :: seq base cap)) /\
  exists G', own true (poke H1 va [c]) t va (GBytes (match x with [] => nl | _ => false end) x []) G' /\
    confined H (poke H1 va [c]) (va :: seq base cap) (va :: G').
Proof using Henv.
  intros Ob Ls Hm Nd Bd. pose proof (bytes_one t Ob) as O. apply NoDup_cons_iff in Nd as [Nva Nb]. unfold append.
  destruct (Nat.leb (length x) cap) eqn:Lx.
  - apply Nat.leb_le in Lx.
    assert (P : forall y, ~ In y (seq base cap) -> mem (poke H base (map CByte x)) y = mem H y).
    { intros y Hy. apply poke_other. rewrite map_length. rewrite seq_in in *. lia. }
    split.
    + split.
      * unfold own. rewrite (size_one t O), peek_1. conj.
        -- rewrite P by exact Nva. rewrite Hm. now constructor.
        -- constructor; auto.
        -- exact Bd.
      * unfold confined; conj; [reflexivity| |auto]. intros y _ Hy. apply P. intros Hi. apply Hy. now right.
    + exists (seq base cap). unfold own. rewrite (size_one t O), peek_1, poke_1. split.
      * conj.
        -- constructor; auto. intros _. rewrite <- (peek_poke H base (map CByte x)) at 2. rewrite map_length.
           apply peek_ext. intros y Hy. apply poke_other. cbn. intros [<-|[]]. apply Nva. rewrite seq_in in *. lia.
        -- constructor; auto.
        -- exact Bd.
      * unfold confined; conj; [reflexivity| |auto]. intros y _ Hy. rewrite poke_other; [apply P|]; cbn in *; intuition.
  - apply Nat.leb_gt in Lx. set (pre := firstn _ x).
    set (H1 := poke H base (map CByte pre)).
    rewrite alloc_eq. set (cs := map CByte x ++ _).
    assert (Lc : length cs = (length x + room (length x))%nat).
    { unfold cs. rewrite app_length, map_length, repeat_length. reflexivity. }
    assert (P : forall y, ~ In y (seq base cap) -> mem H1 y = mem H y).
    { intros y Hy. apply poke_other. unfold pre. rewrite map_length, firstn_length. rewrite seq_in in *. lia. }
    assert (N1 : next H1 = next H) by reflexivity.
    assert (Vn : (va < next H)%nat) by (apply Bd; now left).
    set (H2 := fst (alloc H1 cs)).
    assert (P2 : forall y, (y < next H)%nat -> ~ In y (seq base cap) -> mem H2 y = mem H y).
    { intros y Hy Hn. unfold H2. rewrite alloc_old by (rewrite N1; exact Hy). now apply P. }
    assert (N2 : next H2 = (next H + (length x + room (length x)))%nat).
    { unfold H2. rewrite alloc_next, Lc. reflexivity. }
    split.
    + split.
      * unfold own. rewrite (size_one t O), peek_1. conj.
        -- rewrite P2 by auto. rewrite Hm. constructor; auto. discriminate.
        -- constructor; auto.
        -- intros y Hy. apply Bd in Hy. lia.
      * unfold confined; conj; [lia| |auto]. intros y Hl Hy. apply P2; [exact Hl|]. intros Hi. apply Hy. now right.
    + exists (seq (next H) (length x + room (length x))). unfold own. rewrite (size_one t O), peek_1, poke_1. split.
      * conj.
        -- replace (match x with [] => nl | _ => false end) with false by (clear -Lx; destruct x; [cbn in Lx; lia|reflexivity]).
           constructor; auto; [lia|]. intros _.
           transitivity (peek H2 (next H) (length x)).
           { apply peek_ext. intros y Hy. apply poke_other. cbn. intros [<-|[]]. rewrite seq_in in *. lia. }
           pose proof (alloc_peek H1 cs) as E. rewrite Lc in E. apply peek_prefix in E. rewrite N1 in E.
           unfold H2. rewrite E. unfold cs. rewrite <- (map_length CByte x) at 1. rewrite firstn_app, Nat.sub_diag, firstn_all.
           cbn [firstn]. apply app_nil_r.
        -- cbn [app seq]. constructor; [|apply seq_NoDup]. rewrite seq_in. lia.
        -- intros y Hy. rewrite poke_next, N2. cbn [app seq In] in Hy. destruct Hy as [<-|Hy]; [lia|]. rewrite seq_in in Hy. lia.
      * unfold confined; conj; [rewrite poke_next; lia| |].
        -- intros y Hl Hy. rewrite poke_other by (cbn in *; intuition). apply P2; [exact Hl|]. intros Hi. apply Hy. now right.
        -- intros y [<-|Hy]; [now left; left|]. right. rewrite seq_in in Hy. lia.
Qed.

Context (ln : nat).
Notation hunmarshal := (hunmarshal env ln prefix room).
Notation unmarshal := (unmarshal env ln).

Definition good (n : nat) : Prop := forall t a dst va H G wt, codec env t a -> own true H t va dst G ->
  sim (post H (seq va (size t) ++ G) t va) (unmarshal n a dst wt) (hunmarshal n a va H wt).

Lemma sim_bind_l {E A B C} (R : A -> B -> Prop) (Q : C -> B -> Prop) (p : prog E A) (q : prog E B) f :
  sim R p q -> (forall a b, R a b -> sim Q (f a) (Ret b)) -> sim Q (bind p f) q.
Proof. intros S K. induction S; cbn [bind]; [now apply K|constructor; auto|constructor]. Qed.

(** What a variable of each type holds *)
Lemma see_cells b H t va v G : one_cell t -> holds b H t (peek H va (size t)) v G -> holds b H t [mem H va] v G.
Proof using Henv. intros O A. now rewrite (size_one t O), peek_1 in A. Qed.

Ltac other := first [congruence | exfalso;
  repeat match goal with
  | P : plain env _ |- _ => unfold plain in P
  | U : under env ?t = _, P : context [under env ?t] |- _ => rewrite U in P
  end; first [contradiction | discriminate | congruence | tauto]].

Lemma as_bytes_under t : as_bytes env t = true -> under env t = RtSlice RtUint8.
Proof. unfold as_bytes. destruct (under env t) as [| | | | | | | | | | | | | | | | | | | | |e| | | | |]; try discriminate. now destruct e. Qed.

Lemma see_bytes b H t va v G : as_bytes env t = true -> holds b H t (peek H va (size t)) v G ->
  exists nl s sp base cap, v = GBytes nl s sp /\ mem H va = CSlice nl base (length s) cap /\
    (length s <= cap)%nat /\ G = seq base cap.
Proof using Henv.
  intros B A. apply see_cells in A; [|now apply bytes_one]. pose proof (as_bytes_under t B) as U.
  inversion A; subst; try other. eauto 10.
Qed.

Lemma see_slice b H t va v G e : under env t = RtSlice e -> as_bytes env t = false -> holds b H t (peek H va (size t)) v G ->
  exists nl base es sp G0, v = GSlice nl es sp /\ mem H va = CSlice nl base (length es) (length es + length sp) /\
    (nl = true -> es = [] /\ sp = []) /\ G = seq base ((length es + length sp) * size e) ++ G0 /\
    all_hold b H (repeat e (length es)) (peek H base (length es * size e)) es G0.
Proof using Henv.
  intros U B A. apply see_cells in A; [|intros s; congruence].
  inversion A; subst; try other.
  replace e0 with e in * by congruence. do 5 eexists. conj; eauto.
Qed.

Lemma see_map b H t va v G kt et : under env t = RtMap kt et -> holds b H t (peek H va (size t)) v G ->
  (v = GMap None /\ mem H va = CMap None /\ G = []) \/
  exists m ads es G0, v = GMap (Some es) /\ mem H va = CMap (Some m) /\ G = m :: G0 /\
    mem H m = CEntries ads /\ entries_hold b H kt et ads es G0.
Proof using Henv.
  intros U A. apply see_cells in A; [|intros s; congruence].
  inversion A; subst; try other; auto.
  - match goal with B : as_bytes env t = true |- _ => apply as_bytes_under in B; congruence end.
  - right. replace k with kt in * by congruence. replace e with et in * by congruence. do 4 eexists; conj; eauto.
Qed.

Lemma see_ptr b H t va v G e : under env t = RtPtr e -> holds b H t (peek H va (size t)) v G ->
  (v = GPtr None /\ mem H va = CPtr None /\ G = []) \/
  exists p w G0, v = GPtr (Some w) /\ mem H va = CPtr (Some p) /\ G = seq p (size e) ++ G0 /\
    holds b H e (peek H p (size e)) w G0.
Proof using Henv.
  intros U A. apply see_cells in A; [|intros s; congruence].
  inversion A; subst; try other; auto.
  - match goal with B : as_bytes env t = true |- _ => apply as_bytes_under in B; congruence end.
  - right. replace e0 with e in * by congruence. do 3 eexists; conj; eauto.
Qed.

Lemma see_struct b H t va v G s : under env t = RtStruct s -> holds b H t (peek H va (size t)) v G ->
  exists vs, v = GStruct vs /\ mem H va = CHead.
Proof using Henv.
  intros U A. rewrite (size_struct t s U), peek_S in A.
  inversion A; subst; try other.
  - match goal with B : as_bytes env t = true |- _ => apply as_bytes_under in B; congruence end.
  - eauto.
Qed.

Lemma see_plain b H t va v G : plain env t -> holds b H t (peek H va (size t)) v G -> mem H va = CLeaf v /\ leaf v /\ G = [].
Proof using Henv.
  intros P A. apply see_cells in A; [|now apply plain_one].
  inversion A; subst; try other.
  - auto.
  - match goal with B : as_bytes env t = true |- _ => apply as_bytes_under in B; other end.
Qed.

Lemma sim_crash' {E A B} (R : A -> B -> Prop) c : sim (E := E) R (Crash c) (Crash c).
Proof. constructor. Qed.

(** *** bytes *)
Lemma bytes_case t dst va H G wt : as_bytes env t = true -> own true H t va dst G ->
  sim (post H (seq va (size t) ++ G) t va)
    (check wt T_String t dst (scalar "ReadBytes" T_String t (RBytes []) dst
       (fun s => GBytes (match dst, s with GBytes true _ _, [] => true | _, _ => false end) s [])))
    (hcheck wt T_String t H
            (match mem H va with
             | CSlice nl base _ cap =>
                 rdu "ReadBytes" T_String t (RBytes [])
                   (fun x er => (fst (append prefix room H nl base cap x), Some er))
                   (fun x => let '(H, c) := append prefix room H nl base cap x in Ret (poke H va [c], None))
             | _ => Crash Panicked
             end)).
Proof using Henv.
  intros B A. apply sim_check.
  2:{ eapply post_same; [exact A|]. apply confined_refl. }
  pose proof A as (_ & Nd & Bd). pose proof (bytes_one t B) as O.
  destruct (see_bytes _ _ _ _ _ _ B (proj1 A)) as (nl & s & sp & base & cap & -> & Hm & Lc & ->).
  rewrite (size_one t O) in *. cbn [seq app] in *. rewrite Hm. apply sim_rdu.
  - intros x er. pose proof (append_ok H t va nl s sp base cap x B Lc Hm Nd Bd) as K.
    destruct (append prefix room H nl base cap x) as [H1 c]. destruct K as [[K1 K2] _].
    split; [reflexivity|]. exists (seq base cap). rewrite (size_one t O). auto.
  - intros x. pose proof (append_ok H t va nl s sp base cap x B Lc Hm Nd Bd) as K.
    destruct (append prefix room H nl base cap x) as [H1 c]. destruct K as [_ (G' & K1 & K2)].
    constructor. split; [reflexivity|]. exists G'. rewrite (size_one t O). cbn [fst snd is_none seq app].
    split; [|exact K2]. destruct nl, x; exact K1.
Qed.

(** *** structs *)
Lemma field_case m t s fs va H F : good m -> under env t = RtStruct s -> make_struct_fields env ln t = Some (inl fs) ->
  let I vs H' := exists G', own true H' t va (GStruct vs) G' /\ confined H H' F (seq va (size t) ++ G') in
  forall vs H1, I vs H1 ->
  sim (either I (post H F t va)) (unmarshal_field (unmarshal m) (skip m) t fs vs)
    (hunmarshal_field env (hunmarshal m) (skip m) t fs va H1).
Proof using Henv.
  intros IH U Hfs I vs H1 I1. unfold unmarshal_field, hunmarshal_field.
  assert (Err : forall vs H1 e, I vs H1 -> post H F t va (GStruct vs, e) (H1, e)).
  { intros vs' H' e (G' & A & C). eapply post_same; eauto. }
  apply sim_rdu; [intros _ er; now apply Err|]. intros h.
  destruct (fh_type h =? T_Stop).
  { apply sim_rdu0; [intros er; now apply Err|]. constructor. now apply Err. }
  assert (End : forall vs H1, I vs H1 -> sim (either I (post H F t va))
     (rdu0 "ReadFieldEnd" T_Struct t RFieldEnd (fun er => inr (GStruct vs, Some er)) (Ret (inl vs)))
     (rdu0 "ReadFieldEnd" T_Struct t RFieldEnd (fun er => inr (H1, Some er)) (Ret (inl H1)))).
  { intros vs' H' I'. apply sim_rdu0; [intros er; now apply Err|]. now constructor. }
  cbv zeta. destruct (by_id fs (fh_id h)) as [f|] eqn:Bf.
  - assert (Hf : In f fs).
    { unfold by_id in Bf. apply find_some in Bf as [Hf _]. now apply in_rev. }
    apply (proj1 (fields_spec env Henv ln t fs Hfs)) in Hf as (j & sf & o & a & Hj & _ & La & ->).
    cbn [f_index f_fncs]. unfold struct_def in Hj. rewrite U in Hj.
    assert (Hft : nth_error (field_types env t) j = Some (sf_type sf)).
    { unfold field_types. rewrite U. now apply map_nth_error. }
    destruct I1 as (G' & A & C).
    destruct (field_focus H1 t s va vs G' j (sf_type sf) U A Hft) as (v & Gi & Hv & Av & _ & K).
    rewrite Hv, Hft. eapply sim_bind.
    { apply (IH (sf_type sf)); [exists ln; exact La|exact Av]. }
    intros [v' e] [H2 e'] (Ee & Gi' & Av' & Cv). cbn [fst snd] in *. subst e'.
    destruct (K _ _ _ _ Av' Cv) as (G'' & A'' & C'').
    assert (P : confined H H2 F (seq va (size t) ++ G'')) by (eapply confined_trans; eauto).
    destruct e as [er|].
    + constructor. split; [reflexivity|]. exists G''. auto.
    + apply End. exists G''. auto.
  - eapply sim_bind; [apply sim_same|]. intros e e' <-. destruct e; [constructor; now apply Err|now apply End].
Qed.

Lemma struct_case m t s dst va H G wt : good m -> under env t = RtStruct s -> own true H t va dst G ->
  sim (post H (seq va (size t) ++ G) t va) (unmarshal (S m) (AStruct t) dst wt) (hunmarshal (S m) (AStruct t) va H wt).
Proof using Henv.
  intros IH U A. cbn [Arshal.unmarshal Heap.hunmarshal].
  assert (Err : forall e, post H (seq va (size t) ++ G) t va (dst, e) (H, e)).
  { intros e. eapply post_same; [exact A|]. apply confined_refl. }
  destruct (make_struct_fields env ln t) as [[fs|e]|] eqn:Hfs; [|constructor; apply Err|constructor].
  apply sim_check; [|apply Err].
  destruct (see_struct _ _ _ _ _ _ _ U (proj1 A)) as (vs & -> & Hm). rewrite Hm.
  apply sim_rdu; [intros _ er; apply Err|]. intros _.
  eapply sim_bind.
  { apply sim_loop_nat; [apply (field_case m t s fs va H (seq va (size t) ++ G) IH U Hfs)|].
    exists G. split; [exact A|apply confined_refl]. }
  intros [vs'|r] [H'|q]; cbn [either]; try contradiction; intros K; [apply sim_crash|apply sim_ret; exact K].
Qed.

(** *** pointers *)
Lemma ptr_focus H t e va v p G0 : under env t = RtPtr e -> own true H t va (GPtr (Some v)) (seq p (size e) ++ G0) ->
  mem H va = CPtr (Some p) -> holds true H e (peek H p (size e)) v G0 ->
  own true H e p v G0 /\
  forall b H' v' G', own b H' e p v' G' -> confined H H' (seq p (size e) ++ G0) (seq p (size e) ++ G') ->
    own b H' t va (GPtr (Some v')) (seq p (size e) ++ G') /\
    confined H H' (seq va (size t) ++ seq p (size e) ++ G0) (seq va (size t) ++ seq p (size e) ++ G').
Proof using Henv.
  intros U (A & N & Bd) Hm Hv. assert (O : one_cell t) by (intros s; congruence).
  rewrite (size_one t O) in *. cbn [seq app] in *.
  apply NoDup_cons_iff in N as [Nv N]. split.
  { unfold HeapProof.own. conj; auto. intros x Hx. apply Bd. now right. }
  intros b H' v' G' (A' & N' & B') (C1 & C2 & C3).
  assert (Vn : (va < next H)%nat) by (apply Bd; now left).
  unfold HeapProof.own. rewrite (size_one t O). cbn [seq app]. conj.
  - rewrite peek_1, (C2 va Vn Nv), Hm. now apply (h_ptr env b H' t e p v' G' U).
  - constructor; [|exact N']. intros Hi. destruct (C3 _ Hi) as [?|?]; [auto|lia].
  - intros x [<-|Hx]; [lia|auto].
  - unfold confined; conj; [exact C1| |].
    + intros x Hx Hn. apply C2; [exact Hx|]. intros Hi. apply Hn. now right.
    + intros x [<-|Hx]; [left; now left|]. destruct (C3 _ Hx); [left; now right|now right].
Qed.

Lemma ptr_case m t e ea dst va H G wt : good m -> under env t = RtPtr e -> codec env e ea -> own true H t va dst G ->
  sim (post H (seq va (size t) ++ G) t va) (unmarshal (S m) (APtr t ea) dst wt) (hunmarshal (S m) (APtr t ea) va H wt).
Proof using Henv.
  intros IH U Ca A. cbn [Arshal.unmarshal Heap.hunmarshal]. assert (O : one_cell t) by (intros s; congruence).
  assert (Go : forall H1 v p G0, own true H1 t va (GPtr (Some v)) (seq p (size e) ++ G0) ->
     mem H1 va = CPtr (Some p) -> holds true H1 e (peek H1 p (size e)) v G0 ->
     confined H H1 (seq va (size t) ++ G) (seq va (size t) ++ seq p (size e) ++ G0) ->
     sim (post H (seq va (size t) ++ G) t va) ('(v', e) <- unmarshal m ea v wt ;; Ret (GPtr (Some v'), e))
       (hunmarshal m ea p H1 wt)).
  { intros H1 v p G0 A1 Hm Hv C. destruct (ptr_focus H1 t e va v p G0 U A1 Hm Hv) as [Av K].
    eapply sim_bind_l; [apply IH; [exact Ca|exact Av]|].
    intros [v' er] [H' er'] (E & G' & A' & C'). cbn [fst snd] in *. subst er'.
    destruct (K _ _ _ _ A' C') as [K1 K2]. constructor. split; [reflexivity|].
    exists (seq p (size e) ++ G'). split; [exact K1|]. eapply confined_trans; eauto. }
  replace (elem_type env t) with e by (unfold elem_type; now rewrite U).
  destruct (see_ptr _ _ _ _ _ _ _ U (proj1 A)) as [(-> & Hm & ->)|(p & w & G0 & -> & Hm & -> & Hw)]; rewrite Hm.
  2:{ eapply Go; eauto. apply confined_refl. }
  rewrite alloc_eq. cbv zeta. set (p := next H). set (H0 := fst (alloc H (zcells e))).
  set (H1 := poke H0 va [CPtr (Some p)]).
  destruct A as (_ & _ & Bd). rewrite (size_one t O) in *. cbn [seq app] in *.
  assert (Vn : (va < next H)%nat) by (apply Bd; now left).
  assert (N0 : next H1 = (p + size e)%nat) by (unfold H1, H0; now rewrite poke_next, alloc_next).
  assert (P1 : peek H1 p (size e) = zcells e).
  { transitivity (peek H0 p (size e)); [|apply alloc_peek_n; reflexivity]. apply peek_ext. intros x Hx.
    apply poke_other. cbn. intros [<-|[]]. rewrite seq_in in Hx. unfold p in Hx. lia. }
  assert (Z : holds true H1 e (peek H1 p (size e)) (zero env e) []) by (rewrite P1; apply holds_zero).
  apply (Go H1 (zero env e) p []); auto.
  - unfold HeapProof.own. rewrite (size_one t O), peek_1, app_nil_r. conj.
    + unfold H1 at 2. rewrite poke_1. rewrite <- (app_nil_r (seq p (size e))). now apply (h_ptr env true H1 t e p).
    + cbn [seq app]. constructor; [|apply seq_NoDup]. rewrite seq_in. unfold p. lia.
    + cbn [seq app]. intros x [<-|Hx]; [|rewrite seq_in in Hx]; lia.
  - apply poke_1.
  - unfold confined; conj; [lia| |].
    + intros x Hx Hn. unfold H1. rewrite poke_other by (cbn in *; tauto). now apply alloc_old.
    + intros x [<-|Hx]; [left; now left|]. right. rewrite app_nil_r, seq_in in Hx. unfold p in Hx. lia.
Qed.

(** *** maps *)
Lemma map_temps H kt et va mp ads es G : mem H va = CMap (Some mp) -> mem H mp = CEntries ads ->
  entries_hold true H kt et ads es G -> NoDup (va :: mp :: G) -> (forall x, In x (va :: mp :: G) -> (x < next H)%nat) ->
  let H1 := fst (alloc H (zcells kt)) in
  let H2 := fst (alloc H1 (zcells et)) in
  mapping true H2 kt et va mp (next H) (next H1) es G /\
  confined H H2 (va :: mp :: G) (va :: mp :: seq (next H) (size kt) ++ seq (next H1) (size et) ++ G).
Proof using Henv ln prefix room.
  intros Hv Hm He Nd Bd H1 H2.
  assert (N1 : next H1 = (next H + size kt)%nat) by (unfold H1; now rewrite alloc_next).
  assert (N2 : next H2 = (next H + size kt + size et)%nat) by (unfold H2; now rewrite alloc_next, N1).
  assert (P : forall x, (x < next H)%nat -> mem H2 x = mem H x).
  { intros x Hx. unfold H2. rewrite alloc_old by lia. now apply alloc_old. }
  split.
  - unfold HeapProof.mapping. conj.
    + rewrite P; [exact Hv|]. apply Bd. now left.
    + exists ads. split; [rewrite P; [exact Hm|apply Bd; right; now left]|].
      eapply entries_frame; [exact He|]. intros x Hx. apply P, Bd. right. now right.
    + apply NoDup_cons_iff in Nd as [Na Nd]. apply NoDup_cons_iff in Nd as [Nb Nd].
      assert (Bv := Bd va (or_introl eq_refl)). assert (Bm := Bd mp (or_intror (or_introl eq_refl))).
      constructor; [|constructor].
      * intros [E|Hi]; [apply Na; now left|]. rewrite !in_app_iff, !seq_in in Hi.
        destruct Hi as [?|[?|?]]; [lia|lia|]. apply Na. now right.
      * intros Hi. rewrite !in_app_iff, !seq_in in Hi. destruct Hi as [?|[?|?]]; [lia|lia|]. now apply Nb.
      * apply NoDup_app_iff. conj; [apply seq_NoDup| |].
        -- apply NoDup_app_iff. conj; [apply seq_NoDup|exact Nd|]. intros x Hx Hg. rewrite seq_in in Hx.
           specialize (Bd x (or_intror (or_intror Hg))). lia.
        -- intros x Hx Hg. rewrite in_app_iff, !seq_in in *. destruct Hg as [?|Hg]; [lia|].
           specialize (Bd x (or_intror (or_intror Hg))). lia.
    + intros x Hx. cbn [In] in Hx. rewrite !in_app_iff, !seq_in in Hx.
      destruct Hx as [Hx|[Hx|[Hx|[Hx|Hx]]]]; try lia.
      * specialize (Bd x (or_introl Hx)). lia.
      * specialize (Bd x (or_intror (or_introl Hx))). lia.
      * specialize (Bd x (or_intror (or_intror Hx))). lia.
  - unfold confined; conj; [lia|intros; now apply P|].
    intros x Hx. cbn [In] in *. rewrite !in_app_iff, !seq_in in Hx. intuition lia.
Qed.

Lemma map_start H t kt et va o o' es G : under env t = RtMap kt et -> own true H t va (GMap o) G ->
  mem H va = CMap o' -> es = match o with Some es => es | None => [] end ->
  let H1 :=
    match o' with
    | Some _ => H
    | None => let '(H, mp) := alloc H [CEntries []] in poke H va [CMap (Some mp)]
    end in
  let H2 := fst (alloc H1 (zcells kt)) in
  let H3 := fst (alloc H2 (zcells et)) in
  exists mp G1, mapping true H3 kt et va mp (next H1) (next H2) es G1 /\
    confined H H3 (va :: G) (va :: mp :: seq (next H1) (size kt) ++ seq (next H2) (size et) ++ G1).
Proof using Henv ln prefix room.
  intros U A Hm ->. assert (O : one_cell t) by (intros s; congruence).
  pose proof A as (_ & Nd & Bd). rewrite (size_one t O) in *. cbn [seq app] in *.
  destruct (see_map _ _ _ _ _ _ _ _ U (proj1 A)) as [(E & Hm' & ->)|(m & ads & es & G0 & E & Hm' & -> & Ha & He)];
    rewrite Hm' in Hm; injection Hm as <-; injection E as ->.
  - rewrite alloc_eq. cbv zeta. set (mp := next H). set (H0 := fst (alloc H [CEntries []])).
    set (H1 := poke H0 va [CMap (Some mp)]). exists mp, [].
    assert (Vn : (va < next H)%nat) by (apply Bd; now left).
    assert (N0 : next H1 = S mp) by (unfold H1, H0; rewrite poke_next, alloc_next; cbn; unfold mp; lia).
    assert (M1 : mem H1 mp = CEntries []).
    { unfold H1. rewrite poke_other by (cbn; unfold mp; lia). pose proof (alloc_peek H [CEntries []]) as P.
      rewrite peek_1 in P. injection P as P. exact P. }
    assert (Nd1 : NoDup [va; mp]) by (constructor; [cbn; unfold mp; lia|repeat constructor; auto]).
    assert (Bd1 : forall x, In x [va; mp] -> (x < next H1)%nat) by (cbn; unfold mp in *; lia).
    destruct (map_temps H1 kt et va mp [] [] [] (poke_1 _ _ _) M1 (he_nil _ _ _ _ _) Nd1 Bd1) as [K1 K2].
    split; [exact K1|]. eapply confined_trans; [|exact K2].
    unfold confined; conj; [unfold mp in *; lia| |].
    + intros x Hx Hn. unfold H1. rewrite poke_other by (cbn in *; tauto). now apply alloc_old.
    + intros x [<-|[<-|[]]]; [left; now left|]. now right.
  - exists m, G0. eapply map_temps; eauto.
Qed.

Lemma map_own b H t kt et va m k v es G : under env t = RtMap kt et -> mapping b H kt et va m k v es G ->
  own b H t va (GMap (Some es)) (m :: G).
Proof using Henv ln prefix room.
  intros U (Hv & (ads & Hm & He) & Nd & Bd). assert (O : one_cell t) by (intros s; congruence).
  unfold HeapProof.own. rewrite (size_one t O). cbn [seq app]. conj.
  - rewrite peek_1, Hv. eapply h_map; eauto.
  - apply NoDup_cons_iff in Nd as [Na Nd]. apply NoDup_cons_iff in Nd as [Nb Nd].
    apply NoDup_app_iff in Nd as (_ & Nd & _). apply NoDup_app_iff in Nd as (_ & Nd & _).
    cbn [In] in Na. rewrite !in_app_iff in *.
    constructor; [cbn [In]; tauto|constructor; [tauto|exact Nd]].
  - intros x Hx. apply Bd. cbn [In] in *. rewrite !in_app_iff. tauto.
Qed.

Lemma entry_case m t kt et ka ea h va H F mp k v : good m -> under env t = RtMap kt et -> codec env kt ka -> codec env et ea ->
  let F' G := va :: mp :: seq k (size kt) ++ seq v (size et) ++ G in
  let I es H' := exists G', mapping true H' kt et va mp k v es G' /\ confined H H' F (F' G') in
  forall es H1, I es H1 ->
  sim (either I (post H F t va)) (unmarshal_entry env (unmarshal m) t ka ea h es)
    (hunmarshal_entry env (hunmarshal m) t ka ea h va k v H1).
Proof using Henv ln prefix room.
  intros IH U Ck Ce F' I es H1 (G & M & C). unfold unmarshal_entry, hunmarshal_entry.
  assert (O : one_cell t) by (intros s; congruence).
  assert (Fin : forall b H' es G' e, b = is_none e -> mapping b H' kt et va mp k v es G' -> confined H H' F (F' G') ->
            post H F t va (GMap (Some es), e) (H', e)).
  { intros b H' es' G' e -> M' C'. split; [reflexivity|]. exists (mp :: G'). cbn [fst snd]. split.
    - eapply map_own; eauto.
    - eapply confined_sub; [exact C'|]. rewrite (size_one t O). unfold F'. cbn [seq app In]. intros x. rewrite !in_app_iff. tauto. }
  replace (key_type env t) with kt by (unfold key_type; now rewrite U).
  replace (elem_type env t) with et by (unfold elem_type; now rewrite U). cbv zeta.
  destruct (key_focus H1 kt et va mp k v es G M) as [Ak Kk].
  eapply sim_bind; [apply (IH kt); [exact Ck|exact Ak]|].
  intros [key e] [H2 e'] (Ee & Gk & Ak' & Ckk). cbn [fst snd] in *. subst e'.
  destruct (Kk _ _ _ _ Ak' Ckk) as (M2 & Nd2 & Bd2 & C2).
  destruct e as [er|].
  { constructor. cbn [either]. apply (Fin false H2 es G); [reflexivity| |].
    - destruct M2 as (X1 & (ads & X2 & X3) & X4). unfold HeapProof.mapping. conj; eauto; try tauto.
      exists ads. split; [exact X2|]. now apply entries_loose.
    - eapply confined_sub; [eapply confined_trans; [exact C|exact C2]|]. intros x Hx. apply in_or_app. now left. }
  destruct Ak' as (Hk & _). rewrite (proj1 M2).
  destruct (value_focus H2 kt et va mp k v es G key Gk M2 Hk Nd2 Bd2) as (Gv & Av & Kv).
  eapply sim_bind; [apply (IH et); [exact Ce|exact Av]|].
  intros [w e] [H3 e'] (Ee & Gw & Aw & Cw). cbn [fst snd] in *. subst e'.
  destruct (Kv _ _ _ _ Aw Cw) as (Mv3 & G' & M' & C'). rewrite Mv3.
  assert (CC : confined H (set_map_index env H3 mp kt et k v) F (F' G')).
  { eapply confined_trans; [exact C|]. eapply confined_trans; [exact C2|]. exact C'. }
  destruct e as [er|].
  - constructor. cbn [either]. eapply Fin; eauto.
  - constructor. cbn [either]. exists G'. auto.
Qed.

Lemma map_case m t kt et ka ea dst va H G wt : good m -> under env t = RtMap kt et -> codec env kt ka -> codec env et ea ->
  own true H t va dst G ->
  sim (post H (seq va (size t) ++ G) t va) (unmarshal (S m) (AMap t ka ea) dst wt) (hunmarshal (S m) (AMap t ka ea) va H wt).
Proof using Henv ln prefix room.
  intros IH U Ck Ce A. cbn [Arshal.unmarshal Heap.hunmarshal]. assert (O : one_cell t) by (intros s; congruence).
  set (F := seq va (size t) ++ G). assert (EF : F = va :: G) by (unfold F; now rewrite (size_one t O)).
  assert (Err : forall e, post H F t va (dst, e) (H, e)).
  { intros e. eapply post_same; [exact A|]. apply confined_refl. }
  apply sim_check; [|apply Err].
  assert (E : exists o o', dst = GMap o /\ mem H va = CMap o').
  { destruct (see_map _ _ _ _ _ _ _ _ U (proj1 A)) as [(-> & Hm & _)|(m' & ads & es & G0 & -> & Hm & _)]; eauto. }
  destruct E as (o & o' & -> & Hm). rewrite Hm.
  apply sim_rdu; [intros _ er; apply Err|]. intros h. cbv zeta.
  destruct (map_size h >? 0).
  2:{ apply sim_rdu0; [intros er; apply Err|]. constructor. apply Err. }
  pose proof (map_start H t kt et va o o' _ G U A Hm eq_refl) as K.
  replace (key_type env t) with kt by (unfold key_type; now rewrite U).
  replace (elem_type env t) with et by (unfold elem_type; now rewrite U).
  set (H1 := match o' with Some _ => H | None => _ end) in *. clearbody H1.
  rewrite (alloc_eq H1), (alloc_eq (fst (alloc H1 _))).
  cbv zeta in K. destruct K as (mp & G1 & M1 & C1). rewrite <- EF in C1.
  eapply sim_bind.
  { apply sim_loop_Z; [apply (entry_case m t kt et ka ea h va H F mp); eauto|].
    exists G1. split; [exact M1|exact C1]. }
  intros [es'|r] [H'|q]; cbn [either]; try contradiction; [|intros K; apply sim_ret; exact K].
  intros (G' & M' & C').
  assert (P : forall e, post H F t va (GMap (Some es'), e) (H', e)).
  { intros e. eapply post_same; [eapply map_own; eauto|]. eapply confined_sub; [exact C'|].
    rewrite (size_one t O). cbn [seq app In]. intros x. rewrite !in_app_iff. tauto. }
  apply sim_rdu0; [intros er; apply P|]. constructor. apply P.
Qed.

(** *** lists and sets *)
Lemma seq_start H t e va nl es sp base G : under env t = RtSlice e -> as_bytes env t = false ->
  own true H t va (GSlice nl es sp) G -> mem H va = CSlice nl base (length es) (length es + length sp) ->
  (nl = true -> es = [] /\ sp = []) ->
  (forall x, In x (seq base ((length es + length sp) * size e)) -> In x G) -> NoDup (seq base ((length es + length sp) * size e)) ->
  (filling true (set_len H va (length es + length sp)) e va O (es ++ sp) true base [] /\
   confined H (set_len H va (length es + length sp)) (va :: G) (va :: seq base (length (es ++ sp) * size e) ++ [])) /\
  (own true (set_len H va 0) t va (GSlice nl [] (es ++ sp)) (seq base (length (es ++ sp) * size e)) /\
   confined H (set_len H va 0) (va :: G) (va :: seq base (length (es ++ sp) * size e))).
Proof using Henv ln prefix room.
  intros U B (_ & Nd & Bd) Hm Hnl Sub Ns. assert (O : one_cell t) by (intros s; congruence).
  rewrite (size_one t O) in *. cbn [seq app] in *. unfold set_len. rewrite Hm. rewrite app_length, app_nil_r.
  apply NoDup_cons_iff in Nd as [Na Nd].
  assert (Nv : ~ In va (seq base ((length es + length sp) * size e))) by (intros Hi; apply Na; now apply Sub).
  assert (Cf : forall c, confined H (poke H va [c]) (va :: G) (va :: seq base ((length es + length sp) * size e))).
  { intros c. unfold confined; conj; [now rewrite poke_next| |].
    - intros x _ Hx. apply poke_other. cbn in *. tauto.
    - intros x [<-|Hx]; left; [now left|right; auto]. }
  assert (Nd' : NoDup (va :: seq base ((length es + length sp) * size e))) by now constructor.
  assert (Bd' : forall x, In x (va :: seq base ((length es + length sp) * size e)) -> (x < next H)%nat).
  { intros x [<-|Hx]; apply Bd; [now left|right; auto]. }
  split; (split; [|apply Cf]).
  - unfold HeapProof.filling. rewrite poke_1, app_length, app_nil_r. conj; auto.
    + exists nl. split; [reflexivity|]. intros E. destruct (Hnl E) as [-> ->]. reflexivity.
    + lia.
    + cbn. constructor.
    + discriminate.
  - unfold HeapProof.own. rewrite (size_one t O), peek_1, poke_1. cbn [seq app]. conj; auto.
    pose proof (h_slice env true (poke H va [CSlice nl base 0 (length es + length sp)]) t e nl base [] (es ++ sp) [] U B) as K.
    cbn [length repeat app] in K. rewrite app_length, app_nil_r in K. apply K.
    + intros E. destruct (Hnl E) as [-> ->]. auto.
    + cbn. constructor.
Qed.

Lemma loop_Z_pos {E S A} n (f : S -> prog E (S + A)) s : 0 < n -> exists p, forall A' S' (g : S' -> prog E (S' + A')) s', loop_Z n f s = loop_pos p f s /\ loop_Z n g s' = loop_pos p g s'.
Proof. intros H. destruct n as [|p|p]; try lia. exists p. intros. split; reflexivity. Qed.

Lemma fill_can b H e va i arr mz base G : filling b H e va i arr mz base G -> can_set_len H va i = true.
Proof. intros ((nl & M & _) & Li & _). unfold can_set_len. rewrite M. now apply Nat.leb_le. Qed.

Lemma elem_case m t e ea wt va H F : good m -> under env t = RtSlice e -> as_bytes env t = false -> codec env e ea ->
  let I0 (lo : nat) (s : nat * list gval * bool) (s' : heap * nat * nat * bool) :=
    let '(i, arr, mz) := s in let '(H', i', cap, mz') := s' in
    (lo <= i)%nat /\ i' = i /\ cap = length arr /\ mz' = mz /\
    exists base G', filling true H' e va i arr mz base G' /\
      confined H H' F (va :: seq base (length arr * size e) ++ G') in
  forall lo s s', I0 lo s s' ->
  sim (either (I0 1%nat) (post H F t va)) (unmarshal_elem env (unmarshal m) t ea wt s)
    (hunmarshal_elem env (hunmarshal m) t ea wt va s').
Proof using Henv ln prefix room.
  intros IH U B Ce I0 lo [[i arr] mz] [[[H1 i'] cap] mz'] (Hlo & -> & -> & -> & base & G & Fl & C).
  assert (O : one_cell t) by (intros s; congruence).
  unfold unmarshal_elem, hunmarshal_elem. replace (elem_type env t) with e by (unfold elem_type; now rewrite U). cbv zeta.
  assert (Go : forall arr mz H1 base G, filling true H1 e va i arr mz base G -> (i < length arr)%nat ->
    confined H H1 F (va :: seq base (length arr * size e) ++ G) ->
    sim (either (I0 1%nat) (post H F t va))
     ('(v', er) <- unmarshal m ea (if mz then zero env e else nth i arr (GOther 0)) wt;;
      match er with
      | Some _ => Ret (inr (GSlice false (firstn (S i) (set_nth i v' arr)) (skipn (S i) (set_nth i v' arr)), er))
      | None => Ret (inl (S i, set_nth i v' arr, mz))
      end)
     (match mem H1 va with
      | CSlice _ base len _ =>
        if Nat.ltb i len then
        '(H2, er) <- hunmarshal m ea (base + i * size e)%nat
                       (if mz then poke H1 (base + i * size e) (zcells e) else H1) wt;;
        match er with
        | Some _ => if can_set_len H2 va (S i) then Ret (inr (set_len H2 va (S i), er)) else Crash Panicked
        | None => Ret (inl (H2, S i, length arr, mz))
        end
        else Crash Panicked
      | _ => Crash Panicked
      end)).
  { clear -IH U B Ce O Henv. intros arr mz H1 base G Fl Hi C.
    pose proof Fl as ((nl & Hm & _) & _). rewrite Hm, (proj2 (Nat.ltb_lt _ _) Hi).
    destruct (elem_focus H1 e va i arr mz base G Fl Hi) as [Av K]. cbv zeta in Av, K.
    eapply sim_bind; [apply (IH e); [exact Ce|exact Av]|].
    intros [v' er] [H2 er'] (Ee & G' & Av' & Cv). cbn [fst snd] in *. subst er'.
    destruct (K _ _ _ _ Av' Cv) as [Fl' C'].
    assert (CC : confined H H2 F (va :: seq base (length (set_nth i v' arr) * size e) ++ G ++ G')).
    { rewrite set_nth_len. eapply confined_trans; [exact C|]. eapply confined_sub; [exact C'|].
      intros x. cbn [app In]. rewrite !in_app_iff. tauto. }
    destruct er as [er|].
    - rewrite (fill_can _ _ _ _ _ _ _ _ _ Fl').
      constructor. cbn [either]. split; [reflexivity|]. cbn [fst snd is_none].
      destruct (fill_end _ _ _ _ _ _ _ _ _ _ U B Fl' (Nat.lt_0_succ _)) as [A1 C1].
      eexists. split; [exact A1|]. rewrite (size_one t O). eapply confined_trans; [exact CC|]. exact C1.
    - constructor. cbn [either I0]. unfold I0. conj; auto; [lia|now rewrite set_nth_len|]. eauto. }
  destruct (Nat.eqb_spec i (length arr)) as [->|Hn].
  - destruct (grow_ok H1 e va arr mz base G Fl) as [Fl' C']. cbv zeta in Fl', C'.
    destruct (proj1 Fl') as (nl' & Mg & _).
    replace (match mem (grow env H1 e va) va with CSlice _ _ _ cap => cap | _ => length arr end)
      with (length (arr ++ repeat (zero env e) (S (te_grow env (length arr))))) by (now rewrite Mg).
    apply (Go _ false _ _ _ Fl'); [rewrite app_length, repeat_length; lia|].
    eapply confined_trans; eauto.
  - pose proof Fl as (_ & Li & _). eapply Go; eauto. lia.
Qed.

Lemma seq_case m t e set ea dst va H G wt : good m -> under env t = RtSlice e -> as_bytes env t = false -> codec env e ea ->
  own true H t va dst G ->
  sim (post H (seq va (size t) ++ G) t va) (unmarshal (S m) (ASeq t set ea) dst wt) (hunmarshal (S m) (ASeq t set ea) va H wt).
Proof using Henv ln prefix room.
  intros IH U B Ce A. cbn [Arshal.unmarshal Heap.hunmarshal]. assert (O : one_cell t) by (intros s; congruence).
  set (F := seq va (size t) ++ G). assert (EF : F = va :: G) by (unfold F; now rewrite (size_one t O)).
  assert (Err : forall e, post H F t va (dst, e) (H, e)).
  { intros er. eapply post_same; [exact A|]. apply confined_refl. }
  apply sim_check; [|apply Err].
  destruct (see_slice _ _ _ _ _ _ _ U B (proj1 A)) as (nl & base & es & sp & G0 & -> & Hm & Hnl & EG & He). rewrite Hm.
  apply sim_rdu; [intros _ er; apply Err|]. intros h. cbv zeta.
  assert (Sub : forall x, In x (seq base ((length es + length sp) * size e)) -> In x G).
  { intros x Hx. rewrite EG. apply in_or_app. now left. }
  destruct (seq_start H t e va nl es sp base G U B A Hm Hnl Sub (seq_NoDup _ _)) as [[Fl C] [A0 C0]].
  rewrite <- EF in *.
  destruct (set_size h >? 0) eqn:Hs.
  2:{ assert (P : forall er, post H F t va (GSlice nl [] (es ++ sp), er) (set_len H va 0, er)).
      { intros er. eapply post_same; [exact A0|]. rewrite (size_one t O). exact C0. }
      apply sim_rdu0; [intros er; apply P|]. constructor. apply P. }
  assert (Hp : 0 < set_size h) by (rewrite Z.gtb_ltb in Hs; now apply Z.ltb_lt).
  pose proof (elem_case m t e ea (set_elem h) va H F IH U B Ce) as K. cbv zeta in K.
  destruct (set_size h) as [|p|p]; try lia. cbn [loop_Z].
  eapply sim_bind.
  { eapply sim_loop_pos2; [exact (K 0%nat)|exact (K 1%nat)|]. cbn beta iota. conj; auto.
    now rewrite app_length. eauto. }
  intros [[[i arr] mz]|r] [[[[H' i'] cap] mz']|q]; cbn [either]; try contradiction; [|intros K'; apply sim_ret; exact K'].
  intros (Hlo & -> & -> & -> & base' & G' & Fl' & C').
  destruct (fill_end _ _ _ _ _ _ _ _ _ _ U B Fl' Hlo) as [A1 C1]. rewrite (fill_can _ _ _ _ _ _ _ _ _ Fl').
  assert (P : forall er, post H F t va (GSlice false (firstn i arr) (skipn i arr), er) (set_len H' va i, er)).
  { intros er. eapply post_same; [exact A1|]. rewrite (size_one t O). eapply confined_trans; [exact C'|]. exact C1. }
  apply sim_rdu0; [intros er; apply P|]. constructor. apply P.
Qed.

Theorem unmarshal_good n : good n.
Proof using Henv ln prefix room.
  induction n as [|m IH]; intros t a dst va H G wt Ca A; [constructor|].
  assert (Err : forall e, post H (seq va (size t) ++ G) t va (dst, e) (H, e)).
  { intros e. eapply post_same; [exact A|]. apply confined_refl. }
  pose proof (codec_inv env t a Ca) as Ci.
  destruct a as [t'|t'|t' single|t' w|t' w|t'|t'|t'|t'|t' ka ea|t' set ea|t' ea].
  - subst t'. constructor. apply Err.
  - destruct Ci as [-> U]. apply sim_check; [|apply Err]. apply sim_scalar; [unfold plain; now rewrite U|exact A|intros x; exact I].
  - destruct Ci as [-> U]. apply sim_check; [|apply Err].
    apply sim_scalar; [unfold plain; rewrite U; now destruct single|exact A|intros x; now destruct single].
  - destruct Ci as [-> U]. apply sim_check; [|apply Err].
    destruct w; (apply sim_scalar; [unfold plain; now rewrite U|exact A|intros x; exact I]).
  - destruct Ci as [-> U]. apply sim_check; [|apply Err].
    destruct w; (apply sim_scalar; [unfold plain; now rewrite U|exact A|intros x; exact I]).
  - destruct Ci as [-> U]. apply sim_check; [|apply Err]. apply sim_scalar; [unfold plain; now rewrite U|exact A|intros x; exact I].
  - destruct Ci as (-> & _ & B). now apply bytes_case.
  - destruct Ci as [-> U]. assert (P : plain env t) by (unfold plain; now rewrite U).
    cbn [Arshal.unmarshal Heap.hunmarshal]. apply sim_check; [|apply Err].
    destruct (see_plain _ _ _ _ _ _ P (proj1 A)) as (Hm & _ & _). rewrite Hm.
    assert (K : forall u e, post H (seq va (size t) ++ G) t va (GUUID u, e) (poke H va [CLeaf (GUUID u)], e)).
    { intros u e. destruct (own_set H t va dst G true (GUUID u) P A I) as [K1 K2]. eapply post_same; eauto. }
    destruct dst; try apply sim_crash. apply sim_rdu; [intros x er; apply K|]. intros x. constructor. apply K.
  - destruct Ci as (-> & s & U). now apply (struct_case m t s).
  - destruct Ci as (-> & kt & et & U & C1 & C2). now apply (map_case m t kt et).
  - destruct Ci as (-> & e & U & B & C & _). now apply (seq_case m t e).
  - destruct Ci as (-> & e & U & C). now apply (ptr_case m t e).
Qed.
End Env.
