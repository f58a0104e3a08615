(** A value of the wrong Thrift type: where Unmarshal stops, with what. *)
From Coq Require Import Strings.String Sorting.Permutation.
From Verif Require Import Base BaseLemmas Prog Wire WireProof Spec Clients Fuel Reads
  GoFloat Utf8 GoType Fields Arshal GoTypeProof FieldsProof ArshalSpec ArshalEnc ArshalDec ArshalTrip ArshalTotal
  ArshalThms ArshalSafe ArshalInput ArshalReads ArshalGives.

(** From [s] the Reader delivers the fields [l], and is then in [s']. *)
Fixpoint delivers {St} (h : handler wireR St) (l : list (Z * tval)) (s s' : St) : Prop :=
  match l with
  | [] => s' = s
  | (id, v) :: r =>
      exists s2 s3 s4 nm,
        h _ RFieldBegin s = Done s2 (mkFH nm (val_type v) id, None) /\
        reads h v s2 s3 /\ h _ RFieldEnd s3 = Done s4 None /\ delivers h r s4 s'
  end.

Lemma map_nodup_eq {A B} (f : A -> B) l x y : NoDup (map f l) -> In x l -> In y l -> f x = f y -> x = y.
Proof.
  induction l as [|z r IH]; cbn; [tauto|]. intros H Hx Hy E. inversion_clear H as [|? ? Hn Hd].
  destruct Hx as [->|Hx], Hy as [->|Hy]; auto; exfalso; apply Hn; [rewrite E|rewrite <- E]; now apply in_map.
Qed.

Section Mis.
Context (env : tenv) (P : rtype -> Prop) (Hcl : closed env P) (Henv : env_ok env).

Lemma loop_delivers {St} (h : handler wireR St) ln n t fs vs1 s1 : forall l k vs s,
  (length l <= k)%nat -> decode_fields (decode env ln n) n fs vs l = Some (GStruct vs1, None) -> delivers h l s s1 ->
  run h (loop_nat k (unmarshal_field (unmarshal env ln n) (skip n) t fs) vs) s =
  run h (loop_nat (k - length l) (unmarshal_field (unmarshal env ln n) (skip n) t fs) vs1) s1.
Proof using.
  induction l as [|[id tv] r IH]; intros k vs s Hk H Hd; cbn [decode_fields] in H.
  - injection H as <-. cbn in Hd. subst s1. cbn [length]. now rewrite Nat.sub_0_r.
  - destruct k as [|k]; [cbn in Hk; lia|]. cbn [length] in Hk. change (S k - length ((id, tv) :: r))%nat with (k - length r)%nat.
    cbn [loop_nat]. rewrite run_bind. destruct Hd as (s2 & s3 & s4 & nm' & H1 & H2 & H3 & H4).
    unfold unmarshal_field at 1. erewrite run_rdu by exact H1. cbn [fh_type fh_id]. rewrite val_type_not_stop.
    destruct (by_id fs id) as [f|].
    + destruct (nth_error vs (f_index f)) as [v|]; [|discriminate].
      destruct (decode env ln n (f_fncs f) v tv) as [[v' e]|] eqn:D; [|discriminate].
      destruct (unmarshal_reads env ln h n _ _ _ _ _ _ D H2) as (s3' & E & L). rewrite run_bind, E. cbn [obind].
      destruct e as [e|]; [discriminate|].
      rewrite (L eq_refl). erewrite run_rdu0 by exact H3. cbn [run obind]. apply IH; auto; lia.
    + destruct (Nat.leb_spec (vsize tv) n); [|discriminate].
      rewrite run_bind, (skip_reads h tv n s2 s3) by auto. cbn [obind].
      erewrite run_rdu0 by exact H3. cbn [run obind]. apply IH; auto; lia.
Qed.

(** The only field with this id. *)
Definition sole (s : nat) (i : nat) (id : Z) : Prop :=
  forall j sf o, nth_error (te_struct env s) j = Some sf -> tagged env sf o -> fo_id o = id -> j = i.

(** The codec is that of a type which is not a pointer and, if it is a struct,
    has a field table. *)
Definition plain (t : rtype) : Prop :=
  is_ptr env t = false /\
  (forall s, under env t = RtStruct s -> exists N fs, make_struct_fields env N t = Some (inl fs)).

Lemma plain_mismatch_all t a : codec env t a -> plain t ->
  exists N, forall wt ln n dst, wt <> wire_type a -> (N <= ln)%nat -> (N <= n)%nat ->
    unmarshal env ln n a dst wt = Ret (dst, Some (ESemantic "unmarshal" wt (Some t) None)).
Proof using.
  intros Ca [Hnp Htab].
  assert (Hp : forall t' ea, a <> APtr t' ea).
  { intros t' ea ->. pose proof (codec_inv env _ _ Ca) as K. cbv iota in K. destruct K as (_ & e & K & _).
    unfold is_ptr in Hnp. rewrite K in Hnp. discriminate. }
  assert (HT : exists N3, forall ln, (N3 <= ln)%nat -> forall t', a = AStruct t' -> exists fs, make_struct_fields env ln t' = Some (inl fs)).
  { assert (Dec : (exists t', a = AStruct t') \/ (forall t', a <> AStruct t')) by (destruct a; eauto; right; discriminate).
    destruct Dec as [(t' & ->)|Hno].
    - pose proof (codec_inv env _ _ Ca) as K. cbv iota in K. destruct K as (-> & s' & K). destruct (Htab s' K) as (N3 & fs' & M3).
      exists N3. intros ln Hl t2 E2. injection E2 as <-. exists fs'. now apply (make_fields_more env N3 ln).
    - exists O. intros ln _ t' E. exfalso. exact (Hno t' E). }
  destruct HT as (N & HT). exists (S N). intros wt ln [|n] dst Hw Hl Hn; [lia|].
  apply unmarshal_mismatch; auto. apply HT. lia.
Qed.

(** What is left in a variable of type [t] with the value [v] by a mismatch: nil pointers are allocated, down to a type
    [t'] that is not a pointer. *)
Inductive left_behind : rtype -> gval -> rtype -> gval -> Prop :=
| lb_plain t v : plain t -> left_behind t v t v
| lb_nil t e t' w : under env t = RtPtr e -> left_behind e (zero env e) t' w -> left_behind t (GPtr None) t' (GPtr (Some w))
| lb_ptr t e v t' w : under env t = RtPtr e -> left_behind e v t' w -> left_behind t (GPtr (Some v)) t' (GPtr (Some w)).

Lemma behind_mismatch t v t' w : left_behind t v t' w -> forall a, codec env t a ->
  exists N, forall wt ln n, wt <> wire_type a -> (N <= ln)%nat -> (N <= n)%nat ->
    unmarshal env ln n a v wt = Ret (w, Some (ESemantic "unmarshal" wt (Some t') None)).
Proof using.
  induction 1 as [t v Hp|t e t' w U H IH|t e v t' w U H IH]; intros a Ca.
  - destruct (plain_mismatch_all t a Ca Hp) as (N & HN). exists N. auto.
  - assert (A : exists ea, a = APtr t ea /\ codec env e ea).
    { destruct Ca as ([|l0] & L0); [discriminate|]. cbn [lookup] in L0. rewrite U in L0.
      destruct (lookup env l0 e) as [ea|] eqn:Le; [|discriminate]. injection L0 as <-. exists ea. split; [reflexivity|now exists l0]. }
    destruct A as (ea & -> & Ce). destruct (IH ea Ce) as (N & HN). exists (S N). intros wt ln [|n] Hw Hl Hn; [lia|].
    assert (Et : elem_type env t = e) by (unfold elem_type; now rewrite U).
    cbn [unmarshal]. rewrite Et, HN by (auto; lia). reflexivity.
  - assert (A : exists ea, a = APtr t ea /\ codec env e ea).
    { destruct Ca as ([|l0] & L0); [discriminate|]. cbn [lookup] in L0. rewrite U in L0.
      destruct (lookup env l0 e) as [ea|] eqn:Le; [|discriminate]. injection L0 as <-. exists ea. split; [reflexivity|now exists l0]. }
    destruct A as (ea & -> & Ce). destruct (IH ea Ce) as (N & HN). exists (S N). intros wt ln [|n] Hw Hl Hn; [lia|].
    cbn [unmarshal]. rewrite HN by (auto; lia). reflexivity.
Qed.

Theorem field_mismatch lim t s dst l vs i sf o a wt v t' v' : wf lim (VStruct l) -> P t -> under env t = RtStruct s -> has_type env dst t ->
  nth_error (te_struct env s) i = Some sf -> tagged env sf o -> sole s i (fo_id o) ->
  codec env (sf_type sf) a -> nth_error vs i = Some v -> left_behind (sf_type sf) v t' v' ->
  wt <> wire_type a -> wt <> T_Stop ->
  gives env t dst (VStruct l) (GStruct vs) None ->
  exists N, forall n, (N <= n)%nat -> forall St (h : handler wireR St) s0 s1 s2 s3 nm nm',
    h _ RStructBegin s0 = Done s1 (nm, None) -> delivers h l s1 s2 ->
    h _ RFieldBegin s2 = Done s3 (mkFH nm' wt (fo_id o), None) ->
    run h (Unmarshal env n n (Some (RtPtr t, GPtr (Some dst)))) s0 =
      Done s3 (Some (GStruct (set_nth i v' vs)), Some (ESemantic "unmarshal" wt (Some t') None)).
Proof using Hcl Henv.
  intros Hwf Pt U Hd Ni Tg Hsole Ca Nv Hlb Hw Hst G.
  assert (Ct : codec env t (AStruct t)) by (exists 1%nat; cbn [lookup]; now rewrite U).
  pose proof (gives_settled env P Hcl Henv lim t dst _ _ _ _ Hwf Pt Hd Ct G) as (_ & N1 & HN1).
  destruct (struct_table env P Hcl Henv t s Pt U) as [(e & N2 & M)|(fs & N2 & M & F2 & F3 & F4)].
  { exfalso. specialize (HN1 (S (N1 + N2)) (S (N1 + N2))%nat ltac:(lia) ltac:(lia)). cbn [decode] in HN1.
    rewrite M in HN1 by lia. discriminate. }
  destruct (F4 i sf o Ni Tg) as (f & Hf & If & Idf).
  assert (Bf : by_id fs (fo_id o) = Some f).
  { unfold by_id. destruct (find (fun g => f_id g =? fo_id o) (rev fs)) as [g|] eqn:Fg.
    - f_equal. apply find_some in Fg as [Hg Eg]. apply in_rev in Hg. apply Z.eqb_eq in Eg.
      destruct (F3 g Hg) as (sf' & o' & Ng & Tg' & _ & Ig & _). assert (f_index g = i) by (eapply Hsole; eauto; congruence).
      apply (map_nodup_eq f_index fs); auto; congruence.
    - exfalso. apply in_rev in Hf. apply (find_none _ _ Fg) in Hf. rewrite Idf, Z.eqb_refl in Hf. discriminate. }
  destruct (F3 f Hf) as (sf' & o' & Nf & Tg' & Cf & _ & _). rewrite If, Ni in Nf. injection Nf as <-.
  assert (Ea : f_fncs f = a) by (eapply codec_fun; eauto).
  destruct (behind_mismatch _ _ _ _ Hlb a Ca) as (N3 & HT). destruct Ct as (l0 & L0).
  exists (l0 + N1 + N2 + N3 + length l + 2)%nat. intros n Hn St h s0 s1 s2 s3 nm nm' E0 Dl E2.
  rewrite (Unmarshal_ptr env h n n t dst (AStruct t) s0) by (apply (lookup_more env l0 n); [lia|exact L0]).
  specialize (HN1 (S (n - 1)) n ltac:(lia) ltac:(lia)). destruct n as [|n]; [lia|]. cbn [Nat.sub] in HN1. rewrite Nat.sub_0_r in HN1.
  cbn [decode] in HN1. cbn [unmarshal wire_type]. rewrite M in HN1 by lia. rewrite M by lia. rewrite check_ok.
  destruct dst as [| | | | | | | | | | |vs0|]; try discriminate.
  destruct (Nat.ltb_spec (length l) (S n)); [|discriminate].
  erewrite run_rdu by exact E0. rewrite run_bind.
  rewrite (loop_delivers h (S n) n t fs vs s2 l (S n) vs0 s1 ltac:(lia) HN1 Dl).
  destruct (S n - length l)%nat as [|k] eqn:Ek; [lia|]. cbn [loop_nat]. rewrite run_bind.
  unfold unmarshal_field at 1. erewrite run_rdu by exact E2. cbn [fh_type fh_id].
  apply Z.eqb_neq in Hst. rewrite Hst, Bf.
  rewrite If, Nv, Ea, HT by (auto; lia).
  cbn [bind run obind]. reflexivity.
Qed.

(** What Unmarshal leaves has all the fields. *)
Lemma given_field lim t s dst l vs i sf : wf lim (VStruct l) -> P t -> under env t = RtStruct s -> has_type env dst t ->
  nth_error (te_struct env s) i = Some sf -> gives env t dst (VStruct l) (GStruct vs) None -> exists v, nth_error vs i = Some v.
Proof using Hcl Henv.
  intros Hwf Pt U Hd Ni G. assert (Ct : codec env t (AStruct t)) by (exists 1%nat; cbn [lookup]; now rewrite U).
  destruct (nth_error vs i) eqn:Nv; [eauto|]. exfalso.
  destruct (decode_total env P Hcl Henv lim (VStruct l) Hwf (AStruct t) t dst Pt) as (v' & r' & S' & T'); auto.
  pose proof (gives_settled env P Hcl Henv lim t _ _ _ _ (AStruct t) Hwf Pt Hd Ct G) as [_ S2].
  pose proof (ev_fun _ _ _ S' S2) as E. injection E as -> ->.
  apply type_struct in T' as (s' & U' & T'). rewrite U in U'. injection U' as <-.
  apply nth_error_None in Nv. rewrite (Forall2_len _ _ _ T') in Nv.
  assert (i < length (te_struct env s))%nat by (apply nth_error_Some; congruence). lia.
Qed.

Theorem elem_mismatch t e (set : bool) a dst t' w : has_type env dst t -> under env t = RtSlice e -> codec env t (ASeq t set a) ->
  left_behind e (zero env e) t' w ->
  exists N, forall n, (N <= n)%nat -> forall St (h : handler wireR St) s0 s1 hd,
    h _ (if set then RSetBegin else RListBegin) s0 = Done s1 (hd, None) -> 0 < set_size hd -> set_elem hd <> wire_type a ->
    exists sp, run h (Unmarshal env n n (Some (RtPtr t, GPtr (Some dst)))) s0 =
      Done s1 (Some (GSlice false [w] sp), Some (ESemantic "unmarshal" (set_elem hd) (Some t') None)).
Proof using.
  clear P Hcl Henv. intros Hd U [l0 L0] Hpl. pose proof (codec_inv env _ _ (ex_intro _ l0 L0)) as Hi. cbv iota in Hi.
  destruct Hi as (_ & e' & U' & B & Ca & _). rewrite U in U'. injection U' as <-.
  assert (Hv : exists nl es sp, dst = GSlice nl es sp).
  { destruct dst as [| | | | |nl es sp| | |nl es sp|[es|]|[]| |];
        try (cbn [has_type] in Hd; rewrite U in Hd; try contradiction; destruct Hd; congruence). eauto. }
  destruct Hv as (nl & es & sp & ->).
  destruct (behind_mismatch _ _ _ _ Hpl a Ca) as (N & HN). exists (l0 + N + 2)%nat. intros n Hn St h s0 s1 hd E0 Hz Hw.
  rewrite (Unmarshal_ptr env h n n t _ (ASeq t set a) s0) by (apply (lookup_more env l0 n); [lia|exact L0]).
  destruct n as [|n]; [lia|]. cbn [unmarshal wire_type]. rewrite check_ok. erewrite run_rdu by exact E0.
  destruct (Z.gtb_spec (set_size hd) 0); [|lia]. rewrite run_bind, run_loop_Z.
  destruct (Z.to_nat (set_size hd)) as [|k] eqn:Ek; [lia|]. cbn [loop_nat]. rewrite run_bind.
  assert (Et : elem_type env t = e) by (unfold elem_type; now rewrite U).
  unfold unmarshal_elem at 1. rewrite Et.
  destruct (es ++ sp) as [|v0 arr].
  - cbn [length Nat.eqb app repeat nth]. rewrite HN by (auto; lia). cbn. eexists. reflexivity.
  - cbn [length Nat.eqb]. rewrite HN by (auto; lia). cbn. eexists. reflexivity.
Qed.

Theorem key_mismatch t gk e ka va o t' w : under env t = RtMap gk e -> codec env t (AMap t ka va) -> left_behind gk (zero env gk) t' w ->
  exists N, forall n, (N <= n)%nat -> forall St (h : handler wireR St) s0 s1 hd,
    h _ RMapBegin s0 = Done s1 (hd, None) -> 0 < map_size hd -> map_key hd <> wire_type ka ->
    run h (Unmarshal env n n (Some (RtPtr t, GPtr (Some (GMap o))))) s0 =
      Done s1 (Some (GMap (Some (old_entries o))), Some (ESemantic "unmarshal" (map_key hd) (Some t') None)).
Proof using.
  clear P Hcl Henv. intros U [l0 L0] Hpl. pose proof (codec_inv env _ _ (ex_intro _ l0 L0)) as Hi. cbv iota in Hi.
  destruct Hi as (_ & k' & e' & U' & Ca & Cv). rewrite U in U'. injection U' as <- <-.
  destruct (behind_mismatch _ _ _ _ Hpl ka Ca) as (N & HN). exists (l0 + N + 2)%nat. intros n Hn St h s0 s1 hd E0 Hz Hw.
  rewrite (Unmarshal_ptr env h n n t _ (AMap t ka va) s0) by (apply (lookup_more env l0 n); [lia|exact L0]).
  destruct n as [|n]; [lia|]. cbn [unmarshal wire_type]. rewrite check_ok. erewrite run_rdu by exact E0.
  destruct (Z.gtb_spec (map_size hd) 0); [|lia]. rewrite run_bind, run_loop_Z.
  destruct (Z.to_nat (map_size hd)) as [|k] eqn:Ek; [lia|]. cbn [loop_nat]. rewrite run_bind.
  assert (Kt : key_type env t = gk) by (unfold key_type; now rewrite U).
  unfold unmarshal_entry at 1. rewrite Kt, HN by (auto; lia). cbn. reflexivity.
Qed.

Theorem value_mismatch lim t gk e ka va o tk k t' w : under env t = RtMap gk e -> codec env t (AMap t ka va) -> P gk ->
  left_behind e (match map_get (old_entries o) k with Some v => v | None => zero env e end) t' w ->
  wf lim tk -> gives env gk (zero env gk) tk k None ->
  exists N, forall n, (N <= n)%nat -> forall St (h : handler wireR St) s0 s1 s2 hd,
    h _ RMapBegin s0 = Done s1 (hd, None) -> 0 < map_size hd -> map_key hd = val_type tk -> reads h tk s1 s2 ->
    map_val hd <> wire_type va ->
    run h (Unmarshal env n n (Some (RtPtr t, GPtr (Some (GMap o))))) s0 =
      Done s2 (Some (GMap (Some (map_set (old_entries o) k w))),
               Some (ESemantic "unmarshal" (map_val hd) (Some t') None)).
Proof using Hcl Henv.
  intros U [l0 L0] Pk Hpl Hwf G. pose proof (codec_inv env _ _ (ex_intro _ l0 L0)) as Hi. cbv iota in Hi.
  destruct Hi as (_ & k' & e' & U' & Ca & Cv). rewrite U in U'. injection U' as <- <-.
  destruct (gives_settled env P Hcl Henv lim gk (zero env gk) tk k None ka Hwf Pk (zero_typed env Henv gk) Ca G) as (Wk & N1 & HN1).
  destruct (behind_mismatch _ _ _ _ Hpl va Cv) as (N & HN). exists (l0 + N + N1 + 2)%nat. intros n Hn St h s0 s1 s2 hd E0 Hz Hk Hr Hw.
  rewrite (Unmarshal_ptr env h n n t _ (AMap t ka va) s0) by (apply (lookup_more env l0 n); [lia|exact L0]).
  destruct n as [|n]; [lia|]. cbn [unmarshal wire_type]. rewrite check_ok. erewrite run_rdu by exact E0.
  destruct (Z.gtb_spec (map_size hd) 0); [|lia]. rewrite run_bind, run_loop_Z.
  destruct (Z.to_nat (map_size hd)) as [|j] eqn:Ek; [lia|]. cbn [loop_nat]. rewrite run_bind.
  assert (Kt : key_type env t = gk) by (unfold key_type; now rewrite U).
  assert (Et : elem_type env t = e) by (unfold elem_type; now rewrite U).
  unfold unmarshal_entry at 1. rewrite Kt, Et, run_bind, Hk.
  destruct (unmarshal_reads env (S n) h n ka (zero env gk) tk (k, None) s1 s2 (HN1 n (S n) ltac:(lia) ltac:(lia)) Hr) as (s'' & E & L).
  rewrite E, (L eq_refl). cbn [obind]. rewrite HN by (auto; lia). cbn. destruct o; reflexivity.
Qed.
End Mis.
