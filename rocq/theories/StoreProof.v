(** Unmarshal stores what StoreSpec.v says. *)
From Coq Require Import Strings.String Sorting.Sorted.
From Verif Require Import Base BaseLemmas Prog Bufio BufioProof BufioW BufioWProof Wire WireProof Spec Clients Binary Compact CompactProof
  Reads BinaryProof Layers RoundTrip EndToEnd GoFloat Utf8 GoType Fields Arshal GoTypeProof FieldsProof ArshalSpec ArshalEnc ArshalDec ArshalTrip
  ArshalTotal ArshalThms ArshalSafe ArshalGives ArshalCalls TagProof Messages MapSpec MapProof StoreSpec.

Section Store.
Context (env : tenv) (P : rtype -> Prop) (Hsup : supported env P) (Henv : env_ok env) (Hids : unique_ids env).
Let Hcl : closed env P := supported_closed env P Hsup.

Lemma decode_typed lim n ln a t dst tv v r : wf lim tv -> P t -> codec env t a -> has_type env dst t ->
  decode env ln n a dst tv = Some (v, r) -> has_type env v t.
Proof using Hsup Henv.
  intros Hw Ht Hc Hd H. destruct (decode_total env P Hcl Henv lim tv Hw a t dst Ht Hc Hd) as (v' & r' & (N & S) & T).
  specialize (S (N + n)%nat (N + ln)%nat ltac:(lia) ltac:(lia)).
  rewrite (decode_more2 env n (N + n) ln (N + ln) a dst tv _ ltac:(lia) ltac:(lia) H) in S. congruence.
Qed.

Lemma table_facts t s ln fs : P t -> under env t = RtStruct s -> make_struct_fields env ln t = Some (inl fs) ->
  (forall f, In f fs -> exists sf o, nth_error (te_struct env s) (f_index f) = Some sf /\ tagged env sf o /\
     codec env (sf_type sf) (f_fncs f) /\ f_id f = fo_id o /\ P (sf_type sf)) /\
  (forall j sf o, nth_error (te_struct env s) j = Some sf -> tagged env sf o -> exists f, In f fs /\ f_index f = j /\ f_id f = fo_id o).
Proof using Hsup Henv.
  intros Ht U M. destruct (struct_table env P Hcl Henv t s Ht U) as [(e & N & H)|(fs' & N & H & _ & F3 & F4)];
    specialize (H (N + ln)%nat ltac:(lia)); rewrite (make_fields_more env ln (N + ln) _ _ ltac:(lia) M) in H; [discriminate|].
  injection H as <-. auto.
Qed.

Lemma byid_some fs id f : by_id fs id = Some f -> In f fs /\ f_id f = id.
Proof using. intros H. apply find_some in H as [H E]. apply in_rev in H. apply Z.eqb_eq in E. auto. Qed.
Lemma byid_none fs id f : by_id fs id = None -> In f fs -> f_id f <> id.
Proof using. intros H Hf E. apply in_rev in Hf. apply (find_none _ _ H) in Hf. apply Z.eqb_neq in Hf. auto. Qed.

Lemma signed8 b : i8 (b2z b) = as_signed 8 (b2z b).
Proof using.
  pose proof (b2z_range b). unfold i8, as_signed. change (8 - 1) with 7. destruct (Z.ltb_spec (b2z b) (2 ^ 7)); lia.
Qed.
Lemma unsigned16 z : u16 (u64 z) = z mod 2 ^ 16.
Proof using. unfold u16, u64. lia. Qed.
Lemma unsigned32 z : u32 (u64 z) = z mod 2 ^ 32.
Proof using. unfold u32, u64. lia. Qed.
Lemma unsigned8 b : u8 (u64 (b2z b)) = b2z b.
Proof using. pose proof (b2z_range b). unfold u8, u64. lia. Qed.

Lemma wf_seq lim et tes : wf lim (VSet et tes) \/ wf lim (VList et tes) -> Forall (wf lim) tes.
Proof using.
  intros H. assert (K : wf lim (VSet et tes)) by (destruct H; auto). cbn [wf] in K. destruct K as (_ & _ & K).
  clear H. induction tes as [|x l IH]; constructor; [apply K|]. apply IH. apply K.
Qed.
Lemma wf_map lim kt vt tes : wf lim (VMap kt vt tes) -> Forall (fun p => wf lim (fst p) /\ wf lim (snd p)) tes.
Proof using.
  intros H. cbn [wf] in H. destruct H as (_ & _ & _ & H). induction tes as [|[k v] l IH]; constructor; [cbn; tauto|]. apply IH. apply H.
Qed.

Theorem decode_stores lim ln n : forall a t dst tv v, wf lim tv -> P t -> codec env t a -> has_type env dst t ->
  decode env ln n a dst tv = Some (v, None) -> stores env t dst tv v /\ conforms env t tv.
Proof using Hsup Henv Hids.
  induction n as [|n IH]; intros a t dst tv v Hw Ht Hc Hd H; [discriminate|].
  pose proof (codec_inv env t a Hc) as Hi.
  assert (Cs : scalar tv -> wire_type a = val_type tv -> conforms env t tv).
  { intros S E. apply cf_scalar; [exact S|]. rewrite <- E. apply codec_thrift_type; auto.
    now apply (supported_wire env P Hsup a t). }
  destruct a as [t'|t'|t' single|t' w|t' w|t'|t'|t'|t'|t' ka va|t' set ea|t' ea]; cbn [decode] in H; unfold mismatch in H.
  - discriminate.
  - destruct Hi as [-> U]. destruct tv; try discriminate. injection H as <-. split; [now constructor|now apply Cs].
  - destruct Hi as [-> U]. destruct tv; try discriminate. injection H as <-. split; [|now apply Cs].
    destruct single; now constructor.
  - destruct Hi as [-> U]. destruct w, tv; try discriminate; injection H as <-; cbn [width_int width_signed wf] in *;
      (split; [rewrite ?signed8, ?i16_id, ?i32_id, ?i64_id by exact Hw; now constructor|now apply Cs]).
  - destruct Hi as [-> U]. destruct w, tv; try discriminate; injection H as <-; cbn [width_uint width_unsigned wf] in *;
      (split; [rewrite ?unsigned8, ?unsigned16, ?unsigned32; now constructor|now apply Cs]).
  - destruct Hi as [-> U]. destruct tv; try discriminate. injection H as <-. split; [now constructor|now apply Cs].
  - destruct Hi as (-> & U & B). destruct tv; try discriminate. split; [|now apply Cs].
    assert (Hb : exists nl s0 sp0, dst = GBytes nl s0 sp0).
    { destruct dst as [| | | | |nl es sp| | |nl es sp|[o|]|[o|]|vs|]; cbn [has_type] in Hd; rewrite U in Hd;
        try contradiction; [now exists nl, es, sp|]. destruct Hd; congruence. }
    destruct Hb as (nl & s0 & sp0 & ->). injection H as <-.
    replace (match nl with true => _ | false => false end) with (nl && is_nil s) by (destruct nl, s; reflexivity).
    apply st_bytes. now apply bytes_slice.
  - pose proof (codec_uuid env t t' Hc) as ->. destruct tv; try discriminate. destruct dst; try discriminate.
    destruct (Nat.eqb _ _); [|discriminate]. injection H as <-. split; [constructor|now apply Cs].
  - destruct Hi as (-> & s & U). destruct (make_struct_fields env ln t) as [[fs|]|] eqn:M; try discriminate.
    destruct tv as [| | | | | | | |l| | |]; try discriminate. destruct dst as [| | | | | | | | | | |vs|]; try discriminate.
    destruct (Nat.ltb _ _); [|discriminate]. destruct (table_facts t s ln fs Ht U M) as [F3 F4].
    apply wf_fields in Hw.
    enough (G : exists vs', v = GStruct vs' /\ stores_fields env s vs l vs' /\
       Forall (fun p => forall sf req, In sf (te_struct env s) -> declares env sf (fst p) req -> conforms env (sf_type sf) (snd p)) l).
    { destruct G as (vs' & -> & G1 & G2). split; [eapply st_struct|eapply cf_struct]; eauto. }
    clear Hc Cs M. revert vs Hd v H. induction l as [|[id tv] r IHr]; intros vs Hd v H; cbn [decode_fields] in H.
    { injection H as <-. exists vs. conj; constructor. }
    inversion_clear Hw as [|? ? [Hid Hwv] Hwr]. cbn [fst snd] in *.
    destruct (by_id fs id) as [f|] eqn:Bf.
    + apply byid_some in Bf as [Hf Ef]. destruct (F3 f Hf) as (sf & o & Nf & Tg & C & Eo & Psf).
      destruct (nth_error vs (f_index f)) as [w|] eqn:Nw; [|discriminate].
      destruct (decode env ln n (f_fncs f) w tv) as [[w' [er|]]|] eqn:D; try discriminate.
      pose proof Hd as Hvs. apply type_struct in Hvs as (s' & U' & Hvs). rewrite U in U'. injection U' as <-.
      assert (Hw0 : has_type env w (sf_type sf)) by exact (Forall2_nth _ _ _ Hvs _ _ _ Nw Nf).
      destruct (IH _ _ _ _ _ Hwv Psf C Hw0 D) as [S1 S2].
      destruct (IHr Hwr (set_nth (f_index f) w' vs)) with (v := v) as (vs' & E & G1 & G2); auto.
      { apply type_struct. exists s. split; [exact U|]. eapply set_nth_Forall2; eauto. eapply decode_typed; eauto. }
      pose proof (tagged_declares env sf o Tg) as Dc. rewrite <- Eo, Ef in Dc.
      exists vs'. conj; auto.
      * eapply sf_known; eauto.
      * constructor; [|exact G2]. cbn [fst snd]. intros sf' req Hin Dc'. apply In_nth_error in Hin as (j & Nj).
        assert (j = f_index f).
        { apply (Hids s j (f_index f) sf' sf _ _ Nj Nf (declares_tagged _ _ _ _ Dc') Tg). cbn. congruence. }
        subst j. rewrite Nf in Nj. injection Nj as <-. exact S2.
    + destruct (Nat.leb _ _); [|discriminate].
      assert (Un : forall sf req, In sf (te_struct env s) -> ~ declares env sf id req).
      { intros sf req Hin Dc. apply In_nth_error in Hin as (j & Nj).
        destruct (F4 j sf _ Nj (declares_tagged _ _ _ _ Dc)) as (f & Hf & _ & E). cbn in E.
        exact (byid_none fs id f Bf Hf E). }
      destruct (IHr Hwr vs Hd v H) as (vs' & E & G1 & G2). exists vs'. conj; auto.
      * now apply sf_unknown.
      * constructor; [|exact G2]. cbn [fst snd]. intros sf req Hin Dc. elim (Un sf req Hin Dc).
  - destruct Hi as (-> & gk & e & U & Hka & Hva).
    pose proof (cl_parts env P Hcl t Ht) as Kp; unfold parts in Kp. rewrite U in Kp. destruct Kp as [Pk Pe].
    destruct tv as [| | | | | | | | |kt vt tes| |]; try discriminate. destruct dst as [| | | | | | | | |o| | |]; try discriminate.
    assert (Ho : Forall (fun p => has_type env (fst p) gk /\ has_type env (snd p) e) (match o with Some es => es | None => [] end)).
    { destruct o as [es|]; [|constructor]. apply type_map in Hd as (k' & e' & U' & Hd). rewrite U in U'. injection U' as <- <-. exact Hd. }
    destruct tes as [|p0 tr].
    { injection H as <-. split; [econstructor; eauto|]. apply (cf_map env t gk e); auto. }
    destruct (decode_entries env (decode env ln n) t ka va _ (p0 :: tr)) as [[es er]|] eqn:E; [|discriminate].
    injection H as <- ->. apply wf_map in Hw.
    enough (G : stores_entries env gk e (match o with Some es => es | None => [] end) (p0 :: tr) es /\
                Forall (fun p => conforms env gk (fst p) /\ conforms env e (snd p)) (p0 :: tr)).
    { destruct G as [G1 G2]. split; [eapply st_map; eauto; discriminate|eapply cf_map; eauto]. }
    assert (Kt : key_type env t = gk) by (unfold key_type; now rewrite U).
    assert (Et : elem_type env t = e) by (unfold elem_type; now rewrite U).
    clear Hc Cs Hd. revert Hw Ho E. generalize (match o with Some es => es | None => [] end) as old. generalize (p0 :: tr) as tes. clear p0 tr.
    induction tes as [|[tk tv] r IHr]; intros old Hw Ho E; cbn [decode_entries] in E.
    { injection E as <-. split; constructor. }
    inversion_clear Hw as [|p0 ? [Hwk Hwv] Hwr]. cbn [fst snd] in *. rewrite Kt, Et in E.
    destruct (decode env ln n ka (zero env gk) tk) as [[k [er|]]|] eqn:Dk; try discriminate.
    assert (Tv : has_type env (match map_get old k with Some v => v | None => zero env e end) e).
    { destruct (map_get old k) as [x0|] eqn:G; [|apply (zero_typed env Henv)].
      eapply (map_get_Forall (fun v => has_type env v e)); [|exact G]. eapply Forall_impl; [|exact Ho]. cbn. tauto. }
    destruct (decode env ln n va _ tv) as [[val [er|]]|] eqn:Dv; try discriminate.
    destruct (IH _ _ _ _ _ Hwk Pk Hka (zero_typed env Henv gk) Dk) as [K1 K2].
    destruct (IH _ _ _ _ _ Hwv Pe Hva Tv Dv) as [V1 V2].
    destruct (IHr (map_set old k val) Hwr) as [G1 G2]; auto.
    { apply map_set_Forall; auto. split; cbn.
      - exact (decode_typed _ _ _ _ _ _ _ _ _ Hwk Pk Hka (zero_typed env Henv gk) Dk).
      - exact (decode_typed _ _ _ _ _ _ _ _ _ Hwv Pe Hva Tv Dv). }
    split; [econstructor; eauto|constructor; auto].
  - destruct Hi as (-> & e & U & B & Hea & Hset).
    assert (Et : elem_type env t = e) by (unfold elem_type; now rewrite U).
    pose proof (cl_parts env P Hcl t Ht) as Kp; unfold parts in Kp. rewrite U in Kp. specialize (Kp B).
    assert (Nb : ~ byte_slice env t) by (intros Hb; apply bytes_slice in Hb; congruence).
    destruct (match tv, set with VSet _ tes, true | VList _ tes, false => Some tes | _, _ => None end) as [tes|] eqn:Etes; [|discriminate].
    destruct dst as [| | | | | | | |nl0 es0 sp0| | | |]; try discriminate.
    assert (Hwt : Forall (wf lim) tes).
    { destruct tv as [| | | | | | | | | |et l|et l], set; try discriminate; injection Etes as <-; apply (wf_seq lim et); auto. }
    enough (G : exists es sp, v = GSlice (nl0 && is_nil tes) es sp /\ Forall2 (stores env e (zero env e)) tes es /\ Forall (conforms env e) tes).
    { destruct G as (es & sp & -> & G1 & G2). destruct tv as [| | | | | | | | | |et l|et l], set; try discriminate; injection Etes as ->.
      - split; [apply (st_set env t e); auto|apply (cf_set env t e); auto].
      - split; [apply (st_list env t e); auto|apply (cf_list env t e); auto]. }
    assert (S : forall tes es, Forall (wf lim) tes -> seq_dec env (decode env ln n) t ea tes = Some (es, None) ->
       Forall2 (stores env e (zero env e)) tes es /\ Forall (conforms env e) tes).
    { clear -IH Kp Hea Et Henv. induction tes as [|tv r IHr]; intros es Hw H; cbn [seq_dec] in H.
      - injection H as <-. split; constructor.
      - inversion_clear Hw as [|? ? Hwv Hwr]. rewrite Et in H.
        destruct (decode env ln n ea (zero env e) tv) as [[x [er|]]|] eqn:D; try discriminate.
        destruct (seq_dec env (decode env ln n) t ea r) as [[l rl]|] eqn:Er; try discriminate. injection H as <- ->.
        destruct (IHr l Hwr eq_refl) as [G1 G2].
        destruct (IH _ _ _ _ _ Hwv Kp Hea (zero_typed env Henv e) D) as [S1 S2]. split; constructor; auto. }
    destruct tes as [|tv0 tr].
    { injection H as <-. exists [], (es0 ++ sp0). conj; auto. now rewrite andb_true_r. }
    pose proof (decode_elems_dec env ln (decode env ln n) t ea (tv0 :: tr) O (es0 ++ sp0) true ltac:(lia) ltac:(discriminate)) as D.
    destruct (seq_dec env (decode env ln n) t ea (tv0 :: tr)) as [[l r]|] eqn:Es; [|congruence].
    destruct D as (sp' & D). rewrite H in D. injection D as -> <-. destruct (S _ _ Hwt Es) as [G1 G2].
    exists l, sp'. conj; auto. now rewrite andb_false_r.
  - destruct Hi as (-> & e & U & Hea). assert (Et : elem_type env t = e) by (unfold elem_type; now rewrite U). rewrite Et in H.
    pose proof (cl_parts env P Hcl t Ht) as Kp; unfold parts in Kp. rewrite U in Kp.
    destruct dst as [| | | | | | | | | |o| |]; try discriminate.
    destruct (decode env ln n ea _ tv) as [[x r]|] eqn:D; [|discriminate]. injection H as <- ->.
    destruct o as [w|].
    + cbn [has_type] in Hd. rewrite U in Hd. destruct (IH _ _ _ _ _ Hw Kp Hea Hd D) as [S1 S2].
      split; [eapply st_ptr; eauto|eapply cf_ptr; eauto].
    + destruct (IH _ _ _ _ _ Hw Kp Hea (zero_typed env Henv e) D) as [S1 S2].
      split; [eapply st_nil; eauto|eapply cf_ptr; eauto].
Qed.

Lemma conforms_type t tv : conforms env t tv -> thrift_type env t (val_type tv).
Proof using.
  induction 1.
  - assumption.
  - eapply tt_list; eauto.
  - eapply tt_set; eauto.
  - eapply tt_map; eauto.
  - eapply tt_struct; eauto.
  - eapply tt_ptr; eauto.
Qed.
Lemma conforms_wire t a tv : P t -> codec env t a -> conforms env t tv -> wire_type a = val_type tv.
Proof using Hsup.
  intros Ht Hc H. refine (thrift_type_fun env t _ _ _ (conforms_type t tv H)).
  apply codec_thrift_type; auto. now apply (supported_wire env P Hsup a t).
Qed.

Theorem conforms_ok ln n : forall a t dst tv v r, P t -> codec env t a -> conforms env t tv ->
  decode env ln n a dst tv = Some (v, r) -> r = None.
Proof using Hsup Henv.
  induction n as [|n IH]; intros a t dst tv v r Ht Hc Hf H; [discriminate|].
  pose proof (codec_inv env t a Hc) as Hi. pose proof (conforms_wire t a tv Ht Hc Hf) as W.
  destruct a as [t'|t'|t' single|t' w|t' w|t'|t'|t'|t'|t' ka va|t' set ea|t' ea]; cbn [decode] in H; cbn [wire_type] in W.
  - exfalso. now apply (supported_wire env P Hsup (AInvalid t') t).
  - destruct tv; try discriminate W. congruence.
  - destruct tv; try discriminate W. congruence.
  - destruct w, tv; try discriminate W; congruence.
  - destruct w, tv; try discriminate W; congruence.
  - destruct tv; try discriminate W. congruence.
  - destruct tv; try discriminate W. congruence.
  - destruct tv; try discriminate W. destruct dst; try discriminate. destruct (Nat.eqb _ _); [|discriminate]. congruence.
  - destruct Hi as (-> & s & U). destruct (make_struct_fields env ln t) as [[fs|e]|] eqn:M; try discriminate.
    2:{ exfalso. destruct (supported_table env P Hsup Henv t s Ht U) as (l & fs & M').
        pose proof (make_fields_more env ln (ln + l) _ _ ltac:(lia) M) as E1.
        rewrite (make_fields_more env l (ln + l) _ _ ltac:(lia) M') in E1. discriminate. }
    destruct tv as [| | | | | | | |l| | |]; try discriminate W. destruct dst as [| | | | | | | | | | |vs|]; try discriminate.
    destruct (Nat.ltb _ _); [|discriminate]. destruct (table_facts t s ln fs Ht U M) as [F3 _].
    assert (Hf' : Forall (fun p => forall sf req, In sf (te_struct env s) -> declares env sf (fst p) req -> conforms env (sf_type sf) (snd p)) l).
    { inversion Hf as [? ? S| | | |? s' ? U' F|? ? ? U']; subst; [destruct S| |congruence]. rewrite U in U'. injection U' as <-. exact F. }
    clear Hf Hc W M. revert vs H. induction l as [|[id tv] l IHl]; intros vs H; cbn [decode_fields] in H; [congruence|].
    inversion_clear Hf' as [|? ? F0 Fr]. destruct (by_id fs id) as [f|] eqn:Bf.
    + apply byid_some in Bf as [Hfi Ef]. destruct (F3 f Hfi) as (sf & o & Nf & Tg & C & Eo & Psf).
      destruct (nth_error vs (f_index f)) as [w|]; [|discriminate].
      destruct (decode env ln n (f_fncs f) w tv) as [[w' rw]|] eqn:D; [|discriminate].
      assert (rw = None).
      { refine (IH _ (sf_type sf) _ _ _ _ Psf C _ D). apply (F0 sf (fo_required o)); [eapply nth_error_In; eauto|].
        cbn [fst]. rewrite <- Ef, Eo. now apply tagged_declares. }
      subst rw. eapply IHl; eauto.
    + destruct (Nat.leb _ _); [|discriminate]. eapply IHl; eauto.
  - destruct Hi as (-> & gk & e & U & Hka & Hva).
    pose proof (cl_parts env P Hcl t Ht) as Kp; unfold parts in Kp. rewrite U in Kp. destruct Kp as [Pk Pe].
    destruct tv as [| | | | | | | | |kt vt tes| |]; try discriminate W. destruct dst as [| | | | | | | | |o| | |]; try discriminate.
    destruct tes as [|p0 tr]; [congruence|].
    destruct (decode_entries env (decode env ln n) t ka va _ (p0 :: tr)) as [[es er]|] eqn:E; [|discriminate]. injection H as _ <-.
    assert (Hf' : Forall (fun p => conforms env gk (fst p) /\ conforms env e (snd p)) (p0 :: tr)).
    { inversion Hf as [? ? S| | |? k' e' ? ? ? U' F| |? ? ? U']; subst; [destruct S| |congruence]. rewrite U in U'. injection U' as <- <-. exact F. }
    clear Hf Hc W. revert Hf' E. generalize (match o with Some es => es | None => [] end) as old. generalize (p0 :: tr) as tes. clear p0 tr.
    induction tes as [|[tk tv] l IHl]; intros old F E; cbn [decode_entries] in E; [congruence|].
    inversion_clear F as [|? ? [Fk Fv] Fr]. cbn [fst snd] in *.
    destruct (decode env ln n ka _ tk) as [[k rk]|] eqn:Dk; [|discriminate].
    pose proof (IH _ gk _ _ _ _ Pk Hka Fk Dk) as ->.
    destruct (decode env ln n va _ tv) as [[y ry]|] eqn:Dv; [|discriminate].
    pose proof (IH _ e _ _ _ _ Pe Hva Fv Dv) as ->. eapply IHl; eauto.
  - destruct Hi as (-> & e & U & B & Hea & Hset).
    pose proof (cl_parts env P Hcl t Ht) as Kp; unfold parts in Kp. rewrite U in Kp. specialize (Kp B).
    destruct (match tv, set with VSet _ tes, true | VList _ tes, false => Some tes | _, _ => None end) as [tes|] eqn:Etes.
    2:{ exfalso. destruct set, tv; discriminate. }
    destruct dst as [| | | | | | | |nl0 es0 sp0| | | |]; try discriminate.
    destruct tes as [|tv0 tr]; [congruence|].
    assert (Hf' : Forall (conforms env e) (tv0 :: tr)).
    { inversion Hf as [? ? S|? e' ? ? U' ? ? F|? e' ? ? U' ? F| | |? ? ? U']; subst; try congruence.
      - destruct tv; try contradiction; destruct (implements_set env t); discriminate.
      - destruct (implements_set env t); [discriminate|]. injection Etes as ->. rewrite U in U'. now injection U' as <-.
      - destruct (implements_set env t); [|discriminate]. injection Etes as ->. rewrite U in U'. now injection U' as <-. }
    pose proof (decode_elems_dec env ln (decode env ln n) t ea (tv0 :: tr) O (es0 ++ sp0) true ltac:(lia) ltac:(discriminate)) as D.
    destruct (seq_dec env (decode env ln n) t ea (tv0 :: tr)) as [[l r']|] eqn:Es; [|congruence].
    destruct D as (sp' & D). rewrite H in D. injection D as _ ->. clear H Etes.
    revert l Hf' Es. generalize (tv0 :: tr) as tes. clear -IH Kp Hea.
    induction tes as [|tv tes IHl]; intros l F E; cbn [seq_dec] in E; [congruence|].
    inversion_clear F as [|? ? F0 Fr]. destruct (decode env ln n ea _ tv) as [[y ry]|] eqn:Dv; [|discriminate].
    pose proof (IH _ e _ _ _ _ Kp Hea F0 Dv) as ->.
    destruct (seq_dec env (decode env ln n) t ea tes) as [[l' r2]|] eqn:E2; [|discriminate]. injection E as _ <-. eapply IHl; eauto.
  - destruct Hi as (-> & e & U & Hea).
    pose proof (cl_parts env P Hcl t Ht) as Kp; unfold parts in Kp. rewrite U in Kp.
    destruct dst as [| | | | | | | | | |o| |]; try discriminate.
    destruct (decode env ln n ea _ tv) as [[y r']|] eqn:D; [|discriminate]. injection H as _ <-.
    refine (IH _ e _ _ _ _ Kp Hea _ D).
    inversion Hf as [? ? S T|? ? ? ? U'|? ? ? ? U'|? ? ? ? ? ? U'|? ? ? U'|? e' ? U' F]; subst; try congruence; try (rewrite U in U'; now injection U' as <-).
    apply cf_scalar; [exact S|]. rewrite <- W. apply codec_thrift_type; auto. now apply (supported_wire env P Hsup ea e).
Qed.

Theorem accepts lim t dst tv : wf lim tv -> P t -> has_type env dst t ->
  ((exists v, gives env t dst tv v None) <-> conforms env t tv).
Proof using Hsup Henv Hids.
  intros Hw Ht Hd. destruct (lookup_ends env t (sup_eager env P Hsup t Ht)) as (a & Hc). split.
  - intros (v & G). destruct (gives_settled env P Hcl Henv lim t dst tv v None a Hw Ht Hd Hc G) as [_ (N & S)].
    specialize (S N N (le_n _) (le_n _)). now apply (decode_stores lim N N a t dst tv v).
  - intros Hf. pose proof (conforms_wire t a tv Ht Hc Hf) as W.
    destruct (gives_total env P Hcl Henv lim t dst tv a Hw Ht Hd Hc W) as (v & r & G & _).
    destruct (gives_settled env P Hcl Henv lim t dst tv v r a Hw Ht Hd Hc G) as [_ (N & S)].
    specialize (S N N (le_n _) (le_n _)). pose proof (conforms_ok N N a t dst tv v r Ht Hc Hf S) as ->. eauto.
Qed.
Theorem gives_stores lim t dst tv v : wf lim tv -> P t -> has_type env dst t -> gives env t dst tv v None -> stores env t dst tv v.
Proof using Hsup Henv Hids.
  intros Hw Ht Hd G. destruct (lookup_ends env t (sup_eager env P Hsup t Ht)) as (a & Hc).
  destruct (gives_settled env P Hcl Henv lim t dst tv v None a Hw Ht Hd Hc G) as [_ (N & S)].
  specialize (S N N (le_n _) (le_n _)). now apply (decode_stores lim N N a t dst tv v).
Qed.

(** ** What is stored is determined, up to spare capacity *)
Lemma key_eq_visible a : forall b, key_eq (visible a) (visible b) = key_eq a b.
Proof using.
  induction a as [| | | | | | |es F|nl es sp F _| |es F| |v IH|vs F|] using gval_ind'; intros k2;
    destruct k2 as [| | | | | | |es'|nl' es' sp'|[es'|]|[w|]|vs'|]; try reflexivity; cbn [visible key_eq].
  - revert es'. induction F as [|x r H F IH]; intros [|y s]; try reflexivity. cbn [map]. now rewrite H, IH.
  - revert vs'. induction F as [|x r H F IH]; intros [|y s]; try reflexivity. cbn [map]. now rewrite H, IH.
Qed.
Let vis2 (p : gval * gval) := (visible (fst p), visible (snd p)).
Lemma map_get_visible es k : map_get (map vis2 es) (visible k) = option_map visible (map_get es k).
Proof using.
  induction es as [|[k' v] r IH]; [reflexivity|]. cbn [map vis2 fst snd map_get]. unfold vis2 at 1. cbn [fst snd].
  rewrite key_eq_visible. destruct (key_eq k k'); auto.
Qed.
Lemma map_set_visible es k v : map vis2 (map_set es k v) = map_set (map vis2 es) (visible k) (visible v).
Proof using.
  induction es as [|[k' v'] r IH]; [reflexivity|]. cbn [map map_set]. change (vis2 (k', v')) with (visible k', visible v'). cbv iota.
  rewrite key_eq_visible. destruct (key_eq k k'); cbn [map]; [reflexivity|now rewrite IH].
Qed.
Lemma set_nth_map {A B} (f : A -> B) j x l : map f (set_nth j x l) = set_nth j (f x) (map f l).
Proof using. revert j. induction l as [|y r IH]; intros [|j]; cbn; auto. now rewrite IH. Qed.

Lemma stores_elems_fun t d tvs es : (forall tv, In tv tvs -> forall v1 v2, stores env t d tv v1 -> stores env t d tv v2 -> visible v1 = visible v2) ->
  Forall2 (stores env t d) tvs es -> forall es', Forall2 (stores env t d) tvs es' -> map visible es = map visible es'.
Proof using.
  intros H F. induction F as [|tv e tvs es S F IH]; intros es' F'; inversion_clear F' as [|? e' ? es'' S' F'']; [reflexivity|].
  cbn [map]. f_equal; [apply (H tv); auto; now left|]. apply IH; auto. intros. eapply H; eauto. now right.
Qed.

Lemma list_max_in {A} (f : A -> nat) l x : In x l -> (f x <= list_max (map f l))%nat.
Proof using.
  intros H. pose proof (proj1 (list_max_le (map f l) _) (le_n _)) as F. rewrite Forall_forall in F. apply F. now apply in_map.
Qed.
Lemma vsize_list k tvs tv : In tv tvs -> (vsize tv < vsize (VList k tvs))%nat.
Proof using. intros H. pose proof (list_max_in vsize tvs tv H). cbn [vsize]. lia. Qed.
Lemma vsize_map kk ke tvs p : In p tvs -> (vsize (fst p) < vsize (VMap kk ke tvs) /\ vsize (snd p) < vsize (VMap kk ke tvs))%nat.
Proof using. intros H. pose proof (list_max_in (fun e => Nat.max (vsize (fst e)) (vsize (snd e))) tvs p H). cbn [vsize]. cbv beta in *. lia. Qed.
Lemma vsize_fields l p : In p l -> (vsize (snd p) < vsize (VStruct l))%nat.
Proof using. intros H. pose proof (list_max_in (fun f => vsize (snd f)) l p H). cbn [vsize]. cbv beta in *. lia. Qed.

Theorem stores_fun m : forall tv, (vsize tv <= m)%nat -> forall t d1 v1, stores env t d1 tv v1 ->
  forall d2 v2, visible d1 = visible d2 -> stores env t d2 tv v2 -> visible v1 = visible v2.
Proof using Hids.
  induction m as [|m IHm]; intros tv Hm t d1 v1 H; [destruct tv; cbn in Hm; lia|].
  induction H as [| | | | | | | | | | | | | |t e k nl es0 sp0 tvs es sp U Nb Ns F|t e k nl es0 sp0 tvs es sp U Is F
    |t k e kk ke o U|t k e kk ke o tvs es U N E|t e v tv v' U S IHS|t e tv v' U S IHS|t s vs l vs' U F]; intros d2 v2 Hv H2;
    try (inversion H2; subst; try reflexivity; unfold byte_slice in *; cbn [under] in *; intuition congruence; fail).
  - inversion H2; subst; try (unfold byte_slice in *; intuition congruence). cbn [visible] in *. congruence.
  - inversion H2 as [| | | | | | | | | | | | | |? e' ? nl' es0' sp0' ? es' sp' U' Nb' Ns' F'|? e' ? nl' es0' sp0' ? es' sp' U' Is' F'| | | |? ? ? ? U'|]; subst; try congruence.
    rewrite U in U'. injection U' as <-. cbn [visible] in *. injection Hv as -> _. f_equal.
    refine (stores_elems_fun e _ tvs es _ F es' F'). intros tv Hin w1 w2 S1 S2.
    refine (IHm tv _ e _ _ S1 _ _ eq_refl S2). pose proof (vsize_list k tvs tv Hin). lia.
  - inversion H2 as [| | | | | | | | | | | | | |? e' ? nl' es0' sp0' ? es' sp' U' Nb' Ns' F'|? e' ? nl' es0' sp0' ? es' sp' U' Is' F'| | | |? ? ? ? U'|]; subst; try congruence.
    rewrite U in U'. injection U' as <-. cbn [visible] in *. injection Hv as -> _. f_equal.
    refine (stores_elems_fun e _ tvs es _ F es' F'). intros tv Hin w1 w2 S1 S2.
    refine (IHm tv _ e _ _ S1 _ _ eq_refl S2). pose proof (vsize_list k tvs tv Hin). change (vsize (VSet k tvs)) with (vsize (VList k tvs)) in Hm. lia.
  - inversion H2 as [| | | | | | | | | | | | | | | | |? k' e' ? ? o' ? es' U' N' E'| |? ? ? ? U'|]; subst; try congruence.
    rewrite U in U'. injection U' as <- <-. cbn [visible option_map] in *. injection Hv as Ho. do 2 f_equal.
    assert (He : map vis2 (match o with Some es => es | None => [] end) = map vis2 (match o' with Some es => es | None => [] end))
      by (destruct o as [l1|], o' as [l2|]; try discriminate Ho; [now injection Ho as Ho|reflexivity]).
    assert (Hs : forall p, In p tvs -> (vsize (fst p) <= m)%nat /\ (vsize (snd p) <= m)%nat)
      by (intros p Hp; pose proof (vsize_map kk ke tvs p Hp); lia).
    clear Hm N N' Ho H2. revert es' E' He Hs. revert E. generalize (match o with Some es => es | None => [] end).
    generalize (match o' with Some es => es | None => [] end). intros old2 old1 E. revert old2.
    induction E as [? ? old1|k e old1 tk tv r key w es Sk Sv E IHE]; intros old2 es' E' He Hs; inversion E' as [|? ? ? ? ? ? key' w' ? Sk' Sv' E'']; subst; [exact He|].
    destruct (Hs (tk, tv) (or_introl eq_refl)) as [Hk Hw]. cbn [fst snd] in *.
    pose proof (IHm tk Hk _ _ _ Sk _ _ eq_refl Sk') as Ek.
    assert (Ew : visible w = visible w').
    { refine (IHm tv Hw _ _ _ Sv _ _ _ Sv').
      pose proof (map_get_visible old1 key) as G1. pose proof (map_get_visible old2 key') as G2. rewrite He, Ek, G2 in G1.
      destruct (map_get old1 key), (map_get old2 key'); cbn in G1; congruence. }
    apply (IHE U _ _ E''); [|intros; apply Hs; now right]. now rewrite !map_set_visible, He, Ek, Ew.
  - inversion H2; subst; try congruence; try (unfold byte_slice in *; cbn [under] in *; intuition congruence).
    + rewrite U in *. match goal with E : RtPtr _ = RtPtr _ |- _ => injection E as <- end. cbn [visible option_map] in *. injection Hv as Hv. do 2 f_equal. eapply IHS; eauto.
    + discriminate.
  - inversion H2; subst; try congruence; try (unfold byte_slice in *; cbn [under] in *; intuition congruence).
    + discriminate.
    + rewrite U in *. match goal with E : RtPtr _ = RtPtr _ |- _ => injection E as <- end. cbn [visible option_map] in *. do 2 f_equal. eapply IHS; eauto.
  - inversion H2 as [| | | | | | | | | | | | | | | | | | |? ? ? ? U'|? s' vs2 ? vs2' U' F']; subst; try congruence.
    rewrite U in U'. injection U' as <-. cbn [visible] in *. injection Hv as Hv. f_equal.
    assert (Hs : forall p, In p l -> (vsize (snd p) <= m)%nat) by (intros p Hp; pose proof (vsize_fields l p Hp); lia).
    clear Hm H2 U. revert vs2 vs2' F' Hv Hs.
    induction F as [s vs|s vs id tv r vs' Un F IHF|s vs id tv r vs' j sf req w w' Nj Dc Nw S F IHF];
      intros vs2 vs2' F' Hv Hs; inversion F' as [|? ? ? ? ? ? Un' F''|? ? ? ? ? ? j' sf' req' w2 w2' Nj' Dc' Nw' S' F'']; subst; auto.
    + apply (IHF _ _ F''); auto. intros; apply Hs; now right.
    + elim (Un _ _ (nth_error_In _ _ Nj') Dc').
    + elim (Un' _ _ (nth_error_In _ _ Nj) Dc).
    + assert (j' = j).
      { apply (Hids s j' j sf' sf _ _ Nj' Nj (declares_tagged _ _ _ _ Dc') (declares_tagged _ _ _ _ Dc)). reflexivity. }
      subst j'. rewrite Nj in Nj'. injection Nj' as <-.
      assert (Ew : visible w = visible w2).
      { apply (map_nth_error visible) in Nw, Nw'. rewrite Hv in Nw. congruence. }
      assert (Ew' : visible w' = visible w2').
      { refine (IHm tv _ _ _ _ S _ _ Ew S'). apply (Hs (id, tv)). now left. }
      apply (IHF _ _ F''); [|intros; apply Hs; now right]. now rewrite !set_nth_map, Hv, Ew'.
Qed.
End Store.

(** ** Types that agree read each other's values *)
Section Agree.
Context (env : tenv) (Henv : env_ok env) (R : rtype -> rtype -> Prop) (HR : forall x y, R x y -> agree env R x y).

Lemma scalar_type tv : ~ In (val_type tv) [T_Struct; T_Map; T_Set; T_List] -> scalar tv.
Proof using. destruct tv; cbn; try (intros; exact I); intros H; apply H; auto. Qed.
Lemma agree_scalar a b tv k : thrift_type env a (val_type tv) -> thrift_type env a k -> thrift_type env b k ->
  ~ In k [T_Struct; T_Map; T_Set; T_List] -> conforms env b tv.
Proof using.
  intros T Ta Tb N. pose proof (thrift_type_fun env a _ T _ Ta) as <-. apply cf_scalar; auto. now apply scalar_type.
Qed.
Lemma agree_conforms' t v tv : stands_for env t v tv -> thrift_type env t (val_type tv) /\ forall b, agree env R t b -> conforms env b tv.
Proof using HR.
  revert t v tv.
  assert (FE : forall x y (es : list gval) tvs, R x y ->
    Forall2 (fun _ tv => thrift_type env x (val_type tv) /\ forall b, agree env R x b -> conforms env b tv) es tvs ->
    Forall (conforms env y) tvs) by (intros x y es tvs Rxy; induction 1 as [|? ? ? ? [_ H] F IH]; constructor; auto).
  refine (stands_ind env (fun t v tv => thrift_type env t (val_type tv) /\ forall b, agree env R t b -> conforms env b tv) _ _ _ _ _ _ _).
  - intros t v tv H Hv. pose proof (stands_type env t v tv H) as T. split; [exact T|]. intros b A.
    assert (N : ~ In (val_type tv) [T_Struct; T_Map; T_Set; T_List] /\ forall e, under env t <> RtPtr e).
    { destruct H; try contradiction; (split; [cbn; intuition discriminate|]); intros e' E; unfold byte_slice in *; cbn [under] in *; intuition congruence. }
    destruct N as [N Np]. apply cf_scalar; [now apply scalar_type|]. revert N. generalize (val_type tv) T. clear Hv H T.
    intros k T N. induction A as [a b k' Ta Tb _|a b x y U _ B _ _ _|a b k' x l y U _ _ _|a b s u U _ _|a b x U A IH|a b y U A IH].
    + now rewrite (thrift_type_fun env a _ T _ Ta).
    + exfalso. inversion T; subst; try (unfold byte_slice in *; cbn [under] in *; intuition congruence); apply N; cbn; auto.
    + exfalso. inversion T; subst; try (unfold byte_slice in *; cbn [under] in *; intuition congruence); apply N; cbn; auto.
    + exfalso. inversion T; subst; try (unfold byte_slice in *; cbn [under] in *; intuition congruence); apply N; cbn; auto.
    + now elim (Np x).
    + eapply tt_ptr; eauto.
  - intros t e k nl es sp tvs U Nb Ns Te F. assert (T : thrift_type env t (val_type (VList k tvs))) by (eapply tt_list; eauto).
    split; [exact T|]. intros b A.
    induction A as [a b k' Ta Tb N|a b x y Ua Ub Ba Bb S Rxy|a b k' x l y Ua Ub Rk Rx|a b s u Ua Ub Rf|a b x Ua A IH|a b y Ub A IH]; try congruence.
    + eapply agree_scalar; eauto.
    + rewrite U in Ua. injection Ua as <-. apply (cf_list env b y); try congruence. eapply FE; eauto.
    + apply (cf_ptr env b y); auto.
  - intros t e k nl es sp tvs U Is Te F. assert (T : thrift_type env t (val_type (VSet k tvs))) by (eapply tt_set; eauto).
    split; [exact T|]. intros b A.
    induction A as [a b k' Ta Tb N|a b x y Ua Ub Ba Bb S Rxy|a b k' x l y Ua Ub Rk Rx|a b s u Ua Ub Rf|a b x Ua A IH|a b y Ub A IH]; try congruence.
    + eapply agree_scalar; eauto.
    + rewrite U in Ua. injection Ua as <-. apply (cf_set env b y); try congruence. eapply FE; eauto.
    + apply (cf_ptr env b y); auto.
  - intros t k e kk ke o tvs U Tk Te F. assert (T : thrift_type env t (val_type (VMap kk ke tvs))) by (eapply tt_map; eauto).
    split; [exact T|]. intros b A.
    induction A as [a b k' Ta Tb N|a b x y Ua Ub Ba Bb S Rxy|a b k' x l y Ua Ub Rk Rx|a b s u Ua Ub Rf|a b x Ua A IH|a b y Ub A IH]; try congruence.
    + eapply agree_scalar; eauto.
    + rewrite U in Ua. injection Ua as <- <-. apply (cf_map env b l y); auto. clear T.
      refine (Forall2_ind (fun _ tvs => Forall (fun p => conforms env l (fst p) /\ conforms env y (snd p)) tvs) _ _ F); [constructor|].
      intros p q ps qs [[_ A] [_ B]] _ IH. constructor; auto.
    + apply (cf_ptr env b y); auto.
  - intros t e v tv U [T H]. split; [eapply tt_ptr; eauto|]. intros b A.
    induction A as [a b k' Ta Tb N|a b x y Ua Ub Ba Bb S Rxy|a b k' x l y Ua Ub Rk Rx|a b s u Ua Ub Rf|a b x Ua A IH|a b y Ub A IH]; try congruence.
    + apply (agree_scalar a b tv k'); auto. eapply tt_ptr; eauto.
    + rewrite U in Ua. injection Ua as <-. auto.
    + apply (cf_ptr env b y); auto.
  - intros t e tv U [T H]. split; [eapply tt_ptr; eauto|]. intros b A.
    induction A as [a b k' Ta Tb N|a b x y Ua Ub Ba Bb S Rxy|a b k' x l y Ua Ub Rk Rx|a b s u Ua Ub Rf|a b x Ua A IH|a b y Ub A IH]; try congruence.
    + apply (agree_scalar a b tv k'); auto. eapply tt_ptr; eauto.
    + rewrite U in Ua. injection Ua as <-. auto.
    + apply (cf_ptr env b y); auto.
  - intros t s vs js l U _ _ F _. assert (T : thrift_type env t (val_type (VStruct l))) by (eapply tt_struct; eauto).
    split; [exact T|]. intros b A.
    induction A as [a b k' Ta Tb N|a b x y Ua Ub Ba Bb S Rxy|a b k' x m y Ua Ub Rk Rx|a b s' u Ua Ub Rf|a b x Ua A IH|a b y Ub A IH]; try congruence.
    + eapply agree_scalar; eauto.
    + rewrite U in Ua. injection Ua as <-. apply (cf_struct env b u); auto. clear T.
      induction F as [|j p js l (sf & w & req & Nj & Nw & Dc & _ & Q) F IH]; constructor; auto.
      intros g q Hg Dg. apply Q. apply HR. eapply Rf; eauto. eapply nth_error_In; eauto.
    + apply (cf_ptr env b y); auto.
Qed.
Theorem agree_conforms t v tv b : stands_for env t v tv -> R t b -> conforms env b tv.
Proof using HR. intros H Hr. destruct (agree_conforms' t v tv H) as [_ G]. auto. Qed.
End Agree.

Lemma agree_sym env (R S : rtype -> rtype -> Prop) : (forall x y, R x y -> S y x) -> forall t u, agree env R t u -> agree env S u t.
Proof.
  intros H t u A. induction A as [a b k Ta Tb N|a b x y Ua Ub Ba Bb I Rxy|a b k x l y Ua Ub Rk Rx|a b s u Ua Ub Rf|a b x Ua A IH|a b y Ub A IH].
  - eapply ag_scalar; eauto.
  - eapply ag_slice; eauto.
  - eapply ag_map; eauto.
  - eapply ag_struct; eauto.
  - eapply ag_right; eauto.
  - eapply ag_left; eauto.
Qed.
Lemma compatible_sym env t u : compatible env t u -> compatible env u t.
Proof.
  intros (R & Hr & HR). exists (fun x y => R y x). split; [exact Hr|]. intros x y Hxy. apply (agree_sym env R); auto.
Qed.
Lemma compatible_refl env P t : supported env P -> unique_ids env -> P t -> compatible env t t.
Proof.
  intros Hsup Hids Ht. exists (fun x y => x = y /\ P x). split; [auto|]. clear t Ht. intros t ? [<- Ht].
  pose proof (supported_closed env P Hsup) as Hcl.
  destruct (lookup_ends env t (sup_eager env P Hsup t Ht)) as (a & Hc).
  pose proof (codec_thrift_type env a t Hc (supported_wire env P Hsup a t Ht Hc)) as T. revert t Ht Hc T.
  induction a as [t'|t'|t' single|t' w|t' w|t'|t'|t'|t'|t' ka _ va _|t' set ea _|t' ea IH]; intros t Ht Hc T;
    pose proof (codec_inv env t _ Hc) as Hi; cbn [wire_type] in T; cbv iota in Hi;
    try (eapply ag_scalar; [exact T|exact T|cbn; intuition discriminate]).
  - destruct w; eapply ag_scalar; [exact T|exact T|cbn; intuition discriminate|exact T|exact T|cbn; intuition discriminate|exact T|exact T|cbn; intuition discriminate|exact T|exact T|cbn; intuition discriminate].
  - destruct w; eapply ag_scalar; [exact T|exact T|cbn; intuition discriminate|exact T|exact T|cbn; intuition discriminate|exact T|exact T|cbn; intuition discriminate|exact T|exact T|cbn; intuition discriminate].
  - destruct Hi as (-> & s & U). apply (ag_struct env _ t t s s U U). intros f g id r q Hf Hg Df Dg.
    apply In_nth_error in Hf as (i & Ni), Hg as (j & Nj).
    assert (i = j) by (apply (Hids s i j f g _ _ Ni Nj (declares_tagged _ _ _ _ Df) (declares_tagged _ _ _ _ Dg)); reflexivity).
    subst j. rewrite Ni in Nj. injection Nj as <-. split; [reflexivity|].
    pose proof (sup_kind env P Hsup t Ht) as K. unfold supported_kind in K. rewrite U in K. destruct K as [K _].
    destruct (K f (nth_error_In _ _ Ni)) as [(o & _ & Pf)|(o & Ho)]; [exact Pf|].
    exfalso. apply declares_tagged in Df. unfold tagged in Df. congruence.
  - destruct Hi as (-> & k & e & U & _ & _). pose proof (cl_parts env P Hcl t Ht) as Kp; unfold parts in Kp. rewrite U in Kp. destruct Kp.
    apply (ag_map env _ t t k e k e); auto.
  - destruct Hi as (-> & e & U & B & Hea & Hset). pose proof (cl_parts env P Hcl t Ht) as Kp; unfold parts in Kp. rewrite U in Kp. specialize (Kp B).
    assert (Nb : ~ byte_slice env t) by (intros Hb; apply bytes_slice in Hb; congruence).
    apply (ag_slice env _ t t e e); auto.
  - destruct Hi as (-> & e & U & Hea). pose proof (cl_parts env P Hcl t Ht) as Kp; unfold parts in Kp. rewrite U in Kp.
    eapply ag_left; [exact U|]. eapply ag_right; [exact U|]. apply IH; auto.
    apply codec_thrift_type; auto. now apply (supported_wire env P Hsup ea e).
Qed.

(** ** The calls *)
Section Calls.
Context (env : tenv) (P : rtype -> Prop) (Hsup : supported env P) (Henv : env_ok env) (Hids : unique_ids env).
Let Hcl : closed env P := supported_closed env P Hsup.

Theorem outcome lim t dst tv : wf lim tv -> P t -> has_type env dst t -> thrift_type env t (val_type tv) ->
  exists v r, gives env t dst tv v r /\ has_type env v t /\ (r = None <-> conforms env t tv) /\ (r = None -> stores env t dst tv v).
Proof using Hsup Henv Hids.
  intros Hw Ht Hd T. destruct (lookup_ends env t (sup_eager env P Hsup t Ht)) as (a & Hc).
  assert (W : wire_type a = val_type tv).
  { refine (thrift_type_fun env t _ _ _ T). apply codec_thrift_type; auto. now apply (supported_wire env P Hsup a t). }
  destruct (gives_total env P Hcl Henv lim t dst tv a Hw Ht Hd Hc W) as (v & r & G & Tv). exists v, r. conj; auto.
  - split; [intros ->; apply (accepts env P Hsup Henv Hids lim t dst tv Hw Ht Hd); eauto|]. intros Hf.
    apply (accepts env P Hsup Henv Hids lim t dst tv Hw Ht Hd) in Hf as (v' & G').
    now destruct (gives_fun env P Hcl Henv lim t dst tv v r v' None Hw Ht Hd G G').
  - intros ->. now apply (gives_stores env P Hsup Henv Hids lim).
Qed.

Lemma stands_wf lim t v tv : 0 < lim -> P t -> has_type env v t -> fits env lim v t -> stands_for env t v tv -> wf lim tv.
Proof using Hsup Henv Hids.
  intros Hl Pt Ht Hf S. destruct (stands_image env P Henv Hsup t v Pt Ht) as (N & a & tv' & S' & Hc & HN).
  rewrite (stands_fun env Hids t v tv S tv' S'). destruct (HN N (le_n _)) as [_ E].
  exact (image_wf env N Henv lim N Hl t a v tv' Hc Ht Hf E).
Qed.

(** What the reader's side does with what the writer's side sends. *)
Lemma evolve_gives lim t u v tv dst : 0 < lim -> P t -> P u -> has_type env v t -> fits env lim v t -> has_type env dst u ->
  compatible env t u -> stands_for env t v tv -> exists v' a, stores env u dst tv v' /\ has_type env v' u /\
    codec env u a /\ wire_type a = val_type tv /\ settled env a dst tv (v', None).
Proof using Hsup Henv Hids.
  intros Hl Pt Pu Ht Hf Hd (R & Hr & HR) S. pose proof (stands_wf lim t v tv Hl Pt Ht Hf S) as Hw.
  pose proof (agree_conforms env R HR t v tv u S Hr) as Hcf.
  destruct (outcome lim u dst tv Hw Pu Hd (conforms_type env u tv Hcf)) as (v' & r & G & Tv & E & St).
  pose proof (proj2 E Hcf) as ->. destruct (lookup_ends env u (sup_eager env P Hsup u Pu)) as (a & Hc).
  destruct (gives_settled env P Hcl Henv lim u dst tv v' None a Hw Pu Hd Hc G) as [W Se]. exists v', a. auto.
Qed.

Theorem evolve_binary sw sr wsize rsize s t u v dst i :
  0 < wsize -> 8 <= rsize -> ok_sink s -> received s = [] ->
  P t -> P u -> has_type env v t -> fits env (2 ^ 31) v t -> passes env i t v -> has_type env dst u -> compatible env t u ->
  exists N tv v', stands_for env t v tv /\ stores env u dst tv v' /\
    forall n, (N <= n)%nat -> exists b,
      run (over (bin_writer sw) (bufw_h wsize)) (Marshal env n n (Some i) >>! call WFlush) (tt, new_bwriter s)
        = Done (tt, b) None /\
      forall src rest n', good_source src -> src_bytes src = received (wsink b) ++ rest -> (N <= n')%nat ->
        exists b',
          run (over (bin_reader sr) (bufio_h rsize)) (Unmarshal env n' n' (Some (RtPtr u, GPtr (Some dst)))) (tt, new_breader src)
            = Done (tt, b') (Some v', None) /\
          binv rsize b' /\ abs b' = mkStream rest (src_fin src).
Proof using Hsup Henv Hids.
  intros Hw Hr Hs He Pt Pu Ht Hf Hp Hd Hcm.
  destruct (bin_stands env P Henv Hsup sw wsize s t v i Hw Hs Pt Ht Hp) as (N & tv & S & HN).
  pose proof (stands_wf (2 ^ 31) t v tv ltac:(lia) Pt Ht Hf S) as Hwf.
  destruct (evolve_gives (2 ^ 31) t u v tv dst ltac:(lia) Pt Pu Ht Hf Hd Hcm S) as (v' & a & St & _ & (l & L) & W & (M & D)).
  exists (N + M + l)%nat, tv, v'. conj; auto. intros n Hn. destruct (HN n ltac:(lia)) as (b & E & Rb).
  exists b. split; [exact E|]. intros src rest n' Hg Hb Hn'. rewrite Rb, He in Hb. cbn [app] in Hb.
  rewrite (Unmarshal_ptr env _ n' n' u dst a _ (lookup_more env l n' _ _ ltac:(lia) L)), W.
  destruct (bin_unmarshal env sr rsize (new_breader src) n' n' a dst tv _ rest Hr (binv_new rsize src ltac:(lia) Hg) Hwf (D n' n' ltac:(lia) ltac:(lia)))
    as (b' & E' & H1 & H2). { rewrite abs_new. exact Hb. }
  exists b'. rewrite E'. cbn [obind fst snd]. conj; auto.
Qed.

Theorem evolve_compact wsize rsize s t u v dst i :
  0 < wsize -> 10 <= rsize -> ok_sink s -> received s = [] ->
  P t -> P u -> has_type env v t -> fits env (2 ^ 63) v t -> passes env i t v -> has_type env dst u -> compatible env t u ->
  exists N tv v', stands_for env t v tv /\ stores env u dst tv v' /\
    forall n, (N <= n)%nat -> exists b cw,
      run (over cmp_writer (bufw_h wsize)) (Marshal env n n (Some i) >>! call WFlush) (cw0, new_bwriter s)
        = Done (cw, b) None /\
      forall src rest n' e cr, good_source src -> src_bytes src = received (wsink b) ++ rest -> src_fin src = FErr e ->
        cr_bool cr = BNone -> (N <= n')%nat ->
        exists b',
          run (over cmp_reader (bufio_h rsize)) (Unmarshal env n' n' (Some (RtPtr u, GPtr (Some dst)))) (cr, new_breader src)
            = Done (cr, b') (Some v', None) /\
          binv rsize b' /\ abs b' = mkStream rest (src_fin src).
Proof using Hsup Henv Hids.
  intros Hw Hr Hs He Pt Pu Ht Hf Hp Hd Hcm.
  destruct (cmp_stands env P Henv Hsup wsize s t v i Hw Hs Pt Ht Hf Hp) as (N & tv & lc & S & Hlc & HN).
  pose proof (stands_wf (2 ^ 63) t v tv ltac:(lia) Pt Ht Hf S) as Hwf.
  destruct (evolve_gives (2 ^ 63) t u v tv dst ltac:(lia) Pt Pu Ht Hf Hd Hcm S) as (v' & a & St & _ & (l & L) & W & (M & D)).
  exists (N + M + l)%nat, tv, v'. conj; auto. intros n Hn. destruct (HN n ltac:(lia)) as (b & cw & E & Rb).
  exists b, cw. split; [exact E|]. intros src rest n' e cr Hg Hb Hfin Hcr Hn'. rewrite Rb, He in Hb. cbn [app] in Hb.
  rewrite (Unmarshal_ptr env _ n' n' u dst a _ (lookup_more env l n' _ _ ltac:(lia) L)), W.
  destruct (cmp_unmarshal env rsize (new_breader src) n' n' a dst tv lc _ rest cr e Hr (binv_new rsize src ltac:(lia) Hg) Hwf
              (compact_enc_wrap tv lc _ Hwf Hlc) Hcr (D n' n' ltac:(lia) ltac:(lia))) as (st' & b' & E' & H1 & H2).
  { rewrite abs_new, Hb, Hfin. reflexivity. }
  exists b'. rewrite E'. cbn [obind fst snd]. destruct (H2 eq_refl) as [-> H3]. rewrite Hfin. conj; auto.
Qed.
End Calls.
