(** Protocols pass the test of testing/thrifttest. *)
From Verif Require Import Base BaseLemmas Prog Bufio BufioProof BufioW BufioWProof Wire WireProof Spec Clients
  Binary BinaryProof Compact CompactProof RoundTrip Messages Robust GoFloat Utf8 GoType Fields Arshal GoTypeProof FieldsProof
  ArshalSpec ArshalEnc ArshalDec ArshalTrip ArshalTotal ArshalThms ArshalGives MapSpec MapProof StoreSpec StoreProof RemarshalSpec RemarshalProof
  Pipeline PipelineProof ThriftTest ThriftTestSpec ThriftCalm.

(** ** The Compact encoding of a value is unique *)
Lemma compact_field_fun last id t l m : compact_field last id t l -> compact_field last id t m -> l = m.
Proof. intros A B. inversion A; inversion B; subst; try lia; auto. f_equal. eapply uleb128_fun; eauto. Qed.
Lemma compact_seq_fun n t l m : compact_seq n t l -> compact_seq n t m -> l = m.
Proof. intros A B. inversion A; inversion B; subst; try lia; auto. f_equal. eapply uleb128_fun; eauto. Qed.
Lemma compact_map_fun n t u l m : compact_map n t u l -> compact_map n t u m -> l = m.
Proof. intros A B. inversion A; inversion B; subst; try lia; auto. f_equal. eapply uleb128_fun; eauto. Qed.

Lemma compact_fun tv : forall l m, compact_encoding tv l -> compact_encoding tv m -> l = m.
Proof.
  unfold compact_encoding.
  assert (E : forall es, Forall (fun tv => forall l m, compact_enc compact_field tv l -> compact_enc compact_field tv m -> l = m) es ->
    forall l m, compact_elems compact_field es l -> compact_elems compact_field es m -> l = m).
  { induction 1 as [|x r Hx Hr IH]; intros l m A B; inversion A; inversion B; subst; auto. f_equal; eauto. }
  induction tv as [b|b|z|z|z|z|x|u|fs IH|kt vt es IH|et es IH|et es IH] using tval_ind'; intros l m A B; inversion A; inversion B; subst; auto;
    try (eapply uleb128_fun; eauto; fail); try (f_equal; eapply uleb128_fun; eauto; fail).
  - match goal with H1 : compact_fields _ _ _ l, H2 : compact_fields _ _ _ m |- _ => revert H1 H2 end.
    clear A B. generalize 0. revert l m. induction IH as [|[id v] r Hx Hr IHr]; intros l m last A B; inversion A; inversion B; subst; auto.
    f_equal; [eapply compact_field_fun; eauto|]. f_equal; [|eauto]. cbn [snd] in Hx.
    match goal with H1 : compact_field_value _ v _, H2 : compact_field_value _ v _ |- _ => inversion H1; inversion H2; subst end; auto; try discriminate; try contradiction.
  - f_equal; [eapply compact_map_fun; eauto|].
    match goal with H1 : compact_entries _ es ?l, H2 : compact_entries _ es ?m |- ?l = ?m => revert H1 H2; clear - IH; revert l m end.
    induction IH as [|[k v] r [Hk Hv] Hr IHr]; intros l m A B; inversion A; inversion B; subst; auto.
    cbn [fst snd] in *. f_equal; [eauto|]. f_equal; eauto.
  - f_equal; [eapply compact_seq_fun; eauto|eauto].
  - f_equal; [eapply compact_seq_fun; eauto|eauto].
Qed.

(** ** bytes.Buffer *)
Lemma buffer_good l : good_source (buffer_source l).
Proof. destruct l; split; cbn; auto. Qed.
Lemma buffer_bytes l : src_bytes (buffer_source l) = l.
Proof. destruct l; [reflexivity|]. unfold buffer_source, src_bytes. cbn. now rewrite app_nil_r. Qed.
Lemma buffer_binv size r l : zlen r <= size -> binv size (mkB r None (buffer_source l)).
Proof. intros H. split; [apply buffer_good|]. split; [exact H|]. discriminate. Qed.
Lemma buffer_abs r l : abs (mkB r None (buffer_source l)) = mkStream (r ++ l) (FErr EEOF).
Proof. unfold abs. cbn [bbuf bsrc]. rewrite buffer_bytes. reflexivity. Qed.
Lemma buffer_calm r l : calm (mkB r None (buffer_source l)).
Proof. split; [reflexivity|]. cbn [bsrc]. destruct l; cbn; repeat constructor. discriminate. Qed.
Lemma buffer_ok l : ok_sink (buffer_sink l).
Proof. repeat constructor. Qed.
Lemma buffer_received l : received (buffer_sink l) = l.
Proof. unfold received. cbn. apply app_nil_r. Qed.

Lemma bytes_eqb_refl l : bytes_eqb l l = true.
Proof. induction l as [|x l IH]; cbn [bytes_eqb]; [reflexivity|]. now rewrite Z.eqb_refl, IH. Qed.
Lemma header_refl h : is_message_header_equal h h = true.
Proof. unfold is_message_header_equal, is_message_name_equal. now rewrite !Z.eqb_refl, bytes_eqb_refl. Qed.

Lemma bounded (R : nat -> nat -> Prop) : (forall i, exists N, forall n, (N <= n)%nat -> R i n) ->
  forall k, exists N, forall i n, (i < k)%nat -> (N <= n)%nat -> R i n.
Proof.
  intros H. induction k as [|k (N & IH)]; [exists O; intros; lia|]. destruct (H k) as (M & HM). exists (N + M)%nat. intros i n Hi Hn.
  destruct (Nat.eq_dec i k) as [->|]; [apply HM; lia|apply IH; lia].
Qed.

Section Generic.
Context (env : tenv) (P : rtype -> Prop) (Henv : env_ok env) (Hids : unique_ids env) (Hsup : supported env P).
Context (Hno : no_methods env) (Hneg : negzero_ok env).
Context (p : protocol) (wsize rsize : Z) (uuid : bool) (Hr : 10 <= rsize).
Context (lim : Z) (Hlim : 0 < lim) (wokp : p_w p -> Prop) (rokp : p_r p -> Prop) (enc : mhdr -> tval -> list byte).
Definition hok (h : mhdr) : Prop := 1 <= mh_type h <= 4 /\ is_i32 (mh_id h) /\ zlen (mh_name h) < lim.
Context (Hrw : forall s, wokp (p_reset_writer p s)) (Hrr : forall s, rokp (p_reset_reader p s)).
Context (Hsend : forall t v i, P t -> has_type env v t -> fits env lim v t -> passes env i t v ->
  exists N tv, stands_for env t v tv /\ forall n h s buf, (N <= n)%nat -> hok h -> wokp s -> exists s' k, wokp s' /\
    run (over (p_writer p) (bufw_h wsize))
        (call (WMessageBegin h) >>! Marshal env n n (Some i) >>! call WMessageEnd >>! call WFlush)
        (s, mkBW [] None (buffer_sink buf)) = Done (s', mkBW [] None k) None /\ received k = buf ++ enc h tv).
Context (Hget : forall t v tv v' a, stands_for env t v tv -> wf lim tv -> codec env t a -> wire_type a = val_type tv ->
  settled env a (zero env t) tv (v', None) ->
  exists N, forall n h cr b rest, (N <= n)%nat -> hok h -> rokp cr -> binv rsize b -> abs b = mkStream (enc h tv ++ rest) (FErr EEOF) ->
    exists cr' b', rokp cr' /\ run (over (p_reader p) (bufio_h rsize)) (receive env n (inl (t, zero env t))) (cr, b)
      = Done (cr', b') (h, Some v', None) /\ binv rsize b' /\ abs b' = mkStream rest (FErr EEOF)).
Context (Hskip : forall t v tv, stands_for env t v tv -> wf lim tv -> val_type tv = T_Struct ->
  exists N, forall n h cr b rest, (N <= n)%nat -> hok h -> rokp cr -> binv rsize b -> abs b = mkStream (enc h tv ++ rest) (FErr EEOF) ->
    exists cr' b', rokp cr' /\ run (over (p_reader p) (bufio_h rsize)) (receive env n (inr T_Struct)) (cr, b)
      = Done (cr', b') (h, None, None) /\ binv rsize b' /\ abs b' = mkStream rest (FErr EEOF)).
Context (Hcalm : forall X (e : wireR X) st, calms rsize (p_reader p X e st)).

(** Between the cases *)
Definition between (t : bench p) : Prop :=
  t_buf p t = [] /\ 0 <= mh_type (t_msg p t) <= 4 /\ is_i32 (mh_id (t_msg p t)).

Lemma next_hok name t : between t -> zlen name < lim -> hok (t_msg p (next_msg p name t)).
Proof using.
  intros (_ & Ht & Hi) Hn. unfold hok, next_msg. cbn [t_msg mh_type mh_id mh_name]. split; [|split; [apply i32_range|exact Hn]].
  unfold u8. rewrite Z.mod_small; [|pose proof (Z.mod_pos_bound (mh_type (t_msg p t)) 4); lia].
  pose proof (Z.mod_pos_bound (mh_type (t_msg p t)) 4). lia.
Qed.

Lemma times_ok (body : nat -> bench p -> Prog.outcome (bench p) (option failure)) (I : nat -> bench p -> Prop) k t :
  (forall i t, (i < k)%nat -> I i t -> exists t', body i t = Done t' None /\ I (S i) t') -> I O t ->
  exists t', times p k body t = Done t' None /\ I k t'.
Proof using.
  induction k as [|k IH]; intros H Ht; cbn [times]; [eauto|].
  destruct IH as (t1 & E & H1); auto. destruct (H k t1 (Nat.lt_succ_diag_r k) H1) as (t2 & E2 & H2).
  exists t2. rewrite E. cbn [and_next obind]. auto.
Qed.

(** The writer is ready. *)
Definition w_ready (t : bench p) : Prop := wokp (t_w p t) /\ t_wbuf p t = [] /\ t_werr p t = None.

Lemma marshal_ok t v i : P t -> has_type env v t -> fits env lim v t -> passes env i t v ->
  exists N tv, stands_for env t v tv /\ forall n b, (N <= n)%nat -> hok (t_msg p b) -> w_ready b ->
    exists b', marshal_msg env p wsize n i b = Done b' None /\ w_ready b' /\ t_msg p b' = t_msg p b /\
      t_buf p b' = t_buf p b ++ enc (t_msg p b) tv.
Proof using Hsend.
  intros Pt Ht Hf Hp. destruct (Hsend t v i Pt Ht Hf Hp) as (N & tv & S & H). exists N, tv. split; [exact S|].
  intros n b Hn Hh (W1 & W2 & W3). destruct (H n (t_msg p b) (t_w p b) (t_buf p b) Hn Hh W1) as (s' & k & W' & E & R).
  eexists. unfold marshal_msg, writing. rewrite W2, W3, E. cbn [obind fatal]. split; [reflexivity|]. split; [split; [exact W'|split; reflexivity]|].
  cbn [t_msg t_buf wsink]. auto.
Qed.

Lemma case_ok c : good_case env P lim c ->
  exists N, forall n t, (N <= n)%nat -> between t -> exists t', test_case env p wsize rsize uuid n c t = Done t' None /\ between t'.
Proof using Henv Hids Hsup Hno Hneg Hr Hlim Hrw Hrr Hsend Hget Hskip Hcalm.
  intros (Pt & (sid & U) & Ht & Hk & Hf & Hnm & Hsh & Hm).
  set (ty := c_type c) in *. set (v := c_val c) in *.
  destruct (again env P Henv Hids Hsup Hno lim ty v Hlim Pt Ht Hk Hf) as (tv & v' & tv' & a & S & T & T' & Hf' & Hwf & Hc & W & D & S' & Same).
  assert (Vt : val_type tv = T_Struct).
  { clear - S U. clearbody ty v. destruct S; try congruence; try reflexivity.
    - destruct H; congruence.
    - destruct H as (? & ? & ?); congruence.
    - discriminate U. }
  destruct (marshal_ok ty v (ty, v) Pt Ht Hf) as (N1 & tv1 & S1 & H1).
  { right. split; [|reflexivity]. unfold is_ptr. now rewrite U. }
  rewrite (stands_fun env Hids ty v tv1 S1 tv S) in *. clear tv1 S1.
  destruct (Hget ty v tv v' a S Hwf Hc W D) as (N2 & H2).
  destruct (Hskip ty v tv S Hwf Vt) as (N3 & H3).
  assert (H4 : exists N4, forall i n, (i < 3)%nat -> (N4 <= n)%nat -> c_has_map c = false ->
    forall b, hok (t_msg p b) -> w_ready b ->
    exists b', marshal_msg env p wsize n (RtPtr ty, GPtr (Some (c_order c i v'))) b = Done b' None /\ w_ready b' /\ t_msg p b' = t_msg p b /\
      t_buf p b' = t_buf p b ++ enc (t_msg p b) tv).
  { apply bounded. intros i. set (v2 := c_order c i v'). pose proof (Hsh i v' : shuffled v' v2) as Sh.
    destruct (marshal_ok ty v2 (RtPtr ty, GPtr (Some v2)) Pt (shuffled_typed env v' v2 ty Sh T') (shuffled_fits env lim ty v' v2 Sh Hf')) as (N & tv2 & S2 & H).
    { left. exists (RtPtr ty). split; [reflexivity|reflexivity]. }
    exists N. intros n Hn Hmap b Hh Hw. destruct (Hm Hmap) as (Hty & Hsm). rewrite (Same Hty) in S'.
    destruct (shuffled_stands env Hno ty v' tv S' v2 Sh) as (tv3 & S3 & Ro).
    rewrite (small_reordered tv tv3 (Hsm tv S) Ro) in S3. rewrite (stands_fun env Hids ty v2 tv2 S2 tv S3) in H. apply H; auto. }
  destruct H4 as (N4 & H4).
  exists (N1 + N2 + N3 + N4)%nat. intros n t Hn Hb. unfold test_case.
  destruct (c_has_uuid c && negb uuid); [eauto|].
  fold ty. fold v.
  pose proof (next_hok (c_name c) t Hb Hnm) as Hh. set (h := t_msg p (next_msg p (c_name c) t)) in *.
  destruct (H1 n (reset_w p (next_msg p (c_name c) t)) ltac:(lia)) as (b1 & E1 & W1 & M1 & B1).
  { exact Hh. } { split; [apply Hrw|split; reflexivity]. }
  rewrite E1. cbn [and_next obind]. clear E1. change (t_msg p (reset_w p (next_msg p (c_name c) t))) with h in *.
  change (t_buf p (reset_w p (next_msg p (c_name c) t))) with (t_buf p t) in B1. rewrite (proj1 Hb) in B1. cbn [app] in B1. rewrite B1.
  set (want := enc h tv) in *.
  unfold read_msg, reading. cbn [reset_r t_r t_rbuf t_rerr t_buf t_msg t_w t_wbuf t_werr]. rewrite B1.
  destruct (H2 n h (p_reset_reader p (t_r p b1)) (mkB [] None (buffer_source want)) [] ltac:(lia) Hh (Hrr _)) as (cr & b2 & R2 & E2 & I2 & A2).
  { apply buffer_binv. cbn. lia. } { rewrite buffer_abs, app_nil_r. reflexivity. }
  rewrite E2. cbn [obind]. rewrite M1. cbn [t_msg]. rewrite header_refl.
  assert (L2 : src_bytes (bsrc b2) = []). { apply (f_equal sdata) in A2. cbn in A2. now apply app_eq_nil in A2. }
  cbn [t_buf]. rewrite L2. clear E2.
  (* the three times it is marshalled again *)
  assert (G : forall t0, t_msg p t0 = h -> w_ready t0 -> t_buf p t0 = [] -> exists t1 R, 
    (if c_has_map c then Done t0 None
     else times p 3 (fun i t =>
            and_next p (marshal_msg env p wsize n (RtPtr ty, GPtr (Some (c_order c i v'))) (set_buf p [] t)) (fun t =>
            if bytes_eqb (t_buf p t) want then Done t None else Done t (Some (FBytes (t_buf p t))))) t0) = Done t1 None /\
    t_msg p t1 = h /\ t_buf p t1 = R /\ R ++ want = want ++ R).
  { intros t0 Hm0 Hw0 Hb0. destruct (c_has_map c) eqn:Hmap.
    - exists t0, []. rewrite app_nil_r. auto.
    - match goal with |- context [times p 3 ?body t0] =>
        destruct (times_ok body (fun i t => t_msg p t = h /\ w_ready t /\ (i <> O -> t_buf p t = want)) 3 t0) as (t1 & E & Mt & _ & Bt)
      end.
      + intros i x Hi (Hx & Wx & _). destruct (H4 i n Hi ltac:(lia) eq_refl (set_buf p [] x)) as (y & Ey & Wy & My & By).
        { cbn [set_buf t_msg]. rewrite Hx. exact Hh. } { exact Wx. }
        cbn [set_buf t_msg t_buf app] in My, By. rewrite Hx in My, By. exists y. rewrite Ey. cbn [and_next obind]. rewrite By. fold want. rewrite bytes_eqb_refl. auto.
      + split; [exact Hm0|]. split; [exact Hw0|]. congruence.
      + exists t1, want. split; [exact E|]. split; [exact Mt|]. split; [apply Bt; discriminate|reflexivity]. }
  destruct (G (mkBench p (t_msg p b1) [] (t_w p b1) (t_wbuf p b1) (t_werr p b1) cr (bbuf b2) (berr b2)) M1 W1 eq_refl) as (t1 & R & E3 & M3 & B3 & Com).
  rewrite M1 in E3. rewrite E3. cbn [and_next obind]. clear E3 G.
  (* the three times it is skipped *)
  set (I := fun (_ : nat) (t : bench p) => t_msg p t = h /\ rokp (t_r p t) /\ t_rerr p t = None /\ zlen (t_rbuf p t) <= rsize /\ t_rbuf p t ++ t_buf p t = R).
  destruct (times_ok (fun _ t => skip_msg env p rsize n (set_buf p (t_buf p t ++ want) t)) I 3 (reset_r p t1)) as (t2 & E4 & I4).
  - intros j x _ (Mx & Rx & Ex & Zx & Bx). unfold skip_msg, reading. cbn [set_buf t_r t_rbuf t_rerr t_buf t_msg t_w t_wbuf t_werr]. rewrite Ex.
    destruct (H3 n h (t_r p x) (mkB (t_rbuf p x) None (buffer_source (t_buf p x ++ want))) R ltac:(lia) Hh Rx) as (cr' & b' & Rc & Ec & Ic & Ac).
    { now apply buffer_binv. } { rewrite buffer_abs, app_assoc, Bx. fold want. now rewrite Com. }
    rewrite Ec. eexists. cbn [obind fatal]. split; [reflexivity|].
    pose proof (layer_calm rsize (p_reader p) Hcalm _ _ _ _ _ _ (buffer_calm _ _) Ec) as Cc.
    unfold I. cbn [t_r t_rbuf t_rerr t_buf t_msg]. split; [exact Mx|]. split; [exact Rc|]. split; [apply Cc|]. split; [apply Ic|].
    apply (f_equal sdata) in Ac. exact Ac.
  - unfold I. cbn [reset_r t_r t_rbuf t_rerr t_buf t_msg]. split; [exact M3|]. split; [apply Hrr|]. split; [reflexivity|]. split; [cbn; lia|]. exact B3.
  - rewrite E4. cbn [and_next obind]. eexists. split; [reflexivity|]. destruct I4 as (M4 & _). unfold between. cbn [set_buf t_buf t_msg]. rewrite M4.
    destruct Hh as (h1 & h2 & _). split; [reflexivity|]. split; [lia|exact h2].
Qed.

Theorem test_ok cs : Forall (good_case env P lim) cs ->
  exists N, forall n, (N <= n)%nat -> exists t, test_protocol env p wsize rsize uuid n cs = Done t None.
Proof using Henv Hids Hsup Hno Hneg Hr Hlim Hrw Hrr Hsend Hget Hskip Hcalm.
  intros H. assert (G : exists N, forall n t, (N <= n)%nat -> between t -> exists t', test_cases env p wsize rsize uuid n cs t = Done t' None).
  { induction H as [|c cs Hc H IH]; [exists O; intros; cbn; eauto|].
    destruct IH as (N & IH). destruct (case_ok c Hc) as (M & Hcase). exists (N + M)%nat. intros n t Hn Ht. cbn [test_cases].
    destruct (Hcase n t ltac:(lia) Ht) as (t1 & E & B1). rewrite E. cbn [and_next obind]. apply IH; [lia|exact B1]. }
  destruct G as (N & G). exists N. intros n Hn. apply G; [exact Hn|]. repeat split; vm_compute; congruence.
Qed.
End Generic.

(** ** The two protocols *)
Lemma flush_last {S} (L : layer wireW bufW S) wsize (q1 q2 q3 : prog wireW (option err)) s buf s' l : 0 < wsize ->
  (forall b m, wok wsize b m -> exists b', run (over L (bufw_h wsize)) (call WFlush) (s', b) = Done (s', b') None /\
    received (wsink b') = m /\ wbuf b' = [] /\ wok wsize b' m) ->
  run (over L mem_h) (q1 >>! q2 >>! q3) (s, buf) = Done (s', buf ++ l) None ->
  exists k, run (over L (bufw_h wsize)) (q1 >>! q2 >>! q3 >>! call WFlush) (s, mkBW [] None (buffer_sink buf)) = Done (s', mkBW [] None k) None /\
    received k = buf ++ l.
Proof.
  intros Hw HF E.
  assert (A : forall x, run (over L (bufw_h wsize)) (q1 >>! q2 >>! q3 >>! call WFlush) x =
                        run (over L (bufw_h wsize)) ((q1 >>! q2 >>! q3) >>! call WFlush) x).
  { intros x. rewrite !run_and_then. destruct (run _ q1 x) as [x1 [e|]|c]; cbn [obind]; [reflexivity| |reflexivity].
    rewrite !run_and_then. destruct (run _ q2 x1) as [x2 [e|]|c]; cbn [obind]; [reflexivity| |reflexivity].
    rewrite !run_and_then. reflexivity. }
  rewrite A, run_and_then. clear A.
  pose proof (wok_new wsize Hw (buffer_sink buf) (buffer_ok buf)) as W0. rewrite buffer_received in W0.
  pose proof (layer_refines_mem wsize Hw L (q1 >>! q2 >>! q3) s _ buf W0) as H. rewrite E in H. unfold new_bwriter in H.
  destruct (run (over L (bufw_h wsize)) (q1 >>! q2 >>! q3) _) as [[s1 b] x|c]; [|contradiction]. destruct H as (-> & -> & Hb). cbn [obind].
  destruct (HF b _ Hb) as (b' & E' & Rb & Wb & (_ & We & _)). rewrite E'. exists (wsink b'). split; [|exact Rb].
  destruct b' as [w1 w2 w3]. cbn in *. now subst.
Qed.

Section Protocols.
Context (env : tenv) (P : rtype -> Prop) (Henv : env_ok env) (Hids : unique_ids env) (Hsup : supported env P).
Context (Hno : no_methods env) (Hneg : negzero_ok env).

Theorem bin_test sr sw wsize rsize uuid cs : (sr = true -> sw = true) -> 0 < wsize -> 10 <= rsize -> Forall (good_case env P (2 ^ 31)) cs ->
  exists N, forall n, (N <= n)%nat -> exists t, test_protocol env (join_protocol (binary_protocol sr) (binary_protocol sw)) wsize rsize uuid n cs = Done t None.
Proof using Henv Hids Hsup Hno Hneg.
  intros Hst Hw Hr. apply (test_ok env P Henv Hids Hsup Hno Hneg (join_protocol (binary_protocol sr) (binary_protocol sw)) wsize rsize uuid Hr (2 ^ 31) ltac:(lia)
    (fun _ => True) (fun _ => True) (fun h tv => bin_message sw (mh_name h) (mh_type h) (mh_id h) ++ binary_encoding tv)); auto.
  - intros t v i Pt Ht Hf Hp. destruct (bin_marshal_mem env P Henv Hsup sw t v i Pt Ht Hp) as (N & tv & S & W).
    exists N, tv. split; [exact S|]. intros n [nm ty id] [] buf Hn (h1 & h2 & h3) _. cbn [mh_name mh_type mh_id] in *. exists tt.
    destruct (flush_last (bin_writer sw) wsize (call (WMessageBegin (mkMH nm ty id))) (Marshal env n n (Some i)) (call WMessageEnd) tt buf tt
      (bin_message sw nm ty id ++ binary_encoding tv) Hw) as (k & E & R).
    + intros b m Hb. exact (bin_flush_ok wsize Hw sw b m Hb).
    + rewrite run_and_then, bin_message_written by (unfold is_u8; lia). cbn [obind]. rewrite run_and_then, W by exact Hn. cbn [obind].
      rewrite run_call. cbn. now rewrite <- app_assoc.
    + exists k. auto.
  - intros t v tv v' a S Hwf (l & L) Wt (M & D). exists (M + l)%nat. intros n [nm ty id] [] b rest Hn (h1 & h2 & h3) _ Hb Hd.
    cbn [mh_name mh_type mh_id] in *. exists tt. cbn [p_r p_reader binary_protocol join_protocol]. unfold receive. rewrite run_bind. rewrite <- app_assoc in Hd.
    destruct (bin_read_any rsize sr (call RMessageBegin) b (mkMH nm ty id, None) (mkStream (binary_encoding tv ++ rest) (FErr EEOF)) ltac:(lia) Hb) as (b1 & E1 & Hb1 & Ab1).
    { rewrite Hd. apply bin_message_read; auto; unfold is_u8; lia. }
    rewrite E1. cbn [obind]. rewrite run_bind.
    rewrite (Unmarshal_ptr env _ n n t _ a _ (lookup_more env l n _ _ ltac:(lia) L)), Wt.
    destruct (bin_unmarshal env sr rsize b1 n n a (zero env t) tv _ rest ltac:(lia) Hb1 Hwf (D n n ltac:(lia) ltac:(lia))) as (b2 & E2 & Hb2 & Ab2).
    { now rewrite Ab1. }
    rewrite E2. cbn [obind fst snd]. exists b2. split; [exact I|]. rewrite Ab1 in Ab2. split; [|auto]. rewrite run_bind, run_call. reflexivity.
  - intros t v tv S Hwf Vt. exists (vsize tv). intros n [nm ty id] [] b rest Hn (h1 & h2 & h3) _ Hb Hd.
    cbn [mh_name mh_type mh_id] in *. exists tt. cbn [p_r p_reader binary_protocol join_protocol]. unfold receive. rewrite run_bind. rewrite <- app_assoc in Hd.
    destruct (bin_read_any rsize sr (call RMessageBegin) b (mkMH nm ty id, None) (mkStream (binary_encoding tv ++ rest) (FErr EEOF)) ltac:(lia) Hb) as (b1 & E1 & Hb1 & Ab1).
    { rewrite Hd. apply bin_message_read; auto; unfold is_u8; lia. }
    rewrite E1. cbn [obind]. rewrite !run_bind.
    destruct (bin_skip_back sr rsize b1 tv rest n ltac:(lia) Hb1 Hwf Hn) as (b2 & E2 & Hb2 & Ab2). { now rewrite Ab1. }
    rewrite Vt in E2. rewrite E2. cbn [obind run fst snd]. exists b2. split; [exact I|]. rewrite Ab1 in Ab2. split; [|auto]. rewrite run_bind, run_call. reflexivity.
  - intros X e st. apply bin_reader_calm. exact Hr.
Qed.

Lemma compact_bytes_spec t v tv : stands_for env t v tv -> wf (2 ^ 63) tv -> compact_encoding tv (compact_bytes tv).
Proof using.
  intros S Hwf. destruct (cmp_write_val compact_field no_wrap field_hdr_spec tv Hwf (stands_steps env t v tv S) cw0 [] eq_refl)
    as (l & bb & Hl & _ & Wv). unfold compact_bytes. rewrite Wv. exact Hl.
Qed.

Theorem cmp_test wsize rsize uuid cs : 0 < wsize -> 10 <= rsize -> Forall (good_case env P (2 ^ 63)) cs ->
  exists N, forall n, (N <= n)%nat -> exists t, test_protocol env compact_protocol wsize rsize uuid n cs = Done t None.
Proof using Henv Hids Hsup Hno Hneg.
  intros Hw Hr. apply (test_ok env P Henv Hids Hsup Hno Hneg compact_protocol wsize rsize uuid Hr (2 ^ 63) ltac:(lia)
    (fun st => fh_type (cw_bool st) = T_Stop) (fun cr => cr_bool cr = BNone)
    (fun h tv => cmp_message (mh_name h) (mh_type h) (mh_id h) ++ compact_bytes tv)); auto.
  - intros t v i Pt Ht Hf Hp. destruct (cmp_marshal_mem env P Henv Hsup t v i Pt Ht Hf Hp) as (N & tv & S & W).
    pose proof (stands_wf env P Hsup Henv Hids (2 ^ 63) t v tv ltac:(lia) Pt Ht Hf S) as Hwf.
    exists N, tv. split; [exact S|]. intros n [nm ty id] st buf Hn (h1 & h2 & h3) Hst. cbn [mh_name mh_type mh_id] in *.
    destruct (W st (buf ++ cmp_message nm ty id) Hst) as (lc & Hlc & Wn). destruct (Wn n Hn) as (st' & Hst' & E). exists st'.
    rewrite (compact_fun tv lc (compact_bytes tv) Hlc (compact_bytes_spec t v tv S Hwf)) in E.
    destruct (flush_last cmp_writer wsize (call (WMessageBegin (mkMH nm ty id))) (Marshal env n n (Some i)) (call WMessageEnd) st buf st'
      (cmp_message nm ty id ++ compact_bytes tv) Hw) as (k & Ek & R).
    + intros b m Hb. exact (cmp_flush_ok wsize Hw st' b m Hb).
    + rewrite run_and_then, cmp_message_written. cbn [obind]. rewrite run_and_then, E. cbn [obind].
      rewrite run_call, <- app_assoc. reflexivity.
    + exists k. auto.
  - intros t v tv v' a S Hwf (l & L) Wt (M & D). exists (M + l)%nat. intros n [nm ty id] cr b rest Hn (h1 & h2 & h3) Hcr Hb Hd.
    pose proof (compact_bytes_spec t v tv S Hwf) as Hl.
    cbn [mh_name mh_type mh_id] in *. exists cr. cbn [p_r p_reader compact_protocol]. unfold receive. rewrite run_bind. rewrite <- app_assoc in Hd.
    destruct (cmp_read_any rsize (call RMessageBegin) cr cr b (mkMH nm ty id, None) (mkStream (compact_bytes tv ++ rest) (FErr EEOF)) ltac:(lia) Hb) as (b1 & E1 & Hb1 & Ab1).
    { rewrite Hd, cmp_message_read; auto; try discriminate; [|unfold is_u8; lia]. now rewrite Z.mod_small by lia. }
    rewrite E1. cbn [obind]. rewrite run_bind.
    rewrite (Unmarshal_ptr env _ n n t _ a _ (lookup_more env l n _ _ ltac:(lia) L)), Wt.
    destruct (cmp_unmarshal env rsize b1 n n a (zero env t) tv _ _ rest cr EEOF Hr Hb1 Hwf (compact_enc_wrap tv _ _ Hwf Hl) Hcr
                  (D n n ltac:(lia) ltac:(lia)) Ab1) as (st' & b2 & E2 & Hb2 & H2).
    destruct (H2 eq_refl) as [-> Ab2].
    rewrite E2. cbn [obind fst snd]. exists b2. split; [exact Hcr|]. split; [|auto]. rewrite run_bind, run_call. reflexivity.
  - intros t v tv S Hwf Vt. exists (vsize tv). intros n [nm ty id] cr b rest Hn (h1 & h2 & h3) Hcr Hb Hd.
    pose proof (compact_bytes_spec t v tv S Hwf) as Hl.
    cbn [mh_name mh_type mh_id] in *. exists cr. cbn [p_r p_reader compact_protocol]. unfold receive. rewrite run_bind. rewrite <- app_assoc in Hd.
    destruct (cmp_read_any rsize (call RMessageBegin) cr cr b (mkMH nm ty id, None) (mkStream (compact_bytes tv ++ rest) (FErr EEOF)) ltac:(lia) Hb) as (b1 & E1 & Hb1 & Ab1).
    { rewrite Hd, cmp_message_read; auto; try discriminate; [|unfold is_u8; lia]. now rewrite Z.mod_small by lia. }
    rewrite E1. cbn [obind]. rewrite !run_bind.
    destruct (cmp_skip_back rsize b1 tv _ rest n cr EEOF Hr Hb1 Hwf Hn (compact_enc_wrap tv _ _ Hwf Hl) Hcr Ab1) as (b2 & E2 & Hb2 & Ab2).
    rewrite Vt in E2. rewrite E2. cbn [obind run fst snd]. exists b2. split; [exact Hcr|]. split; [|auto]. rewrite run_bind, run_call. reflexivity.
  - intros X e st. apply cmp_reader_calm. exact Hr.
Qed.
End Protocols.
