(** Unmarshal on arbitrary input: what it stores is no larger than the input allows. *)
From Coq Require Import Strings.String Sorting.Permutation.
From Verif Require Import Base BaseLemmas GoBinary GoBinaryProof Prog Wire WireProof Spec Clients Reads Robust Utf8
  GoType Fields Arshal GoTypeProof FieldsProof ArshalSpec ArshalEnc ArshalDec ArshalTrip ArshalTotal ArshalThms ArshalSafe ArshalInput
  Bufio BufioProof Binary Compact Layers RobustWire Safety Fuel MemorySpec.

Definition foots (l : list gval) : nat := list_sum (map footprint l).
Definition foots2 (l : list (gval * gval)) : nat := list_sum (map (fun '(k, v) => footprint k + footprint v)%nat l).

Lemma foots_cons x l : foots (x :: l) = (footprint x + foots l)%nat.
Proof. reflexivity. Qed.
Lemma foots2_cons k v l : foots2 ((k, v) :: l) = (footprint k + footprint v + foots2 l)%nat.
Proof. reflexivity. Qed.
Lemma foot_slice b l m : footprint (GSlice b l m) = (1 + foots l + foots m)%nat.
Proof. reflexivity. Qed.
Lemma foots_app l m : foots (l ++ m) = (foots l + foots m)%nat.
Proof. unfold foots. now rewrite map_app, list_sum_app. Qed.
Lemma foots_cut i l : (foots (firstn i l) + foots (skipn i l) = foots l)%nat.
Proof. now rewrite <- foots_app, firstn_skipn. Qed.
Lemma foots_repeat v n : foots (repeat v n) = (n * footprint v)%nat.
Proof. induction n as [|n IH]; [reflexivity|]. cbn [repeat]. rewrite foots_cons, IH. reflexivity. Qed.
Lemma foots_set_le l : forall i x, (foots (set_nth i x l) <= foots l + footprint x)%nat.
Proof.
  induction l as [|y r IH]; intros [|i] x; cbn [set_nth]; rewrite ?foots_cons; try lia. specialize (IH i x). lia.
Qed.
Lemma foots_set_at l : forall i x y, nth_error l i = Some y -> (foots (set_nth i x l) + footprint y = foots l + footprint x)%nat.
Proof.
  induction l as [|z r IH]; intros [|i] x y H; cbn [nth_error set_nth] in *; try discriminate; rewrite !foots_cons.
  - injection H as ->. lia.
  - specialize (IH i x y H). lia.
Qed.
Lemma foots2_set es k v : (foots2 (map_set es k v) + match map_get es k with Some v0 => footprint v0 | None => 0 end
  <= foots2 es + footprint k + footprint v)%nat.
Proof.
  induction es as [|[k' v'] r IH]; cbn [map_set map_get]; [rewrite foots2_cons; lia|].
  destruct (key_eq k k'); rewrite !foots2_cons; lia.
Qed.

(** Pointers before there is something to read. *)
Fixpoint chain (a : arsh) : nat := match a with APtr _ ea => S (chain ea) | _ => 0 end.

Section Foot.
Context (env : tenv) (P : rtype -> Prop) (Hcl : closed env P) (Henv : env_ok env).
Context {S : Type} (h : handler wireR S) (mu : S -> nat).
Hypothesis Hmu : forall X (e : wireR X) s s' x, h X e s = Done s' x ->
  (mu s' <= mu s)%nat /\ (errR e x = None -> consumes e = true -> (mu s' < mu s)%nat).
Hypothesis Hstr : forall s s' x, h _ RString s = Done s' (x, None) -> (length x + mu s' <= mu s)%nat.
Hypothesis Hbytes : forall s s' x, h _ (RBytes []) s = Done s' (x, None) -> (length x + mu s' <= mu s)%nat.

(** [z]: the largest zero value; [cz]: chains of them behind pointers; [gz]: what a slice grows by at the least;
    [R]: what is put aside for every value read; [K]: the price of a byte. *)
Context (z cz gz R K : nat).
Hypothesis Hz : forall t, P t -> (footprint (zero env t) <= z)%nat.
Hypothesis Hc : forall t a, P t -> codec env t a -> (chain a * z <= cz)%nat.
Hypothesis Hg : forall n, (te_grow env n * z <= n * z + gz)%nat.
Hypothesis HR : R = (cz + 3 * z)%nat.
Hypothesis HK : (2 * cz + gz + 8 * z + 18 <= K)%nat.

Lemma pay a b : (a < b)%nat -> (K * a + K <= K * b)%nat.
Proof using All. clear. nia. Qed.
Lemma keep a b : (a <= b)%nat -> (K * a <= K * b)%nat.
Proof using All. clear. nia. Qed.

Lemma run_mu {A} (p : prog wireR A) : forall s s' x, run h p s = Done s' x -> (mu s' <= mu s)%nat.
Proof using Hmu.
  clear - Hmu.
  induction p as [a|X e k IH|c]; intros s s' x H; cbn in H; [injection H as <- _; lia| |discriminate].
  destruct (h X e s) as [s1 y|c] eqn:E; [|discriminate]. cbn [obind] in H. apply Hmu in E as [E _]. apply IH in H. lia.
Qed.

Lemma loop_inv {St Q} (body : St -> prog wireR (St + Q)) (Inv : St -> S -> Prop) (Fin : Q -> S -> Prop) :
  (forall st s s' x, Inv st s -> run h (body st) s = Done s' x -> match x with inl st' => Inv st' s' | inr r => Fin r s' end) ->
  forall k st s s' x, Inv st s -> run h (loop_nat k body st) s = Done s' x -> match x with inl st' => Inv st' s' | inr r => Fin r s' end.
Proof using All.
  intros Hb. induction k as [|k IH]; intros st s s' x Hi H; cbn [loop_nat] in H.
  - cbn in H. injection H as <- <-. exact Hi.
  - rewrite run_bind in H. destruct (run h (body st) s) as [s1 y|c] eqn:E; [|discriminate]. cbn [obind] in H.
    specialize (Hb _ _ _ _ Hi E). destruct y as [st'|r]; [exact (IH _ _ _ _ Hb H)|]. cbn in H. injection H as <- <-. exact Hb.
Qed.

(** What holds of the result. *)
Definition cheap (a : arsh) (dst : gval) (s s' : S) (v : gval) (r : option err) : Prop :=
  (footprint v + K * mu s' <= footprint dst + K * mu s + chain a * z)%nat /\
  (r = None -> footprint v + K * mu s' + R <= footprint dst + K * mu s + chain a * z)%nat.

Lemma cheap_scalar {X} a act wt t (e : wireR (X * option err)) dst (f : X -> gval) s s' v r :
  errR e = snd -> consumes e = true ->
  (forall s s' x, h _ e s = Done s' (x, None) -> (footprint (f x) + mu s' <= footprint dst + mu s)%nat) ->
  run h (scalar act wt t e dst f) s = Done s' (v, r) -> cheap a dst s s' v r.
Proof using All.
  intros He Hcs Hf H. unfold scalar, rdu in H. rewrite run_vis in H. destruct (h _ e s) as [s1 [x o]|c] eqn:E; [|discriminate].
  cbn [obind] in H. pose proof (Hmu _ _ _ _ _ E) as [M1 M2]. rewrite He in M2. cbn [snd] in M2.
  destruct o as [er|]; cbn [run] in H; injection H as <- <- <-.
  - pose proof (keep _ _ M1). split; [lia|discriminate].
  - specialize (M2 eq_refl Hcs). specialize (Hf _ _ _ E).
    assert (Q : (mu s1 + K * mu s1 + K <= K * mu s + mu s1 + 0)%nat) by (pose proof (pay _ _ M2); lia).
    assert (B : (mu s + K * mu s1 + (K - 1) <= mu s1 + K * mu s)%nat) by (clear - M2 HK; nia).
    split; [|intros _]; lia.
Qed.

Lemma cheap_stay a dst s e : cheap a dst s s dst (Some e).
Proof using All. split; [lia|discriminate]. Qed.

Lemma cheap_check a wt want t dst k s s' v r :
  (run h k s = Done s' (v, r) -> cheap a dst s s' v r) ->
  run h (check wt want t dst k) s = Done s' (v, r) -> cheap a dst s s' v r.
Proof using All. intros Hk H. unfold check in H. destruct (wt =? want); [auto|]. cbn in H. injection H as <- <- <-. apply cheap_stay. Qed.

Lemma foot_pos v : (1 <= footprint v)%nat.
Proof using All. destruct v as [| | | | | | | | |[]|[]| |]; cbn; lia. Qed.

(** [r.XBegin()] and [r.XEnd()] *)
Lemma rdu_inv {X A} act wt t (e : wireR (X * option err)) (fail : X -> err -> A) k s s' (x : A) :
  errR e = snd -> run h (rdu act wt t e fail k) s = Done s' x ->
  (exists y er, x = fail y er /\ (mu s' <= mu s)%nat) \/
  (exists y s1, h _ e s = Done s1 (y, None) /\ (mu s1 <= mu s)%nat /\ (consumes e = true -> (mu s1 < mu s)%nat) /\ run h (k y) s1 = Done s' x).
Proof using All.
  intros He H. unfold rdu in H. rewrite run_vis in H. destruct (h _ e s) as [s1 [y o]|c] eqn:E; [|discriminate]. cbn [obind] in H.
  pose proof (Hmu _ _ _ _ _ E) as [M1 M2]. rewrite He in M2. cbn [snd] in M2. destruct o as [er|].
  - cbn in H. injection H as <- <-. left. eauto.
  - right. exists y, s1. auto.
Qed.
Lemma rdu0_inv {A} act wt t (e : wireR (option err)) (fail : err -> A) k s s' (x : A) :
  run h (rdu0 act wt t e fail k) s = Done s' x ->
  (exists er, x = fail er /\ (mu s' <= mu s)%nat) \/ (exists s1, (mu s1 <= mu s)%nat /\ run h k s1 = Done s' x).
Proof using All.
  intros H. unfold rdu0 in H. rewrite run_vis in H. destruct (h _ e s) as [s1 o|c] eqn:E; [|discriminate]. cbn [obind] in H.
  pose proof (Hmu _ _ _ _ _ E) as [M1 _]. destruct o as [er|].
  - cbn in H. injection H as <- <-. left. eauto.
  - right. exists s1. auto.
Qed.

Theorem unmarshal_cheap n : forall ln a t, P t -> codec env t a -> forall dst wt s s' v r,
  run h (unmarshal env ln n a dst wt) s = Done s' (v, r) -> cheap a dst s s' v r.
Proof using All.
  induction n as [|n IH]; intros ln a t Ht Ha dst wt s s' v r H; [discriminate|].
  pose proof (codec_inv env _ _ Ha) as Hi. cbv iota in Hi.
  pose proof (cl_parts env P Hcl t Ht) as Kp; unfold parts in Kp.
  cbn [unmarshal] in H. pose proof (foot_pos dst) as Pos.
  destruct a as [t'|t'|t' single|t' w|t' w|t'|t'|t'|t'|t' ka va|t' set ea|t' ea].
  - cbn in H. injection H as <- <- <-. apply cheap_stay.
  - revert H. apply cheap_check. apply cheap_scalar; auto. intros a b x E. apply Hmu in E as [E _]. cbn [footprint]. lia.
  - revert H. apply cheap_check. apply cheap_scalar; auto. intros a b x E. apply Hmu in E as [E _]. destruct single; cbn [footprint]; lia.
  - revert H. apply cheap_check. destruct w; (apply cheap_scalar; auto; intros a b x E; apply Hmu in E as [E _]; cbn [footprint]; lia).
  - revert H. apply cheap_check. destruct w; (apply cheap_scalar; auto; intros a b x E; apply Hmu in E as [E _]; cbn [footprint]; lia).
  - revert H. apply cheap_check. apply cheap_scalar; auto. intros a b x E. apply Hstr in E. cbn [footprint]. lia.
  - revert H. apply cheap_check. apply cheap_scalar; auto. intros a b x E. apply Hbytes in E. cbn [footprint Datatypes.length]. lia.
  - revert H. apply cheap_check. destruct dst as [| | | | | |old| | | | | |]; try discriminate. intros H.
    apply rdu_inv in H; [|reflexivity]. destruct H as [(y & er & E & M)|(y & s1 & E & M1 & M2 & H)].
    + injection E as -> ->. apply keep in M. split; [cbn [footprint]; lia|discriminate].
    + cbn in H. injection H as <- <- <-. specialize (M2 eq_refl). apply pay in M2. split; [|intros _]; cbn [footprint]; lia.
  - (* struct *)
    destruct Hi as (-> & sid & U). rewrite U in Kp. destruct (make_struct_fields env ln t) as [[fs|e]|] eqn:M; [| |discriminate].
    2:{ cbn in H. injection H as <- <- <-. apply cheap_stay. }
    destruct (fields_spec env Henv ln t fs M) as (F1 & _ & _).
    assert (SD : struct_def env t = te_struct env sid) by (unfold struct_def; now rewrite U). rewrite SD in F1.
    assert (Hsub : forall f, In f fs -> exists ft, P ft /\ codec env ft (f_fncs f)).
    { intros f Hf. apply F1 in Hf as (j & sf & o & a & N & Sr & L & ->). exists (sf_type sf). cbn. split; [|now exists ln].
      apply (Kp sf o); auto. eapply nth_error_In; eauto. }
    revert H. apply cheap_check. destruct dst as [| | | | | | | | | | |vs|]; try discriminate. intros H.
    apply rdu_inv in H; [|reflexivity]. destruct H as [(y & er & E & Ml)|(y & s1 & _ & M1 & _ & H)].
    { injection E as -> ->. apply keep in Ml. split; [lia|discriminate]. }
    rewrite run_bind in H. destruct (run h (loop_nat _ _ _) s1) as [s2 x|c] eqn:E; [|discriminate]. cbn [obind] in H.
    destruct x as [|[v' r']]; [discriminate|]. cbn [run] in H. injection H as <- <- <-.
    pose proof (keep _ _ M1) as M1'.
    set (Inv := fun us (s : S) => (foots us + K * mu s <= foots vs + K * mu s1)%nat).
    set (Fin := fun (x : gval * option err) (s : S) => (footprint (fst x) + K * mu s <= 1 + foots vs + K * mu s1)%nat /\
                  (snd x = None -> footprint (fst x) + K * mu s + R <= 1 + foots vs + K * mu s1)%nat).
    pose proof (fun body => loop_inv body Inv Fin) as L.
    assert (Fin (v', r') s2) as F.
    { refine (L _ _ (Datatypes.S n) vs s1 s2 (inr (v', r')) (le_n _) E). clear L E v' r' s2 M1 M1'.
      intros us s2 s3 x Hu H. unfold unmarshal_field in H. apply rdu_inv in H; [|reflexivity].
      destruct H as [(y1 & er & -> & Ml)|(hd & s4 & _ & M1 & M2 & H)].
      { apply keep in Ml. unfold Fin, Inv in *. cbn [fst snd footprint]. fold (foots us). split; [lia|discriminate]. }
      specialize (M2 eq_refl). apply pay in M2. unfold Inv in Hu.
      destruct (fh_type hd =? T_Stop).
      { apply rdu0_inv in H. destruct H as [(er & -> & Ml)|(s5 & Ml & H)].
        - apply keep in Ml. unfold Fin. cbn [fst snd footprint]. fold (foots us). split; [lia|discriminate].
        - cbn in H. injection H as <- <-. apply keep in Ml. unfold Fin. cbn [fst snd footprint]. fold (foots us). split; [|intros _]; lia. }
      assert (Hend : forall us' s5, (foots us' + K * mu s5 <= foots vs + K * mu s1)%nat ->
        run h (rdu0 "ReadFieldEnd" T_Struct t RFieldEnd (fun er => inr (GStruct us', Some er)) (Ret (inl us'))) s5 = Done s3 x ->
        match x with inl st' => Inv st' s3 | inr r => Fin r s3 end).
      { intros us' s5 Hu' H'. apply rdu0_inv in H'. destruct H' as [(er & -> & Ml)|(s6 & Ml & H')].
        - apply keep in Ml. unfold Fin. cbn [fst snd footprint]. fold (foots us'). split; [lia|discriminate].
        - cbn in H'. injection H' as <- <-. apply keep in Ml. unfold Inv. lia. }
      destruct (by_id fs (fh_id hd)) as [f|] eqn:Bf.
      - apply find_some in Bf as [Bf _]. apply in_rev in Bf. destruct (Hsub f Bf) as (ft & Pf & Cf).
        destruct (nth_error us (f_index f)) as [u|] eqn:Nu; [|discriminate].
        rewrite run_bind in H. destruct (run h (unmarshal env ln n (f_fncs f) u (fh_type hd)) s4) as [s5 [u' e']|c] eqn:Eu; [|discriminate].
        cbn [obind] in H. apply (IH ln _ ft Pf Cf) in Eu. destruct Eu as [Eu _].
        pose proof (Hc ft _ Pf Cf). pose proof (foots_set_at us _ u' u Nu).
        destruct e' as [er|].
        + cbn in H. injection H as <- <-. unfold Fin. cbn [fst snd footprint]. fold (foots (set_nth (f_index f) u' us)). split; [lia|discriminate].
        + eapply Hend; [|exact H]. lia.
      - rewrite run_bind in H. destruct (run h (skip n (fh_type hd)) s4) as [s5 e'|c] eqn:Es; [|discriminate]. cbn [obind] in H.
        apply run_mu in Es. apply keep in Es. destruct e' as [er|].
        + cbn in H. injection H as <- <-. unfold Fin. cbn [fst snd footprint]. fold (foots us). split; [lia|discriminate].
        + eapply Hend; [|exact H]. lia. }
    destruct F as [F1' F2]. cbn [fst snd] in F1', F2. split; [|intros Hr; specialize (F2 Hr)]; cbn [footprint]; fold (foots vs); lia.
  - (* map *)
    destruct Hi as (-> & kt & e & U & Hka & Hva). rewrite U in Kp. destruct Kp as [Pk Pe].
    assert (Kt : key_type env t = kt) by (unfold key_type; now rewrite U).
    assert (Et : elem_type env t = e) by (unfold elem_type; now rewrite U).
    revert H. apply cheap_check. destruct dst as [| | | | | | | | |o| | |]; try discriminate. intros H.
    apply rdu_inv in H; [|reflexivity]. destruct H as [(y & er & E & Ml)|(hd & s1 & _ & _ & M1 & H)].
    { injection E as -> ->. apply keep in Ml. split; [lia|discriminate]. }
    specialize (M1 eq_refl). apply pay in M1.
    assert (Hfin : forall d s2, (footprint d + K * mu s2 <= footprint (GMap o) + K * mu s1)%nat ->
      run h (rdu0 "ReadMapEnd" T_Map t RMapEnd (fun er => (d, Some er)) (Ret (d, None))) s2 = Done s' (v, r) -> cheap (AMap t ka va) (GMap o) s s' v r).
    { intros d s2 Hd H'. apply rdu0_inv in H'. destruct H' as [(er & E & Ml)|(s3 & Ml & H')].
      - injection E as -> ->. apply keep in Ml. split; [lia|discriminate].
      - cbn in H'. injection H' as <- <- <-. apply keep in Ml. split; [|intros _]; lia. }
    destruct (map_size hd >? 0); [|apply (Hfin _ _ (le_n _) H)].
    rewrite run_bind, run_loop_Z in H. set (es0 := match o with Some es => es | None => [] end) in *.
    destruct (run h (loop_nat _ _ _) s1) as [s2 x|c] eqn:E; [|discriminate]. cbn [obind] in H.
    set (Inv := fun es (s : S) => (foots2 es + K * mu s <= foots2 es0 + K * mu s1)%nat).
    set (Fin := fun (x : gval * option err) (s : S) => (footprint (fst x) + K * mu s <= 1 + foots2 es0 + K * mu s1 + 2 * z + 2 * cz)%nat /\ snd x <> None).
    pose proof (fun body => loop_inv body Inv Fin) as L.
    assert (match x with inl es => Inv es s2 | inr r => Fin r s2 end) as F.
    { refine (L _ _ _ es0 s1 s2 x (le_n _) E). clear L E x s2 H.
      intros es s2 s3 x Hu H. unfold unmarshal_entry in H. rewrite run_bind, Kt, Et in H. unfold Inv in Hu.
      destruct (run h (unmarshal env ln n ka _ _) s2) as [s4 [k' e1]|c] eqn:E1; [|discriminate]. cbn [obind] in H.
      pose proof (run_mu _ _ _ _ E1) as M4. apply keep in M4. apply (IH ln _ kt Pk Hka) in E1. destruct E1 as [_ E1].
      pose proof (Hc kt _ Pk Hka). pose proof (Hz kt Pk). pose proof (Hc e _ Pe Hva). pose proof (Hz e Pe).
      destruct e1 as [er|].
      { cbn in H. injection H as <- <-. unfold Fin. cbn [fst snd footprint]. fold (foots2 es). split; [lia|discriminate]. }
      specialize (E1 eq_refl). rewrite run_bind in H.
      destruct (run h (unmarshal env ln n va _ _) s4) as [s5 [v' e2]|c] eqn:E2; [|discriminate]. cbn [obind] in H.
      apply (IH ln _ e Pe Hva) in E2. destruct E2 as [E2 E2'].
      pose proof (foots2_set es k' v') as Q.
      assert (Q2 : (footprint (match map_get es k' with Some v => v | None => zero env e end) <=
                    match map_get es k' with Some v0 => footprint v0 | None => 0 end + z)%nat) by (destruct (map_get es k'); lia).
      destruct e2 as [er|]; cbn in H; injection H as <- <-.
      - unfold Fin. cbn [fst snd footprint]. fold (foots2 (map_set es k' v')). split; [lia|discriminate].
      - specialize (E2' eq_refl). unfold Inv. lia. }
    assert (Fo : (footprint (GMap o) = 1 + foots2 es0)%nat) by (destruct o; reflexivity).
    destruct x as [es|[d r0]].
    + apply (Hfin (GMap (Some es)) s2); [|exact H]. unfold Inv in F. rewrite Fo. cbn [footprint]. fold (foots2 es). lia.
    + cbn in H. injection H as <- <- <-. destruct F as [F1 F2]. cbn [fst snd] in F1, F2. split; [lia|]. intros ->. now elim F2.
  - (* set, list *)
    destruct Hi as (-> & e & U & B & Hea & _). rewrite U in Kp. specialize (Kp B).
    assert (Et : elem_type env t = e) by (unfold elem_type; now rewrite U).
    revert H. apply cheap_check. destruct dst as [| | | | | | | |nl es sp| | | |]; try discriminate. intros H.
    apply rdu_inv in H; [|destruct set; reflexivity]. destruct H as [(y & er & E & Ml)|(hd & s1 & _ & _ & M1 & H)].
    { injection E as -> ->. apply keep in Ml. split; [lia|discriminate]. }
    assert (M1' : (mu s1 < mu s)%nat) by (apply M1; destruct set; reflexivity). clear M1. apply pay in M1'.
    assert (Fo : (footprint (GSlice nl es sp) = 1 + foots (es ++ sp))%nat).
    { rewrite foots_app. cbn [footprint]. unfold foots. lia. }
    assert (Hfin : forall d s2, (footprint d + K * mu s2 <= footprint (GSlice nl es sp) + K * mu s1 + z + gz)%nat ->
      run h (rdu0 (if set then "ReadSetEnd" else "ReadListEnd") (if set then T_Set else T_List) t (if set then RSetEnd else RListEnd)
         (fun er => (d, Some er)) (Ret (d, None))) s2 = Done s' (v, r) -> cheap (ASeq t set ea) (GSlice nl es sp) s s' v r).
    { intros d s2 Hd H'. apply rdu0_inv in H'. destruct H' as [(er & E & Ml)|(s3 & Ml & H')].
      - injection E as -> ->. apply keep in Ml. split; [lia|discriminate].
      - cbn in H'. injection H' as <- <- <-. apply keep in Ml. split; [|intros _]; lia. }
    destruct (set_size hd >? 0).
    2:{ eapply Hfin; [|exact H]. rewrite Fo. cbn [footprint]. fold (foots []) (foots (es ++ sp)). change (foots []) with O. lia. }
    rewrite run_bind, run_loop_Z in H. set (arr0 := es ++ sp) in *.
    destruct (run h (loop_nat _ _ _) s1) as [s2 x|c] eqn:E; [|discriminate]. cbn [obind] in H.
    (* [A]: what the slice has grown by *)
    set (Inv := fun (st : nat * list gval * bool) (s : S) => let '(i, arr, _) := st in
      (i <= Datatypes.length arr)%nat /\ exists A, (foots arr + K * mu s + 2 * (i * z) <= foots arr0 + K * mu s1 + A)%nat /\
        (A <= Datatypes.length arr * z)%nat /\ (A <= 2 * (i * z) + z + gz)%nat).
    set (Fin := fun (x : gval * option err) (s : S) => (footprint (fst x) + K * mu s <= 1 + foots arr0 + K * mu s1 + 2 * z + gz + cz)%nat /\ snd x <> None).
    pose proof (fun body => loop_inv body Inv Fin) as L.
    assert (match x with inl st => Inv st s2 | inr r => Fin r s2 end) as F.
    { refine (L _ _ _ (O, arr0, true) s1 s2 x _ E).
      2:{ split; [apply Nat.le_0_l|]. exists O. lia. }
      clear L E x s2 H.
      intros [[i arr] mz] s2 s3 x Hu H. unfold unmarshal_elem in H. rewrite Et in H. destruct Hu as (Hi & A & H1 & H2 & H3).
      pose proof (Hc e _ Kp Hea) as C. pose proof (Hz e Kp) as Z0.
      assert (G : exists arr1 mz1 A1, (if Nat.eqb i (Datatypes.length arr)
          then (arr ++ repeat (zero env e) (Datatypes.S (te_grow env (Datatypes.length arr))), false) else (arr, mz)) = (arr1, mz1) /\
          (i < Datatypes.length arr1)%nat /\ (foots arr1 + K * mu s2 + 2 * (i * z) <= foots arr0 + K * mu s1 + A1)%nat /\
          (A1 <= Datatypes.length arr1 * z)%nat /\ (A1 <= 2 * (i * z) + z + gz)%nat).
      { destruct (Nat.eqb_spec i (Datatypes.length arr)) as [Ei|Ei].
        - do 2 eexists. exists (A + Datatypes.S (te_grow env (Datatypes.length arr)) * z)%nat. split; [reflexivity|].
          rewrite app_length, repeat_length, foots_app, foots_repeat, <- Ei in *. pose proof (Hg i) as Gi.
          assert (Q : (Datatypes.S (te_grow env i) * footprint (zero env e) <= Datatypes.S (te_grow env i) * z)%nat) by (apply Nat.mul_le_mono_l; exact Z0).
          split; [lia|]. rewrite !Nat.mul_succ_l in *. rewrite Nat.mul_add_distr_r, Nat.mul_succ_l. conj; lia.
        - do 2 eexists. exists A. split; [reflexivity|]. conj; auto. lia. }
      destruct G as (arr1 & mz1 & A1 & GE & Hi1 & G1 & G2 & G3). rewrite GE in H.
      rewrite run_bind in H.
      destruct (run h (unmarshal env ln n ea _ _) s2) as [s4 [v' e1]|c] eqn:E1; [|discriminate]. cbn [obind] in H.
      apply (IH ln _ e Kp Hea) in E1. destruct E1 as [E1 E2].
      assert (Q : (foots (set_nth i v' arr1) + footprint (if mz1 then zero env e else nth i arr1 (GOther 0)) <= foots arr1 + footprint v' + z)%nat).
      { destruct mz1; [pose proof (foots_set_le arr1 i v'); lia|].
        pose proof (foots_set_at arr1 i v' _ (nth_error_nth' arr1 (GOther 0) Hi1)). lia. }
      destruct e1 as [er|]; cbn [run] in H; injection H as <- <-.
      - split; [|discriminate]. cbn [fst]. rewrite foot_slice.
        pose proof (foots_cut (Datatypes.S i) (set_nth i v' arr1)) as QQ. cbn [firstn skipn] in QQ. lia.
      - specialize (E2 eq_refl). unfold Inv. rewrite set_nth_length. split; [lia|]. exists A1.
        rewrite Nat.mul_succ_l. conj; lia. }
    destruct x as [[[i arr] mz]|[d r0]].
    + eapply Hfin; [|exact H]. destruct F as (_ & A & F1 & _ & F3). rewrite Fo, foot_slice. pose proof (foots_cut i arr). lia.
    + cbn in H. injection H as <- <- <-. destruct F as [F1 F2]. cbn [fst snd] in F1, F2. split; [lia|]. intros ->. now elim F2.
  - (* pointer *)
    destruct Hi as (-> & e & U & Hea). rewrite U in Kp.
    assert (Et : elem_type env t = e) by (unfold elem_type; now rewrite U).
    destruct dst as [| | | | | | | | | |o| |]; try discriminate. rewrite run_bind, Et in H.
    destruct (run h (unmarshal env ln n ea _ wt) s) as [s1 [v1 e1]|c] eqn:E1; [|discriminate]. cbn in H. injection H as <- <- <-.
    apply (IH ln _ e Kp Hea) in E1. destruct E1 as [E1 E2]. pose proof (Hz e Kp).
    assert (Q : (footprint (match o with Some v => v | None => zero env e end) + 1 <= footprint (GPtr o) + z)%nat).
    { destruct o; cbn [footprint]; lia. }
    split; [|intros Hr; specialize (E2 Hr)]; cbn [footprint chain] in *; rewrite ?Nat.mul_succ_l in *; lia.
Qed.
End Foot.

(** ** Strings are no longer than what was read of them *)
Lemma sized_string size (sz : prog bufR (Z * option err)) (rd : Z -> prog bufR (list byte * option err)) d e s' x : 10 <= size ->
  good size 1 snd sz -> (forall n d fi, run (stream_h size) (rd n) (mkStream d fi) = bytes_spec n [] d fi) ->
  run (stream_h size) ('(n, er) <- sz ;; match er with Some _ => Ret ([], er) | None => rd n end) (mkStream d (FErr e)) = Done s' (x, None) ->
  (length x + length (sdata s') + 1 <= length d)%nat.
Proof.
  intros Hs Hsz Hrd H. rewrite run_bind in H. destruct (Hsz d e) as (c & d1 & [n o] & E1 & E2 & E3). rewrite E2 in H. cbn [obind] in H.
  destruct o as [er|]; [discriminate|]. destruct (E3 eq_refl) as [L _]. rewrite Hrd in H. unfold bytes_spec in H.
  destruct (n <? 0); [discriminate|]. destruct (n <=? zlen d1); [|discriminate]. injection H as <- <-. cbn [sdata app].
  subst d. rewrite app_length, firstn_length, skipn_length. lia.
Qed.

Lemma bin_strings size strict e : 10 <= size -> forall c, c = RString \/ c = RBytes [] ->
  forall s s' x, data_h (bin_reader strict) size e _ c s = Done s' (x, None) -> (length x + bin_mu s' <= bin_mu s)%nat.
Proof.
  intros Hs c Hc [u d] s' x. unfold data_h, bin_mu. cbn [fst snd]. intros H.
  destruct (run (stream_h size) (bin_reader strict _ c u) (mkStream d (FErr e))) as [s1 [u' x']|] eqn:E; [|discriminate].
  injection H as <- ->. cbn [snd]. unfold bin_reader in E. rewrite run_bind in E.
  destruct (run (stream_h size) (bin_read strict c) (mkStream d (FErr e))) as [s2 y|] eqn:E2; [|discriminate].
  cbn [obind run] in E. injection E as -> <- ->.
  assert (Q : (length x + length (sdata s1) + 1 <= length d)%nat); [|lia].
  destruct Hc as [-> | ->]; cbn [bin_read] in E2; (eapply sized_string in E2; [exact E2|exact Hs| |]).
  - eapply good_weaken; [apply (good_bin_i32 size Hs)|lia].
  - intros. apply read_string_spec. lia.
  - eapply good_weaken; [apply (good_bin_i32 size Hs)|lia].
  - intros. apply read_bytes_spec. lia.
Qed.

Lemma cmp_strings size e : 10 <= size -> forall c, c = RString \/ c = RBytes [] ->
  forall s s' x, data_h cmp_reader size e _ c s = Done s' (x, None) -> (length x + cmp_mu s' <= cmp_mu s)%nat.
Proof.
  intros Hs c Hc [u d] s' x. unfold data_h, cmp_mu. cbn [fst snd]. intros H.
  destruct (run (stream_h size) (cmp_reader _ c u) (mkStream d (FErr e))) as [s1 [u' x']|] eqn:E; [|discriminate].
  injection H as <- ->. cbn [fst snd].
  assert (Q : u' = u /\ (length x + length (sdata s1) + 1 <= length d)%nat); [|destruct Q as [-> Q]; lia].
  destruct Hc as [-> | ->].
  - change (cmp_reader _ RString u) with (lift u (cmp_read_string tw_read_uvarint)) in E. unfold lift in E. rewrite run_bind in E.
    destruct (run (stream_h size) (cmp_read_string tw_read_uvarint) _) as [s2 y|] eqn:E2; [|discriminate].
    cbn [obind run] in E. injection E as -> <- ->. split; [reflexivity|].
    eapply sized_string in E2; [exact E2|exact Hs|apply (good_cmp_size size Hs)|]. intros. apply read_string_spec. lia.
  - change (cmp_reader _ (RBytes []) u) with (lift u (cmp_read_bytes tw_read_uvarint [])) in E. unfold lift in E. rewrite run_bind in E.
    destruct (run (stream_h size) (cmp_read_bytes tw_read_uvarint []) _) as [s2 y|] eqn:E2; [|discriminate].
    cbn [obind run] in E. injection E as -> <- ->. split; [reflexivity|].
    eapply sized_string in E2; [exact E2|exact Hs|apply (good_cmp_size size Hs)|]. intros. apply read_bytes_spec. lia.
Qed.

(** ** The constants *)
Lemma max_over {A} (f : A -> nat) (l : list A) : exists m, forall x, In x l -> (f x <= m)%nat.
Proof.
  induction l as [|y r [m IH]]; [exists O; intros x []|]. exists (Nat.max (f y) m). intros x [->|Hx]; [lia|]. specialize (IH x Hx). lia.
Qed.

Lemma codec_fun env t a b : codec env t a -> codec env t b -> a = b.
Proof.
  intros [n Hn] [m Hm]. pose proof (lookup_more env n (n + m) t a ltac:(lia) Hn). pose proof (lookup_more env m (n + m) t b ltac:(lia) Hm). congruence.
Qed.

Lemma max_chain env (l : list rtype) : (forall t, In t l -> exists a, codec env t a) ->
  exists m, forall t a, In t l -> codec env t a -> (chain a <= m)%nat.
Proof.
  induction l as [|y r IH]; intros H; [exists O; intros t a []|]. destruct IH as [m Hm]; [intros; apply H; now right|].
  destruct (H y (or_introl eq_refl)) as [b Hb]. exists (Nat.max (chain b) m). intros t a [->|Ht] Ha.
  - rewrite (codec_fun env t a b Ha Hb). lia.
  - specialize (Hm t a Ht Ha). lia.
Qed.

Section Bound.
Context (env : tenv) (ts : list rtype).
Hypothesis (Hcl : closed env (fun t => In t ts)) (Henv : env_ok env) (Hgrow : grows_gently env).

Lemma constant : exists K, forall S (h : handler wireR S) mu,
  (forall X (e : wireR X) s s' x, h X e s = Done s' x -> (mu s' <= mu s)%nat /\ (errR e x = None -> consumes e = true -> (mu s' < mu s)%nat)) ->
  (forall c, c = RString \/ c = RBytes [] -> forall s s' x, h _ c s = Done s' (x, None) -> (length x + mu s' <= mu s)%nat) ->
  forall n ln a t dst wt s s' v r, In t ts -> codec env t a -> run h (unmarshal env ln n a dst wt) s = Done s' (v, r) ->
  (mu s' <= mu s)%nat /\ (footprint v + K * mu s' <= footprint dst + K * mu s + K)%nat.
Proof using Hcl Henv Hgrow.
  destruct (max_over (fun t => footprint (zero env t)) ts) as [z Hz].
  destruct (max_chain env ts) as [m Hm].
  { intros t Ht. destruct (lookup_ends env t (cl_eager env _ Hcl t Ht)) as (a & l0 & Ca). exists a, l0. exact Ca. }
  destruct Hgrow as [c Hc].
  exists (2 * (m * z) + c * z + 8 * z + 18)%nat. intros S h mu Hmu Hs n ln a t dst wt s s' v r Ht Ha H.
  set (K := (2 * (m * z) + c * z + 8 * z + 18)%nat).
  split; [exact (run_mu h mu Hmu _ _ _ _ H)|].
  destruct (unmarshal_cheap env (fun t => In t ts) Hcl Henv h mu Hmu (Hs RString (or_introl eq_refl)) (Hs (RBytes []) (or_intror eq_refl))
    z (m * z) (c * z) (m * z + 3 * z) K Hz) with (n := n) (ln := ln) (a := a) (t := t) (dst := dst) (wt := wt) (s := s) (s' := s') (v := v) (r := r)
    as [B _]; auto; try (unfold K; lia).
  - intros t' a' Ht' Ha'. apply Nat.mul_le_mono_r. eauto.
  - intros k. rewrite <- Nat.mul_add_distr_r. apply Nat.mul_le_mono_r. apply Hc.
  - pose proof (Hm t a Ht Ha) as C. apply (Nat.mul_le_mono_r _ _ z) in C. unfold K in *. lia.
Qed.

Section Gen.
Context {S : Type} (L : layer wireR bufR S) (mu : S * list byte -> nat) (size : Z).
Hypothesis Hsize : 10 <= size.
Hypothesis HL : forall X (e : wireR X) s, full_ok (L X e s).
Hypothesis Htot : forall e X (c : wireR X) s, exists s' x,
  data_h L size e X c s = Done s' x /\ (mu s' <= mu s)%nat /\ (errR c x = None -> consumes c = true -> (mu s' < mu s)%nat).
Hypothesis Hsane : forall e X (c : wireR X) s s' x, data_h L size e X c s = Done s' x -> sane c x.
Hypothesis Hstr : forall e c, c = RString \/ c = RBytes [] ->
  forall s s' x, data_h L size e _ c s = Done s' (x, None) -> (length x + mu s' <= mu s)%nat.

Lemma gen_bounded K t w st b d e :
  (forall S (h : handler wireR S) mu,
    (forall X (e : wireR X) s s' x, h X e s = Done s' x -> (mu s' <= mu s)%nat /\ (errR e x = None -> consumes e = true -> (mu s' < mu s)%nat)) ->
    (forall c, c = RString \/ c = RBytes [] -> forall s s' x, h _ c s = Done s' (x, None) -> (length x + mu s' <= mu s)%nat) ->
    forall n ln a t dst wt s s' v r, In t ts -> codec env t a -> run h (unmarshal env ln n a dst wt) s = Done s' (v, r) ->
    (mu s' <= mu s)%nat /\ (footprint v + K * mu s' <= footprint dst + K * mu s + K)%nat) ->
  In t ts -> has_type env w t -> binv size b -> abs b = mkStream d (FErr e) ->
  exists N st' b' v r p d', (forall n, (N <= n)%nat ->
    run (over L (bufio_h size)) (Unmarshal env n n (Some (RtPtr t, GPtr (Some w)))) (st, b) = Done (st', b') (Some v, r)) /\
    binv size b' /\ d = p ++ d' /\ abs b' = mkStream d' (FErr e) /\
    (mu (st', d') <= mu (st, d))%nat /\ (footprint v + K * mu (st', d') <= footprint w + K * mu (st, d) + K)%nat.
Proof using Hcl Henv Hsize HL Htot Hsane Hstr.
  intros HK Pt Tw Hb Ha.
  destruct (lookup_ends env t (cl_eager env _ Hcl t Pt)) as (a & l0 & Ca).
  destruct (unmarshal_total env _ Hcl Henv (data_h L size e) mu (Htot e) (Hsane e) (Datatypes.S (mu (st, d))) a t Pt)
    as (N & HN); [exists l0; exact Ca|].
  set (M := (N + l0)%nat).
  destruct (HN M M ltac:(lia) ltac:(lia) w (wire_type a) (st, d) O Tw ltac:(lia))
    as ([st' d'] & c & v' & r & E & T' & H1 & H2 & H3).
  pose proof (counted_run (data_h L size e) (unmarshal env M M a w (wire_type a)) (st, d) O) as E0. rewrite E in E0.
  destruct (HK _ (data_h L size e) mu) with (n := M) (ln := M) (a := a) (t := t) (dst := w) (wt := wire_type a) (s := (st, d)) (s' := (st', d')) (v := v') (r := r)
    as [B1 B2]; auto.
  { intros X ev s s' x Hx. destruct (Htot e X ev s) as (s2 & x2 & Q1 & Q2). rewrite Q1 in Hx. injection Hx as <- <-. exact Q2. }
  { exact (Hstr e). }
  { exists l0. exact Ca. }
  pose proof (counted_data L size e (unmarshal env M M a w (wire_type a)) st d O) as E2. rewrite E in E2.
  pose proof (counted_suffix _ _ _ _ _ _ _ _ _ _ E2) as [p Hp].
  pose proof (counted_refines size L (unmarshal env M M a w (wire_type a)) ltac:(lia) HL st b O Hb) as H.
  rewrite Ha, E2 in H.
  destruct (run (counted (over L (bufio_h size))) (unmarshal env M M a w (wire_type a)) ((st, b), O))
    as [[[s1 b1] n1] x|] eqn:E3; [|contradiction].
  destruct H as (-> & -> & -> & H4 & H5).
  pose proof (counted_run (over L (bufio_h size)) (unmarshal env M M a w (wire_type a)) (st, b) O) as E4. rewrite E3 in E4.
  exists M, st', b1, v', r, p, d'. conj; auto.
  intros n Hn. eapply below_done; [apply (Unmarshal_more env M n M n); lia|].
  cbn [Unmarshal]. change (is_ptr env (RtPtr t)) with true. cbv iota. change (elem_type env (RtPtr t)) with t.
  rewrite (lookup_more env l0 M _ _ ltac:(lia) Ca), run_bind, E4. reflexivity.
Qed.
End Gen.

Theorem bin_bounded : exists K, forall size strict t w b d e,
  10 <= size -> In t ts -> has_type env w t -> binv size b -> abs b = mkStream d (FErr e) ->
  exists N b' v r p d', (forall n, (N <= n)%nat ->
    run (over (bin_reader strict) (bufio_h size)) (Unmarshal env n n (Some (RtPtr t, GPtr (Some w)))) (tt, b) = Done (tt, b') (Some v, r)) /\
    binv size b' /\ d = p ++ d' /\ abs b' = mkStream d' (FErr e) /\ (footprint v <= footprint w + K * (length p + 1))%nat.
Proof using Hcl Henv Hgrow.
  destruct constant as [K HK]. exists K. intros size strict t w b d e Hs Pt Tw Hb Ha.
  destruct (gen_bounded (bin_reader strict) bin_mu size Hs (bin_reader_fok strict) (fun e => bin_tot size strict e Hs)
    (fun e => bin_sane size strict e ltac:(lia)) (fun e => bin_strings size strict e Hs) K t w tt b d e HK Pt Tw Hb Ha)
    as (N & [] & b' & v & r & p & d' & H1 & H2 & H3 & H4 & _ & H5).
  exists N, b', v, r, p, d'. conj; auto. unfold bin_mu in H5. cbn [snd] in H5. subst d. rewrite app_length in H5. nia.
Qed.

Theorem cmp_bounded : exists K, forall size t w st b d e,
  10 <= size -> In t ts -> has_type env w t -> binv size b -> abs b = mkStream d (FErr e) ->
  exists N st' b' v r p d', (forall n, (N <= n)%nat ->
    run (over cmp_reader (bufio_h size)) (Unmarshal env n n (Some (RtPtr t, GPtr (Some w)))) (st, b) = Done (st', b') (Some v, r)) /\
    binv size b' /\ d = p ++ d' /\ abs b' = mkStream d' (FErr e) /\ (footprint v <= footprint w + K * (length p + 1))%nat.
Proof using Hcl Henv Hgrow.
  destruct constant as [K HK]. exists (2 * K)%nat. intros size t w st b d e Hs Pt Tw Hb Ha.
  destruct (gen_bounded cmp_reader cmp_mu size Hs (fun X e s => cmp_reader_fok _ X e s tw_read_uvarint_fok) (fun e => cmp_tot size e Hs)
    (fun e => cmp_sane size e ltac:(lia)) (fun e => cmp_strings size e Hs) K t w st b d e HK Pt Tw Hb Ha)
    as (N & st' & b' & v & r & p & d' & H1 & H2 & H3 & H4 & _ & H5).
  exists N, st', b', v, r, p, d'. conj; auto. unfold cmp_mu, pending in H5. cbn [fst snd] in H5. subst d. rewrite app_length in H5.
  destruct (cr_bool st), (cr_bool st'); nia.
Qed.
End Bound.
