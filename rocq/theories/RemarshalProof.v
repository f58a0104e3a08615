(** Marshalling again what Unmarshal stored. *)
From Coq Require Import Sorting.Permutation Sorting.Sorted.
From Verif Require Import Base BaseLemmas Prog Bufio BufioProof BufioW BufioWProof Wire WireProof Spec Clients Binary BinaryProof
  Compact CompactProof Reads RoundTrip Layers EndToEnd GoFloat Utf8 GoType Fields Arshal GoTypeProof FieldsProof FloatProof ArshalSpec
  ArshalEnc ArshalDec ArshalTrip ArshalTotal ArshalThms ArshalCalls ArshalGives TagProof Messages MapSpec MapProof StoreSpec StoreProof RemarshalSpec.

(** ** Floating-point numbers *)
Lemma snan_big x : f32_snan x = true -> x <> 0 /\ x <> 2 ^ 31 /\ x + 2 ^ 22 <> 0 /\ x + 2 ^ 22 <> 2 ^ 31.
Proof using.
  intros E. conj; intros X.
  - subst x. vm_compute in E. discriminate.
  - subst x. vm_compute in E. discriminate.
  - replace x with (- 2 ^ 22) in E by lia. vm_compute in E. discriminate.
  - replace x with (2 ^ 31 - 2 ^ 22) in E by lia. vm_compute in E. discriminate.
Qed.
Lemma snan_wide x : is_u32 x -> f32_snan x = true -> is_u32 (x + 2 ^ 22) /\ f32_to_f64 (x + 2 ^ 22) = f32_to_f64 x.
Proof using.
  intros H E. destruct (f32_split x H) as (Hx & Hs & He & Hm).
  unfold f32_snan, f32_nan in E. apply andb_true_iff in E. destruct E as [E L]. apply andb_true_iff in E. destruct E as [E N].
  apply Z.eqb_eq in E. apply Z.ltb_lt in L. apply negb_true_iff, Z.eqb_neq in N.
  destruct (f32_fields (f32_sign x) (f32_exp x) (f32_frac x + 2 ^ 22) Hs He ltac:(lia)) as (F1 & F2 & F3 & F4).
  replace (f32_sign x * 2 ^ 31 + (f32_exp x * 2 ^ 23 + (f32_frac x + 2 ^ 22))) with (x + 2 ^ 22) in * by lia.
  split; [exact F4|]. unfold f32_to_f64. rewrite F1, F2, F3, E. change (255 =? 255) with true. cbv iota.
  destruct (Z.eqb_spec (f32_frac x) 0); [lia|]. destruct (Z.eqb_spec (f32_frac x + 2 ^ 22) 0); [lia|].
  destruct (Z.ltb_spec (f32_frac x) (2 ^ 22)); [|lia]. destruct (Z.ltb_spec (f32_frac x + 2 ^ 22) (2 ^ 22)); [lia|].
  change (2 ^ 51) with (2 ^ 22 * 2 ^ 29). lia.
Qed.

Section Zero.
Context (env : tenv) (Henv : env_ok env).

Lemma is_zero_zero_n n : forall t b, (te_rank env t < n)%nat -> is_zero env b (zero env t) = true.
Proof using Henv.
  induction n as [|n IH]; intros t b Hn; [lia|]. 
  destruct (under env t) as [| | | | | | | | | | | | | | | | | | | | |elem|k elem|kt elem|elem|sid|id] eqn:U;
    try (rewrite (zero_eq env Henv t), U; reflexivity).
  - rewrite (zero_eq env Henv t), U. destruct (as_bytes env t); reflexivity.
  - assert (A : is_zero env b (GArray (repeat (zero env elem) (Z.to_nat k))) = true).
    { cbn [is_zero]. apply forallb_forall. intros x Hx. apply repeat_spec in Hx. subst x. apply IH.
      pose proof (ok_array_rank _ Henv _ _ _ U). lia. }
    assert (B : is_zero env b (GUUID zero_uuid) = true) by reflexivity.
    rewrite (zero_eq env Henv t), U.
    destruct k as [|p|p]; auto. do 5 (try (destruct p as [p|p|]; auto)). destruct elem; auto.
  - rewrite (zero_eq env Henv t), U. cbn [is_zero]. apply forallb_forall. intros x Hx. apply in_map_iff in Hx.
    destruct Hx as (f & <- & Hf). apply IH. pose proof (ok_struct_rank _ Henv _ _ _ U Hf). lia.
Qed.
Lemma is_zero_zero t b : is_zero env b (zero env t) = true.
Proof using Henv. apply (is_zero_zero_n (S (te_rank env t))). lia. Qed.


(** ** A value that made the trip once *)
Hypothesis Hno : no_methods env.
Hypothesis Hneg : negzero_ok env.

Lemma zero_field_eq sf v : zero_field env sf v = is_zero env false v.
Proof using Hno. unfold zero_field. now rewrite !Hno. Qed.

Lemma is_zero_inner v : is_zero env false v = true -> is_zero env true v = true.
Proof using Hneg.
  destruct v; cbn [is_zero]; auto; intros H; apply orb_true_iff in H; destruct H as [H|H]; rewrite ?H; auto;
    apply andb_true_iff in H; destruct H as [-> H]; rewrite (Hneg H); apply orb_true_r.
Qed.

Lemma sent_dec sf v : sent env sf v \/ ~ sent env sf v.
Proof using.
  rewrite <- written_sent. unfold written, tagged.
  destruct (parse_field_options (te_uni env) sf) as [[o ig] err] eqn:E.
  destruct ig; [right; intros (o' & H & _); congruence|]. destruct err; [right; intros (o' & H & _); congruence|].
  destruct (fo_required o) eqn:R; [left; exists o; auto|].
  destruct (zero_field env sf v) eqn:Z; [right|left; exists o; auto].
  intros (o' & H & [R'|H']); congruence.
Qed.
(** Whether a field is sent depends on the value only if it is zero. *)
Lemma sent_zero sf v : ~ sent env sf v -> sent env sf (zero env (sf_type sf)) -> False.
Proof using Hno Henv.
  intros N (id & req & D & H). apply N. exists id, req. split; [exact D|]. left.
  destruct H as [H|H]; [exact H|]. rewrite zero_field_eq, is_zero_zero in H. discriminate.
Qed.

Lemma forallb_nth {A} (f : A -> bool) l : forallb f l = true <-> forall i x, nth_error l i = Some x -> f x = true.
Proof using.
  rewrite forallb_forall. split; [intros H i x E; apply H; eapply nth_error_In; eauto|].
  intros H x Hx. apply In_nth_error in Hx. destruct Hx as (i & E). eauto.
Qed.

Lemma shuffled_zero v : forall v' b, shuffled v v' -> is_zero env b v' = is_zero env b v.
Proof using.
  induction v as [c|z|z|z|z|nl x sp|u|es IH|nl es sp IH IH2| |es IH| |v IH|vs IH|k] using gval_ind'; intros v' b S; inversion S; subst; try reflexivity.
  cbn [is_zero]. match goal with H : Forall2 _ _ _ |- _ => rename H into F end. clear S.
  induction F; cbn [forallb]; [reflexivity|]. inversion IH; subst. f_equal; auto.
Qed.

Lemma trip_again_zero v' : forall t v v1 v'' b, has_type env v t -> trip env t v v1 -> shuffled v1 v' -> trip env t v' v'' ->
  is_zero env b v'' = is_zero env b v'.
Proof using Henv Hno Hneg.
  induction v' as [c|z|z|z|z|nl x sp|u|es IH|nl es sp IH IH2| |es IH| |v' IH|vs' IH|k] using gval_ind'; intros t v v1 v'' b Ht T Sh T'.
  1-2,4-5,7-8,15: inversion T'; subst; reflexivity.
  - inversion T'; subst. cbn [is_zero]. destruct (f32_snan z) eqn:E; [|reflexivity].
    destruct (snan_big z E) as (A & B & C & D).
    destruct (Z.eqb_spec z 0), (Z.eqb_spec z (2 ^ 31)), (Z.eqb_spec (z + 2 ^ 22) 0), (Z.eqb_spec (z + 2 ^ 22) (2 ^ 31)); try contradiction. reflexivity.
  - inversion T'; subst. inversion Sh; subst. inversion T; subst. reflexivity.
  - inversion T'; subst. cbn [is_zero].
    assert (G : exists es1, v1 = GSlice nl es1 sp /\ length es1 = length es).
    { inversion Sh; subst; [exists es; auto|]. match goal with H : Forall2 _ _ _ |- _ => apply Forall2_len in H end. eauto. }
    destruct G as (es1 & -> & L). inversion T; subst. match goal with H : Forall2 _ _ es1 |- _ => apply Forall2_len in H; rewrite L in H; rename H into L' end.
    destruct es0, es; cbn in *; congruence.
  - inversion T'; subst. reflexivity.
  - inversion T'; subst; [|reflexivity]. assert (G : v1 = GMap (Some [])).
    { inversion Sh; subst; [reflexivity|]. match goal with H : Permutation _ [] |- _ => apply Permutation_sym, Permutation_nil in H; subst end.
      match goal with H : Forall2 _ _ [] |- _ => inversion H; subst end. reflexivity. }
    subst v1. inversion T; subst. match goal with H : Forall2 _ _ [] |- _ => inversion H; subst end. contradiction.
  - inversion Sh; subst. inversion T; subst.
  - inversion T'; subst. reflexivity.
  - assert (G : exists vs1, v1 = GStruct vs1 /\ Forall2 shuffled vs1 vs').
    { inversion Sh; subst; eauto. exists vs'. split; [reflexivity|]. clear. induction vs'; constructor; auto. apply sh_same. }
    destruct G as (vs1 & -> & Fs). pose proof (Forall2_len _ _ _ Fs) as Ls.
    inversion T as [| | | | | | | | | | | | |? s vs ? U L F]; subst.
    inversion T' as [| | | | | | | | | | | | |? s' ? vs'' U' L' F']; subst. rewrite U in U'. injection U' as <-.
    apply type_struct in Ht. destruct Ht as (s' & U' & Hts). rewrite U in U'. injection U' as <-.
    cbn [is_zero].
    assert (G : forall i w' w'', nth_error vs' i = Some w' -> nth_error vs'' i = Some w'' -> is_zero env true w'' = is_zero env true w').
    { intros i w' w'' E' E''.
      destruct (nth_error vs1 i) as [w1|] eqn:E1; [|apply nth_error_None in E1; assert (H : nth_error vs' i <> None) by congruence; apply nth_error_Some in H; lia].
      destruct (nth_error vs i) as [w|] eqn:E; [|apply nth_error_None in E; assert (H : nth_error vs' i <> None) by congruence; apply nth_error_Some in H; lia].
      destruct (nth_error (te_struct env s) i) as [sf|] eqn:Es.
      2:{ apply nth_error_None in Es. apply Forall2_len in Hts. assert (H : nth_error vs i <> None) by congruence. apply nth_error_Some in H. lia. }
      assert (Sw : shuffled w1 w') by (eapply Forall2_nth in Fs; eauto).
      destruct (F i sf w w1 Es E E1) as [Fw Fn]. destruct (F' i sf w' w'' Es E' E'') as [Fw' Fn']. rewrite written_sent in *.
      destruct (sent_dec sf w) as [S|S].
      - specialize (Fw S). destruct (sent_dec sf w') as [S'|S'].
        + rewrite Forall_forall in IH. apply (IH w' (nth_error_In _ _ E') (sf_type sf) w w1); auto. eapply Forall2_nth in Hts; eauto.
        + rewrite (Fn' S'), is_zero_zero. symmetry. apply is_zero_inner.
          destruct (is_zero env false w') eqn:Z; [reflexivity|]. exfalso. apply S'. destruct S as (id & req & D & _).
          exists id, req. split; [exact D|]. right. now rewrite zero_field_eq.
      - specialize (Fn S). subst w1. destruct (sent_dec sf w') as [S'|S'].
        + exfalso. destruct S' as (id & req & D & H). apply (sent_zero _ _ S). exists id, req. split; [exact D|].
          destruct H as [H|H]; [left; exact H|]. rewrite zero_field_eq, (shuffled_zero _ _ false Sw), is_zero_zero in H. discriminate.
        + now rewrite (Fn' S'), (shuffled_zero _ _ true Sw). }
    apply Bool.eq_true_iff_eq. rewrite !forallb_nth. split; intros H i x E.
    + destruct (nth_error vs'' i) as [w''|] eqn:E''; [rewrite <- (G i x w'' E E''); eauto|].
      apply nth_error_None in E''. assert (H0 : nth_error vs' i <> None) by congruence. apply nth_error_Some in H0. lia.
    + destruct (nth_error vs' i) as [w'|] eqn:E'; [rewrite (G i w' x E' E); eauto|].
      apply nth_error_None in E'. assert (H0 : nth_error vs'' i <> None) by congruence. apply nth_error_Some in H0. lia.
Qed.

Lemma inside_trans v t x u : inside env v t x u -> forall y w, inside env x u y w -> inside env v t y w.
Proof using.
  induction 1 as [|t e nl es sp w x u U Hin Hi IH|t kt e es k w x u U Hin Hi IH|t kt e es k w x u U Hin Hi IH
    |t e w x u U Hi IH|t s i sf vs' w' x u U Hn Hv Hi IH]; intros y z Hy; auto.
  - eapply in_slice; eauto.
  - eapply in_key; eauto.
  - eapply in_val; eauto.
  - eapply in_ptr; eauto.
  - eapply in_field; eauto.
Qed.

(** Where a component of what came back is from. *)
Lemma inside_trip v' t x' u : inside env v' t x' u -> forall v, has_type env v t -> trip env t v v' ->
  (exists x, inside env v t x u /\ has_type env x u /\ trip env u x x') \/ trip env u (zero env u) x' \/ x' = zero env u.
Proof using Henv.
  induction 1 as [|t e nl es sp w x u U Hin Hi IH|t kt e es k w x u U Hin Hi IH|t kt e es k w x u U Hin Hi IH
    |t e w x u U Hi IH|t s i sf vs' w' x u U Hn Hv Hi IH]; intros v0 Ht T.
  - left. exists v0. split; [apply in_self|auto].
  - inversion T; subst. apply type_slice in Ht. destruct Ht as (e' & U' & _ & _ & Hes & _). rewrite U in *.
    injection U' as <-. match goal with H : RtSlice _ = RtSlice _ |- _ => injection H as <- end.
    match goal with H : Forall2 _ _ es |- _ => destruct (Forall2_r _ _ _ _ H Hin) as (w0 & Hin0 & T0) end.
    rewrite Forall_forall in Hes. destruct (IH w0 (Hes _ Hin0) T0) as [(x0 & I0 & R)|R]; [left|right; exact R].
    exists x0. split; [|exact R]. eapply in_slice; eauto.
  - inversion T; subst. apply type_map in Ht. destruct Ht as (k' & e' & U' & Hes). rewrite U in *.
    injection U' as <- <-. match goal with H : RtMap _ _ = RtMap _ _ |- _ => injection H as <- <- end.
    match goal with H : Forall2 _ _ es |- _ => destruct (Forall2_r _ _ _ _ H Hin) as ([k0 w0] & Hin0 & T0 & _) end.
    rewrite Forall_forall in Hes. destruct (IH k0 (proj1 (Hes _ Hin0)) T0) as [(x0 & I0 & R)|R]; [left|right; exact R].
    exists x0. split; [|exact R]. eapply in_key; eauto.
  - inversion T; subst. apply type_map in Ht. destruct Ht as (k' & e' & U' & Hes). rewrite U in *.
    injection U' as <- <-. match goal with H : RtMap _ _ = RtMap _ _ |- _ => injection H as <- <- end.
    match goal with H : Forall2 _ _ es |- _ => destruct (Forall2_r _ _ _ _ H Hin) as ([k0 w0] & Hin0 & _ & T0) end.
    rewrite Forall_forall in Hes. destruct (IH w0 (proj2 (Hes _ Hin0)) T0) as [(x0 & I0 & R)|R]; [left|right; exact R].
    exists x0. split; [|exact R]. eapply in_val; eauto.
  - inversion T as [| | | | | | | | | | |? e' w0 ? U' T0|? e' ? U' T0|]; subst; rewrite U in U'; injection U' as <-.
    + cbn [has_type] in Ht. rewrite U in Ht. destruct (IH w0 Ht T0) as [(x0 & I0 & R)|R]; [left|right; exact R].
      exists x0. split; [|exact R]. eapply in_ptr; eauto.
    + right. destruct (IH _ (zero_typed env Henv e) T0) as [(x0 & I0 & _ & R)|R]; [left|exact R].
      now rewrite <- (zero_inside env Henv _ _ _ _ I0 eq_refl).
  - inversion T as [| | | | | | | | | | | | |? s' vs ? U' L F]; subst. rewrite U in U'. injection U' as <-.
    apply type_struct in Ht. destruct Ht as (s' & U' & Hts). rewrite U in U'. injection U' as <-.
    destruct (nth_error vs i) as [w|] eqn:E; [|apply nth_error_None in E; assert (H : nth_error vs' i <> None) by congruence; apply nth_error_Some in H; lia].
    destruct (F i sf w w' Hn E Hv) as [Fw Fn]. rewrite written_sent in *. destruct (sent_dec sf w) as [S|S].
    + destruct (IH w) as [(x0 & I0 & R)|R]; [eapply Forall2_nth in Hts; eauto|auto|left|right; exact R].
      exists x0. split; [|exact R]. eapply in_field; eauto.
    + right. right. specialize (Fn S). subst w'. exact (zero_inside env Henv _ _ _ _ Hi eq_refl).
Qed.

Lemma zero_struct u s vs : under env u = RtStruct s -> GStruct vs = zero env u ->
  forall j sf w, nth_error (te_struct env s) j = Some sf -> nth_error vs j = Some w -> w = zero env (sf_type sf).
Proof using Henv.
  intros U E j sf w Hs Hw. rewrite (zero_eq env Henv u), U in E. injection E as ->. rewrite nth_error_map, Hs in Hw. now injection Hw as <-.
Qed.
(** A zero field that is sent is a required one. *)
Lemma sent_required sf w w' : sent env sf w -> is_zero env false w = true -> sent env sf w'.
Proof using Hno.
  intros (id & req & D & [H|H]) Z; [exists id, req; auto|]. rewrite zero_field_eq in H. congruence.
Qed.

Lemma tidy_zero t : tidy env (zero env t) t.
Proof using Henv Hno.
  intros vs u s j sf w w' Hi U Hn Hw S T. pose proof (zero_inside env Henv _ _ _ _ Hi eq_refl) as E.
  rewrite (zero_struct u s vs U E j sf w Hn Hw) in S. eapply sent_required; [exact S|]. apply is_zero_zero.
Qed.

Lemma inside_shuffled v' t x' u : inside env v' t x' u -> forall v, shuffled v v' -> exists x, inside env v t x u /\ shuffled x x'.
Proof using.
  induction 1 as [|t e nl es sp w x u U Hin Hi IH|t kt e es k w x u U Hin Hi IH|t kt e es k w x u U Hin Hi IH
    |t e w x u U Hi IH|t s i sf vs' w' x u U Hn Hv Hi IH]; intros v0 Sh.
  - exists v0. split; [apply in_self|exact Sh].
  - inversion Sh; subst.
    + destruct (IH w (sh_same _)) as (x0 & I0 & S0). exists x0. split; [eapply in_slice; eauto|exact S0].
    + match goal with H : Forall2 _ _ _ |- _ => destruct (Forall2_r _ _ _ _ H Hin) as (w0 & Hin0 & T0) end.
      destruct (IH w0 T0) as (x0 & I0 & S0). exists x0. split; [eapply in_slice; eauto|exact S0].
  - inversion Sh; subst.
    + destruct (IH k (sh_same _)) as (x0 & I0 & S0). exists x0. split; [eapply in_key; eauto|exact S0].
    + match goal with H : Permutation _ _ |- _ => apply (Permutation_in _ (Permutation_sym H)) in Hin end.
      match goal with H : Forall2 _ _ _ |- _ => destruct (Forall2_r _ _ _ _ H Hin) as ([k0 w0] & Hin0 & T0 & _) end.
      destruct (IH k0 T0) as (x0 & I0 & S0). exists x0. split; [eapply in_key; eauto|exact S0].
  - inversion Sh; subst.
    + destruct (IH w (sh_same _)) as (x0 & I0 & S0). exists x0. split; [eapply in_val; eauto|exact S0].
    + match goal with H : Permutation _ _ |- _ => apply (Permutation_in _ (Permutation_sym H)) in Hin end.
      match goal with H : Forall2 _ _ _ |- _ => destruct (Forall2_r _ _ _ _ H Hin) as ([k0 w0] & Hin0 & _ & T0) end.
      destruct (IH w0 T0) as (x0 & I0 & S0). exists x0. split; [eapply in_val; eauto|exact S0].
  - assert (G : exists w0, v0 = GPtr (Some w0) /\ shuffled w0 w) by (inversion Sh; subst; eauto using sh_same).
    destruct G as (w0 & -> & S0). destruct (IH w0 S0) as (x0 & I0 & S1). exists x0. split; [eapply in_ptr; eauto|exact S1].
  - inversion Sh; subst.
    + destruct (IH w' (sh_same _)) as (x0 & I0 & S0). exists x0. split; [eapply in_field; eauto|exact S0].
    + match goal with H : Forall2 _ vs _ |- _ => rename H into Fs end. destruct (nth_error vs i) as [w0|] eqn:E.
      2:{ apply nth_error_None in E. apply Forall2_len in Fs. assert (H : nth_error vs' i <> None) by congruence. apply nth_error_Some in H. lia. }
      destruct (IH w0) as (x0 & I0 & S0); [eapply Forall2_nth in Fs; eauto|]. exists x0. split; [eapply in_field; eauto|exact S0].
Qed.

(** What came back once is tidy. *)
Lemma trip_tidy t v v1 v' : has_type env v t -> trip env t v v1 -> shuffled v1 v' -> tidy env v' t.
Proof using Henv Hno Hneg.
  intros Ht T Sh vs' u s j sf w' w'' Hi U Hn Hw' S' T''.
  destruct (inside_shuffled v' t _ u Hi v1 Sh) as (x1 & I1 & Sx).
  assert (G : exists vs1, x1 = GStruct vs1 /\ Forall2 shuffled vs1 vs').
  { inversion Sx; subst; eauto. exists vs'. split; [reflexivity|]. clear. induction vs'; constructor; auto. apply sh_same. }
  destruct G as (vs1 & -> & Fs). pose proof (Forall2_len _ _ _ Fs) as Ls.
  destruct (nth_error vs1 j) as [w1|] eqn:E1; [|apply nth_error_None in E1; assert (H : nth_error vs' j <> None) by congruence; apply nth_error_Some in H; lia].
  assert (Sw : shuffled w1 w') by (eapply Forall2_nth in Fs; eauto).
  assert (Z0 : w1 = zero env (sf_type sf) -> sent env sf w'').
  { intros ->. apply (sent_required sf w' w'' S'). now rewrite (shuffled_zero _ _ false Sw), is_zero_zero. }
  assert (G : forall x, has_type env x u -> trip env u x (GStruct vs1) -> sent env sf w'').
  { intros x Hx Tx. inversion Tx as [| | | | | | | | | | | | |? s0 vs ? U0 L F]; subst. rewrite U in U0. injection U0 as <-.
    apply type_struct in Hx. destruct Hx as (s0 & U0 & Hts). rewrite U in U0. injection U0 as <-.
    destruct (nth_error vs j) as [w|] eqn:E; [|apply nth_error_None in E; assert (H : nth_error vs' j <> None) by congruence; apply nth_error_Some in H; lia].
    destruct (F j sf w w1 Hn E E1) as [Fw Fn]. rewrite written_sent in *. destruct (sent_dec sf w) as [S|S]; [|auto].
    destruct (is_zero env false w') eqn:Z; [exact (sent_required sf w' w'' S' Z)|].
    destruct S' as (id & req & D & _). exists id, req. split; [exact D|]. right. rewrite zero_field_eq.
    rewrite (trip_again_zero w' (sf_type sf) w w1 w'' false); auto. eapply Forall2_nth in Hts; eauto. }
  destruct (inside_trip v1 t _ u I1 v Ht T) as [(x & _ & Hx & Tx)|[Tx|E]]; [exact (G x Hx Tx)|exact (G _ (zero_typed env Henv u) Tx)|].
  apply Z0. exact (zero_struct u s vs1 U E j sf w1 Hn E1).
Qed.

Lemma trip_fits lim t v v' : 0 < lim -> has_type env v t -> trip env t v v' -> fits env lim v t -> fits env lim v' t.
Proof using Henv.
  intros Hl Ht T Hf x' u Hi.
  assert (G : forall x, fits env lim x u -> trip env u x x' ->
    match x' with GString s | GBytes _ s _ => zlen s < lim | GSlice _ es _ => zlen es < lim | GMap (Some es) => zlen es < lim | _ => True end).
  { intros x Hx Tx. specialize (Hx x u (in_self _ _ _)). inversion Tx; subst; auto;
      match goal with H : Forall2 _ _ _ |- _ => apply Forall2_len in H; unfold zlen in *; rewrite <- H; exact Hx end. }
  destruct (inside_trip v' t _ u Hi v Ht T) as [(x & I & _ & Tx)|[Tx|E]].
  - apply (G x); [|exact Tx]. intros y w Hy. exact (Hf y w (inside_trans _ _ _ _ I _ _ Hy)).
  - apply (G (zero env u)); [|exact Tx]. now apply zero_fits.
  - subst x'. apply (zero_fits env Henv lim u Hl _ _ (in_self _ _ _)).
Qed.

(** ** What came back stands for the same Thrift value *)
Lemma tidy_inside v t x u : inside env v t x u -> tidy env v t -> tidy env x u.
Proof using. intros I H vs u' s j sf w w' Hi. apply H. eapply inside_trans; eauto. Qed.

Lemma trip_stands t v tv : stands_for env t v tv -> has_type env v t -> tidy env v t -> forall v', trip env t v v' -> stands_for env t v' tv.
Proof using Henv Hno.
  intros S. refine (stands_ind env (fun t v tv => has_type env v t -> tidy env v t -> forall v', trip env t v v' -> stands_for env t v' tv)
    _ _ _ _ _ _ _ t v tv S); clear t v tv S.
  - intros t v tv S Hs Ht _ v' T. destruct T; try contradiction; auto.
    + inversion S; subst. cbn [has_type] in Ht. match goal with H : under env _ = RtFloat32 |- _ => rewrite H in Ht end. destruct (f32_snan x) eqn:E; [|exact S].
      destruct (snan_wide x Ht E) as (_ & <-). now apply sf_float32.
    + inversion S; subst. now apply sf_bytes.
  - intros t e k nl es sp tvs U Nb Ns Tk F Ht Hy v' T. inversion T as [| | | | | | |? e' ? ? ? es' sp' U' F'| | | | | |]; subst. rewrite U in U'. injection U' as <-.
    apply type_slice in Ht. destruct Ht as (e' & U' & _ & _ & Hes & _). rewrite U in U'. injection U' as <-.
    apply (sf_list env t e); auto.
    assert (Hin : forall w, In w es -> tidy env w e) by (intros w Hw; eapply tidy_inside; [|exact Hy]; eapply in_slice; eauto; apply in_self).
    clear - F F' Hes Hin. revert es' F'. induction F; intros es' F'; inversion F'; subst; constructor; inversion Hes; subst; auto.
    + apply H; auto. apply Hin. cbn. auto.
    + apply IHF; auto. intros w Hw. apply Hin. cbn. auto.
  - intros t e k nl es sp tvs U Is Tk F Ht Hy v' T. inversion T as [| | | | | | |? e' ? ? ? es' sp' U' F'| | | | | |]; subst. rewrite U in U'. injection U' as <-.
    apply type_slice in Ht. destruct Ht as (e' & U' & _ & _ & Hes & _). rewrite U in U'. injection U' as <-.
    apply (sf_set env t e); auto.
    assert (Hin : forall w, In w es -> tidy env w e) by (intros w Hw; eapply tidy_inside; [|exact Hy]; eapply in_slice; eauto; apply in_self).
    clear - F F' Hes Hin. revert es' F'. induction F; intros es' F'; inversion F'; subst; constructor; inversion Hes; subst; auto.
    + apply H; auto. apply Hin. cbn. auto.
    + apply IHF; auto. intros w Hw. apply Hin. cbn. auto.
  - intros t k e kk ke o tvs U Tk Te F Ht Hy v' T. inversion T as [| | | | | | | | | |? k' e' es es' U' Ne F'| | |]; subst.
    + now inversion F; subst; apply (sf_map env t k e).
    + now inversion F; subst; apply (sf_map env t k e).
    + rewrite U in U'. injection U' as <- <-. apply type_map in Ht. destruct Ht as (k' & e' & U' & Hes). rewrite U in U'. injection U' as <- <-.
      apply (sf_map env t k e); auto.
      assert (Hin : forall p, In p es -> tidy env (fst p) k /\ tidy env (snd p) e).
      { intros [a b] Hp. split; (eapply tidy_inside; [|exact Hy]); [eapply in_key|eapply in_val]; eauto; apply in_self. }
      clear - F F' Hes Hin. revert es' F'. induction F as [|p q ps qs [A B] F IH]; intros es' F'; inversion F' as [|? p' ? ? [A' B'] ?]; subst; constructor; inversion Hes as [|? ? [Ta Tb] ?]; subst.
      * destruct (Hin p ltac:(cbn; auto)). auto.
      * apply IH; auto. intros w Hw. apply Hin. cbn. auto.
  - intros t e v tv U IH Ht Hy v' T. cbn [has_type] in Ht. rewrite U in Ht. inversion T as [| | | | | | | | | | |? e' w0 w' U' T0| |]; subst. rewrite U in U'; injection U' as <-.
    apply (sf_ptr env t e); auto. apply IH; auto. eapply tidy_inside; [|exact Hy]. eapply in_ptr; eauto. apply in_self.
  - intros t e tv U IH Ht Hy v' T. inversion T as [| | | | | | | | | | | |? e' ? U' T0|]; subst. rewrite U in U'; injection U' as <-.
    apply (sf_ptr env t e); auto. apply IH; auto. apply (zero_typed env Henv). apply tidy_zero.
  - intros t s vs js l U N J F So Ht Hy v' T. inversion T as [| | | | | | | | | | | | |? s' ? vs' U' L FT]; subst. rewrite U in U'. injection U' as <-.
    apply type_struct in Ht. destruct Ht as (s' & U' & Hts). rewrite U in U'. injection U' as <-.
    pose proof (Forall2_len _ _ _ Hts) as Ln.
    assert (G : forall j sf w, nth_error (te_struct env s) j = Some sf -> nth_error vs j = Some w -> exists w', nth_error vs' j = Some w').
    { intros j sf w Hs Hw. destruct (nth_error vs' j) as [w'|] eqn:E; [eauto|]. apply nth_error_None in E. assert (H : nth_error vs j <> None) by congruence. apply nth_error_Some in H. lia. }
    apply (sf_struct env t s vs' js); auto.
    + intros j. rewrite J. split.
      * intros (sf & w & Hs & Hw & Hsent). destruct (G j sf w Hs Hw) as (w' & Hw'). exists sf, w'. conj; auto.
        apply (Hy vs t s j sf w w'); auto; [apply in_self|]. apply (proj1 (FT j sf w w' Hs Hw Hw')). now apply written_sent.
      * intros (sf & w' & Hs & Hw' & Hsent). destruct (nth_error vs j) as [w|] eqn:Hw.
        2:{ apply nth_error_None in Hw. assert (H : nth_error vs' j <> None) by congruence. apply nth_error_Some in H. lia. }
        exists sf, w. conj; auto. destruct (sent_dec sf w) as [X|X]; [exact X|]. exfalso.
        rewrite (proj2 (FT j sf w w' Hs Hw Hw')) in Hsent by (now rewrite written_sent). exact (sent_zero sf w X Hsent).
    + assert (J' : forall j, In j js -> exists sf v, nth_error (te_struct env s) j = Some sf /\ nth_error vs j = Some v /\ sent env sf v) by (intros j; apply J).
      clear J N So T. induction F as [|j p js l (sf & w & req & A & B & C & IH) F IHF]; constructor.
      * destruct (G j sf w A B) as (w' & Hw'). exists sf, w', req. conj; auto.
        destruct (J' j ltac:(cbn; auto)) as (sf1 & w1 & A1 & B1 & S1). rewrite A in A1. injection A1 as <-. rewrite B in B1. injection B1 as <-.
        apply IH.
        -- eapply Forall2_nth in Hts; eauto.
        -- eapply tidy_inside; [|exact Hy]. eapply in_field; eauto. apply in_self.
        -- apply (proj1 (FT j sf w w' A B Hw')). now apply written_sent.
      * apply IHF. intros i Hi. apply J'. cbn. auto.
Qed.

(** ** The order of map entries *)
Lemma Forall2_refl' {A} (R : A -> A -> Prop) l : (forall x, R x x) -> Forall2 R l l.
Proof using. intros H. induction l; constructor; auto. Qed.
Lemma Forall2_perm {A B} (R : A -> B -> Prop) l m : Forall2 R l m -> forall m', Permutation m m' -> exists l', Permutation l l' /\ Forall2 R l' m'.
Proof using.
  intros F m' Hp. revert l F. induction Hp as [|x m m' Hp IH|x y m|m m1 m2 H1 IH1 H2 IH2]; intros l F.
  - inversion F; subst. exists []. auto.
  - inversion F as [|a ? l0 ? Ra F0]; subst. destruct (IH _ F0) as (l' & Pl & Fl). exists (a :: l'). auto.
  - inversion F as [|a ? l0 ? Ra F0]; subst. inversion F0 as [|b ? l1 ? Rb F1]; subst. exists (b :: a :: l1). split; [constructor|auto].
  - destruct (IH1 _ F) as (l1 & P1 & F1). destruct (IH2 _ F1) as (l2 & P2 & F2). exists l2. split; [now transitivity l1|auto].
Qed.
Lemma Forall2_flip' {A B} (R : A -> B -> Prop) l m : Forall2 R l m -> Forall2 (fun b a => R a b) m l.
Proof using. induction 1; constructor; auto. Qed.

Lemma shuffled_typed v : forall v' t, shuffled v v' -> has_type env v t -> has_type env v' t.
Proof using.
  induction v as [c|z|z|z|z|nl x sp|u|es IH|nl es sp IH IH2| |es IH| |v IH|vs IH|k] using gval_ind'; intros v' t S Ht; inversion S; subst; auto.
  - rewrite type_slice in *. destruct Ht as (e & U & B & N & He & Hs). exists e. conj; auto.
    + intros X. destruct (N X) as [-> ->]. match goal with H : Forall2 _ [] _ |- _ => inversion H; subst end. auto.
    + match goal with H : Forall2 _ _ _ |- _ => rename H into F end. clear - F He IH. induction F; constructor; inversion He; inversion IH; subst; auto.
  - rewrite type_map in *. destruct Ht as (k & e & U & He). exists k, e. split; [exact U|].
    match goal with H : Permutation _ _ |- _ => eapply Permutation_Forall; [exact H|] end.
    match goal with H : Forall2 _ _ _ |- _ => rename H into F end. clear - F He IH.
    induction F as [|p q ps qs [A B] F IHF]; constructor; inversion He as [|? ? [? ?] ?]; inversion IH as [|? ? [? ?] ?]; subst; auto.
  - cbn [has_type] in *. destruct (under env t); auto.
  - rewrite type_struct in *. destruct Ht as (s & U & He). exists s. split; [exact U|].
    match goal with H : Forall2 _ _ _ |- _ => rename H into F end. clear - F He IH. revert He. generalize (te_struct env s).
    induction F; intros fs He; inversion He; subst; constructor; inversion IH; subst; auto.
Qed.

Lemma sent_shuffled sf v v' : shuffled v v' -> sent env sf v <-> sent env sf v'.
Proof using Hno.
  intros S. unfold sent. pose proof (shuffled_zero v v' false S) as E. rewrite !zero_field_eq. rewrite E. tauto.
Qed.

Lemma reordered_lists (R : gval -> tval -> Prop) es tvs es' :
  Forall2 (fun v tv => forall v', shuffled v v' -> exists tv', R v' tv' /\ reordered tv tv') es tvs -> Forall2 shuffled es es' ->
  exists tvs', Forall2 R es' tvs' /\ Forall2 reordered tvs tvs'.
Proof using.
  intros F. revert es'. induction F as [|v tv es tvs H F IH]; intros es' S; inversion S as [|? v' ? r ? Sr]; subst.
  - exists []. auto.
  - destruct (H v') as (tv' & A & B); [auto|]. destruct (IH r Sr) as (tvs' & C & D). exists (tv' :: tvs'). auto.
Qed.

Lemma shuffled_stands t v tv : stands_for env t v tv -> forall v', shuffled v v' -> exists tv', stands_for env t v' tv' /\ reordered tv tv'.
Proof using Hno.
  intros S0. refine (stands_ind env (fun t v tv => forall v', shuffled v v' -> exists tv', stands_for env t v' tv' /\ reordered tv tv')
    _ _ _ _ _ _ _ t v tv S0); clear t v tv S0.
  - intros t v tv S Hs v' Sh. exists tv. split; [|apply ro_same]. inversion Sh; subst; try contradiction. exact S.
  - intros t e k nl es sp tvs U Nb Ns Tk F v' Sh.
    assert (G : exists es', v' = GSlice nl es' sp /\ Forall2 shuffled es es').
    { inversion Sh; subst; eauto. exists es. split; [reflexivity|]. apply Forall2_refl', sh_same. }
    destruct G as (es' & -> & Fs). destruct (reordered_lists (stands_for env e) es tvs es' F Fs) as (tvs' & A & B). exists (VList k tvs'). split; [now apply (sf_list env t e)|now apply ro_list].
  - intros t e k nl es sp tvs U Is Tk F v' Sh.
    assert (G : exists es', v' = GSlice nl es' sp /\ Forall2 shuffled es es').
    { inversion Sh; subst; eauto. exists es. split; [reflexivity|]. apply Forall2_refl', sh_same. }
    destruct G as (es' & -> & Fs). destruct (reordered_lists (stands_for env e) es tvs es' F Fs) as (tvs' & A & B). exists (VSet k tvs'). split; [now apply (sf_set env t e)|now apply ro_set].
  - intros t k e kk ke o tvs U Tk Te F v' Sh.
    assert (G : (o = None /\ v' = GMap None) \/ exists es es1 es2, o = Some es /\ v' = GMap (Some es2) /\
      Forall2 (fun p q => shuffled (fst p) (fst q) /\ shuffled (snd p) (snd q)) es es1 /\ Permutation es1 es2).
    { inversion Sh; subst; [|right; eauto 10]. destruct o as [es|]; [right|left; auto]. exists es, es, es. conj; auto. apply Forall2_refl'. intros p; split; apply sh_same. }
    destruct G as [[-> ->]|(es & es1 & es2 & -> & -> & Fs & Pe)].
    + inversion F; subst. exists (VMap kk ke []). split; [now apply (sf_map env t k e)|apply ro_same].
    + assert (G : exists tvs1, Forall2 (fun p q => stands_for env k (fst p) (fst q) /\ stands_for env e (snd p) (snd q)) es1 tvs1 /\
        Forall2 (fun p q => reordered (fst p) (fst q) /\ reordered (snd p) (snd q)) tvs tvs1).
      { clear - F Fs. revert es1 Fs. induction F as [|p q ps qs [A B] F IH]; intros es1 Fs; inversion Fs as [|? p' ? r [Sa Sb] Sr]; subst.
        - exists []. auto.
        - destruct (A _ Sa) as (x & Xa & Xr). destruct (B _ Sb) as (y & Ya & Yr). destruct (IH r Sr) as (l & L1 & L2). exists ((x, y) :: l). auto. }
      destruct G as (tvs1 & A & B). destruct (Forall2_perm _ _ _ (Forall2_flip' _ _ _ A) es2 Pe) as (tvs2 & Pt & C).
      exists (VMap kk ke tvs2). split; [|exact (ro_map _ _ _ _ _ B Pt)]. apply (sf_map env t k e); auto. exact (Forall2_flip' _ _ _ C).
  - intros t e v tv U IH v' Sh. assert (G : exists w, v' = GPtr (Some w) /\ shuffled v w) by (inversion Sh; subst; eauto using sh_same).
    destruct G as (w & -> & Sw). destruct (IH w Sw) as (tv' & A & B). exists tv'. split; [now apply (sf_ptr env t e)|exact B].
  - intros t e tv U IH v' Sh. inversion Sh; subst. destruct (IH _ (sh_same _)) as (tv' & A & B). exists tv'. split; [now apply (sf_nil env t e)|exact B].
  - intros t s vs js l U N J F So v' Sh.
    assert (G : exists vs', v' = GStruct vs' /\ Forall2 shuffled vs vs').
    { inversion Sh; subst; eauto. exists vs. split; [reflexivity|]. apply Forall2_refl', sh_same. }
    destruct G as (vs' & -> & Fs).
    assert (K : exists l', Forall2 (fun j p => exists sf v req, nth_error (te_struct env s) j = Some sf /\ nth_error vs' j = Some v /\
                 declares env sf (fst p) req /\ stands_for env (sf_type sf) v (snd p)) js l' /\
               Forall2 (fun p q => fst p = fst q /\ reordered (snd p) (snd q)) l l').
    { clear - F Fs. induction F as [|j p js l (sf & w & req & A & B & C & IH) F IHF]; [exists []; auto|].
      destruct IHF as (l' & X & Y). destruct (nth_error vs' j) as [w'|] eqn:E.
      2:{ apply nth_error_None in E. assert (H : nth_error vs j <> None) by congruence. apply nth_error_Some in H. apply Forall2_len in Fs. lia. }
      destruct (IH w') as (tv' & P & Q); [eapply Forall2_nth in Fs; eauto|]. exists ((fst p, tv') :: l'). split; constructor; auto.
      exists sf, w', req. auto. }
    destruct K as (l' & X & Y). exists (VStruct l'). split; [|now apply ro_struct]. apply (sf_struct env t s vs' js); auto.
    + intros j. rewrite J. split; intros (sf & w & A & B & C).
      * destruct (nth_error vs' j) as [w'|] eqn:E.
        -- exists sf, w'. conj; auto. apply (sent_shuffled sf w w'); auto. eapply Forall2_nth in Fs; eauto.
        -- apply nth_error_None in E. assert (H : nth_error vs j <> None) by congruence. apply nth_error_Some in H. apply Forall2_len in Fs. lia.
      * destruct (nth_error vs j) as [w'|] eqn:E.
        -- exists sf, w'. conj; auto. apply (sent_shuffled sf w' w); auto. eapply Forall2_nth in Fs; eauto.
        -- apply nth_error_None in E. assert (H : nth_error vs' j <> None) by congruence. apply nth_error_Some in H. apply Forall2_len in Fs. lia.
    + replace (map fst l') with (map fst l); [exact So|]. clear - Y. induction Y as [|p q ? ? [E _]]; cbn; congruence.
Qed.

(** ** Values that are tidy *)
Lemma lasting_trip b t w : lasting env b t w -> has_type env w t -> forall w', trip env t w w' -> is_zero env b w' = false.
Proof using.
  induction 1 as [b t v M Z|b t nl x s sp|b t nl x es sp|b t p es|b t v|b t s vs j sf w U Hn Hw S La IH]; intros Ht w' T.
  - inversion T; subst; try contradiction; auto. destruct (f32_snan x) eqn:E; [|exact Z].
    destruct (snan_big x E) as (A & B & C & D). cbn [is_zero].
    destruct (Z.eqb_spec (x + 2 ^ 22) 0), (Z.eqb_spec (x + 2 ^ 22) (2 ^ 31)); try contradiction. reflexivity.
  - inversion T; subst. reflexivity.
  - inversion T; subst. reflexivity.
  - inversion T; subst. reflexivity.
  - inversion T; subst. reflexivity.
  - inversion T as [| | | | | | | | | | | | |? s' ? vs' U' L F]; subst. rewrite U in U'. injection U' as <-.
    apply type_struct in Ht. destruct Ht as (s' & U' & Hts). rewrite U in U'. injection U' as <-.
    destruct (nth_error vs' j) as [w'|] eqn:E'.
    2:{ apply nth_error_None in E'. assert (H : nth_error vs j <> None) by congruence. apply nth_error_Some in H. lia. }
    cbn [is_zero]. apply not_true_iff_false. rewrite forallb_nth. intros H. specialize (H j w' E').
    rewrite (IH ltac:(eapply Forall2_nth in Hts; eauto) w') in H; [discriminate|]. apply (proj1 (F j sf w w' Hn Hw E')). now apply written_sent.
Qed.

Lemma inside_typed v t x u : inside env v t x u -> has_type env v t -> has_type env x u.
Proof using.
  induction 1 as [|t e nl es sp w x u U Hin Hi IH|t kt e es k w x u U Hin Hi IH|t kt e es k w x u U Hin Hi IH
    |t e w x u U Hi IH|t s i sf vs' w' x u U Hn Hv Hi IH]; intros Ht; auto; apply IH.
  - apply type_slice in Ht. destruct Ht as (e' & U' & _ & _ & H & _). rewrite U in U'. injection U' as <-. rewrite Forall_forall in H. auto.
  - apply type_map in Ht. destruct Ht as (k' & e' & U' & H). rewrite U in U'. injection U' as <- <-. rewrite Forall_forall in H. exact (proj1 (H _ Hin)).
  - apply type_map in Ht. destruct Ht as (k' & e' & U' & H). rewrite U in U'. injection U' as <- <-. rewrite Forall_forall in H. exact (proj2 (H _ Hin)).
  - cbn [has_type] in Ht. now rewrite U in Ht.
  - apply type_struct in Ht. destruct Ht as (s' & U' & H). rewrite U in U'. injection U' as <-. eapply Forall2_nth in H; eauto.
Qed.

Lemma lasting_tidy v t : has_type env v t ->
  (forall vs u s j sf w id, inside env v t (GStruct vs) u -> under env u = RtStruct s -> nth_error (te_struct env s) j = Some sf ->
     nth_error vs j = Some w -> declares env sf id false -> is_zero env false w = true \/ lasting env false (sf_type sf) w) ->
  tidy env v t.
Proof using Hno.
  intros Ht H vs u s j sf w w' Hi U Hn Hw S T. pose proof S as (id & req & D & R). destruct req; [exists id, true; auto|].
  destruct R as [R|R]; [discriminate|]. rewrite zero_field_eq in R.
  destruct (H vs u s j sf w id Hi U Hn Hw D) as [Z|La]; [congruence|].
  exists id, false. split; [exact D|]. right. rewrite zero_field_eq. apply (lasting_trip false (sf_type sf) w La); [|exact T].
  apply inside_typed in Hi; [|exact Ht]. apply type_struct in Hi. destruct Hi as (s' & U' & X). rewrite U in U'. injection U' as <-.
  eapply Forall2_nth in X; eauto.
Qed.
End Zero.

(** ** Reordered Thrift values *)
Lemma reordered_type v w : reordered v w -> val_type w = val_type v.
Proof. destruct 1; reflexivity. Qed.

Lemma small_list (l : list tval) :
  (fix all l := match l with [] => True | x :: r => small_maps x /\ all r end) l <-> Forall small_maps l.
Proof. induction l as [|x r IH]; split; auto; intros H; [constructor; tauto|inversion H; subst; tauto]. Qed.
Lemma small_entries (l : list (tval * tval)) :
  (fix all l := match l with [] => True | p :: r => (small_maps (fst p) /\ small_maps (snd p)) /\ all r end) l <->
  Forall (fun p => small_maps (fst p) /\ small_maps (snd p)) l.
Proof. induction l as [|x r IH]; split; auto; intros H; [constructor; tauto|inversion H; subst; tauto]. Qed.
Lemma small_fields (l : list (Z * tval)) :
  (fix all l := match l with [] => True | p :: r => small_maps (snd p) /\ all r end) l <-> Forall (fun p => small_maps (snd p)) l.
Proof. induction l as [|x r IH]; split; auto; intros H; [constructor; tauto|inversion H; subst; tauto]. Qed.

Lemma small_reordered v : forall w, small_maps v -> reordered v w -> w = v.
Proof.
  assert (L : forall es es', Forall (fun v => forall w, small_maps v -> reordered v w -> w = v) es -> Forall small_maps es -> Forall2 reordered es es' -> es' = es).
  { intros es es' IH S F. induction F; [reflexivity|]. inversion IH; inversion S; subst. f_equal; auto. }
  induction v as [b|b|z|z|z|z|x|u|fs IH|kt vt es IH|et es IH|et es IH] using tval_ind'; intros w S R; inversion R; subst; auto; cbn [small_maps] in S.
  - rewrite small_fields in S. f_equal. match goal with H : Forall2 _ _ _ |- _ => rename H into F end. clear R.
    induction F as [|[i p] [j q] ps qs [E A] F IHF]; [reflexivity|]. inversion IH; inversion S; subst. cbn in *. f_equal; [f_equal; auto|auto].
  - destruct S as [S1 S]. rewrite small_entries in S. f_equal. match goal with H : Forall2 _ _ _ |- _ => rename H into F end.
    match goal with H : Permutation _ _ |- _ => rename H into Pe end.
    assert (E : es1 = es).
    { clear R Pe S1. induction F as [|[i p] [j q] ps qs [E A] F IHF]; [reflexivity|]. inversion IH as [|? ? [? ?] ?]; inversion S as [|? ? [? ?] ?]; subst. cbn in *. f_equal; [f_equal; auto|auto]. }
    subst es1. destruct es as [|a [|? ?]]; [now apply Permutation_nil in Pe|now apply Permutation_length_1_inv in Pe|cbn in S1; lia].
  - rewrite small_list in S. f_equal. eauto.
  - rewrite small_list in S. f_equal. eauto.
Qed.

Section Run.
Context (env : tenv) (P : rtype -> Prop) (Henv : env_ok env) (Hids : unique_ids env) (Hsup : supported env P).
Context (Hno : no_methods env) (Hneg : negzero_ok env).

Lemma again lim t v : 0 < lim -> P t -> has_type env v t -> keys_distinct env v t -> fits env lim v t ->
  exists tv v' tv' a, stands_for env t v tv /\ trip env t v v' /\ has_type env v' t /\ fits env lim v' t /\ wf lim tv /\
    codec env t a /\ wire_type a = val_type tv /\ settled env a (zero env t) tv (v', None) /\
    stands_for env t v' tv' /\ (tidy env v t -> tv' = tv).
Proof using Henv Hids Hsup Hno.
  intros Hl Pt Ht Hk Hf.
  destruct (stands_image env P Henv Hsup t v Pt Ht) as (N & a & tv & S & Hc & HN).
  pose proof (stands_wf env P Hsup Henv Hids lim t v tv Hl Pt Ht Hf S) as Hwf.
  destruct (evolve_gives env P Hsup Henv Hids lim t t v tv (zero env t) Hl Pt Pt Ht Hf (zero_typed env Henv t) (compatible_refl env P t Hsup Hids Pt) S)
    as (v1 & a1 & _ & T1 & Hc1 & W1 & D1).
  destruct (image_exists env P Henv Hids Hsup t v Pt Ht Hk) as (M & a2 & tv2 & v2 & T & Hc2 & H2).
  assert (a1 = a) by (eapply codec_fun; eauto). assert (a2 = a) by (eapply codec_fun; eauto). subst a1 a2.
  assert (tv2 = tv). { destruct (H2 (N + M) (N + M))%nat as (_ & E & _); try lia. destruct (HN (N + M)%nat ltac:(lia)) as (_ & E'). congruence. }
  subst tv2.
  assert (X : (v2, None) = (v1, @None err)). { eapply ev_fun; [|exact D1]. exists M. intros n ln Hn Hm. destruct (H2 ln n Hm Hn) as (_ & _ & E). exact E. }
  injection X as ->.
  pose proof (trip_fits env Henv lim t v v1 Hl Ht T Hf) as Hf1.
  destruct (stands_image env P Henv Hsup t v1 Pt T1) as (N' & a' & tv' & S' & _ & _).
  exists tv, v1, tv', a. conj; auto. intros Hy. exact (stands_fun env Hids t v1 tv' S' tv (trip_stands env Henv Hno t v tv S Ht Hy v1 T)).
Qed.

Lemma shuffled_fits lim t v v' : shuffled v v' -> fits env lim v t -> fits env lim v' t.
Proof using.
  intros S Hf x' u Hi. destruct (inside_shuffled env v' t x' u Hi v S) as (x & Ix & Sx). specialize (Hf x u Ix).
  inversion Sx; subst; auto.
  - match goal with H : Forall2 _ _ _ |- _ => apply Forall2_len in H; unfold zlen in *; rewrite <- H; exact Hf end.
  - match goal with H : Forall2 _ _ _ |- _ => apply Forall2_len in H end. match goal with H : Permutation _ _ |- _ => apply Permutation_length in H end.
    unfold zlen in *. lia.
Qed.

Theorem bin_again sw sr wsize rsize s t v i :
  0 < wsize -> 8 <= rsize -> ok_sink s -> received s = [] ->
  P t -> has_type env v t -> keys_distinct env v t -> fits env (2 ^ 31) v t -> passes env i t v ->
  exists N tv v' tv', stands_for env t v tv /\ trip env t v v' /\ (tidy env v t -> tv' = tv) /\
    forall n, (N <= n)%nat -> exists b,
      run (over (bin_writer sw) (bufw_h wsize)) (Marshal env n n (Some i) >>! call WFlush) (tt, new_bwriter s)
        = Done (tt, b) None /\
      (forall src rest n', good_source src -> src_bytes src = received (wsink b) ++ rest -> (N <= n')%nat ->
        exists b',
          run (over (bin_reader sr) (bufio_h rsize)) (Unmarshal env n' n' (Some (RtPtr t, GPtr (Some (zero env t)))))
              (tt, new_breader src) = Done (tt, b') (Some v', None)) /\
      forall v2 i2 sw2 wsize2 s2, shuffled v' v2 -> passes env i2 t v2 -> 0 < wsize2 -> ok_sink s2 -> received s2 = [] ->
        tidy env v2 t /\
        exists N2 tv2, stands_for env t v2 tv2 /\ reordered tv' tv2 /\
          forall n2, (N2 <= n2)%nat -> exists b2,
            run (over (bin_writer sw2) (bufw_h wsize2)) (Marshal env n2 n2 (Some i2) >>! call WFlush) (tt, new_bwriter s2)
              = Done (tt, b2) None /\
            (tv2 = tv -> received (wsink b2) = received (wsink b)).
Proof using Henv Hids Hsup Hno Hneg.
  intros Hw Hr Hs He Pt Ht Hk Hf Hp.
  destruct (again (2 ^ 31) t v ltac:(lia) Pt Ht Hk Hf) as (tv & v' & tv' & a & S & T & T' & Hf' & Hwf & (l & L) & W & (M & D) & S' & Same).
  destruct (bin_stands env P Henv Hsup sw wsize s t v i Hw Hs Pt Ht Hp) as (N & tv0 & S0 & HN).
  rewrite (stands_fun env Hids t v tv0 S0 tv S) in *. clear tv0 S0.
  exists (N + M + l)%nat, tv, v', tv'. conj; auto. intros n Hn. destruct (HN n ltac:(lia)) as (b & E & Rb). rewrite He in Rb. cbn [app] in Rb.
  exists b. split; [exact E|]. split.
  - intros src rest n' Hg Hb Hn'. rewrite Rb in Hb.
    rewrite (Unmarshal_ptr env _ n' n' t _ a _ (lookup_more env l n' _ _ ltac:(lia) L)), W.
    destruct (bin_unmarshal env sr rsize (new_breader src) n' n' a (zero env t) tv _ rest Hr (binv_new rsize src ltac:(lia) Hg) Hwf (D n' n' ltac:(lia) ltac:(lia)))
      as (b' & E' & _ & _). { rewrite abs_new. exact Hb. }
    exists b'. rewrite E'. reflexivity.
  - intros v2 i2 sw2 wsize2 s2 Sh Hp2 Hw2 Hs2 He2. split; [exact (trip_tidy env Henv Hno Hneg t v v' v2 Ht T Sh)|].
    destruct (shuffled_stands env Hno t v' tv' S' v2 Sh) as (tv2 & S2 & Ro).
    destruct (bin_stands env P Henv Hsup sw2 wsize2 s2 t v2 i2 Hw2 Hs2 Pt (shuffled_typed env v' v2 t Sh T') Hp2) as (N2 & tv3 & S3 & HN2).
    rewrite (stands_fun env Hids t v2 tv3 S3 tv2 S2) in *. exists N2, tv2. conj; auto. intros n2 Hn2.
    destruct (HN2 n2 Hn2) as (b2 & E2 & Rb2). exists b2. split; [exact E2|]. intros ->. rewrite Rb2, He2, Rb. reflexivity.
Qed.

(** What the Compact protocol's Writer makes of a Thrift value. *)
Definition compact_bytes (tv : tval) : list byte :=
  match run (over cmp_writer mem_h) (write_val tv) (cw0, []) with Done (_, m) _ => m | _ => [] end.

Lemma cmp_stands_bytes wsize s t v i : 0 < wsize -> ok_sink s -> received s = [] -> P t -> has_type env v t -> fits env (2 ^ 63) v t -> passes env i t v ->
  exists N tv, stands_for env t v tv /\ compact_encoding tv (compact_bytes tv) /\
    forall n, (N <= n)%nat -> exists b cw,
      run (over cmp_writer (bufw_h wsize)) (Marshal env n n (Some i) >>! call WFlush) (cw0, new_bwriter s)
        = Done (cw, b) None /\ received (wsink b) = compact_bytes tv.
Proof using Henv Hsup.
  intros Hw Hs He Pt Ht Hf Hp. destruct (stands_image env P Henv Hsup t v Pt Ht) as (N & a & tv & S & Hc & HN).
  assert (Hwf : wf (2 ^ 63) tv).
  { destruct (HN N (le_n _)) as (_ & E). now apply (image_wf env N Henv (2 ^ 63) N ltac:(lia) t a v). }
  destruct (cmp_write_val compact_field no_wrap field_hdr_spec tv Hwf (stands_steps env t v tv S) cw0 [] eq_refl)
    as (l & bb & Hl & _ & Wv).
  assert (El : compact_bytes tv = l) by (unfold compact_bytes; rewrite Wv; reflexivity).
  exists N, tv. rewrite El. split; [exact S|]. split; [exact Hl|]. intros n Hn. destruct (HN n Hn) as (L & E).
  assert (W : exists st, run (over cmp_writer mem_h) (Marshal env n n (Some i)) (cw0, received s)
      = Done (st, received s ++ l) None).
  { rewrite He. rewrite (Marshal_passes env n n i t v a Hp L).
    pose proof (marshal_image env n _ _ cw_sim cmp_nameless n a v tv (cw0, []) (cw0, []) E) as M.
    assert (R0 : cw_sim (cw0, []) (cw0, [])) by (unfold cw_sim; cbn; auto 10).
    specialize (M R0). rewrite Wv in M. clear Wv. destruct (run _ _ _) as [[st m] [e|]|c]; cbn in M.
    - destruct M as [_ M]. discriminate M.
    - destruct M as [(M & _) _]. cbn in M. exists st. now rewrite M.
    - contradiction. }
  destruct W as (st & W). destruct (cmp_write_any wsize s cw0 st _ _ Hw Hs W) as (b & E0 & R).
  exists b, st. split; [exact E0|]. now rewrite R, He.
Qed.

Theorem cmp_again wsize rsize s t v i :
  0 < wsize -> 10 <= rsize -> ok_sink s -> received s = [] ->
  P t -> has_type env v t -> keys_distinct env v t -> fits env (2 ^ 63) v t -> passes env i t v ->
  exists N tv v' tv', stands_for env t v tv /\ trip env t v v' /\ (tidy env v t -> tv' = tv) /\
    forall n, (N <= n)%nat -> exists b cw,
      run (over cmp_writer (bufw_h wsize)) (Marshal env n n (Some i) >>! call WFlush) (cw0, new_bwriter s)
        = Done (cw, b) None /\
      (forall src rest n' e cr, good_source src -> src_bytes src = received (wsink b) ++ rest -> src_fin src = FErr e ->
        cr_bool cr = BNone -> (N <= n')%nat ->
        exists b',
          run (over cmp_reader (bufio_h rsize)) (Unmarshal env n' n' (Some (RtPtr t, GPtr (Some (zero env t)))))
              (cr, new_breader src) = Done (cr, b') (Some v', None)) /\
      forall v2 i2 wsize2 s2, shuffled v' v2 -> passes env i2 t v2 -> 0 < wsize2 -> ok_sink s2 -> received s2 = [] ->
        tidy env v2 t /\
        exists N2 tv2, stands_for env t v2 tv2 /\ reordered tv' tv2 /\
          forall n2, (N2 <= n2)%nat -> exists b2 cw2,
            run (over cmp_writer (bufw_h wsize2)) (Marshal env n2 n2 (Some i2) >>! call WFlush) (cw0, new_bwriter s2)
              = Done (cw2, b2) None /\
            (tv2 = tv -> received (wsink b2) = received (wsink b)).
Proof using Henv Hids Hsup Hno Hneg.
  intros Hw Hr Hs He Pt Ht Hk Hf Hp.
  destruct (again (2 ^ 63) t v ltac:(lia) Pt Ht Hk Hf) as (tv & v' & tv' & a & S & T & T' & Hf' & Hwf & (l & L) & W & (M & D) & S' & Same).
  destruct (cmp_stands_bytes wsize s t v i Hw Hs He Pt Ht Hf Hp) as (N & tv0 & S0 & Hlc & HN).
  rewrite (stands_fun env Hids t v tv0 S0 tv S) in *. clear tv0 S0.
  exists (N + M + l)%nat, tv, v', tv'. conj; auto. intros n Hn. destruct (HN n ltac:(lia)) as (b & cw & E & Rb).
  exists b, cw. split; [exact E|]. split.
  - intros src rest n' e cr Hg Hb Hfin Hcr Hn'. rewrite Rb in Hb.
    rewrite (Unmarshal_ptr env _ n' n' t _ a _ (lookup_more env l n' _ _ ltac:(lia) L)), W.
    destruct (cmp_unmarshal env rsize (new_breader src) n' n' a (zero env t) tv _ _ rest cr e Hr (binv_new rsize src ltac:(lia) Hg) Hwf
      (compact_enc_wrap tv _ _ Hwf Hlc) Hcr (D n' n' ltac:(lia) ltac:(lia))) as (st' & b' & E' & _ & H2). { rewrite abs_new. now rewrite Hb, Hfin. }
    exists b'. rewrite E'. cbn [obind fst snd]. destruct (H2 eq_refl) as [-> _]. reflexivity.
  - intros v2 i2 wsize2 s2 Sh Hp2 Hw2 Hs2 He2. split; [exact (trip_tidy env Henv Hno Hneg t v v' v2 Ht T Sh)|].
    destruct (shuffled_stands env Hno t v' tv' S' v2 Sh) as (tv2 & S2 & Ro).
    destruct (cmp_stands_bytes wsize2 s2 t v2 i2 Hw2 Hs2 He2 Pt (shuffled_typed env v' v2 t Sh T') (shuffled_fits _ t v' v2 Sh Hf') Hp2) as (N2 & tv3 & S3 & _ & HN2).
    rewrite (stands_fun env Hids t v2 tv3 S3 tv2 S2) in *. exists N2, tv2. conj; auto. intros n2 Hn2.
    destruct (HN2 n2 Hn2) as (b2 & cw2 & E2 & Rb2). exists b2, cw2. split; [exact E2|]. intros ->. now rewrite Rb2, Rb.
Qed.
End Run.
