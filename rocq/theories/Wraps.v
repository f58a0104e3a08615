(** What the compact writer writes when field ids wrap (C03). *)
From Verif Require Import Base BaseLemmas Prog GoBinary GoBinaryProof Wire WireProof Spec Clients Compact CompactProof RoundTrip.

Section Mono.
Variables F G : Z -> Z -> Z -> list byte -> Prop.
Hypothesis FG : forall last id t h, F last id t h -> G last id t h.

Lemma compact_enc_mono v : forall l, compact_enc F v l -> compact_enc G v l.
Proof using FG.
  revert v. assert (E : forall es, Forall (fun v => forall l, compact_enc F v l -> compact_enc G v l) es -> forall l, compact_elems F es l -> compact_elems G es l).
  { induction 1 as [|v r Hv Hr IH]; intros l H; inversion H; subst; constructor; auto. }
  induction v as [b|b|z|z|z|z|x|u|fs IH|kt vt es IH|et es IH|et es IH] using tval_ind';
    intros l H; inversion H; subst; clear H; try (constructor; auto; fail).
  - constructor. match goal with H : compact_fields _ _ _ _ |- _ => revert H end.
    generalize 0. revert l. induction IH as [|[id v] r Hv Hr IHr]; intros l z H; inversion H; subst; [constructor|].
    constructor; auto. match goal with H : compact_field_value _ _ _ |- _ => inversion H; subst; constructor; auto end.
  - constructor; [assumption|]. match goal with H : compact_entries _ _ _ |- _ => revert H end. clear - IH.
    revert l0. induction IH as [|[k v] r [Hk Hv] Hr IHr]; intros l H; inversion H; subst; constructor; auto.
Qed.
End Mono.

(** The headers the writer writes. *)
Definition hdrs (last id t : Z) (h : list byte) : Prop := is_i16 id /\ is_i16 last /\ h = field_hdr last id t.

Lemma hdrs_wrap last id t h : hdrs last id t h -> wrap_field last id t h.
Proof. intros (Hi & _ & ->). now apply field_hdr_wrap. Qed.

Lemma field_type_small v : 0 <= field_type v < 16.
Proof. destruct v as [[]| | | | | | | | | | |]; cbn; lia. Qed.

Lemma i16_wraps id last : is_i16 id -> is_i16 last -> id - last <= -65521 -> i16 (id - last) = id - last + 65536.
Proof. unfold i16, is_i16. lia. Qed.

Section StepsMono.
Variables C D : Z -> Z -> Prop.
Lemma steps_mono_i16 lim v : (forall a b, is_i16 a -> is_i16 b -> C a b -> D a b) -> wf lim v -> steps C v -> steps D v.
Proof.
  intros H. induction v as [b|b|z|z|z|z|x|u|fs IH|kt vt es IH|et es IH|et es IH] using tval_ind'; cbn [wf steps]; auto.
  - assert (Z0 : is_i16 0) by (unfold is_i16; lia). revert Z0. generalize 0.
    induction IH as [|[id v] r Hv Hr IHr]; intros z Hz; [auto|]. intros [[W1 W2] W3] (S1 & S2 & S3). cbn [snd] in Hv. split; [auto|]. split; [auto|]. exact (IHr id W1 W3 S3).
  - intros (_ & _ & _ & W). revert W. induction IH as [|[k v] r [Hk Hv] Hr IHr]; [auto|]. intros [(_ & _ & W1 & W2) W3] (S1 & S2 & S3). cbn [fst snd] in *. split; [auto|]. split; [auto|]. exact (IHr W3 S3).
  - intros (_ & _ & W). revert W. induction IH as [|v r Hv Hr IHr]; [auto|]. intros [[_ W1] W2] (S1 & S2). split; [auto|]. exact (IHr W2 S2).
  - intros (_ & _ & W). revert W. induction IH as [|v r Hv Hr IHr]; [auto|]. intros [[_ W1] W2] (S1 & S2). split; [auto|]. exact (IHr W2 S2).
Qed.
End StepsMono.

(** The header of a wrapping pair is not the published one, and no other follows it. *)
Lemma hdrs_published last id v h h' r r' :
  hdrs last id (field_type v) h -> compact_field last id (field_type v) h' -> h ++ r = h' ++ r' -> no_wrap last id /\ h = h' /\ r = r'.
Proof.
  intros (Hi & Hl & ->) P Q. pose proof (field_type_small v) as Ht.
  assert (N : no_wrap last id).
  { unfold no_wrap. destruct (Z.le_gt_cases (id - last) (-65521)) as [L|L]; [exfalso|unfold is_i16 in *; lia].
    assert (E : i16 (id - last) = id - last + 65536) by (unfold i16, is_i16 in *; lia).
    unfold field_hdr in Q. rewrite E in Q.
    rewrite (proj2 (Z.gtb_lt (id - last + 65536) 0) ltac:(unfold is_i16 in *; lia)), (proj2 (Z.leb_le (id - last + 65536) 15) ltac:(lia)) in Q.
    inversion P as [|l' Hn Hu Hq]; [lia|]. rewrite <- Hq in Q. clear P Hq. remember (id - last + 65536) as d eqn:Ed. cbn [app andb] in Q. remember (16 * d) as e eqn:Ee. injection Q as Q _. apply (f_equal b2z) in Q. rewrite !b2z_z2b in Q.
    unfold is_i16 in *. rewrite !Z.mod_small in Q by lia. lia. }
  split; [exact N|]. pose proof (field_hdr_spec last id (field_type v) Hi Hl N) as P'.
  assert (E : field_hdr last id (field_type v) = h').
  { inversion P'; inversion P; subst; try lia; auto. f_equal. eapply uleb128_fun; eauto. }
  subst h'. split; [reflexivity|]. eapply app_inv_head; eauto.
Qed.

Lemma parts v l l' r r' : wf (2 ^ 63) v -> compact_enc hdrs v l -> compact_enc compact_field v l' -> l ++ r = l' ++ r' -> l = l' /\ r = r'.
Proof.
  intros Hv A B Q.
  assert (R : r = r').
  { apply (compact_unambiguous v v l l' r r' Hv Hv eq_refl); [|eauto using compact_enc_wrap|exact Q].
    revert A. apply compact_enc_mono. exact hdrs_wrap. }
  subst r'. split; [|reflexivity]. eapply app_inv_tail; eauto.
Qed.

Lemma seq_fun n t l m : compact_seq n t l -> compact_seq n t m -> l = m.
Proof. intros A B. inversion A; inversion B; subst; try lia; auto. f_equal. eapply uleb128_fun; eauto. Qed.
Lemma map_fun n t u l m : compact_map n t u l -> compact_map n t u m -> l = m.
Proof. intros A B. inversion A; inversion B; subst; try lia; auto. f_equal. eapply uleb128_fun; eauto. Qed.

Definition only (v : tval) : Prop := forall l, wf (2 ^ 63) v -> compact_enc hdrs v l -> compact_enc compact_field v l -> steps no_wrap v.

Lemma only_elems et es : Forall only es ->
  (fix elems (es : list tval) : Prop := match es with [] => True | v :: r => (val_type v = et /\ wf (2 ^ 63) v) /\ elems r end) es ->
  forall l m, compact_elems hdrs es l -> compact_elems compact_field es m -> l = m ->
  (fix elems (es : list tval) : Prop := match es with [] => True | v :: r => steps no_wrap v /\ elems r end) es.
Proof.
  induction 1 as [|v r Hv Hr IH]; intros W l m A B Q; [exact I|]. destruct W as [[_ W1] W2].
  inversion A as [|? ? l1 m1 A1 A2]; subst; inversion B as [|? ? l2 m2 B1 B2]; subst.
  match goal with H : _ ++ _ = _ ++ _ |- _ => first [destruct (parts v _ _ _ _ W1 A1 B1 H) as [-> ->]|destruct (parts v _ _ _ _ W1 A1 B1 (eq_sym H)) as [-> ->]] end. split; [exact (Hv _ W1 A1 B1)|exact (IH W2 _ _ A2 B2 eq_refl)].
Qed.

Lemma published_steps v : only v.
Proof.
  induction v as [b|b|z|z|z|z|x|u|fs IH|kt vt es IH|et es IH|et es IH] using tval_ind'; intros l Hwf A B; cbn [steps]; try exact I.
  - inversion A as [| | | | | | | |? ? A'| | |]; subst; inversion B as [| | | | | | | |? ? B'| | |]; subst. clear A B. cbn [wf] in Hwf.
    assert (Q : l = l) by reflexivity. revert A' B' Q. generalize l at 1 3 as m. generalize 0. revert l.
    induction IH as [|[id v] r Hv Hr IHr]; intros l last m A B Q; [exact I|]. destruct Hwf as [[Hid Hw] Hwr]. cbn [snd] in Hv.
    inversion A as [|? ? ? ? h1 l1 m1 A1 A2 A3]; subst; inversion B as [|? ? ? ? h2 l2 m2 B1 B2 B3]; subst.
    match goal with H : _ ++ _ = _ ++ _ |- _ =>
      first [destruct (hdrs_published _ _ _ _ _ _ _ A1 B1 H) as (N & -> & Q)|destruct (hdrs_published _ _ _ _ _ _ _ A1 B1 (eq_sym H)) as (N & -> & Q)] end.
    split; [exact N|].
    inversion A2 as [b|? ? n1 A4]; subst; inversion B2 as [b'|? ? n2 B4]; subst; try (exfalso; auto; fail).
    + split; [exact I|]. cbn [app] in Q. eapply IHr; eauto.
    + destruct (parts v _ _ _ _ Hw A4 B4 Q) as [-> ->]. split; [|eapply IHr]; eauto.
  - inversion A as [| | | | | | | | |? ? ? h1 l1 A1 A2| |]; subst; inversion B as [| | | | | | | | |? ? ? h2 l2 B1 B2| |]; subst. match goal with H : _ ++ _ = _ ++ _ |- _ => rename H into Q end.
    rewrite (map_fun _ _ _ _ _ B1 A1) in Q. apply app_inv_head in Q. clear A B A1 B1. destruct Hwf as (_ & _ & _ & Hwf). cbn [wf] in Hwf.
    revert l1 l2 A2 B2 Q. induction IH as [|[k v] r [Hk Hv] Hr IHr]; intros l m A B Q; [exact I|]. destruct Hwf as [(_ & _ & W1 & W2) W3]. cbn [fst snd] in *.
    inversion A as [|? ? ? a1 b1 m1 A1 A2 A3]; subst; inversion B as [|? ? ? a2 b2 m2 B1 B2 B3]; subst.
    match goal with H : _ ++ _ = _ ++ _ |- _ => first [destruct (parts k _ _ _ _ W1 A1 B1 H) as [-> Q']|destruct (parts k _ _ _ _ W1 A1 B1 (eq_sym H)) as [-> Q']] end. destruct (parts v _ _ _ _ W2 A2 B2 Q') as [-> ->]. split; [|split; [|eapply IHr]]; eauto.
  - inversion A as [| | | | | | | | | |? ? h1 l1 A1 A2|]; subst; inversion B as [| | | | | | | | | |? ? h2 l2 B1 B2|]; subst. match goal with H : _ ++ _ = _ ++ _ |- _ => rename H into Q end.
    rewrite (seq_fun _ _ _ _ B1 A1) in Q. apply app_inv_head in Q. destruct Hwf as (_ & _ & Hwf). eapply only_elems; eauto.
  - inversion A as [| | | | | | | | | | |? ? h1 l1 A1 A2]; subst; inversion B as [| | | | | | | | | | |? ? h2 l2 B1 B2]; subst. match goal with H : _ ++ _ = _ ++ _ |- _ => rename H into Q end.
    rewrite (seq_fun _ _ _ _ B1 A1) in Q. apply app_inv_head in Q. destruct Hwf as (_ & _ & Hwf). eapply only_elems; eauto.
Qed.
