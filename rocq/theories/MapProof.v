(** What Marshal writes for a Go value is the Thrift value it stands for. *)
From Coq Require Import Strings.String Sorting.Sorted.
From Verif Require Import Base BaseLemmas Prog Bufio BufioW BufioWProof Wire WireProof Spec Clients Binary Compact CompactProof
  Reads BinaryProof GoFloat Utf8 GoType Fields Arshal GoTypeProof FieldsProof ArshalSpec ArshalEnc ArshalDec ArshalTrip
  ArshalTotal ArshalThms ArshalCalls TagProof Messages MapSpec.

Section Map.
Context (env : tenv) (Henv : env_ok env).

Lemma tagged_declares sf o : tagged env sf o -> declares env sf (fo_id o) (fo_required o).
Proof using.
  destruct o as [id name req]. intros H. unfold tagged in H. apply field_accepted in H as (H1 & _ & H2). now split.
Qed.
Lemma declares_tagged sf id req : declares env sf id req -> tagged env sf (mkFO id (sf_name sf) req).
Proof using. intros [H1 H2]. unfold tagged. apply field_accepted. auto. Qed.

Lemma written_sent sf v : written env sf v <-> sent env sf v.
Proof using.
  split.
  - intros (o & T & H). exists (fo_id o), (fo_required o). split; [now apply tagged_declares|exact H].
  - intros (id & req & D & H). exists (mkFO id (sf_name sf) req). split; [now apply declares_tagged|exact H].
Qed.

Lemma codec_uuid t u : codec env t (AUUID u) -> t = RtArray 16 RtUint8.
Proof using.
  intros Hc. pose proof (codec_inv env t _ Hc) as [-> U]. destruct Hc as [n Hl]. destruct n as [|n]; [discriminate|].
  cbn [lookup] in Hl. rewrite U in Hl. destruct t; try discriminate. exact U.
Qed.

Lemma bytes_slice t : as_bytes env t = true <-> byte_slice env t.
Proof using.
  unfold as_bytes, byte_slice. split.
  - destruct (under env t) as [| | | | | | | | | | | | | | | | | | | | |e|k e|kt e|e|sid|id]; try discriminate.
    destruct e; try discriminate.
    destruct (implements_set env t), (implements_list env t); cbn; auto; discriminate.
  - intros (-> & -> & ->). reflexivity.
Qed.

Lemma codec_thrift_type a : forall t, codec env t a -> wire_type a <> T_Stop -> thrift_type env t (wire_type a).
Proof using.
  induction a as [t'|t'|t' single|t' w|t' w|t'|t'|t'|t'|t' ka IHk va IHv|t' set ea IHe|t' ea IHe]; intros t Hc Hw;
    pose proof (codec_inv env t _ Hc) as Hi; cbn [wire_type] in *.
  - now elim Hw.
  - destruct Hi as [-> U]. now constructor.
  - destruct Hi as [-> U]. constructor. destruct single; auto.
  - destruct Hi as [-> U]. destruct w; constructor; auto.
  - destruct Hi as [-> U]. destruct w; constructor; auto.
  - destruct Hi as [-> U]. now constructor.
  - destruct Hi as (-> & U & B). apply tt_bytes. now apply bytes_slice.
  - rewrite (codec_uuid _ _ Hc). constructor.
  - destruct Hi as (-> & s & U). econstructor; eauto.
  - destruct Hi as (-> & k & e & U & _). econstructor; eauto.
  - destruct Hi as (-> & e & U & B & _ & ->). destruct (implements_set env t) eqn:S1.
    + eapply tt_set; eauto.
    + eapply tt_list; eauto. intros Hb. apply bytes_slice in Hb. congruence.
  - destruct Hi as (-> & e & U & Hea). eapply tt_ptr; eauto.
Qed.

Lemma int_stands t w z : under env t = width_int w -> has_type env (GInt z) t -> stands_for env t (GInt z) (width_val w z).
Proof using.
  intros U H. cbn [has_type] in H. rewrite U in H.
  destruct w; cbn [width_int width_val] in *; rewrite ?i16_id, ?i32_id, ?i64_id by exact H; constructor; auto.
Qed.
Lemma signed16 z : is_u16 z -> i16 z = as_signed 16 z.
Proof using. unfold is_u16, i16, as_signed. intros H. change (16 - 1) with 15. destruct (Z.ltb_spec z (2 ^ 15)); lia. Qed.
Lemma signed32 z : is_u32 z -> i32 z = as_signed 32 z.
Proof using. unfold is_u32, i32, as_signed. intros H. change (32 - 1) with 31. destruct (Z.ltb_spec z (2 ^ 31)); lia. Qed.
Lemma signed64 z : is_u64 z -> i64 z = as_signed 64 z.
Proof using. unfold is_u64, i64, as_signed. intros H. change (64 - 1) with 63. destruct (Z.ltb_spec z (2 ^ 63)); lia. Qed.
Lemma uint_stands t w z : under env t = width_uint w -> has_type env (GInt z) t -> stands_for env t (GInt z) (width_val w z).
Proof using.
  intros U H. cbn [has_type] in H. rewrite U in H.
  destruct w; cbn [width_uint width_val] in *; rewrite ?signed16, ?signed32, ?signed64 by exact H; constructor; auto.
Qed.

(** The fields of a table that are written. *)
Definition kept (vs : list gval) (f : structField) : bool :=
  match nth_error vs (f_index f) with
  | Some v => negb (negb (f_required f) && field_zero env f v)
  | None => false
  end.

Lemma kept_image rec vs fs : forall l, image_fields env rec vs fs = Some l ->
  Forall2 (fun f p => f_id f = fst p /\ exists v, nth_error vs (f_index f) = Some v /\ rec (f_fncs f) v = Some (snd p))
    (filter (kept vs) fs) l.
Proof using.
  induction fs as [|f r IH]; intros l E; cbn [image_fields filter] in *; [injection E as <-; constructor|].
  unfold kept at 1. destruct (wire_type (f_fncs f) =? T_Stop); [discriminate|].
  destruct (nth_error vs (f_index f)) as [v|] eqn:N; [|discriminate].
  destruct (negb (f_required f) && field_zero env f v); cbn [negb]; [now apply IH|].
  destruct (rec (f_fncs f) v) as [tv|] eqn:R; [|discriminate].
  destruct (image_fields env rec vs r) as [l'|]; [|discriminate]. injection E as <-.
  constructor; cbn; eauto.
Qed.

Lemma sorted_filter {A} (R : A -> A -> Prop) p l : StronglySorted R l -> StronglySorted R (filter p l).
Proof using.
  induction 1 as [|x r H IH Hx]; cbn; [constructor|]. destruct (p x); [|exact IH]. constructor; [exact IH|].
  apply Forall_forall. intros y Hy. apply filter_In in Hy as [Hy _]. rewrite Forall_forall in Hx. auto.
Qed.
Lemma nodup_filter {A B} (f : A -> B) p l : NoDup (map f l) -> NoDup (map f (filter p l)).
Proof using.
  induction l as [|x r IH]; cbn; intros H; [constructor|]. inversion_clear H as [|? ? H1 H2].
  destruct (p x); [|auto]. cbn. constructor; [|auto]. intros Hin. apply H1. apply in_map_iff in Hin as (y & <- & Hy).
  apply filter_In in Hy as [Hy _]. now apply in_map.
Qed.

Theorem image_stands ln n : forall t a v tv, codec env t a -> has_type env v t ->
  image env ln n a v = Some tv -> stands_for env t v tv.
Proof using Henv.
  induction n as [|n IH]; intros t a v tv Hc Ht H; [discriminate|].
  pose proof (codec_inv env t a Hc) as Hi.
  destruct a as [t'|t'|t' single|t' w|t' w|t'|t'|t'|t'|t' ka va|t' set ea|t' ea];
    destruct v as [b|z|z|z|z|nl x sp|u|es|nl es sp|o|o|vs|k]; try discriminate; cbn [image] in H;
    try (destruct single; discriminate).
  - destruct Hi as [-> U]. injection H as <-. now constructor.
  - destruct Hi as [-> U]. destruct single; [|discriminate]. injection H as <-. now constructor.
  - destruct Hi as [-> U]. destruct single; [discriminate|]. injection H as <-. now constructor.
  - destruct Hi as [-> U]. injection H as <-. now apply int_stands.
  - destruct Hi as [-> U]. injection H as <-. now apply uint_stands.
  - destruct Hi as [-> U]. injection H as <-. now constructor.
  - destruct Hi as (-> & U & B). injection H as <-. constructor. now apply bytes_slice.
  - injection H as <-. rewrite (codec_uuid _ _ Hc). constructor.
  - destruct Hi as (-> & s & U). destruct (make_struct_fields env ln t) as [[fs|]|] eqn:M; try discriminate.
    destruct (image_fields env (image env ln n) vs fs) as [l|] eqn:E; [|discriminate]. injection H as <-.
    apply type_struct in Ht as (s' & U' & Ht). rewrite U in U'. injection U' as <-.
    destruct (fields_spec env Henv ln t fs M) as (F1 & F2 & F3).
    destruct (fields_inl env ln t fs M) as (l0 & C0 & _).
    destruct (collect_spec env ln t _ _ _ C0) as (_ & _ & F4 & _).
    assert (SD : struct_def env t = te_struct env s) by (unfold struct_def; now rewrite U). rewrite SD in F1, F4.
    pose proof (kept_image _ _ _ _ E) as K.
    assert (Kf : forall f, In f (filter (kept vs) fs) -> exists sf o, nth_error (te_struct env s) (f_index f) = Some sf /\ tagged env sf o /\ codec env (sf_type sf) (f_fncs f) /\ f_id f = fo_id o).
    { intros f Hf. apply filter_In in Hf as [Hf _]. apply F1 in Hf as (j & sf & o & a & N & S & L & ->).
      exists sf, o. cbn. conj; auto. now exists ln. }
    apply (sf_struct env t s vs (map f_index (filter (kept vs) fs)) l U).
    + now apply nodup_filter.
    + intros j. split.
      * intros Hj. apply in_map_iff in Hj as (f & <- & Hf). apply filter_In in Hf as [Hf Hk].
        unfold kept in Hk. destruct (nth_error vs (f_index f)) as [v|] eqn:Nv; [|discriminate].
        apply F1 in Hf as (j & sf & o & a & N & S & L & ->). cbn in *.
        exists sf, v. conj; auto. apply written_sent. exists o. split; [exact S|].
        unfold field_zero in Hk. cbn in Hk. rewrite zero_field_model in Hk.
        destruct (fo_required o), (zero_field env sf v); auto; discriminate.
      * intros (sf & v & N & Nv & Sn). apply written_sent in Sn as (o & T & Ho).
        destruct (F4 j sf o N T) as (a & L).
        pose (f := mkField j (sf_type sf) a (field_is_zero env (sf_type sf)) (fo_id o) (fo_name o) (fo_required o)).
        apply in_map_iff. exists f. split; [reflexivity|]. apply filter_In. split.
        { apply F1. exists j, sf, o, a. conj; auto. }
        unfold kept, field_zero, f. cbn [f_index f_required f_isZero]. rewrite Nv. rewrite zero_field_model.
        destruct Ho as [-> | ->]; [reflexivity|]. now rewrite andb_false_r.
    + clear E F1 F2 F3 F4 C0 M. induction K as [|f p fs' l' (Eid & v & Nv & Ev) K IHK]; cbn; constructor.
      * destruct (Kf f (or_introl eq_refl)) as (sf & o & N & T & C & Eo).
        exists sf, v, (fo_required o). conj; auto.
        -- rewrite <- Eid, Eo. now apply tagged_declares.
        -- apply (IH (sf_type sf) (f_fncs f) v); auto. now apply (Forall2_nth _ _ _ Ht _ _ _ Nv N).
      * apply IHK. intros g Hg. apply Kf. now right.
    + assert (Em : map fst l = map f_id (filter (kept vs) fs)).
      { clear -K. induction K as [|f p fs' l' (Eid & _) K IHK]; cbn; congruence. }
      rewrite Em. pose proof (sorted_filter _ (kept vs) _ (sorted_strong fs F3)) as S. clear -S.
      induction S as [|f r S IHS Hf]; cbn; constructor; auto. now rewrite Forall_map.
  - destruct Hi as (-> & kt & e & U & Hka & Hva).
    destruct (_ || _) eqn:W; [discriminate|]. apply orb_false_iff in W as [W1 W2]. apply Z.eqb_neq in W1, W2.
    set (es := match o with Some es => es | None => [] end) in *.
    destruct (image_entries (image env ln n) ka va es) as [l|] eqn:E; [|discriminate]. injection H as <-.
    apply (sf_map env t kt e); auto using codec_thrift_type. fold es.
    assert (Hty : Forall (fun p => has_type env (fst p) kt /\ has_type env (snd p) e) es).
    { subst es. destruct o as [es|]; [|constructor].
      apply type_map in Ht as (k' & e' & U' & Ht). rewrite U in U'. injection U' as <- <-. exact Ht. }
    clearbody es. revert l E. induction Hty as [|[k w] r [Hk Hw] Hr IHr]; intros l E; cbn [image_entries] in E; [injection E as <-; constructor|].
    destruct (image env ln n ka k) as [tk|] eqn:Ek; [|discriminate]. destruct (image env ln n va w) as [tw|] eqn:Ew; [|discriminate].
    destruct (image_entries (image env ln n) ka va r) as [l'|] eqn:Er; [|discriminate]. injection E as <-.
    constructor; cbn; eauto.
  - destruct Hi as (-> & e & U & B & Hea & Hset).
    destruct (wire_type ea =? T_Stop) eqn:W; [discriminate|]. apply Z.eqb_neq in W.
    destruct (image_elems (image env ln n) ea es) as [l|] eqn:E; [|discriminate].
    apply type_slice in Ht as (e' & U' & _ & _ & Ht & _). rewrite U in U'. injection U' as <-.
    assert (F : Forall2 (stands_for env e) es l).
    { clear H. revert l E. induction Ht as [|w r Hw Hr IHr]; intros l E; cbn [image_elems] in E; [injection E as <-; constructor|].
      destruct (image env ln n ea w) as [tw|] eqn:Ew; [|discriminate].
      destruct (image_elems (image env ln n) ea r) as [l'|] eqn:Er; [|discriminate]. injection E as <-. constructor; eauto. }
    assert (Nb : ~ byte_slice env t) by (intros Hb; apply bytes_slice in Hb; congruence).
    injection H as <-. destruct set.
    + apply (sf_set env t e); auto using codec_thrift_type.
    + apply (sf_list env t e); auto using codec_thrift_type.
  - destruct Hi as (-> & e & U & Hea). assert (Et : elem_type env t = e) by (unfold elem_type; now rewrite U). rewrite Et in H.
    destruct o as [w|].
    + apply (sf_ptr env t e); auto. apply (IH e ea); auto. cbn [has_type] in Ht. rewrite U in Ht. exact Ht.
    + apply (sf_nil env t e); auto. apply (IH e ea); auto. apply (zero_typed env Henv).
Qed.

(** ** A value stands for one Thrift value *)
Lemma Forall2_impl' {A B} (R R' : A -> B -> Prop) l m : (forall a b, R a b -> R' a b) -> Forall2 R l m -> Forall2 R' l m.
Proof using. intros H. induction 1; constructor; auto. Qed.
Lemma Forall2_l {A B} (R : A -> B -> Prop) l m a : Forall2 R l m -> In a l -> exists b, In b m /\ R a b.
Proof using. induction 1 as [|x y l m H F IH]; intros []; [subst; exists y; cbn; auto|]. destruct IH as (b & ? & ?); auto. exists b. cbn. auto. Qed.
Lemma Forall2_r {A B} (R : A -> B -> Prop) l m b : Forall2 R l m -> In b m -> exists a, In a l /\ R a b.
Proof using. induction 1 as [|x y l m H F IH]; intros []; [subst; exists x; cbn; auto|]. destruct IH as (a & ? & ?); auto. exists a. cbn. auto. Qed.

Section Ind.
Context (Q : rtype -> gval -> tval -> Prop).
Hypothesis Hscalar : forall t v tv, stands_for env t v tv ->
  match v with GSlice _ _ _ | GMap _ | GPtr _ | GStruct _ => False | _ => True end -> Q t v tv.
Hypothesis Hlist : forall t e k nl es sp tvs, under env t = RtSlice e -> ~ byte_slice env t -> implements_set env t = false ->
  thrift_type env e k -> Forall2 (Q e) es tvs -> Q t (GSlice nl es sp) (VList k tvs).
Hypothesis Hset : forall t e k nl es sp tvs, under env t = RtSlice e -> implements_set env t = true ->
  thrift_type env e k -> Forall2 (Q e) es tvs -> Q t (GSlice nl es sp) (VSet k tvs).
Hypothesis Hmap : forall t k e kk ke o tvs, under env t = RtMap k e -> thrift_type env k kk -> thrift_type env e ke ->
  Forall2 (fun p q => Q k (fst p) (fst q) /\ Q e (snd p) (snd q)) (match o with Some es => es | None => [] end) tvs ->
  Q t (GMap o) (VMap kk ke tvs).
Hypothesis Hptr : forall t e v tv, under env t = RtPtr e -> Q e v tv -> Q t (GPtr (Some v)) tv.
Hypothesis Hnil : forall t e tv, under env t = RtPtr e -> Q e (zero env e) tv -> Q t (GPtr None) tv.
Hypothesis Hstruct : forall t s vs js l, under env t = RtStruct s -> NoDup js ->
  (forall j, In j js <-> exists sf v, nth_error (te_struct env s) j = Some sf /\ nth_error vs j = Some v /\ sent env sf v) ->
  Forall2 (fun j p => exists sf v req, nth_error (te_struct env s) j = Some sf /\ nth_error vs j = Some v /\
             declares env sf (fst p) req /\ Q (sf_type sf) v (snd p)) js l ->
  StronglySorted Z.le (map fst l) -> Q t (GStruct vs) (VStruct l).

Fixpoint stands_ind t v tv (H : stands_for env t v tv) {struct H} : Q t v tv.
Proof using Hscalar Hlist Hset Hmap Hptr Hnil Hstruct.
  pose proof H as H0. destruct H as [| | | | | | | | | | | | |t e k nl es sp tvs U Nb Ns T F|t e k nl es sp tvs U Is T F
    |t k e kk ke o tvs U Tk Te F|t e v tv U S|t e tv U S|t s vs js l U N J F S]; try (apply Hscalar; [exact H0|exact I]); clear H0.
  - apply (Hlist t e); auto. induction F; constructor; auto.
  - apply (Hset t e); auto. induction F; constructor; auto.
  - apply (Hmap t k e); auto.
    refine (Forall2_ind (Forall2 (fun p q => Q k (fst p) (fst q) /\ Q e (snd p) (snd q))) _ _ F); [constructor|].
    intros p q ps qs [A B] _ IH. constructor; auto.
  - apply (Hptr t e); auto.
  - apply (Hnil t e); auto.
  - apply (Hstruct t s vs js); auto. clear N J S.
    induction F as [|j p ? ? (sf & w & req & A & B & C & D) ? IH]; constructor; auto.
    exists sf, w, req. conj; auto.
Qed.
End Ind.

Lemma thrift_type_fun t k : thrift_type env t k -> forall k', thrift_type env t k' -> k = k'.
Proof using.
  induction 1 as [t U|t U|t U|t U|t U|t U|t U|t B| |t e U Nb Ns|t e U Is|t k e U|t s U|t e k U H IH]; intros k' H'; inversion H'; subst;
    unfold byte_slice in *; cbn [under] in *; try reflexivity;
    try (exfalso; intuition congruence; fail); try (repeat match goal with H : _ \/ _ |- _ => destruct H end; congruence).
  - match goal with H : under env t = RtPtr ?e' |- _ => rewrite U in H; injection H as <- end. now apply IH.
Qed.

Lemma declares_fun sf id req id' req' : declares env sf id req -> declares env sf id' req' -> id = id' /\ req = req'.
Proof using.
  intros H H'. apply declares_tagged in H, H'. unfold tagged in *. rewrite H in H'. injection H' as <- <-. auto.
Qed.

Lemma sorted_same (l : list (Z * tval)) : forall l', StronglySorted Z.lt (map fst l) -> StronglySorted Z.lt (map fst l') ->
  (forall p, In p l <-> In p l') -> l = l'.
Proof using.
  induction l as [|p r IH]; intros [|p' r'] S S' H; auto.
  - exfalso. apply (proj2 (H p')). now left.
  - exfalso. apply (proj1 (H p)). now left.
  - cbn in S, S'. inversion_clear S as [|? ? S1 S2]. inversion_clear S' as [|? ? S1' S2'].
    rewrite Forall_forall in S2, S2'.
    assert (G : forall q, In q r -> fst p < fst q) by (intros; apply S2; now apply in_map).
    assert (G' : forall q, In q r' -> fst p' < fst q) by (intros; apply S2'; now apply in_map).
    assert (E : p = p').
    { destruct (proj1 (H p) (or_introl eq_refl)) as [E|E]; auto. destruct (proj2 (H p') (or_introl eq_refl)) as [E'|E']; auto.
      apply G in E'. apply G' in E. lia. }
    subst p'. f_equal. apply IH; auto. intros q. split; intros Hq.
    + destruct (proj1 (H q) (or_intror Hq)) as [<-|]; auto. apply G in Hq. lia.
    + destruct (proj2 (H q) (or_intror Hq)) as [<-|]; auto. apply G' in Hq. lia.
Qed.

Lemma strict l : StronglySorted Z.le l -> NoDup l -> StronglySorted Z.lt l.
Proof using.
  induction 1 as [|x r S IH F]; intros N; constructor; inversion_clear N as [|? ? N1 N2]; auto.
  rewrite Forall_forall in *. intros y Hy. specialize (F y Hy). assert (x <> y) by (intros ->; auto). lia.
Qed.

(** Fields in ascending order never need a wrapped delta. *)
Lemma ascending_steps l : forall prev, Forall (fun p => is_i16 (fst p) /\ steps no_wrap (snd p)) l ->
  StronglySorted Z.le (map fst l) -> is_i16 prev -> (prev = 0 \/ Forall (fun p => prev <= fst p) l) ->
  (fix fields (prev : Z) (fs : list (Z * tval)) : Prop :=
     match fs with
     | [] => True
     | (id, v) :: r => no_wrap prev id /\ steps no_wrap v /\ fields id r
     end) prev l.
Proof using.
  induction l as [|[id v] r IH]; intros prev F S Hp Ho; [exact I|].
  inversion_clear F as [|? ? [Hid Hst] Fr]. cbn [map fst] in S. inversion_clear S as [|? ? S1 S2]. cbn [fst snd] in *. conj.
  - unfold no_wrap, is_i16 in *. destruct Ho as [->|Ho]; [lia|]. inversion_clear Ho as [|? ? Ho' _]. cbn in Ho'. lia.
  - exact Hst.
  - apply IH; auto. right. rewrite Forall_map in S2. exact S2.
Qed.

Lemma stands_steps t v tv : stands_for env t v tv -> steps no_wrap tv.
Proof using.
  assert (FE : forall es (l : list tval), Forall2 (fun (_ : gval) tv => steps no_wrap tv) es l ->
    (fix elems (es : list tval) : Prop := match es with [] => True | v :: r => steps no_wrap v /\ elems r end) l)
    by (intros es l; induction 1; auto).
  revert t v tv. refine (stands_ind (fun t v tv => steps no_wrap tv) _ _ _ _ _ _ _).
  - intros t v tv H Hv. destruct H; try exact I; contradiction.
  - intros t e k nl es sp tvs _ _ _ _ F. exact (FE _ _ F).
  - intros t e k nl es sp tvs _ _ _ F. exact (FE _ _ F).
  - intros t k e kk ke o tvs _ _ _ F. cbn [steps]. induction F as [|p [a b] ps qs [A B] F IH]; cbn in *; auto.
  - auto.
  - auto.
  - intros t s vs js l _ _ _ F S. cbn [steps]. apply ascending_steps; auto; [|unfold is_i16; lia].
    clear S. induction F as [|j p js l (sf & w & req & _ & _ & D & St) F IH]; constructor; auto. split; [|exact St].
    destruct D as (_ & opts & (idt & _ & _ & Hid & _) & _). exact Hid.
Qed.

Lemma stands_type t v tv : stands_for env t v tv -> thrift_type env t (val_type tv).
Proof using.
  revert t v tv. refine (stands_ind (fun t v tv => thrift_type env t (val_type tv)) _ _ _ _ _ _ _).
  - intros t v tv H Hv. destruct H; try contradiction; first [apply tt_bytes; assumption|constructor; auto; fail].
  - intros. eapply tt_list; eauto.
  - intros. eapply tt_set; eauto.
  - intros. eapply tt_map; eauto.
  - intros. eapply tt_ptr; eauto.
  - intros. eapply tt_ptr; eauto.
  - intros. eapply tt_struct; eauto.
Qed.

Hypothesis Hids : unique_ids env.

Lemma ids_nodup {A} s js (l : list (Z * A)) (R : sfield -> Z * A -> Prop) : NoDup js ->
  Forall2 (fun j p => exists sf, nth_error (te_struct env s) j = Some sf /\ (exists req, declares env sf (fst p) req) /\ R sf p) js l ->
  NoDup (map fst l).
Proof using Hids.
  intros N F. induction F as [|j p js' l' (sf & Nj & (req & D) & _) F IH]; cbn; constructor; inversion_clear N as [|? ? N1 N2]; auto.
  intros Hin. apply in_map_iff in Hin as (q & Eq & Hq). apply N1. clear IH N1 N2.
  induction F as [|j' p' js'' l'' (sf' & Nj' & (req' & D') & _) F IH]; [destruct Hq|]. destruct Hq as [->|Hq]; [|right; auto].
  left. symmetry. apply (Hids s j j' sf sf' _ _ Nj Nj' (declares_tagged _ _ _ D) (declares_tagged _ _ _ D')). cbn. congruence.
Qed.

Theorem stands_fun t v tv : stands_for env t v tv -> forall tv', stands_for env t v tv' -> tv = tv'.
Proof using Hids.
  assert (FF : forall (A : Type) (R : A -> tval -> Prop) es tvs tvs', Forall2 (fun x y => forall y', R x y' -> y = y') es tvs ->
     Forall2 R es tvs' -> tvs = tvs').
  { intros A R es tvs tvs' F. revert tvs'. induction F as [|x y xs ys Hx F IH]; intros tvs' F'; inversion_clear F'; auto. f_equal; auto. }
  revert t v tv. refine (stands_ind (fun t v tv => forall tv', stands_for env t v tv' -> tv = tv') _ _ _ _ _ _ _).
  - intros t v tv H Hv tv' H'. destruct H; try contradiction; inversion H'; subst; cbn [under] in *; unfold byte_slice in *;
      try reflexivity; try (exfalso; repeat match goal with H : _ \/ _ |- _ => destruct H end; intuition congruence).
  - intros t e k nl es sp tvs U Nb Ns T F tv' H'. inversion H'; subst; [|congruence].
    match goal with H : under env t = RtSlice ?e' |- _ => rewrite U in H; injection H as <- end.
    f_equal; [eapply thrift_type_fun; eauto|eapply FF; eauto].
  - intros t e k nl es sp tvs U Is T F tv' H'. inversion H'; subst; [congruence|].
    match goal with H : under env t = RtSlice ?e' |- _ => rewrite U in H; injection H as <- end.
    f_equal; [eapply thrift_type_fun; eauto|eapply FF; eauto].
  - intros t k e kk ke o tvs U Tk Te F tv' H'. inversion H' as [| | | | | | | | | | | | | | |t0 k0 e0 kk' ke' o0 tvs' U' Tk' Te' F'| | |]; subst.
    rewrite U in U'. injection U' as <- <-.
    f_equal; [eapply thrift_type_fun; eauto|eapply thrift_type_fun; eauto|].
    clear H'. revert tvs' F'. induction F as [|p q ps qs [A B] F IH]; intros tvs' F'; inversion_clear F' as [|? q' ? ? [A' B'] F1]; auto.
    f_equal; auto. destruct q, q'. cbn in *. f_equal; auto.
  - intros t e v tv U IH tv' H'. inversion H' as [| | | | | | | | | | | | | | | |t0 e0 v0 tv0 U' S'| |]; subst.
    rewrite U in U'. injection U' as <-. auto.
  - intros t e tv U IH tv' H'. inversion H' as [| | | | | | | | | | | | | | | | |t0 e0 tv0 U' S'|]; subst.
    rewrite U in U'. injection U' as <-. auto.
  - intros t s vs js l U N J F S tv' H'. inversion H' as [| | | | | | | | | | | | | | | | | |t0 s0 vs0 js' l' U' N' J' F' S']; subst.
    rewrite U in U'. injection U' as <-. f_equal.
    assert (D : NoDup (map fst l)).
    { apply (ids_nodup s js l (fun _ _ => True) N). eapply Forall2_impl'; [|exact F]. cbn. intros j p (sf & w & req & A & B & C & _). eauto 6. }
    assert (D' : NoDup (map fst l')).
    { apply (ids_nodup s js' l' (fun _ _ => True) N'). eapply Forall2_impl'; [|exact F']. cbn. intros j p (sf & w & req & A & B & C & _). eauto 6. }
    apply sorted_same; auto using strict. intros p. split; intros Hp.
    + destruct (Forall2_r _ _ _ _ F Hp) as (j & Hj & sf & w & req & A & B & C & E).
      apply J, J' in Hj. destruct (Forall2_l _ _ _ _ F' Hj) as (p' & Hp' & sf' & w' & req' & A' & B' & C' & E').
      rewrite A in A'. injection A' as <-. rewrite B in B'. injection B' as <-.
      destruct (declares_fun _ _ _ _ _ C C') as [Ei _]. apply E in E'. destruct p, p'. cbn in *. subst. exact Hp'.
    + destruct (Forall2_r _ _ _ _ F' Hp) as (j & Hj & sf & w & req & A & B & C & E).
      apply J', J in Hj. destruct (Forall2_l _ _ _ _ F Hj) as (p' & Hp' & sf' & w' & req' & A' & B' & C' & E').
      rewrite A in A'. injection A' as <-. rewrite B in B'. injection B' as <-.
      destruct (declares_fun _ _ _ _ _ C C') as [Ei _]. apply E' in E. destruct p, p'. cbn in *. subst. exact Hp'.
Qed.
End Map.

Section Write.
Context (env : tenv) (P : rtype -> Prop) (Henv : env_ok env) (Hsup : supported env P).

Lemma stands_image t v : P t -> has_type env v t ->
  exists N a tv, stands_for env t v tv /\ codec env t a /\
    forall n, (N <= n)%nat -> lookup env n t = Some a /\ image env n n a v = Some tv.
Proof using Henv Hsup.
  intros Pt Ht. destruct (lookup_ends env t (sup_eager env P Hsup t Pt)) as (a & l0 & Hl0).
  assert (Hc : codec env t a) by (now exists l0).
  destruct (image_total env P Hsup Henv v t a Pt Hc Ht) as (n & tv & E).
  exists (l0 + n)%nat, a, tv. conj; auto; [eapply image_stands; eauto|]. intros n' H1. split.
  - apply (lookup_more env l0); [lia|exact Hl0].
  - eapply image_more; [| |exact E]; lia.
Qed.

Theorem bin_stands sw wsize s t v i : 0 < wsize -> ok_sink s -> P t -> has_type env v t -> passes env i t v ->
  exists N tv, stands_for env t v tv /\
    forall n, (N <= n)%nat -> exists b,
      run (over (bin_writer sw) (bufw_h wsize)) (Marshal env n n (Some i) >>! call WFlush) (tt, new_bwriter s)
        = Done (tt, b) None /\ received (wsink b) = received s ++ binary_encoding tv.
Proof using Henv Hsup.
  intros Hw Hs Pt Ht Hp. destruct (stands_image t v Pt Ht) as (N & a & tv & S & Hc & HN).
  exists N, tv. split; [exact S|]. intros n Hn. destruct (HN n Hn) as (L & E). apply bin_write_any; auto.
  rewrite (Marshal_passes env n n i t v a Hp L).
  pose proof (marshal_image env n _ _ eq (bin_nameless sw) n a v tv (tt, received s) (tt, received s) E eq_refl) as M.
  rewrite bin_write_val in M. destruct (run _ _ _) as [s1 [e|]|c]; cbn in M; try tauto; try (destruct M; discriminate).
  now destruct M as [-> _].
Qed.

Theorem cmp_stands wsize s t v i : 0 < wsize -> ok_sink s -> P t -> has_type env v t -> fits env (2 ^ 63) v t -> passes env i t v ->
  exists N tv l, stands_for env t v tv /\ compact_encoding tv l /\
    forall n, (N <= n)%nat -> exists b cw,
      run (over cmp_writer (bufw_h wsize)) (Marshal env n n (Some i) >>! call WFlush) (cw0, new_bwriter s)
        = Done (cw, b) None /\ received (wsink b) = received s ++ l.
Proof using Henv Hsup.
  intros Hw Hs Pt Ht Hf Hp. destruct (stands_image t v Pt Ht) as (N & a & tv & S & Hc & HN).
  assert (Hwf : wf (2 ^ 63) tv).
  { destruct (HN N (le_n _)) as (_ & E). now apply (image_wf env N Henv (2 ^ 63) N ltac:(lia) t a v). }
  destruct (cmp_write_val compact_field no_wrap field_hdr_spec tv Hwf (stands_steps env t v tv S) cw0 (received s) eq_refl)
    as (l & bb & Hl & _ & Wv).
  exists N, tv, l. split; [exact S|]. split; [exact Hl|]. intros n Hn. destruct (HN n Hn) as (L & E).
  assert (W : exists st, run (over cmp_writer mem_h) (Marshal env n n (Some i)) (cw0, received s)
      = Done (st, received s ++ l) None).
  { rewrite (Marshal_passes env n n i t v a Hp L).
    pose proof (marshal_image env n _ _ cw_sim cmp_nameless n a v tv (cw0, received s) (cw0, received s) E) as M.
    assert (R0 : cw_sim (cw0, received s) (cw0, received s)) by (unfold cw_sim; cbn; auto 10).
    specialize (M R0). rewrite Wv in M. clear Wv. destruct (run _ _ _) as [[st m] [e|]|c]; cbn in M.
    - destruct M as [_ M]. discriminate M.
    - destruct M as [(M & _) _]. cbn in M. exists st. now rewrite M.
    - contradiction. }
  destruct W as (st & W). destruct (cmp_write_any wsize s cw0 st _ _ Hw Hs W) as (b & E0 & R).
  exists b, st. split; [exact E0|exact R].
Qed.
End Write.
