(** Marshal makes the calls that the value is written with. *)
From Coq Require Import Strings.String Sorting.Sorted.
From Verif Require Import Base BaseLemmas Prog Memo MemoProof Mirror MirrorRun Wire WireProof Spec Clients Reads GoFloat Utf8 GoType Fields Arshal GoTypeProof FieldsProof
  ArshalSpec ArshalEnc ArshalDec ArshalTrip ArshalTotal ArshalThms ArshalInput ArshalErr ArshalCalls TagProof MapSpec MapProof TraceSpec.
Local Open Scope list_scope.

Section Trace.
Context (env : tenv) (Henv : env_ok env).

Lemma int_says t a w z : under env t = width_int w -> codec env t a -> wire_type a = width_type w -> has_type env (GInt z) t ->
  exists cs, plays env (wr (write_action w) (width_type w) t (width_write w z)) cs None /\ says env t (GInt z) cs.
Proof using.
  intros U C W H. cbn [has_type] in H. rewrite U in H.
  destruct w; cbn [width_int width_write write_action width_type] in *.
  - exists [CByte (z2b z)]. split; [now apply (plays_wr env t a _ (CByte _))|constructor; auto].
  - exists [CI16 (i16 z)]. split; [now apply (plays_wr env t a _ (CI16 _))|rewrite i16_id by exact H; constructor; auto].
  - exists [CI32 (i32 z)]. split; [now apply (plays_wr env t a _ (CI32 _))|rewrite i32_id by exact H; constructor; auto].
  - exists [CI64 (i64 z)]. split; [now apply (plays_wr env t a _ (CI64 _))|rewrite i64_id by exact H; constructor; auto].
Qed.
Lemma uint_says t a w z : under env t = width_uint w -> codec env t a -> wire_type a = width_type w -> has_type env (GInt z) t ->
  exists cs, plays env (wr (write_action w) (width_type w) t (width_write w z)) cs None /\ says env t (GInt z) cs.
Proof using.
  intros U C W H. cbn [has_type] in H. rewrite U in H.
  destruct w; cbn [width_uint width_write write_action width_type] in *.
  - exists [CByte (z2b z)]. split; [now apply (plays_wr env t a _ (CByte _))|constructor; auto].
  - exists [CI16 (i16 z)]. split; [now apply (plays_wr env t a _ (CI16 _))|rewrite signed16 by exact H; constructor; auto].
  - exists [CI32 (i32 z)]. split; [now apply (plays_wr env t a _ (CI32 _))|rewrite signed32 by exact H; constructor; auto].
  - exists [CI64 (i64 z)]. split; [now apply (plays_wr env t a _ (CI64 _))|rewrite signed64 by exact H; constructor; auto].
Qed.

Theorem image_says ln n : forall t a v tv, codec env t a -> has_type env v t -> image env ln n a v = Some tv ->
  exists cs, plays env (marshal env ln n a v) cs None /\ says env t v cs.
Proof using Henv.
  induction n as [|n IH]; intros t a v tv Hc Ht H; [discriminate|].
  pose proof (codec_inv env t a Hc) as Hi.
  destruct a as [t'|t'|t' single|t' w|t' w|t'|t'|t'|t'|t' ka va|t' set ea|t' ea];
    destruct v as [b|z|z|z|z|nl x sp|u|es|nl es sp|o|o|vs|k]; try discriminate; cbn [image] in H; cbn [marshal];
    try (destruct single; discriminate).
  - destruct Hi as [-> U]. exists [CBool b]. split; [now apply (plays_wr env t _ _ (CBool b) _ Hc)|now constructor].
  - destruct Hi as [-> U]. destruct single; [|discriminate]. exists [CDouble (f32_to_f64 z)]. split; [now apply (plays_wr env t _ _ (CDouble _) _ Hc)|now constructor].
  - destruct Hi as [-> U]. destruct single; [discriminate|]. exists [CDouble z]. split; [now apply (plays_wr env t _ _ (CDouble _) _ Hc)|now constructor].
  - destruct Hi as [-> U]. now apply (int_says t _ w z U Hc).
  - destruct Hi as [-> U]. now apply (uint_says t _ w z U Hc).
  - destruct Hi as [-> U]. exists [CString z]. split; [now apply (plays_wr env t _ _ (CString _) _ Hc)|now constructor].
  - destruct Hi as (-> & U & B). exists [CBytes x]. split; [now apply (plays_wr env t _ _ (CBytes _) _ Hc)|constructor; now apply bytes_slice].
  - destruct Hi as [-> U]. exists [CUUID u]. split; [now apply (plays_wr env t _ _ (CUUID _) _ Hc)|rewrite (codec_uuid _ _ _ Hc); constructor].
  - destruct Hi as (-> & s & U). destruct (make_struct_fields env ln t) as [[fs|]|] eqn:M; try discriminate.
    destruct (image_fields env (image env ln n) vs fs) as [l|] eqn:E; [|discriminate]. clear H.
    apply type_struct in Ht as (s' & U' & Ht). rewrite U in U'. injection U' as <-.
    destruct (fields_spec env Henv ln t fs M) as (F1 & F2 & F3).
    destruct (fields_inl env ln t fs M) as (l0 & C0 & _).
    destruct (collect_spec env ln t _ _ _ C0) as (_ & _ & F4 & _).
    assert (SD : struct_def env t = te_struct env s) by (unfold struct_def; now rewrite U). rewrite SD in F1, F4.
    assert (Kf : forall f, In f fs -> exists sf o, nth_error (te_struct env s) (f_index f) = Some sf /\ tagged env sf o /\
              codec env (sf_type sf) (f_fncs f) /\ f_id f = fo_id o /\ f_name f = sf_name sf).
    { intros f Hf. apply F1 in Hf as (j & sf & o & a & N & S & L & ->). exists sf, o. cbn. conj; auto; [now exists ln|].
      destruct o as [id name req]. unfold tagged in S. apply field_accepted in S as (_ & -> & _). reflexivity. }
    assert (G : forall r l, incl r fs -> image_fields env (image env ln n) vs r = Some l ->
      exists q, plays env (marshal_fields env (marshal env ln n) t vs r)
                  (concat (map (fun p => CFieldBegin (fst p) :: snd p ++ [CFieldEnd]) q) ++ [CStructEnd]) None /\
        Forall2 (fun f p => fst p = mkFH (f_name f) (wire_type (f_fncs f)) (f_id f) /\ wire_type (f_fncs f) <> T_Stop /\
                   exists sf v, nth_error (te_struct env s) (f_index f) = Some sf /\ nth_error vs (f_index f) = Some v /\ says env (sf_type sf) v (snd p))
          (filter (kept env vs) r) q).
    { clear E l. induction r as [|f r IHr]; intros l Hin E; cbn [image_fields filter marshal_fields] in *.
      - exists []. split; [now apply (plays_wr env t _ _ CStructEnd _ Hc)|constructor].
      - destruct (wire_type (f_fncs f) =? T_Stop) eqn:W; [discriminate|].
        assert (Kk : kept env vs f = match nth_error vs (f_index f) with Some v => negb (negb (f_required f) && field_zero env f v) | None => false end) by reflexivity.
        destruct (nth_error vs (f_index f)) as [v|] eqn:N; [|discriminate].
        assert (Hin' : incl r fs) by (intros g Hg; apply Hin; now right). rewrite Kk.
        destruct (negb (f_required f) && field_zero env f v); cbn [negb]; [now apply (IHr l)|].
        destruct (image env ln n (f_fncs f) v) as [tv'|] eqn:R; [|discriminate].
        destruct (image_fields env (image env ln n) vs r) as [l'|] eqn:E'; [|discriminate].
        destruct (IHr l' Hin' eq_refl) as (q & P1 & P2).
        destruct (Kf f (Hin f (or_introl eq_refl))) as (sf & o & Nf & T & C & _).
        destruct (IH (sf_type sf) (f_fncs f) v tv' C) as (cs & P3 & P4); [now apply (Forall2_nth _ _ _ Ht _ _ _ N Nf)|exact R|].
        exists ((mkFH (f_name f) (wire_type (f_fncs f)) (f_id f), cs) :: q). split.
        + cbn [map concat fst snd]. rewrite <- app_assoc. cbn [app].
          apply (plays_then env _ [_]); [now apply (plays_wr env t _ _ (CFieldBegin _) _ Hc)|].
          rewrite <- app_assoc. apply plays_then; [exact P3|].
          apply (plays_then env _ [_]); [now apply (plays_wr env t _ _ CFieldEnd _ Hc)|exact P1].
        + constructor; [|exact P2]. cbn [fst snd]. split; [reflexivity|]. split; [now apply Z.eqb_neq|]. exists sf, v. auto. }
    destruct (G fs l (fun x H => H) E) as (q & P1 & P2). clear G E.
    exists (CStructBegin (type_name env t) :: concat (map (fun p => CFieldBegin (fst p) :: snd p ++ [CFieldEnd]) q) ++ [CStructEnd]). split.
    { apply (plays_then env _ [_]); [now apply (plays_wr env t _ _ (CStructBegin _) _ Hc)|exact P1]. }
    apply (sy_struct env t s vs (map f_index (filter (kept env vs) fs)) q U).
    + now apply nodup_filter.
    + intros j. split.
      * intros Hj. apply in_map_iff in Hj as (f & <- & Hf). apply filter_In in Hf as [Hf Hk].
        unfold kept in Hk. destruct (nth_error vs (f_index f)) as [v|] eqn:Nv; [|discriminate].
        apply F1 in Hf as (j & sf & o & a & N & S & L & ->). cbn in *.
        exists sf, v. conj; auto. apply written_sent. exists o. split; [exact S|].
        unfold field_zero in Hk. cbn in Hk. rewrite zero_field_model in Hk.
        destruct (fo_required o), (zero_field env sf v); auto; discriminate.
      * intros (sf & v & N & Nv & Sn). apply written_sent in Sn as (o & T & Ho).
        destruct (F4 j sf o N T) as (a & L).
        pose (f := mkField j (sf_type sf) a (field_is_zero env (sf_type sf)) (fo_id o) (fo_name o) (fo_required o)).
        apply in_map_iff. exists f. split; [reflexivity|]. apply filter_In. split.
        { apply F1. exists j, sf, o, a. conj; auto. }
        unfold kept, field_zero, f. cbn [f_index f_required f_isZero]. rewrite Nv. rewrite zero_field_model.
        destruct Ho as [-> | ->]; [reflexivity|]. now rewrite andb_false_r.
    + assert (Kk : forall f, In f (filter (kept env vs) fs) -> In f fs) by (intros f Hf; now apply filter_In in Hf as [Hf _]).
      clear P1 F1 F2 F3 F4 C0 M. revert P2 Kk. generalize (filter (kept env vs) fs). intros fs' K Kk.
      induction K as [|f p fs' q' (Eh & W & sf & v & Nf & Nv & Sv) K IHK]; cbn [map]; constructor.
      * destruct (Kf f (Kk f (or_introl eq_refl))) as (sf' & o & Nf' & T & C & Eo & En). rewrite Nf in Nf'. injection Nf' as <-.
        rewrite Eh. cbn [fh_id]. exists sf, v, (fo_required o), (wire_type (f_fncs f)). conj; auto.
        -- rewrite Eo. now apply tagged_declares.
        -- now apply codec_thrift_type.
        -- now rewrite En.
      * apply IHK. intros g Hg. apply Kk. now right.
    + assert (Em : map (fun p => fh_id (fst p)) q = map f_id (filter (kept env vs) fs)).
      { clear -P2. induction P2 as [|f p fs' l' (Eid & _) K IHK]; cbn; [reflexivity|]. rewrite Eid, IHK. reflexivity. }
      rewrite Em. pose proof (sorted_filter _ (kept env vs) _ (sorted_strong fs F3)) as S. clear -S.
      induction S as [|f r S IHS Hf]; cbn; constructor; auto. now rewrite Forall_map.
  - destruct Hi as (-> & kt & e & U & Hka & Hva).
    destruct (_ || _) eqn:W; [discriminate|]. apply orb_false_iff in W as [W1 W2]. apply Z.eqb_neq in W1, W2.
    set (es := match o with Some es => es | None => [] end) in *.
    destruct (image_entries (image env ln n) ka va es) as [l|] eqn:E; [|discriminate]. clear H.
    assert (Hty : Forall (fun p => has_type env (fst p) kt /\ has_type env (snd p) e) es).
    { subst es. destruct o as [es|]; [|constructor].
      apply type_map in Ht as (k' & e' & U' & Ht). rewrite U in U'. injection U' as <- <-. exact Ht. }
    assert (G : exists css, Forall2 (fun p q => says env kt (fst p) (fst q) /\ says env e (snd p) (snd q)) es css /\
      plays env (marshal_entries (marshal env ln n) t ka va es) (concat (map (fun q => fst q ++ snd q) css) ++ [CMapEnd]) None).
    { clearbody es. revert l E. induction Hty as [|[k w] r [Hk Hw] Hr IHr]; intros l E; cbn [image_entries marshal_entries] in *.
      - exists []. split; [constructor|]. now apply (plays_wr env t _ _ CMapEnd _ Hc).
      - destruct (image env ln n ka k) as [tk|] eqn:Ek; [|discriminate]. destruct (image env ln n va w) as [tw|] eqn:Ew; [|discriminate].
        destruct (image_entries (image env ln n) ka va r) as [l'|] eqn:Er; [|discriminate].
        destruct (IHr l' eq_refl) as (css & S1 & P1). destruct (IH kt ka k tk Hka Hk Ek) as (c1 & P2 & S2). destruct (IH e va w tw Hva Hw Ew) as (c2 & P3 & S3).
        exists ((c1, c2) :: css). split; [constructor; auto|]. cbn [map concat fst snd]. rewrite <- !app_assoc.
        apply plays_then; [exact P2|]. apply plays_then; [exact P3|exact P1]. }
    destruct G as (css & S1 & P1).
    exists (CMapBegin (mkMapH (wire_type ka) (wire_type va) (zlen es)) :: concat (map (fun q => fst q ++ snd q) css) ++ [CMapEnd]). split.
    + apply (plays_then env _ [_]); [now apply (plays_wr env t _ _ (CMapBegin _) _ Hc)|exact P1].
    + apply (sy_map env t kt e); auto using codec_thrift_type.
  - destruct Hi as (-> & e & U & B & Hea & Hset).
    destruct (wire_type ea =? T_Stop) eqn:W; [discriminate|]. apply Z.eqb_neq in W.
    destruct (image_elems (image env ln n) ea es) as [l|] eqn:E; [|discriminate].
    apply type_slice in Ht as (e' & U' & _ & _ & Ht & _). rewrite U in U'. injection U' as <-.
    assert (G : exists css, Forall2 (says env e) es css /\
      plays env (marshal_elems (marshal env ln n) t set ea es) (concat css ++ [if set then CSetEnd else CListEnd]) None).
    { clear H. revert l E. induction Ht as [|w r Hw Hr IHr]; intros l E; cbn [image_elems marshal_elems] in *.
      - exists []. split; [constructor|]. destruct set; [now apply (plays_wr env t _ _ CSetEnd _ Hc)|now apply (plays_wr env t _ _ CListEnd _ Hc)].
      - destruct (image env ln n ea w) as [tw|] eqn:Ew; [|discriminate].
        destruct (image_elems (image env ln n) ea r) as [l'|] eqn:Er; [|discriminate].
        destruct (IHr l' eq_refl) as (css & S1 & P1). destruct (IH e ea w tw Hea Hw Ew) as (c1 & P2 & S2).
        exists (c1 :: css). split; [constructor; auto|]. cbn [concat]. rewrite <- app_assoc. now apply plays_then. }
    destruct G as (css & S1 & P1).
    assert (Nb : ~ byte_slice env t) by (intros Hb; apply bytes_slice in Hb; congruence).
    destruct set.
    + exists (CSetBegin (mkSetH (wire_type ea) (zlen es)) :: concat css ++ [CSetEnd]). split.
      * apply (plays_then env _ [_]); [now apply (plays_wr env t _ _ (CSetBegin _) _ Hc)|exact P1].
      * apply (sy_set env t e); auto using codec_thrift_type.
    + exists (CListBegin (mkSetH (wire_type ea) (zlen es)) :: concat css ++ [CListEnd]). split.
      * apply (plays_then env _ [_]); [now apply (plays_wr env t _ _ (CListBegin _) _ Hc)|exact P1].
      * apply (sy_list env t e); auto using codec_thrift_type.
  - destruct Hi as (-> & e & U & Hea). assert (Et : elem_type env t = e) by (unfold elem_type; now rewrite U). rewrite Et in *.
    destruct o as [w|].
    + destruct (IH e ea w tv Hea) as (cs & P1 & S1); [|exact H|exists cs; split; [exact P1|now apply (sy_ptr env t e)]].
      cbn [has_type] in Ht. rewrite U in Ht. exact Ht.
    + destruct (IH e ea _ tv Hea (zero_typed env Henv e) H) as (cs & P1 & S1). exists cs. split; [exact P1|now apply (sy_nil env t e)].
Qed.

(** ** A value is written in one way *)
Section Ind.
Context (Q : rtype -> gval -> list wcall -> Prop).
Hypothesis Hscalar : forall t v cs, says env t v cs ->
  match v with GSlice _ _ _ | GMap _ | GPtr _ | GStruct _ => False | _ => True end -> Q t v cs.
Hypothesis Hlist : forall t e k nl es sp css, under env t = RtSlice e -> ~ byte_slice env t -> implements_set env t = false ->
  thrift_type env e k -> Forall2 (Q e) es css -> Q t (GSlice nl es sp) (CListBegin (mkSetH k (zlen es)) :: concat css ++ [CListEnd]).
Hypothesis Hset : forall t e k nl es sp css, under env t = RtSlice e -> implements_set env t = true ->
  thrift_type env e k -> Forall2 (Q e) es css -> Q t (GSlice nl es sp) (CSetBegin (mkSetH k (zlen es)) :: concat css ++ [CSetEnd]).
Hypothesis Hmap : forall t k e kk ke o css, under env t = RtMap k e -> thrift_type env k kk -> thrift_type env e ke ->
  let es := match o with Some es => es | None => [] end in
  Forall2 (fun p q => Q k (fst p) (fst q) /\ Q e (snd p) (snd q)) es css ->
  Q t (GMap o) (CMapBegin (mkMapH kk ke (zlen es)) :: concat (map (fun q => fst q ++ snd q) css) ++ [CMapEnd]).
Hypothesis Hptr : forall t e v cs, under env t = RtPtr e -> Q e v cs -> Q t (GPtr (Some v)) cs.
Hypothesis Hnil : forall t e cs, under env t = RtPtr e -> Q e (zero env e) cs -> Q t (GPtr None) cs.
Hypothesis Hstruct : forall t s vs js l, under env t = RtStruct s -> NoDup js ->
  (forall j, In j js <-> exists sf v, nth_error (te_struct env s) j = Some sf /\ nth_error vs j = Some v /\ sent env sf v) ->
  Forall2 (fun j p => exists sf v req k, nth_error (te_struct env s) j = Some sf /\ nth_error vs j = Some v /\
             declares env sf (fh_id (fst p)) req /\ thrift_type env (sf_type sf) k /\
             fst p = mkFH (sf_name sf) k (fh_id (fst p)) /\ Q (sf_type sf) v (snd p)) js l ->
  StronglySorted Z.le (map (fun p => fh_id (fst p)) l) ->
  Q t (GStruct vs) (CStructBegin (type_name env t) :: concat (map (fun p => CFieldBegin (fst p) :: snd p ++ [CFieldEnd]) l) ++ [CStructEnd]).

Fixpoint says_ind' t v cs (H : says env t v cs) {struct H} : Q t v cs.
Proof using Hscalar Hlist Hset Hmap Hptr Hnil Hstruct.
  pose proof H as H0. destruct H as [| | | | | | | | | | | | |t e k nl es sp tvs U Nb Ns T F|t e k nl es sp tvs U Is T F
    |t k e kk ke o tvs U Tk Te es F|t e v tv U S|t e tv U S|t s vs js l U N J F S]; try (apply Hscalar; [exact H0|exact I]); clear H0.
  - apply (Hlist t e); auto. induction F; constructor; auto.
  - apply (Hset t e); auto. induction F; constructor; auto.
  - apply (Hmap t k e); auto. fold es.
    refine (Forall2_ind (Forall2 (fun p q => Q k (fst p) (fst q) /\ Q e (snd p) (snd q))) _ _ F); [constructor|].
    intros p q ps qs [A B] _ IH. constructor; auto.
  - apply (Hptr t e); auto.
  - apply (Hnil t e); auto.
  - apply (Hstruct t s vs js); auto. clear N J S.
    induction F as [|j p ? ? (sf & w & req & k & A & B & C & D & E & G) ? IH]; constructor; auto.
    exists sf, w, req, k. conj; auto.
Qed.
End Ind.

Hypothesis Hids : unique_ids env.

Lemma hsorted_same (l : list (fhdr * list wcall)) : forall l',
  StronglySorted Z.lt (map (fun p => fh_id (fst p)) l) -> StronglySorted Z.lt (map (fun p => fh_id (fst p)) l') ->
  (forall p, In p l <-> In p l') -> l = l'.
Proof using.
  induction l as [|p r IH]; intros [|p' r'] S S' H; auto.
  - exfalso. apply (proj2 (H p')). now left.
  - exfalso. apply (proj1 (H p)). now left.
  - cbn in S, S'. inversion_clear S as [|? ? S1 S2]. inversion_clear S' as [|? ? S1' S2'].
    rewrite Forall_map, Forall_forall in S2, S2'.
    assert (E : p = p').
    { destruct (proj1 (H p) (or_introl eq_refl)) as [E|E]; auto. destruct (proj2 (H p') (or_introl eq_refl)) as [E'|E']; auto.
      apply S2 in E'. apply S2' in E. lia. }
    subst p'. f_equal. apply IH; auto. intros q. split; intros Hq.
    + destruct (proj1 (H q) (or_intror Hq)) as [<-|]; auto. apply S2 in Hq. lia.
    + destruct (proj2 (H q) (or_intror Hq)) as [<-|]; auto. apply S2' in Hq. lia.
Qed.

Lemma hids_nodup s js (l : list (fhdr * list wcall)) : NoDup js ->
  Forall2 (fun j p => exists sf, nth_error (te_struct env s) j = Some sf /\ exists req, declares env sf (fh_id (fst p)) req) js l ->
  NoDup (map (fun p => fh_id (fst p)) l).
Proof using Hids.
  intros N F. induction F as [|j p js' l' (sf & Nj & (req & D)) F IH]; cbn; constructor; inversion_clear N as [|? ? N1 N2]; auto.
  intros Hin. apply in_map_iff in Hin as (q & Eq & Hq). apply N1. clear IH N1 N2.
  induction F as [|j' p' js'' l'' (sf' & Nj' & (req' & D')) F IH]; [destruct Hq|]. destruct Hq as [->|Hq]; [|right; auto].
  left. symmetry. apply (Hids s j j' sf sf' _ _ Nj Nj' (declares_tagged env _ _ _ D) (declares_tagged env _ _ _ D')). cbn. congruence.
Qed.

Theorem says_fun t v cs : says env t v cs -> forall cs', says env t v cs' -> cs = cs'.
Proof using Hids.
  assert (FF : forall (A B : Type) (R : A -> B -> Prop) es tvs tvs', Forall2 (fun x y => forall y', R x y' -> y = y') es tvs ->
     Forall2 R es tvs' -> tvs = tvs').
  { intros A B R es tvs tvs' F. revert tvs'. induction F as [|x y xs ys Hx F IH]; intros tvs' F'; inversion_clear F'; auto. f_equal; auto. }
  revert t v cs. refine (says_ind' (fun t v cs => forall cs', says env t v cs' -> cs = cs') _ _ _ _ _ _ _).
  - intros t v tv H Hv tv' H'. destruct H; try contradiction; inversion H'; subst; cbn [under] in *; unfold byte_slice in *;
      try reflexivity; try (exfalso; repeat match goal with H : _ \/ _ |- _ => destruct H end; intuition congruence).
  - intros t e k nl es sp tvs U Nb Ns T F tv' H'. inversion H'; subst; [|congruence].
    match goal with H : under env t = RtSlice ?e' |- _ => rewrite U in H; injection H as <- end.
    f_equal; [do 2 f_equal; eapply thrift_type_fun; eauto|]. do 2 f_equal. eapply FF; eauto.
  - intros t e k nl es sp tvs U Is T F tv' H'. inversion H'; subst; [congruence|].
    match goal with H : under env t = RtSlice ?e' |- _ => rewrite U in H; injection H as <- end.
    f_equal; [do 2 f_equal; eapply thrift_type_fun; eauto|]. do 2 f_equal. eapply FF; eauto.
  - intros t k e kk ke o tvs U Tk Te es F tv' H'. inversion H' as [| | | | | | | | | | | | | | |t0 k0 e0 kk' ke' o0 tvs' U' Tk' Te' es' F'| | |]; subst.
    rewrite U in U'. injection U' as <- <-.
    f_equal; [do 2 f_equal; eapply thrift_type_fun; eauto|]. do 3 f_equal.
    clear H'. unfold es' in F'. fold es in F'. clear es'. revert tvs' F'. induction F as [|p q ps qs [A B] F IH]; intros tvs' F'; inversion_clear F' as [|? q' ? ? [A' B'] F1]; auto.
    f_equal; auto. destruct q, q'. cbn in *. f_equal; auto.
  - intros t e v tv U IH tv' H'. inversion H' as [| | | | | | | | | | | | | | | |t0 e0 v0 tv0 U' S'| |]; subst.
    rewrite U in U'. injection U' as <-. auto.
  - intros t e tv U IH tv' H'. inversion H' as [| | | | | | | | | | | | | | | | |t0 e0 tv0 U' S'|]; subst.
    rewrite U in U'. injection U' as <-. auto.
  - intros t s vs js l U N J F S tv' H'. inversion H' as [| | | | | | | | | | | | | | | | | |t0 s0 vs0 js' l' U' N' J' F' S']; subst.
    rewrite U in U'. injection U' as <-. f_equal. do 3 f_equal.
    assert (D : NoDup (map (fun p => fh_id (fst p)) l)).
    { apply (hids_nodup s js l N). eapply Forall2_impl'; [|exact F]. cbn. intros j p (sf & w & req & k & A & B & C & _). eauto 6. }
    assert (D' : NoDup (map (fun p => fh_id (fst p)) l')).
    { apply (hids_nodup s js' l' N'). eapply Forall2_impl'; [|exact F']. cbn. intros j p (sf & w & req & k & A & B & C & _). eauto 6. }
    apply hsorted_same; auto using strict. intros p. split; intros Hp.
    + destruct (Forall2_r _ _ _ _ F Hp) as (j & Hj & sf & w & req & k & A & B & C & T & Eh & E).
      apply J, J' in Hj. destruct (Forall2_l _ _ _ _ F' Hj) as (p' & Hp' & sf' & w' & req' & k' & A' & B' & C' & T' & Eh' & E').
      rewrite A in A'. injection A' as <-. rewrite B in B'. injection B' as <-.
      destruct (declares_fun env _ _ _ _ _ C C') as [Ei _]. apply E in E'. pose proof (thrift_type_fun env _ _ T _ T') as Ek.
      destruct p as [h c], p' as [h' c']. cbn [fst snd] in *. assert (h = h') by congruence. subst. exact Hp'.
    + destruct (Forall2_r _ _ _ _ F' Hp) as (j & Hj & sf & w & req & k & A & B & C & T & Eh & E).
      apply J', J in Hj. destruct (Forall2_l _ _ _ _ F Hj) as (p' & Hp' & sf' & w' & req' & k' & A' & B' & C' & T' & Eh' & E').
      rewrite A in A'. injection A' as <-. rewrite B in B'. injection B' as <-.
      destruct (declares_fun env _ _ _ _ _ C C') as [Ei _]. apply E' in E. pose proof (thrift_type_fun env _ _ T _ T') as Ek.
      destruct p as [h c], p' as [h' c']. cbn [fst snd] in *. assert (h = h') by congruence. subst. exact Hp'.
Qed.
End Trace.

Section Write.
Context (env : tenv) (P : rtype -> Prop) (Henv : env_ok env) (Hsup : supported env P).

Theorem marshal_says t v i : P t -> has_type env v t -> passes env i t v ->
  exists N cs, says env t v cs /\ forall n, (N <= n)%nat -> plays env (Marshal env n n (Some i)) cs None.
Proof using Henv Hsup.
  intros Pt Ht Hp. destruct (stands_image env P Henv Hsup t v Pt Ht) as (N & a & tv & S & Hc & HN).
  destruct (HN N (le_n _)) as (L & E). destruct (image_says env Henv N N t a v tv Hc Ht E) as (cs & P1 & S1).
  exists N, cs. split; [exact S1|]. intros n Hn. eapply plays_below; [|apply (Marshal_more env N n N n); lia].
  now rewrite (Marshal_passes env N N i t v a Hp L).
Qed.
End Write.
