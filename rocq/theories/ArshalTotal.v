(** Marshal succeeds on supported types; codec lookups and Marshal end. *)
From Coq Require Import Strings.String Sorting.Permutation.
From Verif Require Import Base BaseLemmas Prog Wire WireProof Spec Clients Reads GoFloat Utf8
  GoType Fields Arshal GoTypeProof FieldsProof ArshalSpec ArshalEnc ArshalDec ArshalTrip.

Section GvalInd.
Variable P : gval -> Prop.
Hypothesis HB : forall b, P (GBool b).
Hypothesis HI : forall z, P (GInt z).
Hypothesis HF : forall z, P (GF32 z).
Hypothesis HD : forall z, P (GF64 z).
Hypothesis HS : forall s, P (GString s).
Hypothesis HY : forall nl s sp, P (GBytes nl s sp).
Hypothesis HU : forall u, P (GUUID u).
Hypothesis HA : forall es, Forall P es -> P (GArray es).
Hypothesis HL : forall nl es sp, Forall P es -> Forall P sp -> P (GSlice nl es sp).
Hypothesis HN : P (GMap None).
Hypothesis HM : forall es, Forall (fun p => P (fst p) /\ P (snd p)) es -> P (GMap (Some es)).
Hypothesis HZ : P (GPtr None).
Hypothesis HP : forall v, P v -> P (GPtr (Some v)).
Hypothesis HT : forall vs, Forall P vs -> P (GStruct vs).
Hypothesis HO : forall n, P (GOther n).
Fixpoint gval_ind' (v : gval) : P v :=
  let fix all (l : list gval) : Forall P l :=
    match l with [] => Forall_nil _ | x :: r => Forall_cons _ (gval_ind' x) (all r) end in
  match v with
  | GBool b => HB b
  | GInt z => HI z
  | GF32 z => HF z
  | GF64 z => HD z
  | GString s => HS s
  | GBytes nl s sp => HY nl s sp
  | GUUID u => HU u
  | GArray es => HA es (all es)
  | GSlice nl es sp => HL nl es sp (all es) (all sp)
  | GMap None => HN
  | GMap (Some es) =>
      HM es ((fix alle (l : list (gval * gval)) : Forall (fun p => P (fst p) /\ P (snd p)) l :=
        match l with
        | [] => Forall_nil _
        | p :: r => Forall_cons _ (conj (gval_ind' (fst p)) (gval_ind' (snd p))) (alle r)
        end) es)
  | GPtr None => HZ
  | GPtr (Some v) => HP v (gval_ind' v)
  | GStruct vs => HT vs (all vs)
  | GOther n => HO n
  end.
End GvalInd.

Section Total.
Context (env : tenv).

(** [eager e t]: building the codec of [t] first builds that of [e]
    (specification: the element of a pointer, of a slice, the key and element
    of a map; a struct's fields are looked up later). *)
Definition eager (e t : rtype) : Prop :=
  match under env t with
  | RtPtr x => e = x
  | RtSlice x => as_bytes env t = false /\ e = x
  | RtMap k x => e = k \/ e = x
  | _ => False
  end.

(** [demand e t]: writing the zero value of [t] writes the zero value of [e]. *)
Definition demand (e t : rtype) : Prop :=
  match under env t with
  | RtPtr x => e = x
  | RtStruct s => exists sf, In sf (te_struct env s) /\ e = sf_type sf /\ written env sf (zero env e)
  | _ => False
  end.

(** A set of types on which Marshal is meant to work: the kinds of the
    package's documentation, structs with well-formed tags (at least one
    exported or tagged field, unless there are no fields). *)
Definition supported_kind (P : rtype -> Prop) (t : rtype) : Prop :=
  match under env t with
  | RtBool | RtInt8 | RtInt16 | RtInt32 | RtInt64 | RtUint8 | RtUint16 | RtUint32 | RtUint64
  | RtFloat32 | RtFloat64 | RtString => True
  | RtArray k e => t = RtArray 16 RtUint8
  | RtSlice e => as_bytes env t = true \/ P e
  | RtMap k e => P k /\ P e
  | RtPtr e => P e
  | RtStruct s =>
      (forall sf, In sf (te_struct env s) ->
         (exists o, tagged env sf o /\ P (sf_type sf)) \/
         (exists o, parse_field_options (te_uni env) sf = (o, true, None))) /\
      (te_struct env s = [] \/ exists sf, In sf (te_struct env s) /\ (sf_tag sf <> None \/ exists o, tagged env sf o))
  | _ => False
  end.
Record supported (P : rtype -> Prop) : Prop := mkSupported {
  sup_kind : forall t, P t -> supported_kind P t;
  sup_eager : forall t, P t -> Acc eager t;
  sup_demand : forall t, P t -> Acc demand t }.

(** ** Codec lookup *)
Theorem lookup_ends t : Acc eager t -> exists a, codec env t a.
Proof.
  induction 1 as [t _ IH]. unfold eager in IH. unfold codec.
  destruct (under env t) as [| | | | | | | | | | | | | | | | | | | | |e|k e|kt e|e|sid|id] eqn:U;
    try (eexists; exists 1%nat; cbn [lookup]; rewrite U; reflexivity).
  - destruct (as_bytes env t) eqn:B.
    + exists (ABytes t), 1%nat. cbn [lookup]. rewrite U, B. unfold as_bytes in B. rewrite U in B.
      destruct e; try discriminate. destruct (implements_set env t), (implements_list env t); try discriminate. reflexivity.
    + destruct (IH e) as (a & n & H); [auto|]. assert (A : exists x, lookup env (S n) t = Some x); [|destruct A as [x A]; now exists x, (S n)].
      cbn [lookup]. rewrite U, B, H. cbn [option_map].
      destruct (implements_set env t); [eexists; reflexivity|]. destruct (implements_list env t); eexists; reflexivity.
  - assert (A : exists a, lookup env 1 t = Some a).
    { cbn [lookup]. rewrite U. destruct k as [|p|p]; try (eexists; reflexivity).
      do 5 (try (destruct p as [p|p|]; try (eexists; reflexivity))).
      destruct e; try (eexists; reflexivity). destruct t; eexists; reflexivity. }
    destruct A as [a A]. now exists a, 1%nat.
  - destruct (IH kt) as (a & n & H); [auto|]. destruct (IH e) as (b & m & H'); [auto|].
    eexists. exists (S (n + m)). cbn [lookup]. rewrite U.
    rewrite (lookup_more env n (n + m) _ _ ltac:(lia) H), (lookup_more env m (n + m) _ _ ltac:(lia) H'). reflexivity.
  - destruct (IH e) as (a & n & H); [auto|]. eexists. exists (S n). cbn [lookup]. rewrite U, H. reflexivity.
Qed.

(** Of [supported], everything but [sup_demand]. *)
Section Kinds.
Context (P : rtype -> Prop).
Hypothesis HK : forall t, P t -> supported_kind P t.
Hypothesis HE : forall t, P t -> Acc eager t.

Lemma kind_wire a : forall t, P t -> codec env t a -> wire_type a <> T_Stop.
Proof using HK.
  induction a as [t'|t'|t' single|t' w|t' w|t'|t'|t'|t'|t' ka IHk va IHv|t' set ea IHe|t' ea IHe]; intros t Ht Hc;
    pose proof (codec_inv env _ _ Hc) as Hi; cbn [wire_type]; try discriminate.
  - cbv iota in Hi. subst t'. exfalso. destruct Hc as [[|n] H]; [discriminate|]. cbn [lookup] in H.
    pose proof (HK t Ht) as K. unfold supported_kind in K.
    destruct (under env t) as [| | | | | | | | | | | | | | | | | | | | |e|k e|kt e|e|sid|id] eqn:U; try discriminate; try contradiction.
    + destruct (implements_set env t), (implements_list env t), (as_bytes env t); try discriminate;
        destruct (lookup env n e); discriminate.
    + subst t. cbn in U. injection U as <- <-. discriminate.
    + destruct (lookup env n kt), (lookup env n e); discriminate.
    + destruct (lookup env n e); discriminate.
  - destruct w; discriminate.
  - destruct w; discriminate.
  - destruct set; discriminate.
  - destruct Hi as (-> & e & U & He). apply (IHe e); auto.
    pose proof (HK t Ht) as K. unfold supported_kind in K. now rewrite U in K.
Qed.

(** ** More depth does no harm *)
Lemma collect_more ln ln' t fs : (ln <= ln')%nat -> forall i r,
  collect_fields env ln t i fs = Some r -> collect_fields env ln' t i fs = Some r.
Proof.
  intros Hl. induction fs as [|sf l IH]; intros i r H; cbn [collect_fields] in *; [exact H|].
  destruct (parse_field_options (te_uni env) sf) as [[o []] [e|]]; auto.
  destruct (lookup env ln (sf_type sf)) as [a|] eqn:L; [|discriminate]. rewrite (lookup_more env ln ln' _ _ Hl L).
  destruct (collect_fields env ln t (S i) l) as [x|] eqn:C; [|discriminate]. now rewrite (IH _ _ C).
Qed.

Lemma make_fields_more ln ln' t r : (ln <= ln')%nat ->
  make_struct_fields env ln t = Some r -> make_struct_fields env ln' t = Some r.
Proof.
  intros Hl H. unfold make_struct_fields in *.
  destruct (collect_fields env ln t 0 (struct_def env t)) as [x|] eqn:C; [|discriminate].
  now rewrite (collect_more _ _ _ _ Hl _ _ C).
Qed.

Lemma image_more n : forall m ln ln' a v tv, (n <= m)%nat -> (ln <= ln')%nat ->
  image env ln n a v = Some tv -> image env ln' m a v = Some tv.
Proof.
  induction n as [|n IH]; intros m ln ln' a v tv Hm Hl H; [discriminate|]. destruct m as [|m]; [lia|].
  assert (R : forall a v tv, image env ln n a v = Some tv -> image env ln' m a v = Some tv)
    by (intros; eapply IH; eauto; lia).
  destruct a as [t|t|t single|t w|t w|t|t|t|t|t ka va|t set ea|t ea];
    destruct v as [b|z|z|z|z|nl x sp|u|es|nl es sp|o|o|vs|k]; try discriminate; cbn [image] in *; try exact H.
  - destruct (make_struct_fields env ln t) as [[fs|]|] eqn:M; try discriminate.
    rewrite (make_fields_more _ _ _ _ Hl M).
    destruct (image_fields env (image env ln n) vs fs) as [l|] eqn:E; [|discriminate].
    assert (E' : image_fields env (image env ln' m) vs fs = Some l); [|now rewrite E'].
    clear M H. revert l E. induction fs as [|f r IHr]; intros l E; cbn [image_fields] in *; [exact E|].
    destruct (wire_type (f_fncs f) =? T_Stop); [discriminate|]. destruct (nth_error vs (f_index f)) as [v|]; [|discriminate].
    destruct (negb (f_required f) && field_zero env f v); auto.
    destruct (image env ln n (f_fncs f) v) as [tw|] eqn:Ev; [|discriminate]. rewrite (R _ _ _ Ev).
    destruct (image_fields env (image env ln n) vs r) as [l'|]; [|discriminate]. now rewrite (IHr _ eq_refl).
  - destruct (_ || _); [discriminate|].
    destruct (image_entries (image env ln n) ka va _) as [l|] eqn:E; [|discriminate].
    assert (E' : image_entries (image env ln' m) ka va (match o with Some es => es | None => [] end) = Some l); [|now rewrite E'].
    clear H. revert l E. generalize (match o with Some es => es | None => [] end).
    intros es. induction es as [|[k w] r IHr]; intros l E; cbn [image_entries] in *; [exact E|].
    destruct (image env ln n ka k) as [tk|] eqn:Ek; [|discriminate]. rewrite (R _ _ _ Ek).
    destruct (image env ln n va w) as [tw|] eqn:Ew; [|discriminate]. rewrite (R _ _ _ Ew).
    destruct (image_entries (image env ln n) ka va r) as [l'|]; [|discriminate]. now rewrite (IHr _ eq_refl).
  - destruct (wire_type ea =? T_Stop); [discriminate|].
    destruct (image_elems (image env ln n) ea es) as [l|] eqn:E; [|discriminate].
    assert (E' : image_elems (image env ln' m) ea es = Some l); [|now rewrite E'].
    clear H. revert l E. induction es as [|w r IHr]; intros l E; cbn [image_elems] in *; [exact E|].
    destruct (image env ln n ea w) as [tw|] eqn:Ew; [|discriminate]. rewrite (R _ _ _ Ew).
    destruct (image_elems (image env ln n) ea r) as [l'|]; [|discriminate]. now rewrite (IHr _ eq_refl).
  - destruct o; auto.
Qed.

(** ** Field tables of supported structs *)
Hypothesis Henv : env_ok env.

Lemma kind_table t s : P t -> under env t = RtStruct s ->
  exists ln fs, make_struct_fields env ln t = Some (inl fs).
Proof using HK HE Henv.
  intros Ht U. pose proof (HK t Ht) as K. unfold supported_kind in K. rewrite U in K. destruct K as [K1 K2].
  assert (C : exists ln, forall i, exists l, collect_fields env ln t i (te_struct env s) = Some (inl l) /\
     ((exists sf o, In sf (te_struct env s) /\ tagged env sf o) -> l <> [])).
  { revert K1. clear K2 U. generalize (te_struct env s) as fs. induction fs as [|sf r IHr]; intros K.
    - exists O. intros i. exists []. split; [reflexivity|]. now intros (sf & o & [] & _).
    - destruct IHr as (ln & Hr); [intros; apply K; now right|].
      destruct (K sf (or_introl eq_refl)) as [(o & Tg & Ps)|(o & Ig)].
      + destruct (lookup_ends _ (HE _ Ps)) as (a & n & L).
        exists (ln + n)%nat. intros i. destruct (Hr (S i)) as (l & E & _). cbn [collect_fields]. rewrite Tg.
        rewrite (lookup_more env n (ln + n) _ _ ltac:(lia) L).
        rewrite (collect_more ln (ln + n) _ _ ltac:(lia) _ _ E). eexists. split; [reflexivity|]. discriminate.
      + exists ln. intros i. destruct (Hr (S i)) as (l & E & Hne). cbn [collect_fields]. rewrite Ig. exists l. split; [exact E|].
        intros (sf' & o' & [<-|Hin] & Tg); [unfold tagged in Tg; rewrite Ig in Tg; discriminate|]. eauto. }
  destruct C as (ln & C). destruct (C O) as (l & E & Hne). exists ln.
  unfold make_struct_fields. replace (struct_def env t) with (te_struct env s) by (unfold struct_def; now rewrite U).
  rewrite E. destruct K2 as [->|(sf & Hin & [Ht'|Ho])].
  - eexists; reflexivity.
  - destruct (te_struct env s) as [|s0 sr] eqn:Es; [contradiction|]. destruct l as [|l0 lr]; [|eexists; reflexivity].
    assert (X : existsb has_tag (s0 :: sr) = true).
    { apply existsb_exists. exists sf. split; [exact Hin|]. unfold has_tag. destruct (sf_tag sf); [reflexivity|now elim Ht']. }
    rewrite X. eexists; reflexivity.
  - destruct Ho as (o & Tg). destruct (te_struct env s) as [|s0 sr] eqn:Es; [contradiction|].
    destruct l as [|l0 lr]; [exfalso; apply Hne; eauto|eexists; reflexivity].
Qed.

(** ** Marshal has something to write for every value *)
Definition imaged (a : arsh) (v : gval) : Prop := exists n tv, image env n n a v = Some tv.

Lemma imaged_at a v : imaged a v -> exists n tv, forall m ln, (n <= m)%nat -> (n <= ln)%nat -> image env ln m a v = Some tv.
Proof. intros (n & tv & H). exists n, tv. intros m ln Hm Hl. eapply image_more; eauto. Qed.

Lemma kind_struct t s vs : P t -> under env t = RtStruct s -> has_type env (GStruct vs) t ->
  (forall i sf v a, nth_error (te_struct env s) i = Some sf -> nth_error vs i = Some v -> P (sf_type sf) ->
     codec env (sf_type sf) a -> written env sf v -> imaged a v) ->
  imaged (AStruct t) (GStruct vs).
Proof using HK HE Henv.
  intros Ht U Hty HI. destruct (kind_table t s Ht U) as (ln & fs & M).
  apply type_struct in Hty as (s' & U' & Hty). rewrite U in U'. injection U' as <-.
  destruct (fields_spec env Henv ln t fs M) as (F1 & _ & _).
  assert (SD : struct_def env t = te_struct env s) by (unfold struct_def; now rewrite U). rewrite SD in F1.
  assert (G : exists n l, forall m ln', (n <= m)%nat -> (n <= ln')%nat -> image_fields env (image env ln' m) vs fs = Some l).
  { assert (Hsub : forall f, In f fs -> exists j sf o, nth_error (te_struct env s) j = Some sf /\ tagged env sf o /\
        codec env (sf_type sf) (f_fncs f) /\ f_index f = j /\ f_required f = fo_required o /\
        (forall v, field_zero env f v = zero_field env sf v)).
    { intros f Hf. apply F1 in Hf as (j & sf & o & a & N & S & L & ->). exists j, sf, o. cbn. conj; auto; [now exists ln|]. apply zero_field_model. }
    clear M F1. induction fs as [|f r IHr].
    - exists O, []. reflexivity.
    - destruct IHr as (n & l & E); [intros; apply Hsub; now right|].
      destruct (Hsub f (or_introl eq_refl)) as (j & sf & o & N & Tg & C & A1 & A2 & A3).
      assert (Psf : P (sf_type sf)).
      { pose proof (HK t Ht) as K. unfold supported_kind in K. rewrite U in K. destruct K as [K1 _].
        destruct (K1 sf (nth_error_In _ _ N)) as [(o' & Tg' & Ps)|(o' & Ig)]; [exact Ps|].
        unfold tagged in Tg. rewrite Ig in Tg. discriminate. }
      assert (W : (wire_type (f_fncs f) =? T_Stop) = false) by (apply Z.eqb_neq; apply (kind_wire _ (sf_type sf)); auto).
      destruct (nth_error vs j) as [v|] eqn:Nv.
      2:{ exfalso. apply nth_error_None in Nv. rewrite (Forall2_len _ _ _ Hty) in Nv.
          assert (j < length (te_struct env s))%nat by (apply nth_error_Some; congruence). lia. }
      destruct (negb (f_required f) && field_zero env f v) eqn:Z.
      + exists n, l. intros m ln' Hm Hl. cbn [image_fields]. rewrite W, A1, Nv, Z. auto.
      + assert (Wr : written env sf v).
        { exists o. split; [exact Tg|]. rewrite A2, A3 in Z. destruct (fo_required o), (zero_field env sf v); auto; discriminate. }
        destruct (imaged_at _ _ (HI j sf v (f_fncs f) N Nv Psf C Wr)) as (n' & tv & E').
        exists (n + n')%nat, ((f_id f, tv) :: l). intros m ln' Hm Hl. cbn [image_fields]. rewrite W, A1, Nv, Z.
        rewrite E' by lia. rewrite E by lia. reflexivity. }
  destruct G as (n & l & E). exists (S (n + ln)), (VStruct l). cbn [image].
  rewrite (make_fields_more ln (S (n + ln)) _ _ ltac:(lia) M), E by lia. reflexivity.
Qed.

Lemma kind_zero t : Acc demand t -> P t -> forall a, codec env t a -> imaged a (zero env t).
Proof using HK HE Henv.
  intros A. induction A as [t _ IH]. intros Ht a Hc.
  pose proof (codec_inv env _ _ Hc) as Hi. pose proof (zero_eq env Henv t) as Hz.
  pose proof (HK t Ht) as K. unfold supported_kind in K.
  destruct a as [t'|t'|t' single|t' w|t' w|t'|t'|t'|t'|t' ka va|t' set ea|t' ea].
  - exfalso. now apply (kind_wire (AInvalid t') t Ht Hc).
  - destruct Hi as [-> U]. rewrite Hz, U. exists 1%nat. eexists. reflexivity.
  - destruct Hi as [-> U]. rewrite Hz, U. exists 1%nat. destruct single; eexists; reflexivity.
  - destruct Hi as [-> U]. rewrite Hz, U. exists 1%nat. destruct w; eexists; reflexivity.
  - destruct Hi as [-> U]. rewrite Hz, U. exists 1%nat. destruct w; eexists; reflexivity.
  - destruct Hi as [-> U]. rewrite Hz, U. exists 1%nat. eexists; reflexivity.
  - destruct Hi as (-> & U & B). rewrite Hz, U, B. exists 1%nat. eexists; reflexivity.
  - destruct Hi as (-> & U). rewrite Hz, U. exists 1%nat. eexists; reflexivity.
  - destruct Hi as (-> & s & U). pose proof (zero_typed env Henv t) as Hty. rewrite Hz, U in Hty. rewrite Hz, U.
    apply (kind_struct t s); auto. intros i sf v a N Nv Ps C W.
    rewrite nth_error_map, N in Nv. injection Nv as <-. apply IH; auto.
    unfold demand. rewrite U. exists sf. conj; auto. eapply nth_error_In; eauto.
  - destruct Hi as (-> & kt & e & U & Hka & Hva). rewrite U in K. destruct K as [Pk Pe]. rewrite Hz, U. exists 1%nat.
    cbn [image]. assert (X : (wire_type ka =? T_Stop) = false) by (apply Z.eqb_neq; now apply (kind_wire _ kt)).
    assert (Y : (wire_type va =? T_Stop) = false) by (apply Z.eqb_neq; now apply (kind_wire _ e)).
    rewrite X, Y. eexists; reflexivity.
  - destruct Hi as (-> & e & U & B & Hea & Hset). rewrite U in K. destruct K as [K|Pe]; [congruence|]. rewrite Hz, U, B. exists 1%nat.
    cbn [image]. assert (X : (wire_type ea =? T_Stop) = false) by (apply Z.eqb_neq; now apply (kind_wire _ e)).
    rewrite X. eexists; reflexivity.
  - destruct Hi as (-> & e & U & Hea). rewrite U in K. rewrite Hz, U.
    destruct (IH e) with (a := ea) as (n & tv & E); auto.
    { unfold demand. now rewrite U. }
    exists (S n), tv. cbn [image]. unfold elem_type. rewrite U. eapply image_more; [| |exact E]; lia.
Qed.

End Kinds.

Context (P : rtype -> Prop).
Hypothesis HP : supported P.
Lemma supported_wire a t : P t -> codec env t a -> wire_type a <> T_Stop.
Proof using HP. exact (kind_wire P (sup_kind P HP) a t). Qed.
Hypothesis Henv : env_ok env.
Lemma supported_table t s : P t -> under env t = RtStruct s -> exists ln fs, make_struct_fields env ln t = Some (inl fs).
Proof using HP Henv. exact (kind_table P (sup_kind P HP) (sup_eager P HP) Henv t s). Qed.
Lemma image_struct t s vs : P t -> under env t = RtStruct s -> has_type env (GStruct vs) t ->
  (forall i sf v a, nth_error (te_struct env s) i = Some sf -> nth_error vs i = Some v -> P (sf_type sf) ->
     codec env (sf_type sf) a -> written env sf v -> imaged a v) ->
  imaged (AStruct t) (GStruct vs).
Proof using HP Henv. exact (kind_struct P (sup_kind P HP) (sup_eager P HP) Henv t s vs). Qed.

Lemma image_zero t : P t -> forall a, codec env t a -> imaged a (zero env t).
Proof using HP Henv. intros Pt. exact (kind_zero P (sup_kind P HP) (sup_eager P HP) Henv t (sup_demand P HP t Pt) Pt). Qed.

Theorem image_total v : forall t a, P t -> codec env t a -> has_type env v t -> imaged a v.
Proof using HP Henv.
  induction v as [b|z|z|z|z|nl x sp|u|es IH|nl es sp IH IH2| |es IH| |v IH|vs IH|k] using gval_ind';
    intros t a Ht Hc Hty; pose proof (codec_inv env _ _ Hc) as Hi; pose proof (sup_kind _ HP t Ht) as K; unfold supported_kind in K;
    pose proof (supported_wire a t Ht Hc) as Hw;
    destruct a as [t'|t'|t' single|t' w|t' w|t'|t'|t'|t'|t' ka va|t' set ea|t' ea]; try (now elim Hw);
    try (destruct Hi as [-> U]; cbn [has_type] in Hty; rewrite U in Hty;
         first [contradiction | destruct w; contradiction | destruct single; contradiction
               | exists 1%nat; eexists; reflexivity | destruct w; exists 1%nat; eexists; reflexivity
               | destruct single; [exists 1%nat; eexists; reflexivity|contradiction]
               | destruct single; [contradiction|exists 1%nat; eexists; reflexivity]]; fail);
    try (destruct Hi as (-> & U & B); cbn [has_type] in Hty; rewrite U in Hty; contradiction);
    try (destruct Hi as (-> & s & U); cbn [has_type] in Hty; rewrite U in Hty; contradiction);
    try (destruct Hi as (-> & s & U & _); cbn [has_type] in Hty; rewrite U in Hty; contradiction);
    try (destruct Hi as (-> & s & e & U & _); cbn [has_type] in Hty; rewrite U in Hty; contradiction).
  - destruct Hi as (-> & U & B). exists 1%nat. eexists; reflexivity.
  - destruct Hi as (-> & e & U & B & _). cbn [has_type] in Hty. rewrite U in Hty. destruct Hty as [Hty _]. congruence.
  - destruct Hi as (-> & U). exfalso. cbn [has_type] in Hty. rewrite U in Hty. destruct Hty as [Hty _]. now apply Hty.
  - destruct Hi as (-> & U & B). exfalso. cbn [has_type] in Hty. rewrite U in Hty. destruct Hty as [Hty _]. congruence.
  - destruct Hi as (-> & e & U & B & Hea & Hset). rewrite U in K. destruct K as [K|Pe]; [congruence|].
    apply type_slice in Hty as (e' & U' & _ & _ & Hty & _). rewrite U in U'. injection U' as <-.
    assert (G : exists n l, forall m ln', (n <= m)%nat -> (n <= ln')%nat -> image_elems (image env ln' m) ea es = Some l).
    { clear IH2. induction es as [|v r IHr]; [exists O, []; reflexivity|].
      inversion_clear IH as [|? ? IHv IHl]. inversion_clear Hty as [|? ? Hv Hl].
      destruct (IHr IHl Hl) as (n & l & E). destruct (imaged_at _ _ (IHv e ea Pe Hea Hv)) as (n' & tv & E').
      exists (n + n')%nat, (tv :: l). intros m ln' Hm Hln. cbn [image_elems]. now rewrite E', E by lia. }
    destruct G as (n & l & E). exists (S n). cbn [image]. rewrite E by lia.
    assert (X : (wire_type ea =? T_Stop) = false) by (apply Z.eqb_neq; now apply (supported_wire _ e)).
    rewrite X. eexists; reflexivity.
  - destruct Hi as (-> & kt & e & U & Hka & Hva). rewrite U in K. destruct K as [Pk Pe]. exists 1%nat.
    cbn [image]. assert (X : (wire_type ka =? T_Stop) = false) by (apply Z.eqb_neq; now apply (supported_wire _ kt)).
    assert (Y : (wire_type va =? T_Stop) = false) by (apply Z.eqb_neq; now apply (supported_wire _ e)).
    rewrite X, Y. eexists; reflexivity.
  - destruct Hi as (-> & kt & e & U & Hka & Hva). rewrite U in K. destruct K as [Pk Pe].
    apply type_map in Hty as (k' & e' & U' & Hty). rewrite U in U'. injection U' as <- <-.
    assert (G : exists n l, forall m ln', (n <= m)%nat -> (n <= ln')%nat -> image_entries (image env ln' m) ka va es = Some l).
    { induction es as [|[k v] r IHr]; [exists O, []; reflexivity|].
      inversion_clear IH as [|? ? IHv IHl]. inversion_clear Hty as [|? ? Hv Hl]. cbn [fst snd] in *.
      destruct IHv as [IH1 IH2]. destruct Hv as [Hv1 Hv2].
      destruct (IHr IHl Hl) as (n & l & E). destruct (imaged_at _ _ (IH1 kt ka Pk Hka Hv1)) as (n1 & tk & E1).
      destruct (imaged_at _ _ (IH2 e va Pe Hva Hv2)) as (n2 & tv & E2).
      exists (n + n1 + n2)%nat, ((tk, tv) :: l). intros m ln' Hm Hln. cbn [image_entries]. now rewrite E1, E2, E by lia. }
    destruct G as (n & l & E). exists (S n). cbn [image]. rewrite E by lia.
    assert (X : (wire_type ka =? T_Stop) = false) by (apply Z.eqb_neq; now apply (supported_wire _ kt)).
    assert (Y : (wire_type va =? T_Stop) = false) by (apply Z.eqb_neq; now apply (supported_wire _ e)).
    rewrite X, Y. eexists; reflexivity.
  - destruct Hi as (-> & e & U & Hea). rewrite U in K.
    destruct (imaged_at _ _ (image_zero e K ea Hea)) as (n & tv & E). exists (S n), tv. cbn [image]. unfold elem_type.
    rewrite U. apply E; lia.
  - destruct Hi as (-> & e & U & Hea). rewrite U in K. cbn [has_type] in Hty. rewrite U in Hty.
    destruct (imaged_at _ _ (IH e ea K Hea Hty)) as (n & tv & E). exists (S n), tv. cbn [image]. apply E; lia.
  - destruct Hi as (-> & s & U). apply (image_struct t s); auto. intros i sf v a N Nv Ps C W.
    apply type_struct in Hty as (s' & U' & Hty). rewrite U in U'. injection U' as <-.
    rewrite Forall_forall in IH. apply (IH v) with (t := sf_type sf); auto; [eapply nth_error_In; eauto|].
    clear -Hty N Nv. revert i N Nv. induction Hty as [|x y l m Hx Hl IHl]; intros [|i] N Nv; try discriminate.
    + injection N as <-. injection Nv as <-. exact Hx.
    + eapply IHl; eauto.
Qed.
End Total.
