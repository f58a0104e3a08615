(** Facts about codec lookup and field tables. *)
From Coq Require Import Sorting.Permutation.
From Verif Require Import Base BaseLemmas Prog Wire GoFloat Utf8 GoType Fields Arshal ArshalSpec GoTypeProof.

Section Env.
Context (env : tenv).

(** [a] is the codec of type [t]. *)
Definition codec (t : rtype) (a : arsh) : Prop := exists n, lookup env n t = Some a.

Lemma lookup_more n : forall m t a, (n <= m)%nat -> lookup env n t = Some a -> lookup env m t = Some a.
Proof.
  induction n as [|n IH]; intros m t a Hm H; [discriminate|].
  destruct m as [|m]; [lia|]. cbn [lookup] in *.
  assert (R : forall e b, lookup env n e = Some b -> lookup env m e = Some b) by (intros; apply IH; auto; lia).
  destruct (under env t) as [| | | | | | | | | | | | | | | | | | | | |e|k e|kt e|e|sid|id]; auto.
  - destruct (implements_set env t), (implements_list env t), (as_bytes env t); auto;
      destruct (lookup env n e) eqn:E; try discriminate; rewrite (R _ _ E); auto.
  - destruct (lookup env n kt) eqn:E1; try discriminate.
    destruct (lookup env n e) eqn:E2; try discriminate. rewrite (R _ _ E1), (R _ _ E2). auto.
  - destruct (lookup env n e) eqn:E; try discriminate. rewrite (R _ _ E); auto.
Qed.

Lemma codec_fun t a b : codec t a -> codec t b -> a = b.
Proof.
  intros [n Hn] [m Hm]. apply (lookup_more n (n + m)) in Hn; [|lia].
  apply (lookup_more m (n + m)) in Hm; [|lia]. congruence.
Qed.

Definition width_int (w : width) : rtype :=
  match w with W8 => RtInt8 | W16 => RtInt16 | W32 => RtInt32 | W64 => RtInt64 end.
Definition width_uint (w : width) : rtype :=
  match w with W8 => RtUint8 | W16 => RtUint16 | W32 => RtUint32 | W64 => RtUint64 end.

(** What the codec of a type tells about the type. *)
Lemma codec_inv t a : codec t a ->
  match a with
  | AInvalid t' => t' = t
  | ABool t' => t' = t /\ under env t = RtBool
  | ADouble t' single => t' = t /\ under env t = if single then RtFloat32 else RtFloat64
  | AInt t' w => t' = t /\ under env t = width_int w
  | AUint t' w => t' = t /\ under env t = width_uint w
  | AString t' => t' = t /\ under env t = RtString
  | ABytes t' => t' = t /\ under env t = RtSlice RtUint8 /\ as_bytes env t = true
  | AUUID t' => t' = t /\ under env t = RtArray 16 RtUint8
  | AStruct t' => t' = t /\ exists s, under env t = RtStruct s
  | AMap t' ka va => t' = t /\ exists k e, under env t = RtMap k e /\ codec k ka /\ codec e va
  | ASeq t' set ea => t' = t /\ exists e, under env t = RtSlice e /\ as_bytes env t = false /\
      codec e ea /\ set = implements_set env t
  | APtr t' ea => t' = t /\ exists e, under env t = RtPtr e /\ codec e ea
  end.
Proof.
  intros [n H]. destruct n as [|n]; [discriminate|]. cbn [lookup] in H.
  destruct (under env t) as [| | | | | | | | | | | | | | | | | | | | |e|k e|kt e|e|sid|id] eqn:U;
    try (injection H as <-; cbn; eauto; fail).
  - assert (B : as_bytes env t = true -> e = RtUint8 /\ implements_set env t = false /\ implements_list env t = false).
    { unfold as_bytes. rewrite U. destruct e; try discriminate.
      destruct (implements_set env t), (implements_list env t); cbn; auto; discriminate. }
    destruct (implements_set env t) eqn:S1.
    + destruct (lookup env n e) as [b|] eqn:E; [|discriminate]. injection H as <-. split; [reflexivity|].
      exists e. conj; auto; [|now exists n]. destruct (as_bytes env t); auto. destruct B as (_ & H & _); auto; discriminate.
    + destruct (implements_list env t) eqn:S2.
      * destruct (lookup env n e) as [b|] eqn:E; [|discriminate]. injection H as <-. split; [reflexivity|].
        exists e. conj; auto; [|now exists n]. destruct (as_bytes env t); auto. destruct B as (_ & _ & H); auto; discriminate.
      * destruct (as_bytes env t) eqn:AB.
        -- injection H as <-. destruct B as (-> & _); auto.
        -- destruct (lookup env n e) as [b|] eqn:E; [|discriminate]. injection H as <-.
           split; [reflexivity|]. exists e. conj; auto. now exists n.
  - assert (A : k = 16 -> e = RtUint8 -> a = AUUID t \/ a = AInvalid t).
    { intros -> ->. destruct t; injection H as <-; auto. }
    assert (C : a = AInvalid t \/ (k = 16 /\ e = RtUint8 /\ a = AUUID t)).
    { destruct (Z.eq_dec k 16) as [->|Hk].
      - destruct e; try (injection H as <-; auto; fail). destruct A as [->| ->]; auto.
      - left. destruct k as [|p|p]; try (now injection H).
        do 5 (try (destruct p as [p|p|]; try (now injection H))). now elim Hk. }
    destruct C as [->|(-> & -> & ->)]; auto.
  - destruct (lookup env n kt) as [ka|] eqn:E1; [|discriminate].
    destruct (lookup env n e) as [ea|] eqn:E2; [|discriminate]. injection H as <-.
    split; [reflexivity|]. exists kt, e. conj; auto; now exists n.
  - destruct (lookup env n e) as [ea|] eqn:E2; [|discriminate]. injection H as <-.
    split; [reflexivity|]. exists e. conj; auto; now exists n.
Qed.

(** ** Field tables *)

(** The [i]-th Go field is serialised, under the options [o]. *)
Definition serialised (sf : sfield) (o : fieldOptions) : Prop :=
  parse_field_options (te_uni env) sf = (o, false, None).

Lemma collect_spec ln t fs : forall i l, collect_fields env ln t i fs = Some (inl l) ->
  (forall f, In f l <-> exists j sf o a, nth_error fs j = Some sf /\ serialised sf o /\
     lookup env ln (sf_type sf) = Some a /\
     f = mkField (i + j) (sf_type sf) a (field_is_zero env (sf_type sf)) (fo_id o) (fo_name o) (fo_required o)) /\
  (forall j sf, nth_error fs j = Some sf -> snd (parse_field_options (te_uni env) sf) = None) /\
  (forall j sf o, nth_error fs j = Some sf -> serialised sf o -> exists a, lookup env ln (sf_type sf) = Some a) /\
  (forall f, In f l -> (i <= f_index f)%nat) /\ NoDup (map f_index l).
Proof.
  induction fs as [|sf r IH]; intros i l H; cbn [collect_fields] in H.
  - injection H as <-. cbn. conj.
    + intros f. split; [intros []|]. intros ([|j] & sf & o & a & E & _); discriminate.
    + intros [|j] sf E; discriminate.
    + intros [|j] sf o E; discriminate.
    + intros f [].
    + constructor.
  - destruct (parse_field_options (te_uni env) sf) as [[o ig] e] eqn:P.
    destruct e as [e|]; [destruct ig; discriminate|]. destruct ig.
    + destruct (IH _ _ H) as (H1 & H2 & H3 & H4 & H5). conj.
      * intros f. rewrite H1. split.
        -- intros (j & sf' & o' & a & E & Sr & L & ->). exists (S j), sf', o', a. conj; auto.
           f_equal; lia.
        -- intros ([|j] & sf' & o' & a & E & Sr & L & ->); cbn in E.
           ++ injection E as <-. unfold serialised in Sr. rewrite P in Sr. discriminate.
           ++ exists j, sf', o', a. conj; auto. f_equal; lia.
      * intros [|j] sf' E; cbn in E; [injection E as <-; now rewrite P|eauto].
      * intros [|j] sf' o' E Sr; cbn in E; [injection E as <-|eauto]. unfold serialised in Sr. rewrite P in Sr. discriminate.
      * intros f Hf. apply H4 in Hf. lia.
      * exact H5.
    + destruct (lookup env ln (sf_type sf)) as [a|] eqn:L; [|discriminate].
      destruct (collect_fields env ln t (S i) r) as [[l'|]|] eqn:C; try discriminate. injection H as <-.
      destruct (IH _ _ C) as (H1 & H2 & H3 & H4 & H5). conj.
      * intros f. cbn [In]. rewrite H1. split.
        -- intros [<-|(j & sf' & o' & a' & E & Sr & L' & ->)].
           ++ exists O, sf, o, a. conj; auto. f_equal; lia.
           ++ exists (S j), sf', o', a'. conj; auto. f_equal; lia.
        -- intros ([|j] & sf' & o' & a' & E & Sr & L' & ->); cbn in E.
           ++ injection E as <-. unfold serialised in Sr. rewrite P in Sr. injection Sr as <-.
              left. rewrite L in L'. injection L' as <-. f_equal; lia.
           ++ right. exists j, sf', o', a'. conj; auto. f_equal; lia.
      * intros [|j] sf' E; cbn in E; [injection E as <-; now rewrite P|eauto].
      * intros [|j] sf' o' E Sr; cbn in E; [injection E as <-; eauto|eauto].
      * intros f [<-|Hf]; cbn; [lia|]. apply H4 in Hf. lia.
      * cbn. constructor; [|exact H5]. intros Hin. apply in_map_iff in Hin as (f & E & Hf).
        apply H4 in Hf. lia.
Qed.

Hypothesis Henv : env_ok env.

Lemma fields_inl ln t fs : make_struct_fields env ln t = Some (inl fs) ->
  exists l, collect_fields env ln t 0 (struct_def env t) = Some (inl l) /\ fs = te_sort env l.
Proof.
  unfold make_struct_fields. intros H.
  destruct (collect_fields env ln t 0 (struct_def env t)) as [[l|]|]; try discriminate.
  exists l. split; [reflexivity|]. destruct (struct_def env t), l; try (now injection H).
  destruct (existsb _ _); [now injection H|discriminate].
Qed.

(** The table of a struct type: exactly its serialised fields, in id order. *)
Lemma fields_spec ln t fs : make_struct_fields env ln t = Some (inl fs) ->
  (forall f, In f fs <-> exists j sf o a, nth_error (struct_def env t) j = Some sf /\ serialised sf o /\
     lookup env ln (sf_type sf) = Some a /\
     f = mkField j (sf_type sf) a (field_is_zero env (sf_type sf)) (fo_id o) (fo_name o) (fo_required o)) /\
  NoDup (map f_index fs) /\ sorted_by_id fs.
Proof using Henv.
  intros H. destruct (fields_inl _ _ _ H) as (l & C & ->).
  destruct (collect_spec _ _ _ _ _ C) as (H1 & _ & _ & _ & H5).
  pose proof (ok_sort_perm _ Henv l) as P. conj.
  - intros f. rewrite <- H1. split; intros Hf.
    + now apply (Permutation_in f (Permutation_sym P)).
    + now apply (Permutation_in f P).
  - apply (Permutation_NoDup (Permutation_map f_index P)). exact H5.
  - apply ok_sort. exact Henv.
Qed.
End Env.

(** The isZero function of a field is as [zero_field] says. *)
Lemma zero_field_model env sf v :
  match field_is_zero env (sf_type sf) with None => is_zero env false v | Some z => z v end = zero_field env sf v.
Proof.
  unfold field_is_zero, zero_field, nil_ref.
  destruct (under env (sf_type sf)), (te_iszero env (sf_type sf)), (te_iszero env (RtPtr (sf_type sf))); try reflexivity;
    destruct v as [| | | | | | | | | |[]| |[]]; reflexivity.
Qed.
