(** Facts about Go types, values and codecs. *)
From Coq Require Import Sorting.Permutation.
From Verif Require Import Base BaseLemmas Prog Wire GoFloat Utf8 GoType Fields Arshal.

(** ** Small list facts *)
Lemma set_nth_length {A} (x : A) l : forall i, length (set_nth i x l) = length l.
Proof. induction l as [|y r IH]; intros [|i]; cbn; auto. Qed.
Lemma set_nth_same {A} (x : A) l : forall i, (i < length l)%nat -> nth_error (set_nth i x l) i = Some x.
Proof. induction l as [|y r IH]; intros [|i] H; cbn in *; try lia; auto. apply IH; lia. Qed.
Lemma set_nth_other {A} (x : A) l : forall i j, i <> j -> nth_error (set_nth i x l) j = nth_error l j.
Proof. induction l as [|y r IH]; intros [|i] [|j] H; cbn in *; try lia; auto. Qed.

Lemma nth_error_repeat_lt {A} (x : A) n : forall i, (i < n)%nat -> nth_error (repeat x n) i = Some x.
Proof. induction n as [|n IH]; intros [|i] H; cbn; try lia; auto. apply IH; lia. Qed.

Lemma bytes_eqb_eq a : forall b, bytes_eqb a b = true <-> a = b.
Proof.
  induction a as [|x r IH]; intros [|y s]; cbn; split; intros H; try discriminate; auto.
  - apply andb_prop in H as [H1 H2]. apply Z.eqb_eq in H1. apply IH in H2. f_equal; auto.
    now rewrite <- (z2b_b2z x), <- (z2b_b2z y), H1.
  - injection H as -> ->. rewrite Z.eqb_refl. now apply IH.
Qed.

Section Env.
Context (env : tenv).
Hypothesis Henv : env_ok env.

Lemma under_idem t : under env (under env t) = under env t.
Proof using Henv.
  destruct t; try reflexivity. cbn. destruct (nd_under (te_named env id)) eqn:E; try reflexivity.
  exfalso. exact (ok_under _ Henv _ _ E).
Qed.

(** ** Zero values *)
Lemma zero_n_enough n : forall m t, (te_rank env t < n)%nat -> (te_rank env t < m)%nat ->
  zero_n env n t = zero_n env m t.
Proof using Henv.
  induction n as [|n IH]; intros m t Hn Hm; [lia|]. destruct m as [|m]; [lia|].
  cbn [zero_n]. destruct (under env t) eqn:U; try reflexivity.
  - assert (E : forall k e, under env t = RtArray k e -> zero_n env n e = zero_n env m e).
    { intros k e H. pose proof (ok_array_rank _ Henv _ _ _ H). apply IH; lia. }
    rewrite (E _ _ U). reflexivity.
  - f_equal. apply map_ext_in. intros f Hf.
    pose proof (ok_struct_rank _ Henv _ _ _ U Hf). apply IH; lia.
Qed.

Lemma zero_n_zero n t : (te_rank env t < n)%nat -> zero_n env n t = zero env t.
Proof using Henv. intros H. apply zero_n_enough; lia. Qed.

Lemma zero_eq t : zero env t =
  match under env t with
  | RtBool => GBool false
  | RtInt | RtInt8 | RtInt16 | RtInt32 | RtInt64
  | RtUint | RtUint8 | RtUint16 | RtUint32 | RtUint64 | RtUintptr => GInt 0
  | RtFloat32 => GF32 0
  | RtFloat64 => GF64 0
  | RtString => GString []
  | RtSlice _ => if as_bytes env t then GBytes true [] [] else GSlice true [] []
  | RtArray 16 RtUint8 => GUUID zero_uuid
  | RtArray k e => GArray (repeat (zero env e) (Z.to_nat k))
  | RtMap _ _ => GMap None
  | RtPtr _ => GPtr None
  | RtStruct s => GStruct (map (fun f => zero env (sf_type f)) (te_struct env s))
  | RtComplex64 | RtComplex128 | RtUnsafePointer | RtChan | RtFunc | RtInterface
  | RtNamed _ => GOther 0
  end.
Proof using Henv.
  unfold zero at 1. cbn [zero_n]. destruct (under env t) eqn:U; try reflexivity.
  - pose proof (ok_array_rank _ Henv _ _ _ U) as H.
    rewrite (zero_n_zero _ _ H). reflexivity.
  - f_equal. apply map_ext_in. intros f Hf. apply zero_n_zero.
    exact (ok_struct_rank _ Henv _ _ _ U Hf).
Qed.

(** ** Typing of the composite values *)
Definition all_typed (e : rtype) :=
  fix all (l : list gval) : Prop := match l with [] => True | v :: r => has_type env v e /\ all r end.
Definition all_entries (kt vt : rtype) :=
  fix all (l : list (gval * gval)) : Prop :=
    match l with
    | [] => True
    | (k, v) :: r => (has_type env k kt /\ has_type env v vt) /\ all r
    end.
Definition all_fields := fix all (l : list gval) (fs : list sfield) : Prop :=
  match l, fs with
  | [], [] => True
  | v :: r, f :: fr => has_type env v (sf_type f) /\ all r fr
  | _, _ => False
  end.

Lemma all_typed_Forall e l : all_typed e l <-> Forall (fun v => has_type env v e) l.
Proof.
  induction l as [|v r IH]; cbn; split; intros H; auto.
  - destruct H. constructor; tauto.
  - inversion H; subst. tauto.
Qed.
Lemma all_entries_Forall k e l :
  all_entries k e l <-> Forall (fun p => has_type env (fst p) k /\ has_type env (snd p) e) l.
Proof.
  induction l as [|[a b] r IH]; cbn; split; intros H; auto.
  - destruct H. constructor; tauto.
  - inversion H; subst. tauto.
Qed.
Lemma all_fields_Forall2 vs fs :
  all_fields vs fs <-> Forall2 (fun v f => has_type env v (sf_type f)) vs fs.
Proof.
  revert fs; induction vs as [|v r IH]; intros [|f fr]; cbn; split; intros H; auto; try tauto; try (now inversion H).
  - destruct H. constructor; [tauto|]. now apply IH.
  - inversion H; subst. split; [auto|]. now apply IH.
Qed.

Lemma type_slice nl es sp t : has_type env (GSlice nl es sp) t <->
  exists e, under env t = RtSlice e /\ as_bytes env t = false /\ (nl = true -> es = [] /\ sp = []) /\
    Forall (fun v => has_type env v e) es /\ Forall (fun v => has_type env v e) sp.
Proof.
  cbn [has_type]. destruct (under env t) as [| | | | | | | | | | | | | | | | | | | | |e| | | | |];
    split; try tauto; try (intros (e0 & H & _); discriminate).
  - intros (H1 & H2 & H3 & H4). exists e. change (all_typed e es) in H3. change (all_typed e sp) in H4.
    rewrite all_typed_Forall in H3, H4. auto.
  - intros (e0 & H & H1 & H2 & H3 & H4). injection H as <-.
    rewrite <- all_typed_Forall in H3, H4. auto.
Qed.
Lemma type_map es t : has_type env (GMap (Some es)) t <->
  exists k e, under env t = RtMap k e /\
    Forall (fun p => has_type env (fst p) k /\ has_type env (snd p) e) es.
Proof.
  cbn [has_type]. destruct (under env t) as [| | | | | | | | | | | | | | | | | | | | | | |k e| | |];
    split; try tauto; try (intros (k0 & e0 & H & _); discriminate).
  - intros H. change (all_entries k e es) in H. rewrite all_entries_Forall in H. eauto.
  - intros (k0 & e0 & H & H1). injection H as <- <-. rewrite <- all_entries_Forall in H1. exact H1.
Qed.
Lemma type_struct vs t : has_type env (GStruct vs) t <->
  exists s, under env t = RtStruct s /\
    Forall2 (fun v f => has_type env v (sf_type f)) vs (te_struct env s).
Proof.
  cbn [has_type]. destruct (under env t) as [| | | | | | | | | | | | | | | | | | | | | | | | |s|];
    split; try tauto; try (intros (s0 & H & _); discriminate).
  - intros H. change (all_fields vs (te_struct env s)) in H. rewrite all_fields_Forall2 in H. eauto.
  - intros (s0 & H & H1). injection H as <-. rewrite <- all_fields_Forall2 in H1. exact H1.
Qed.
Lemma type_array es t : has_type env (GArray es) t <->
  exists k e, under env t = RtArray k e /\ under env t <> RtArray 16 RtUint8 /\ length es = Z.to_nat k /\
    Forall (fun v => has_type env v e) es.
Proof.
  cbn [has_type]. destruct (under env t) as [| | | | | | | | | | | | | | | | | | | | | |k e| | | |];
    split; try tauto; try (intros (k0 & e0 & H & _); discriminate).
  - intros (H1 & H2 & H). change (all_typed e es) in H. rewrite all_typed_Forall in H. eauto 10.
  - intros (k0 & e0 & H & H1 & H2 & H3). injection H as <- <-. rewrite <- all_typed_Forall in H3. auto.
Qed.

Lemma zero_typed_n n : forall t, (te_rank env t < n)%nat -> has_type env (zero env t) t.
Proof using Henv.
  induction n as [|n IH]; intros t Hn; [lia|]. rewrite zero_eq.
  destruct (under env t) as [| | | | | | | | | | | | | | | | | | | | |elem|k elem|kt elem|elem|sid|id] eqn:U;
    try (cbn [has_type]; rewrite U;
         first [exact I | unfold is_i8, is_i16, is_i32, is_i64, is_u8, is_u16, is_u32, is_u64; lia]; fail).
  - destruct (as_bytes env t) eqn:B.
    + cbn [has_type]; rewrite U; auto.
    + apply type_slice. exists elem. auto 10.
  - assert (A : under env t <> RtArray 16 RtUint8 -> has_type env (GArray (repeat (zero env elem) (Z.to_nat k))) t).
    { intros H. apply type_array. exists k, elem. rewrite repeat_length. conj; auto.
      apply Forall_forall. intros v Hv. apply repeat_spec in Hv. subst v. apply IH.
      pose proof (ok_array_rank _ Henv _ _ _ U). lia. }
    destruct k as [|p|p];
      try (apply A; rewrite U; discriminate).
    do 5 (try (destruct p as [p|p|]; try (apply A; rewrite U; discriminate))).
    destruct elem; try (apply A; rewrite U; discriminate).
    cbn [has_type]. rewrite U. reflexivity.
  - apply type_struct. exists sid. split; [exact U|].
    assert (R : forall f, In f (te_struct env sid) -> (te_rank env (sf_type f) < n)%nat).
    { intros f Hf. pose proof (ok_struct_rank _ Henv _ _ _ U Hf). lia. }
    induction (te_struct env sid) as [|f r IHr]; cbn; constructor.
    + apply IH, R. now left.
    + apply IHr. intros g Hg. apply R. now right.
  - exfalso. pose proof (under_idem t) as H. rewrite U in H. cbn in H.
    rewrite <- U in H. destruct t; try discriminate. cbn in U. exact (ok_under _ Henv _ _ U).
Qed.

Lemma zero_typed t : has_type env (zero env t) t.
Proof using Henv. apply (zero_typed_n (S (te_rank env t))). lia. Qed.
End Env.
