(** What Unmarshal makes of a value delivered by any Reader: it always comes to
    something; unknown fields, field order, old contents. *)
From Coq Require Import Strings.String Sorting.Permutation Sorting.Sorted.
From Verif Require Import Base BaseLemmas Prog Bufio BufioProof GoBinary Wire WireProof Binary BinaryProof Compact CompactProof
  Spec Clients Fuel Reads Layers Robust
  GoFloat Utf8 GoType Fields Arshal GoTypeProof FieldsProof ArshalSpec ArshalEnc ArshalDec ArshalTrip ArshalTotal
  ArshalThms ArshalSafe ArshalInput ArshalReads.

(** ** A Reader that delivers a given value *)
Inductive tok := KV (v : tval) | KF (h : fhdr) | KM (h : maphdr) | KS (h : sethdr).

Definition script_h : handler wireR (list tok) :=
  fun X e s =>
    match e in wireR X return outcome (list tok) X with
    | RMessageBegin => Crashed Blocked
    | RStructBegin => Done s ([], None)
    | RMessageEnd | RStructEnd | RFieldEnd | RMapEnd | RSetEnd | RListEnd => Done s None
    | RFieldBegin => match s with KF h :: r => Done r (h, None) | _ => Crashed Blocked end
    | RMapBegin => match s with KM h :: r => Done r (h, None) | _ => Crashed Blocked end
    | RSetBegin | RListBegin => match s with KS h :: r => Done r (h, None) | _ => Crashed Blocked end
    | RBool => match s with KV (VBool x) :: r => Done r (x, None) | _ => Crashed Blocked end
    | RByte => match s with KV (VByte x) :: r => Done r (x, None) | _ => Crashed Blocked end
    | RDouble => match s with KV (VDouble x) :: r => Done r (x, None) | _ => Crashed Blocked end
    | RI16 => match s with KV (VI16 x) :: r => Done r (x, None) | _ => Crashed Blocked end
    | RI32 => match s with KV (VI32 x) :: r => Done r (x, None) | _ => Crashed Blocked end
    | RI64 => match s with KV (VI64 x) :: r => Done r (x, None) | _ => Crashed Blocked end
    | RString => match s with KV (VString x) :: r => Done r (x, None) | _ => Crashed Blocked end
    | RBytes buf => match s with KV (VString x) :: r => Done r (buf ++ x, None) | _ => Crashed Blocked end
    | RUUID _ => match s with KV (VUUID x) :: r => Done r (x, None) | _ => Crashed Blocked end
    | RSkipString | RSkipUUID => match s with KV _ :: r => Done r None | _ => Crashed Blocked end
    end.

Fixpoint script (v : tval) : list tok :=
  match v with
  | VStruct fs => flat_map (fun f => let '(id, v) := f in KF (mkFH [] (val_type v) id) :: script v) fs ++ [KF (mkFH [] T_Stop 0)]
  | VMap kt vt es => KM (mkMapH kt vt (zlen es)) :: flat_map (fun e => let '(k, v) := e in script k ++ script v) es
  | VSet et es | VList et es => KS (mkSetH et (zlen es)) :: flat_map script es
  | _ => [KV v]
  end.

Lemma script_reads lim v : forall rest, wf lim v -> reads script_h v (script v ++ rest) rest.
Proof.
  induction v as [b|b|z|z|z|z|x|u|fs IH|kt vt es IH|et es IH|et es IH] using tval_ind';
    intros rest Hwf; cbn [reads script]; cbn [wf] in Hwf; try reflexivity.
  - conj; reflexivity.
  - split; reflexivity.
  - eexists _, _. split; [reflexivity|].
    change (reads_fields script_h rest fs ((flat_map (fun f => let '(id, v) := f in
       KF (mkFH [] (val_type v) id) :: script v) fs ++ [KF (mkFH [] T_Stop 0)]) ++ rest)).
    induction fs as [|[id v] r IHr]; cbn [reads_fields flat_map].
    + eexists _, _. cbn. conj; reflexivity.
    + inversion IH as [|? ? Hv Hr]; subst. cbn [snd] in Hv. destruct Hwf as ((Hid & Hwv) & Hwr).
      do 3 eexists. exists []. rewrite <- !app_assoc. cbn [app]. conj; [reflexivity| |reflexivity|].
      * apply Hv. exact Hwv.
      * specialize (IHr Hr Hwr). rewrite <- app_assoc in IHr. exact IHr.
  - destruct Hwf as (_ & _ & _ & Hes). eexists. split; [reflexivity|].
    change (reads_entries script_h kt vt rest es (flat_map (fun e => let '(k, v) := e in script k ++ script v) es ++ rest)).
    induction es as [|[k v] r IHr]; cbn [reads_entries flat_map]; [reflexivity|].
    inversion IH as [|? ? [Ik Iv] Hr]; subst. cbn [fst snd] in *.
    destruct Hes as ((Tk & Tv & Wk & Wv) & Hes). split; [exact Tk|]. split; [exact Tv|].
    do 2 eexists. rewrite <- !app_assoc. split; [apply Ik; exact Wk|]. split; [apply Iv; exact Wv|]. apply IHr; assumption.
  - destruct Hwf as (_ & _ & Hes). eexists. split; [reflexivity|].
    change (reads_elems script_h RSetEnd et rest es (flat_map script es ++ rest)).
    induction es as [|v r IHr]; cbn [reads_elems flat_map]; [reflexivity|].
    inversion IH as [|? ? Iv Hr]; subst. destruct Hes as ((Tv & Wv) & Hes). split; [exact Tv|].
    eexists. rewrite <- !app_assoc. split; [apply Iv; exact Wv|]. apply IHr; assumption.
  - destruct Hwf as (_ & _ & Hes). eexists. split; [reflexivity|].
    change (reads_elems script_h RListEnd et rest es (flat_map script es ++ rest)).
    induction es as [|v r IHr]; cbn [reads_elems flat_map]; [reflexivity|].
    inversion IH as [|? ? Iv Hr]; subst. destruct Hes as ((Tv & Wv) & Hes). split; [exact Tv|].
    eexists. rewrite <- !app_assoc. split; [apply Iv; exact Wv|]. apply IHr; assumption.
Qed.

Section Gives.
Context (env : tenv).

(** Unmarshal of [tv] into a pointer to [dst], of type [t], from any Reader that
    delivers [tv], stores [v] and returns [r]; if it returns nil it has read
    exactly [tv].  The wire type of [tv] is the one [t] asks for. *)
Definition gives (t : rtype) (dst : gval) (tv : tval) (v : gval) (r : option err) : Prop :=
  (exists a, codec env t a /\ wire_type a = val_type tv) /\
  exists N, forall n, (N <= n)%nat -> forall St (h : handler wireR St) s s', reads h tv s s' ->
    exists s'', run h (Unmarshal env n n (Some (RtPtr t, GPtr (Some dst)))) s = Done s'' (Some v, r) /\
                (r = None -> s'' = s').

(** It comes to this, for enough fuel. *)
Definition ev {A} (f : nat -> nat -> option A) (x : A) : Prop :=
  exists N, forall n ln, (N <= n)%nat -> (N <= ln)%nat -> f n ln = Some x.
Definition settled (a : arsh) (dst : gval) (tv : tval) (x : gval * option err) : Prop :=
  ev (fun n ln => decode env ln n a dst tv) x.

Lemma ev_fun {A} f (x y : A) : ev f x -> ev f y -> x = y.
Proof.
  intros (N & H) (M & G). specialize (H (N + M)%nat (N + M)%nat ltac:(lia) ltac:(lia)).
  rewrite G in H by lia. congruence.
Qed.

Lemma settled_gives t a dst tv v r : codec env t a -> wire_type a = val_type tv ->
  settled a dst tv (v, r) -> gives t dst tv v r.
Proof.
  intros [l C] W (N & H). split; [exists a; split; [now exists l|exact W]|].
  exists (N + l)%nat. intros n Hn St h s s' Hr.
  rewrite (Unmarshal_ptr env h n n t dst a s) by (apply (lookup_more env l n); [lia|exact C]).
  destruct (unmarshal_reads env n h n a dst tv (v, r) s s' (H n n ltac:(lia) ltac:(lia)) Hr) as (s'' & E & L).
  rewrite W, E. cbn. exists s''. split; [reflexivity|exact L].
Qed.

Context (P : rtype -> Prop) (Hcl : closed env P) (Henv : env_ok env).

Definition settles (t : rtype) (a : arsh) (dst : gval) (tv : tval) : Prop :=
  exists v r, settled a dst tv (v, r) /\ has_type env v t.

Lemma settles_now t a dst tv v r : has_type env v t ->
  (forall n ln, decode env ln (S n) a dst tv = Some (v, r)) -> settles t a dst tv.
Proof.
  intros H E. exists v, r. split; [|exact H]. exists 1%nat. intros [|n] ln Hn Hl; [lia|]. apply E.
Qed.

(** *** Structs *)
Lemma struct_table t s : P t -> under env t = RtStruct s ->
  (exists e N, forall ln, (N <= ln)%nat -> make_struct_fields env ln t = Some (inr e)) \/
  (exists fs N, (forall ln, (N <= ln)%nat -> make_struct_fields env ln t = Some (inl fs)) /\
     NoDup (map f_index fs) /\
     (forall f, In f fs -> exists sf o, nth_error (te_struct env s) (f_index f) = Some sf /\ tagged env sf o /\
        codec env (sf_type sf) (f_fncs f) /\ f_id f = fo_id o /\ P (sf_type sf)) /\
     (forall j sf o, nth_error (te_struct env s) j = Some sf -> tagged env sf o -> exists f, In f fs /\ f_index f = j /\ f_id f = fo_id o)).
Proof using Hcl Henv.
  intros Ht U. destruct (table_ends env P Hcl Henv t s Ht U) as (l0 & [fs|e] & M).
  2:{ left. exists e, l0. intros ln Hl. now rewrite (make_fields_more env l0 ln _ _ Hl M). }
  right. exists fs, l0. conj.
  - intros ln Hl. now rewrite (make_fields_more env l0 ln _ _ Hl M).
  - destruct (fields_spec env Henv l0 t fs M) as (_ & F2 & _). exact F2.
  - intros f Hf. destruct (fields_spec env Henv l0 t fs M) as (F1 & _ & _).
    assert (SD : struct_def env t = te_struct env s) by (unfold struct_def; now rewrite U). rewrite SD in F1.
    apply F1 in Hf as (j & sf & o & a & Nf & S & L & ->). exists sf, o. cbn. conj; auto; [now exists l0|].
    pose proof (cl_parts env P Hcl t Ht) as K. unfold parts in K. rewrite U in K. apply (K sf o); auto.
    eapply nth_error_In; eauto.
  - intros j sf o Nj Tg. destruct (fields_spec env Henv l0 t fs M) as (F1 & _ & _).
    assert (SD : struct_def env t = te_struct env s) by (unfold struct_def; now rewrite U). rewrite SD in F1.
    assert (L' : exists a', lookup env l0 (sf_type sf) = Some a').
    { clear -M SD Nj Tg. unfold make_struct_fields in M. rewrite SD in M.
      destruct (collect_fields env l0 t 0 (te_struct env s)) as [[l|e]|] eqn:C; try discriminate. clear M SD.
      revert Nj C. generalize 0%nat as i. generalize l. revert j. induction (te_struct env s) as [|x r IH]; intros j l1 i Nj C; [destruct j; discriminate|].
      cbn [collect_fields] in C. destruct (parse_field_options (te_uni env) x) as [[o' ig] [er|]] eqn:Pf; [destruct ig; discriminate|].
      destruct ig.
      - destruct j as [|j]; [|eapply IH; eauto]. injection Nj as ->. unfold tagged in Tg. congruence.
      - destruct (lookup env l0 (sf_type x)) eqn:Lx; [|discriminate].
        destruct (collect_fields env l0 t (S i) r) as [[l2|e]|] eqn:C1; try discriminate.
        destruct j as [|j]; [injection Nj as ->; eauto|eapply IH; eauto]. }
    destruct L' as (a' & L'). eexists. split; [apply F1; exists j, sf, o, a'; conj; eauto|]. auto.
Qed.

(** *** Pointers *)
Lemma settles_ptr tv :
  (forall t a dst, P t -> codec env t a -> has_type env dst t -> (forall t' ea, a <> APtr t' ea) -> settles t a dst tv) ->
  forall a t dst, P t -> codec env t a -> has_type env dst t -> settles t a dst tv.
Proof using Hcl Henv.
  intros H0. induction a as [t'|t'|t' single|t' w|t' w|t'|t'|t'|t'|t' ka _ va _|t' set ea _|t' ea IHe]; intros t dst Ht Hc Hd;
    try (apply H0; auto; discriminate).
  pose proof (codec_inv env _ _ Hc) as Hi; cbv iota in Hi. pose proof (cl_parts env P Hcl t Ht) as Kp; unfold parts in Kp.
  destruct Hi as (-> & e & U & Hea); rewrite U in Kp.
  assert (Et : elem_type env t = e) by (unfold elem_type; now rewrite U).
  assert (Hv : exists o, dst = GPtr o /\ has_type env (match o with Some v => v | None => zero env e end) e).
  { destruct dst as [| | | | | | | | |[]|[v|]| |]; try (cbn [has_type] in Hd; rewrite U in Hd; contradiction);
      [exists (Some v); cbn [has_type] in Hd; rewrite U in Hd; auto|exists None; split; [reflexivity|apply (zero_typed env Henv)]]. }
  destruct Hv as (o & -> & Tv). destruct (IHe e _ Kp Hea Tv) as (v & r & (N & HN) & T).
  exists (GPtr (Some v)), r; split; [|cbn [has_type]; now rewrite U].
  exists (S N); intros [|n] ln Hn Hl; [lia|]; cbn [decode]. rewrite Et, HN by lia. reflexivity.
Qed.

(** *** Sequences *)
Lemma settles_seq t e ea tes : P e -> codec env e ea -> elem_type env t = e ->
  Forall (fun tv => forall t a dst, P t -> codec env t a -> has_type env dst t -> settles t a dst tv) tes ->
  exists l r, ev (fun n ln => seq_dec env (decode env ln n) t ea tes) (l, r) /\ Forall (fun v => has_type env v e) l.
Proof using Henv.
  intros Pe Ce <-. induction 1 as [|tv r Htv Hr IH].
  - exists [], None. split; [|constructor]. exists O. reflexivity.
  - destruct (Htv _ ea (zero env (elem_type env t)) Pe Ce (zero_typed env Henv _)) as (v & [er|] & (N & HN) & T).
    + exists [v], (Some er). split; [|auto]. exists N. intros n ln Hn Hl. cbn [seq_dec]. now rewrite HN by auto.
    + destruct IH as (l & r' & (M & HM) & Tl). exists (v :: l), r'. split; [|auto].
      exists (N + M)%nat. intros n ln Hn Hl. cbn [seq_dec]. rewrite HN, HM by lia. reflexivity.
Qed.

Lemma settles_list t set ea et tes dst (tv : tval) : P t -> codec env t (ASeq t set ea) -> has_type env dst t ->
  tv = (if set then VSet et tes else VList et tes) ->
  Forall (fun tv => forall t a dst, P t -> codec env t a -> has_type env dst t -> settles t a dst tv) tes ->
  settles t (ASeq t set ea) dst tv.
Proof using Hcl Henv.
  intros Ht Hc Hd -> IH. pose proof (codec_inv env _ _ Hc) as Hi; cbv iota in Hi.
  pose proof (cl_parts env P Hcl t Ht) as Kp; unfold parts in Kp.
  destruct Hi as (_ & e & U & B & Hea & Hset). rewrite U in Kp. specialize (Kp B).
  assert (Et : elem_type env t = e) by (unfold elem_type; now rewrite U).
  assert (Hv : exists nl es sp, dst = GSlice nl es sp /\ (nl = true -> es = [] /\ sp = []) /\
      Forall (fun v => has_type env v e) es /\ Forall (fun v => has_type env v e) sp).
  { destruct dst as [| | | | |nl es sp| | |nl es sp|[es|]|[]| |];
        try (cbn [has_type] in Hd; rewrite U in Hd; try contradiction; destruct Hd; congruence).
      apply type_slice in Hd as (e' & U' & _ & Hnl & Hd1 & Hd2). rewrite U in U'. injection U' as <-.
      exists nl, es, sp. auto. }
  destruct Hv as (nl & es & sp & -> & Hnl & T1 & T2).
  destruct tes as [|tv0 tr].
  { exists (GSlice nl [] (es ++ sp)), None. split.
    - exists 1%nat. intros [|n] ln Hn Hl; [lia|]. destruct set; reflexivity.
    - apply type_slice. exists e. conj; auto; [intros Hn; destruct (Hnl Hn) as [-> ->]; auto|apply Forall_app; auto]. }
  assert (Hdec : forall n ln, decode env ln (S n) (ASeq t set ea) (GSlice nl es sp) (if set then VSet et (tv0 :: tr) else VList et (tv0 :: tr)) =
     decode_elems env (decode env ln n) t ea O (es ++ sp) true (tv0 :: tr)) by (intros; destruct set; reflexivity).
  revert Hdec IH. generalize (tv0 :: tr) as tes. intros tes Hdec IH. clear tv0 tr.
  (* the elements settle one after another *)
  assert (G : forall tes, Forall (fun tv => forall t a dst, P t -> codec env t a -> has_type env dst t -> settles t a dst tv) tes ->
    forall i arr mz, (i <= length arr)%nat -> Forall (fun v => has_type env v e) arr ->
    exists v r, ev (fun n ln => decode_elems env (decode env ln n) t ea i arr mz tes) (v, r) /\ has_type env v t).
  { clear Hdec IH. intros l Hl0. assert (Hsplit : forall (i : nat) arr, Forall (fun v => has_type env v e) arr ->
      has_type env (GSlice false (firstn i arr) (skipn i arr)) t).
    { intros i arr Ha. apply type_slice. exists e. conj; auto; [discriminate| |];
        rewrite <- (firstn_skipn i arr) in Ha; apply Forall_app in Ha; tauto. }
    induction Hl0 as [|tv r Htv Hr IHr]; intros i arr mz Hi Ha.
    - do 2 eexists. split; [exists O; reflexivity|]. now apply Hsplit.
    - assert (G : exists arr1 mz1, (if Nat.eqb i (length arr)
          then (arr ++ repeat (zero env e) (Datatypes.S (te_grow env (length arr))), false) else (arr, mz)) = (arr1, mz1) /\
          Forall (fun v => has_type env v e) arr1 /\ (i < length arr1)%nat).
      { destruct (Nat.eqb_spec i (length arr)) as [Ei|Ei].
        - do 2 eexists. split; [reflexivity|]. split.
          + apply Forall_app. split; [exact Ha|]. apply Forall_forall. intros v Hv. apply repeat_spec in Hv. subst v.
            apply (zero_typed env Henv).
          + rewrite app_length, repeat_length. lia.
        - do 2 eexists. split; [reflexivity|]. split; [exact Ha|lia]. }
      destruct G as (arr1 & mz1 & E & Ha1 & Hi1).
      assert (Tv : has_type env (if mz1 then zero env e else nth i arr1 (GOther 0)) e).
      { destruct mz1; [apply (zero_typed env Henv)|]. rewrite Forall_forall in Ha1. apply Ha1. now apply nth_In. }
      destruct (Htv e ea _ Kp Hea Tv) as (v & [er|] & (N & HN) & T).
      + do 2 eexists. split; [exists N; intros n ln Hn Hl; cbn [decode_elems]; rewrite Et, E, HN by lia; reflexivity|].
        apply Hsplit. now apply set_nth_Forall.
      + destruct (IHr (S i) (set_nth i v arr1) mz1) as (v2 & r2 & (M & HM) & T2').
        { rewrite set_nth_length. lia. }
        { now apply set_nth_Forall. }
        exists v2, r2. split; [|exact T2']. exists (N + M)%nat. intros n ln Hn Hl. cbn [decode_elems].
        rewrite Et, E, HN by lia. apply HM; lia. }
  destruct (G tes IH O (es ++ sp) true ltac:(lia)) as (v & r & (N & HN) & T); [apply Forall_app; auto|].
  exists v, r. split; [|exact T]. exists (S N). intros [|n] ln Hn Hl; [lia|]. rewrite Hdec. apply HN; lia.
Qed.

Lemma settles_map t ka va kt vt tes dst : P t -> codec env t (AMap t ka va) -> has_type env dst t ->
  Forall (fun p => forall t a dst, P t -> codec env t a -> has_type env dst t -> settles t a dst (fst p) /\ settles t a dst (snd p)) tes ->
  settles t (AMap t ka va) dst (VMap kt vt tes).
Proof using Hcl Henv.
  intros Ht Hc Hd IH. pose proof (codec_inv env _ _ Hc) as Hi; cbv iota in Hi.
  pose proof (cl_parts env P Hcl t Ht) as Kp; unfold parts in Kp.
  destruct Hi as (_ & gk & e & U & Hka & Hva). rewrite U in Kp. destruct Kp as [Pk Pe].
  assert (Kt : key_type env t = gk) by (unfold key_type; now rewrite U).
  assert (Et : elem_type env t = e) by (unfold elem_type; now rewrite U).
  set (Inv := fun es : list (gval * gval) => Forall (fun p => has_type env (fst p) gk /\ has_type env (snd p) e) es).
  assert (TI : forall es, Inv es -> has_type env (GMap (Some es)) t) by (intros; apply type_map; eauto).
  assert (Hv : exists o, dst = GMap o /\ Inv (match o with Some es => es | None => [] end)).
  { destruct dst as [| | | | | | | | |[es|]|[]| |]; try (cbn [has_type] in Hd; rewrite U in Hd; contradiction);
      [|exists None; split; [reflexivity|constructor]].
    apply type_map in Hd as (k' & e' & U' & Hd). rewrite U in U'. injection U' as <- <-. exists (Some es). auto. }
  destruct Hv as (o & -> & Ho). destruct tes as [|p0 tr].
  { eapply (settles_now t _ _ _ _ _ Hd). intros; reflexivity. }
  assert (G : forall tes, Forall (fun p => forall t a dst, P t -> codec env t a -> has_type env dst t -> settles t a dst (fst p) /\ settles t a dst (snd p)) tes ->
    forall es, Inv es -> exists es' r, ev (fun n ln => decode_entries env (decode env ln n) t ka va es tes) (es', r) /\ Inv es').
  { clear IH. intros l Hl0. induction Hl0 as [|[tk tv] r Htv Hr IHr]; intros es Hes.
    - exists es, None. split; [exists O; reflexivity|exact Hes].
    - destruct (proj1 (Htv gk ka (zero env gk) Pk Hka (zero_typed env Henv gk))) as (k & [er|] & (N & HN) & Tk); cbn [fst] in *.
      { exists es, (Some er). split; [|exact Hes]. exists N. intros n ln Hn Hl. cbn [decode_entries]. now rewrite Kt, HN. }
      assert (Tv : has_type env (match map_get es k with Some v => v | None => zero env e end) e).
      { destruct (map_get es k) as [v|] eqn:G; [|apply (zero_typed env Henv)].
        eapply (map_get_Forall (fun v => has_type env v e)); [|exact G].
        eapply Forall_impl; [|exact Hes]. cbn. tauto. }
      destruct (proj2 (Htv e va _ Pe Hva Tv)) as (v & rv & (M & HM) & T); cbn [snd] in *.
      assert (HI : Inv (map_set es k v)) by (apply map_set_Forall; auto).
      destruct rv as [er|].
      { exists (map_set es k v), (Some er). split; [|exact HI]. exists (N + M)%nat. intros n ln Hn Hl. cbn [decode_entries].
        rewrite Kt, HN, Et, HM by lia. reflexivity. }
      destruct (IHr _ HI) as (es' & r' & (K & HK) & HI'). exists es', r'. split; [|exact HI'].
      exists (N + M + K)%nat. intros n ln Hn Hl. cbn [decode_entries]. rewrite Kt, HN, Et, HM by lia. apply HK; lia. }
  destruct (G (p0 :: tr) IH _ Ho) as (es' & r & (N & HN) & HI). exists (GMap (Some es')), r. split; [|now apply TI].
  exists (S N). intros [|n] ln Hn Hl; [lia|]. cbn [decode]. rewrite HN by lia. reflexivity.
Qed.

Lemma fields_settle t sid fs : P t -> under env t = RtStruct sid ->
  (forall f, In f fs -> exists sf o, nth_error (te_struct env sid) (f_index f) = Some sf /\ tagged env sf o /\
        codec env (sf_type sf) (f_fncs f) /\ f_id f = fo_id o /\ P (sf_type sf)) ->
  forall tfs, Forall (fun p => forall a t dst, P t -> codec env t a -> has_type env dst t -> settles t a dst (snd p)) tfs ->
  forall vs, has_type env (GStruct vs) t ->
  exists v r, ev (fun n ln => decode_fields (decode env ln n) n fs vs tfs) (v, r) /\ has_type env v t.
Proof using.
  clear Hcl Henv. intros Ht U F tfs IH.
  induction IH as [|[id tv] r Htv Hr IHr]; intros vs Hty.
  - exists (GStruct vs), None. split; [exists O; reflexivity|exact Hty].
  - destruct (by_id fs id) as [f|] eqn:Bf.
    2:{ destruct (IHr vs Hty) as (v & r' & (N & HN) & T). exists v, r'. split; [|exact T].
        exists (N + vsize tv)%nat. intros n ln Hn Hl. cbn [decode_fields]. rewrite Bf.
        destruct (Nat.leb_spec (vsize tv) n); [apply HN; lia|lia]. }
    pose proof Bf as Hf. apply find_some in Hf as [Hf _]. apply in_rev in Hf.
    destruct (F f Hf) as (sf & o & Nf & Tg & C & _ & Psf).
    pose proof Hty as Hvs. apply type_struct in Hvs as (s' & U' & Hvs). rewrite U in U'. injection U' as <-.
    destruct (nth_error vs (f_index f)) as [v|] eqn:Nv.
    2:{ exfalso. apply nth_error_None in Nv. rewrite (Forall2_len _ _ _ Hvs) in Nv.
        assert (f_index f < length (te_struct env sid))%nat by (apply nth_error_Some; congruence). lia. }
    destruct (Htv (f_fncs f) (sf_type sf) v Psf C) as (v' & rv & (N & HN) & Tv').
    { exact (Forall2_nth _ _ _ Hvs _ _ _ Nv Nf). }
    assert (Hty' : has_type env (GStruct (set_nth (f_index f) v' vs)) t).
    { apply type_struct. exists sid. split; [exact U|]. eapply set_nth_Forall2; eauto. }
    cbn [snd] in HN. destruct rv as [er|].
    + exists (GStruct (set_nth (f_index f) v' vs)), (Some er). split; [|exact Hty'].
      exists N. intros n ln Hn Hl. cbn [decode_fields]. now rewrite Bf, Nv, HN.
    + destruct (IHr _ Hty') as (v2 & r2 & (M & HM) & T2). exists v2, r2. split; [|exact T2].
      exists (N + M)%nat. intros n ln Hn Hl. cbn [decode_fields]. rewrite Bf, Nv, HN by lia. apply HM; lia.
Qed.

(** Every value settles. *)
Theorem decode_total lim tv : wf lim tv -> forall a t dst, P t -> codec env t a -> has_type env dst t -> settles t a dst tv.
Proof using Hcl Henv.
  induction tv as [b|b|z|z|z|z|x|u|tfs IH|kt vt tes IH|et tes IH|et tes IH] using tval_ind'; intros Hwf; apply settles_ptr;
    intros t a dst Ht Hc Hd Hp;
    destruct a as [t'|t'|t' single|t' w|t' w|t'|t'|t'|t'|t' ka va|t' set ea|t' ea]; try (now elim (Hp t' ea));
    pose proof (codec_inv env _ _ Hc) as Hi; cbv iota in Hi;
    try (eapply (settles_now t _ dst _ dst _ Hd); intros n ln; reflexivity);
    try (destruct w; eapply (settles_now t _ dst _ dst _ Hd); intros n ln; reflexivity);
    try (destruct set; eapply (settles_now t _ dst _ dst _ Hd); intros n ln; reflexivity).
  all: match goal with
    | H : codec env _ (AStruct _) |- _ => destruct Hi as (-> & sid & U); destruct (struct_table t sid Ht U) as [(e & l0 & M)|(fs & l0 & M & F2 & F3 & F4)];
       [exists dst, (Some (with_action "unmarshal" e)); split; [|exact Hd]; exists (S l0); intros [|n] ln Hn Hl; [lia|];
        cbn [decode]; rewrite M by lia; reflexivity|
        try (exists dst; eexists; split; [|exact Hd]; exists (S l0); intros [|n] ln Hn Hl; [lia|];
        cbn [decode]; rewrite M by lia; reflexivity)]
    | _ => idtac end.
  - destruct Hi as [-> U]. eapply (settles_now t _ _ _ (GBool b)); [cbn [has_type]; now rewrite U|reflexivity].
  - destruct Hi as [-> U]. destruct w; try (eapply (settles_now t _ dst _ dst _ Hd); intros n ln; reflexivity).
    eapply settles_now; [|reflexivity]. apply (width_signed_typed env t W8). exact U.
  - destruct Hi as [-> U]. destruct w; try (eapply (settles_now t _ dst _ dst _ Hd); intros n ln; reflexivity).
    eapply settles_now; [|reflexivity]. apply (width_unsigned_typed env t W8). exact U.
  - destruct Hi as [-> U]. eapply (settles_now t _ _ _ (if single then GF32 (f64_to_f32 z) else GF64 z)); [|reflexivity].
    cbn [wf] in Hwf. destruct single; cbn [has_type]; rewrite U; auto using f64_to_f32_range.
  - destruct Hi as [-> U]. destruct w; try (eapply (settles_now t _ dst _ dst _ Hd); intros n ln; reflexivity).
    eapply settles_now; [|reflexivity]. apply (width_signed_typed env t W16). exact U.
  - destruct Hi as [-> U]. destruct w; try (eapply (settles_now t _ dst _ dst _ Hd); intros n ln; reflexivity).
    eapply settles_now; [|reflexivity]. apply (width_unsigned_typed env t W16). exact U.
  - destruct Hi as [-> U]. destruct w; try (eapply (settles_now t _ dst _ dst _ Hd); intros n ln; reflexivity).
    eapply settles_now; [|reflexivity]. apply (width_signed_typed env t W32). exact U.
  - destruct Hi as [-> U]. destruct w; try (eapply (settles_now t _ dst _ dst _ Hd); intros n ln; reflexivity).
    eapply settles_now; [|reflexivity]. apply (width_unsigned_typed env t W32). exact U.
  - destruct Hi as [-> U]. destruct w; try (eapply (settles_now t _ dst _ dst _ Hd); intros n ln; reflexivity).
    eapply settles_now; [|reflexivity]. apply (width_signed_typed env t W64). exact U.
  - destruct Hi as [-> U]. destruct w; try (eapply (settles_now t _ dst _ dst _ Hd); intros n ln; reflexivity).
    eapply settles_now; [|reflexivity]. apply (width_unsigned_typed env t W64). exact U.
  - destruct Hi as [-> U]. eapply (settles_now t _ _ _ (GString x)); [cbn [has_type]; now rewrite U|reflexivity].
  - destruct Hi as (-> & U & B). eapply settles_now; [|reflexivity]. cbn [has_type]. rewrite U. split; [exact B|].
    destruct dst as [| | | | |[] ? ?| | | | | | |], x; try discriminate; auto.
  - destruct Hi as (-> & U).
    assert (Hu : exists old, dst = GUUID old /\ length old = 16%nat).
    { destruct dst as [| | | | | |u'|es| |[]|[]| |]; cbn [has_type] in Hd; rewrite U in Hd; try contradiction; eauto.
      destruct Hd as [Hd _]. now elim Hd. }
    destruct Hu as (old & -> & Ho). eapply (settles_now t _ _ _ (GUUID u)).
    { cbn [has_type]. rewrite U. exact Hwf. }
    intros n ln. cbn [decode]. rewrite Ho. reflexivity.
  - assert (Hv : exists vs, dst = GStruct vs).
    { destruct dst as [| | | | | | | | |[]|[]|vs|]; try (cbn [has_type] in Hd; rewrite U in Hd; contradiction). eauto. }
    destruct Hv as (vs & ->).
    destruct (fields_settle t sid fs Ht U F3 tfs) with (vs := vs) as (v & r & (N & HN) & T); [|exact Hd|].
    { cbn [wf] in Hwf. revert Hwf. clear -IH. induction IH as [|[id tv] r Htv Hr IHr]; intros Hwf; constructor.
      - cbn [snd] in *. apply Htv. apply Hwf.
      - apply IHr. apply Hwf. }
    exists v, r. split; [|exact T]. exists (S (N + l0 + length tfs)). intros [|n] ln Hn Hl; [lia|].
    cbn [decode]. rewrite M by lia. destruct (Nat.ltb_spec (length tfs) (S n)); [|lia]. apply HN; lia.
  - destruct Hi as (-> & Hi). apply settles_map; auto.
    cbn [wf] in Hwf. destruct Hwf as (_ & _ & _ & Hwf). revert Hwf. clear -IH.
    induction IH as [|[k v] r [Hk Hv] Hr IHr]; intros Hwf; constructor.
    + cbn [fst snd] in *. destruct Hwf as ((_ & _ & Wk & Wv) & _). intros t a dst Pt C T. split; auto.
    + apply IHr. apply Hwf.
  - destruct Hi as (-> & Hi). destruct set.
    + apply settles_list with et tes; auto. cbn [wf] in Hwf. destruct Hwf as (_ & _ & Hwf). revert Hwf. clear -IH.
      induction IH as [|v r Hv Hr IHr]; intros Hwf; constructor.
      * intros. apply Hv; auto. apply Hwf.
      * apply IHr. apply Hwf.
    + eapply (settles_now t _ dst _ dst _ Hd); intros n ln; reflexivity.
  - destruct Hi as (-> & Hi). destruct set.
    + eapply (settles_now t _ dst _ dst _ Hd); intros n ln; reflexivity.
    + apply settles_list with et tes; auto. cbn [wf] in Hwf. destruct Hwf as (_ & _ & Hwf). revert Hwf. clear -IH.
      induction IH as [|v r Hv Hr IHr]; intros Hwf; constructor.
      * intros. apply Hv; auto. apply Hwf.
      * apply IHr. apply Hwf.
Qed.

Lemma gives_settled lim t dst tv v r a : wf lim tv -> P t -> has_type env dst t -> codec env t a -> gives t dst tv v r ->
  wire_type a = val_type tv /\ settled a dst tv (v, r).
Proof using Hcl Henv.
  intros Hw Ht Hd Hc ((a' & Hc' & W) & N & H).
  assert (a' = a).
  { destruct Hc as [n C], Hc' as [m C']. pose proof (lookup_more env n (n + m) _ _ ltac:(lia) C) as E.
    rewrite (lookup_more env m (n + m) _ _ ltac:(lia) C') in E. congruence. }
  subst a'. split; [exact W|].
  destruct (decode_total lim tv Hw a t dst Ht Hc Hd) as (v' & r' & Hs & _).
  destruct (settled_gives t a dst tv v' r' Hc W Hs) as (_ & M & G).
  destruct (H (N + M)%nat ltac:(lia) _ script_h (script tv ++ []) [] (script_reads lim tv [] Hw)) as (s1 & E1 & _).
  destruct (G (N + M)%nat ltac:(lia) _ script_h (script tv ++ []) [] (script_reads lim tv [] Hw)) as (s2 & E2 & _).
  rewrite E1 in E2. assert (v = v' /\ r = r') as [-> ->] by (split; congruence). exact Hs.
Qed.

Theorem gives_fun lim t dst tv v r v' r' : wf lim tv -> P t -> has_type env dst t ->
  gives t dst tv v r -> gives t dst tv v' r' -> v = v' /\ r = r'.
Proof using Hcl Henv.
  intros Hw Ht Hd G1 G2. destruct (lookup_ends env t (cl_eager env P Hcl t Ht)) as (a & C).
  destruct (gives_settled lim t dst tv v r a Hw Ht Hd C G1) as [_ S1].
  destruct (gives_settled lim t dst tv v' r' a Hw Ht Hd C G2) as [_ S2].
  pose proof (ev_fun _ _ _ S1 S2) as E. split; congruence.
Qed.

Theorem gives_total lim t dst tv a : wf lim tv -> P t -> has_type env dst t -> codec env t a -> wire_type a = val_type tv ->
  exists v r, gives t dst tv v r /\ has_type env v t.
Proof using Hcl Henv.
  intros Hw Ht Hd C W. destruct (decode_total lim tv Hw a t dst Ht C Hd) as (v & r & S & T).
  exists v, r. split; [eapply settled_gives; eauto|exact T].
Qed.

(** ** Unknown fields and field order *)
(** The struct type has a field with this id. *)
Definition known (s : nat) (id : Z) : Prop :=
  exists sf o, In sf (te_struct env s) /\ tagged env sf o /\ fo_id o = id.

(** [l'] is [l] without some fields of unknown id. *)
Inductive thinned (s : nat) : list (Z * tval) -> list (Z * tval) -> Prop :=
| th_nil : thinned s [] []
| th_keep f l l' : thinned s l l' -> thinned s (f :: l) (f :: l')
| th_drop f l l' : ~ known s (fst f) -> thinned s l l' -> thinned s (f :: l) l'.

Lemma decode_thinned rec m s fs l l' : (forall id, ~ known s id -> by_id fs id = None) -> thinned s l l' ->
  Forall (fun f => (vsize (snd f) <= m)%nat) l -> forall vs, decode_fields rec m fs vs l = decode_fields rec m fs vs l'.
Proof using.
  intros Hk. induction 1 as [|[id tv] l l' H IH|[id tv] l l' Hn H IH]; intros Hv vs; [reflexivity| |];
    inversion_clear Hv as [|? ? Hv0 Hvr]; cbn [snd] in Hv0; cbn [decode_fields].
  - destruct (by_id fs id) as [f|]; [|destruct (Nat.leb _ _); auto].
    destruct (nth_error _ _); [|reflexivity]. destruct (rec _ _ _) as [[v' [e|]]|]; auto.
  - cbn [fst] in Hn. rewrite (Hk _ Hn). destruct (Nat.leb_spec (vsize tv) m); [auto|lia].
Qed.

Lemma vsize_bound (l : list (Z * tval)) : exists N, Forall (fun f => (vsize (snd f) <= N)%nat) l.
Proof using.
  induction l as [|f r (N & H)]; [exists O; constructor|]. exists (vsize (snd f) + N)%nat. constructor; [lia|].
  eapply Forall_impl; [|exact H]. cbn. lia.
Qed.

Lemma wf_fields lim tfs : wf lim (VStruct tfs) <-> Forall (fun f => is_i16 (fst f) /\ wf lim (snd f)) tfs.
Proof using.
  cbn [wf]. induction tfs as [|[id v] r IH]; split; intros H; [constructor|exact I| |].
  - constructor; [apply H|]. apply IH. apply H.
  - inversion_clear H as [|? ? H0 Hr]. split; [exact H0|now apply IH].
Qed.

Theorem unknown_ignored lim t s dst l l' v r : wf lim (VStruct l) -> P t -> under env t = RtStruct s -> has_type env dst t ->
  thinned s l l' -> gives t dst (VStruct l) v r <-> gives t dst (VStruct l') v r.
Proof using Hcl Henv.
  intros Hw Ht U Hd Hth.
  assert (Hw' : wf lim (VStruct l')).
  { apply wf_fields. apply wf_fields in Hw. clear -Hth Hw. induction Hth; inversion_clear Hw; auto. }
  assert (C : codec env t (AStruct t)) by (exists 1%nat; cbn [lookup]; now rewrite U).
  enough (E : forall x, settled (AStruct t) dst (VStruct l) x <-> settled (AStruct t) dst (VStruct l') x).
  { split; intros G.
    - destruct (gives_settled lim t dst _ v r _ Hw Ht Hd C G) as [W S]. apply E in S. now apply (settled_gives t (AStruct t)).
    - destruct (gives_settled lim t dst _ v r _ Hw' Ht Hd C G) as [W S]. apply E in S. now apply (settled_gives t (AStruct t)). }
  enough (E : exists N, forall n ln, (N <= n)%nat -> (N <= ln)%nat ->
     decode env ln n (AStruct t) dst (VStruct l) = decode env ln n (AStruct t) dst (VStruct l')).
  { destruct E as (N & E). intros x. split; intros (M & H); exists (N + M)%nat; intros n ln Hn Hl;
      [rewrite <- E by lia|rewrite E by lia]; apply H; lia. }
  destruct (struct_table t s Ht U) as [(e & l0 & M)|(fs & l0 & M & F2 & F3 & F4)].
  { exists (S l0). intros [|n] ln Hn Hl; [lia|]. cbn [decode]. now rewrite !M by lia. }
  destruct (vsize_bound l) as (N & HN). exists (S (N + l0 + length l + length l')). intros [|n] ln Hn Hl; [lia|].
  cbn [decode]. rewrite M by lia. destruct dst; try reflexivity.
  destruct (Nat.ltb_spec (length l) (S n)); [|lia]. destruct (Nat.ltb_spec (length l') (S n)); [|lia].
  apply decode_thinned with s; auto.
  - intros id Hk. destruct (by_id fs id) as [f|] eqn:B; [|reflexivity]. exfalso. apply Hk.
    apply find_some in B as [Hf Hid]. apply in_rev in Hf. apply Z.eqb_eq in Hid.
    destruct (F3 f Hf) as (sf & o & Nf & Tg & _ & Eid & _). exists sf, o. conj; auto; [eapply nth_error_In; eauto|congruence].
  - eapply Forall_impl; [|exact HN]. cbn. lia.
Qed.

Lemma set_nth_comm {A} (x y : A) l : forall i j, i <> j -> set_nth i x (set_nth j y l) = set_nth j y (set_nth i x l).
Proof using. induction l as [|z r IH]; intros [|i] [|j] H; cbn; try reflexivity; [now elim H|]. f_equal. auto. Qed.

Lemma nth_set_other {A} (x : A) l : forall i j, i <> j -> nth_error (set_nth i x l) j = nth_error l j.
Proof using. induction l as [|z r IH]; intros [|i] [|j] H; cbn; try reflexivity; [now elim H|]. auto. Qed.

Lemma decode_permuted rec m fs : NoDup (map f_index fs) -> forall l l', Permutation l l' -> NoDup (map fst l) ->
  forall vs v, decode_fields rec m fs vs l = Some (v, None) -> decode_fields rec m fs vs l' = Some (v, None).
Proof using.
  intros Hfs. induction 1 as [|[id tv] l l' H IH|[i1 t1] [i2 t2] l|l l' l'' H1 IH1 H2 IH2]; intros Hn vs v Hv.
  - exact Hv.
  - cbn [map] in Hn. inversion_clear Hn as [|? ? Hn0 Hnr]. cbn [decode_fields] in *.
    destruct (by_id fs id) as [f|]; [|destruct (Nat.leb _ _); [auto|discriminate]].
    destruct (nth_error _ _); [|discriminate]. destruct (rec _ _ _) as [[v' [e|]]|]; [discriminate| |discriminate]. auto.
  - cbn [map fst] in Hn. assert (Hne : i2 <> i1) by (inversion_clear Hn as [|? ? Hn0 Hnr]; intros ->; apply Hn0; now left).
    cbn [decode_fields] in *.
    destruct (by_id fs i2) as [f2|] eqn:B2, (by_id fs i1) as [f1|] eqn:B1.
    + assert (Hix : f_index f2 <> f_index f1).
      { apply find_some in B2 as [H2 E2]. apply find_some in B1 as [H1 E1]. apply Z.eqb_eq in E1, E2. apply in_rev in H1, H2.
        intros E. apply Hne. rewrite <- E1, <- E2. f_equal.
        clear -Hfs H1 H2 E. induction fs as [|g r IH]; [contradiction|]. cbn in Hfs. inversion_clear Hfs as [|? ? H0 Hr].
        destruct H1 as [->|H1], H2 as [->|H2]; auto; exfalso; apply H0; [rewrite <- E|rewrite E]; now apply in_map. }
      destruct (nth_error vs (f_index f2)) as [v2|] eqn:N2; [|discriminate].
      destruct (rec (f_fncs f2) v2 t2) as [[v2' [e|]]|] eqn:R2; [discriminate| |discriminate].
      rewrite nth_set_other in Hv by auto. destruct (nth_error vs (f_index f1)) as [v1|] eqn:N1; [|discriminate].
      destruct (rec (f_fncs f1) v1 t1) as [[v1' [e|]]|]; [discriminate| |discriminate].
      rewrite nth_set_other, N2, R2 by auto. rewrite set_nth_comm by auto. exact Hv.
    + destruct (nth_error vs (f_index f2)) as [v2|] eqn:N2; [|discriminate].
      destruct (rec (f_fncs f2) v2 t2) as [[v2' [e|]]|] eqn:R2; [discriminate| |discriminate].
      destruct (Nat.leb _ _); [exact Hv|discriminate].
    + destruct (Nat.leb _ _); [|discriminate]. destruct (nth_error vs (f_index f1)) as [v1|]; [|discriminate].
      destruct (rec _ _ _) as [[v1' [e|]]|]; [discriminate|exact Hv|discriminate].
    + destruct (Nat.leb (vsize t2) m), (Nat.leb (vsize t1) m); try discriminate; exact Hv.
  - apply IH2; [|apply IH1; auto]. eapply Permutation_NoDup; [|exact Hn]. now apply Permutation_map.
Qed.

Theorem order_irrelevant lim t s dst l l' v : wf lim (VStruct l) -> P t -> under env t = RtStruct s -> has_type env dst t ->
  Permutation l l' -> NoDup (map fst l) -> gives t dst (VStruct l) v None -> gives t dst (VStruct l') v None.
Proof using Hcl Henv.
  intros Hw Ht U Hd Hp Hn G.
  assert (C : codec env t (AStruct t)) by (exists 1%nat; cbn [lookup]; now rewrite U).
  destruct (gives_settled lim t dst _ v None _ Hw Ht Hd C G) as [W (N & S)].
  apply (settled_gives t (AStruct t)); auto.
  destruct (struct_table t s Ht U) as [(e & l0 & M)|(fs & l0 & M & F2 & F3 & F4)].
  { exfalso. specialize (S (Datatypes.S (N + l0)) (N + l0)%nat ltac:(lia) ltac:(lia)). cbn [decode] in S.
    rewrite M in S by lia. discriminate. }
  exists (Datatypes.S (N + l0 + length l)). intros [|n] ln Hk Hl; [lia|].
  specialize (S (Datatypes.S n) ln ltac:(lia) ltac:(lia)). cbn [decode] in *. rewrite M in * by lia.
  destruct dst; try discriminate. rewrite <- (Permutation_length Hp).
  destruct (Nat.ltb_spec (length l) (Datatypes.S n)); [|lia]. eapply decode_permuted; eauto.
Qed.

(** ** Old contents *)
Lemma decode_ok_type n : forall ln a dst tv v, decode env ln n a dst tv = Some (v, None) -> wire_type a = val_type tv.
Proof using.
  induction n as [|n IH]; intros ln a dst tv v H; [discriminate|].
  destruct a as [t|t|t single|t w|t w|t|t|t|t|t ka va|t set ea|t ea]; cbn [decode] in H; try discriminate;
    try (destruct tv; try discriminate; reflexivity);
    try (destruct w, tv; try discriminate; reflexivity).
  - destruct (make_struct_fields env ln t) as [[fs|e]|]; try discriminate. destruct tv; try discriminate; reflexivity.
  - destruct tv, set; try discriminate; reflexivity.
  - destruct dst as [| | | | | | | | | |o| |]; try discriminate. destruct (decode env ln n ea _ tv) as [[v' [e|]]|] eqn:D; try discriminate.
    apply IH in D. exact D.
Qed.

Lemma seq_settled lim t e ea tes : P e -> codec env e ea -> elem_type env t = e -> Forall (fun tv => wf lim tv) tes -> forall es,
  ev (fun n ln => seq_dec env (decode env ln n) t ea tes) (es, None) <->
  Forall2 (fun tv v => gives e (zero env e) tv v None) tes es.
Proof using Hcl Henv.
  intros Pe Ce <-. induction 1 as [|tv r Htv Hr IH]; intros es; split.
  - intros (N & H). specialize (H N N ltac:(lia) ltac:(lia)). injection H as <-. constructor.
  - intros H. inversion_clear H. exists O. reflexivity.
  - intros (N & H). destruct (decode_total lim tv Htv ea _ (zero env (elem_type env t)) Pe Ce (zero_typed env Henv _)) as (v & rv & (M & HM) & T).
    assert (rv = None).
    { specialize (H (N + M)%nat (N + M)%nat ltac:(lia) ltac:(lia)). cbn [seq_dec] in H. rewrite HM in H by lia. destruct rv; congruence. }
    subst rv. destruct es as [|v0 es].
    { exfalso. specialize (H (N + M)%nat (N + M)%nat ltac:(lia) ltac:(lia)). cbn [seq_dec] in H. rewrite HM in H by lia.
      destruct (seq_dec _ _ _ _ _) as [[]|]; discriminate. }
    assert (v0 = v).
    { specialize (H (N + M)%nat (N + M)%nat ltac:(lia) ltac:(lia)). cbn [seq_dec] in H. rewrite HM in H by lia.
      destruct (seq_dec _ _ _ _ _) as [[]|]; congruence. }
    subst v0. constructor.
    + apply (settled_gives _ ea); auto; [|now exists M]. eapply decode_ok_type. apply (HM M M); lia.
    + apply IH. exists (N + M)%nat. intros n ln Hn Hl. specialize (H n ln ltac:(lia) ltac:(lia)). cbn [seq_dec] in H.
      rewrite HM in H by lia. destruct (seq_dec _ _ _ _ _) as [[]|]; congruence.
  - intros H. inversion_clear H as [|? v ? es' H0 H1]. apply IH in H1 as (M & HM).
    destruct (gives_settled lim _ _ _ _ _ _ Htv Pe (zero_typed env Henv _) Ce H0) as (_ & N & HN).
    exists (N + M)%nat. intros n ln Hn Hl. cbn [seq_dec]. now rewrite HN, HM by lia.
Qed.

Theorem list_replaced lim t e set ea et tes dst es : wf lim (if set : bool then VSet et tes else VList et tes) -> P t ->
  codec env t (ASeq t set ea) -> under env t = RtSlice e -> has_type env dst t ->
  (exists nl sp, gives t dst (if set then VSet et tes else VList et tes) (GSlice nl es sp) None) <->
  Forall2 (fun tv v => gives e (zero env e) tv v None) tes es.
Proof using Hcl Henv.
  intros Hw Ht Hc U Hd.
  pose proof (codec_inv env _ _ Hc) as Hi; cbv iota in Hi. destruct Hi as (_ & e' & U' & B & Hea & Hset).
  rewrite U in U'. injection U' as <-. assert (Et : elem_type env t = e) by (unfold elem_type; now rewrite U).
  assert (Pe : P e).
  { pose proof (cl_parts env P Hcl t Ht) as Kp; unfold parts in Kp. rewrite U in Kp. auto. }
  assert (Hv : exists nl0 es0 sp0, dst = GSlice nl0 es0 sp0).
  { destruct dst as [| | | | |nl0 es0 sp0| | |nl0 es0 sp0|[es0|]|[]| |];
        try (cbn [has_type] in Hd; rewrite U in Hd; try contradiction; destruct Hd; congruence). eauto. }
  destruct Hv as (nl0 & es0 & sp0 & ->).
  assert (Hwt : Forall (fun tv => wf lim tv) tes).
  { assert (K : forall et tes, wf lim (VSet et tes) -> Forall (fun tv => wf lim tv) tes).
    { intros et' l H. cbn [wf] in H. destruct H as (_ & _ & H). clear -H. induction l as [|x l IH]; constructor; [apply H|]. apply IH. apply H. }
    destruct set; eapply K; exact Hw. }
  rewrite <- (seq_settled lim t e ea tes Pe Hea Et Hwt).
  assert (W : wire_type (ASeq t set ea) = val_type (if set then VSet et tes else VList et tes)) by (destruct set; reflexivity).
  destruct tes as [|tv0 tr].
  { split.
    - intros (nl & sp & G). destruct (gives_settled lim t _ _ _ _ _ Hw Ht Hd Hc G) as [_ (N & S)].
      specialize (S (Datatypes.S N) N ltac:(lia) ltac:(lia)). assert (es = []); [|subst; exists O; reflexivity].
      destruct set; cbn [decode] in S; congruence.
    - intros (N & H). specialize (H N N ltac:(lia) ltac:(lia)). injection H as <-. exists nl0, (es0 ++ sp0).
      apply (settled_gives t (ASeq t set ea)); auto. exists 1%nat. intros [|n] ln Hn Hl; [lia|]. destruct set; reflexivity. }
  assert (Hdec : forall n ln, decode env ln (S n) (ASeq t set ea) (GSlice nl0 es0 sp0) (if set then VSet et (tv0 :: tr) else VList et (tv0 :: tr)) =
     decode_elems env (decode env ln n) t ea O (es0 ++ sp0) true (tv0 :: tr)) by (intros; destruct set; reflexivity).
  split.
  - intros (nl & sp & G). destruct (gives_settled lim t _ _ _ _ _ Hw Ht Hd Hc G) as [_ (N & S)].
    exists N. intros n ln Hn Hl. specialize (S (Datatypes.S n) ln ltac:(lia) ltac:(lia)). rewrite Hdec in S.
    pose proof (decode_elems_dec env ln (decode env ln n) t ea (tv0 :: tr) O (es0 ++ sp0) true ltac:(lia) ltac:(discriminate)) as E.
    destruct (seq_dec _ _ _ _ _) as [[l r]|]; [|congruence]. destruct E as (sp' & E). cbn [firstn app] in E. congruence.
  - intros (N & H).
    destruct (gives_total lim t (GSlice nl0 es0 sp0) _ _ Hw Ht Hd Hc W) as (v & r & G & T).
    enough (K : exists sp, v = GSlice false es sp /\ r = None) by (destruct K as (sp & -> & ->); eauto).
    destruct (gives_settled lim t _ _ _ _ _ Hw Ht Hd Hc G) as [_ (M & S)].
    specialize (S (Datatypes.S (N + M)) (N + M)%nat ltac:(lia) ltac:(lia)). rewrite Hdec in S.
    pose proof (decode_elems_dec env O (decode env (N + M) (N + M)) t ea (tv0 :: tr) O (es0 ++ sp0) true ltac:(lia) ltac:(discriminate)) as E.
    rewrite H in E by lia. destruct E as (sp' & E). cbn [firstn app] in E. exists sp'. split; congruence.
Qed.

(** *** Maps *)
(** The entries of the old map whose keys are not on the wire stay; the others
    are replaced, each value being unmarshalled over the old one. *)
Lemma map_set_keeps es k v k' v' : In (k', v') es -> key_eq k k' = false -> In (k', v') (map_set es k v).
Proof using.
  induction es as [|[k0 v0] r IH]; cbn; [contradiction|]. intros [E|H] Hk.
  - injection E as -> ->. rewrite Hk. now left.
  - destruct (key_eq k k0); right; auto.
Qed.
Lemma map_set_in es k v k' v' : In (k', v') (map_set es k v) -> (k' = k /\ v' = v) \/ In (k', v') es.
Proof using.
  induction es as [|[k0 v0] r IH]; cbn; [intros [E|[]]; left; split; congruence|].
  destruct (key_eq k k0); cbn; intros [E|H]; auto; [left; split; congruence|].
  destruct (IH H); auto.
Qed.
Lemma map_set_has es k v : In (k, v) (map_set es k v).
Proof using. induction es as [|[k0 v0] r IH]; cbn; [now left|]. destruct (key_eq k k0); [now left|now right]. Qed.

Lemma f32_eqb_sym x y : f32_eqb x y = f32_eqb y x.
Proof using. unfold f32_eqb. rewrite (Z.eqb_sym x y). destruct (f32_nan x), (f32_nan y); cbn; auto. destruct (y =? x); cbn; auto. apply andb_comm. Qed.
Lemma f64_eqb_sym x y : f64_eqb x y = f64_eqb y x.
Proof using. unfold f64_eqb. rewrite (Z.eqb_sym x y). destruct (f64_nan x), (f64_nan y); cbn; auto. destruct (y =? x); cbn; auto. apply andb_comm. Qed.
Lemma f32_eqb_trans x y z : f32_eqb x y = true -> f32_eqb y z = true -> f32_eqb x z = true.
Proof using.
  unfold f32_eqb. rewrite !andb_true_iff, !orb_true_iff, !andb_true_iff, !Z.eqb_eq. intros [[H1 H2] H3] [[H4 H5] H6].
  conj; auto. destruct H3 as [->|[H3 H3']], H6 as [->|[H6 H6']]; auto.
Qed.
Lemma f64_eqb_trans x y z : f64_eqb x y = true -> f64_eqb y z = true -> f64_eqb x z = true.
Proof using.
  unfold f64_eqb. rewrite !andb_true_iff, !orb_true_iff, !andb_true_iff, !Z.eqb_eq. intros [[H1 H2] H3] [[H4 H5] H6].
  conj; auto. destruct H3 as [->|[H3 H3']], H6 as [->|[H6 H6']]; auto.
Qed.
Lemma bytes_eqb_sym a b : bytes_eqb a b = bytes_eqb b a.
Proof using.
  destruct (bytes_eqb a b) eqn:E; symmetry.
  - apply bytes_eqb_eq in E. subst. now apply bytes_eqb_eq.
  - destruct (bytes_eqb b a) eqn:F; [|reflexivity]. apply bytes_eqb_eq in F. subst. rewrite (proj2 (bytes_eqb_eq a a) eq_refl) in E. discriminate.
Qed.
Definition keys_eq := fix all (l m : list gval) := match l, m with
                      | [], [] => true
                      | x :: r, y :: s => key_eq x y && all r s
                      | _, _ => false
                      end.
Lemma key_eq_sym a : forall b, key_eq a b = key_eq b a.
Proof using.
  assert (L : forall l, Forall (fun a => forall b, key_eq a b = key_eq b a) l -> forall m, keys_eq l m = keys_eq m l).
  { induction 1 as [|x l Hx Hl IH]; intros [|y m]; cbn [keys_eq]; auto. now rewrite Hx, IH. }
  induction a as [b|z|z|z|z|nl x sp|u|es IH|nl es sp IH IH2| |es IH| |v IH|vs IH|k] using gval_ind'; intros c;
    destruct c as [| | | | | | | | |o|o| |]; cbn [key_eq]; auto; try (destruct o; reflexivity).
  - destruct b, b0; reflexivity.
  - apply Z.eqb_sym.
  - apply f32_eqb_sym.
  - apply f64_eqb_sym.
  - apply bytes_eqb_sym.
  - apply bytes_eqb_sym.
  - apply Nat.eqb_sym.
Qed.
Lemma key_eq_trans a : forall b c, key_eq a b = true -> key_eq b c = true -> key_eq a c = true.
Proof using.
  assert (L : forall l, Forall (fun a => forall b c, key_eq a b = true -> key_eq b c = true -> key_eq a c = true) l ->
     forall m p, keys_eq l m = true -> keys_eq m p = true -> keys_eq l p = true).
  { induction 1 as [|x l Hx Hl IH]; intros [|y m] [|z p]; cbn [keys_eq]; auto; try discriminate.
    rewrite !andb_true_iff. intros [H1 H2] [H3 H4]. split; eauto. }
  induction a as [b|z|z|z|z|nl x sp|u|es IH|nl es sp IH IH2| |es IH| |v IH|vs IH|k] using gval_ind'; intros c d;
    destruct c as [| | | | | | | | |o|o| |]; cbn [key_eq]; try discriminate;
    destruct d as [| | | | | | | | |o'|o'| |]; cbn [key_eq]; try discriminate; auto;
    try (destruct o; discriminate); try (destruct o, o'; auto; discriminate).
  - destruct b, b0, b1; cbn; congruence.
  - rewrite !Z.eqb_eq. congruence.
  - apply f32_eqb_trans.
  - apply f64_eqb_trans.
  - rewrite !bytes_eqb_eq. congruence.
  - rewrite !bytes_eqb_eq. congruence.
  - apply (L es IH).
  - apply (L vs IH).
  - rewrite !Nat.eqb_eq. congruence.
Qed.

Lemma map_get_set es k v q : key_eq q k = false -> map_get (map_set es k v) q = map_get es q.
Proof using.
  intros H2. induction es as [|[k0 v0] r IH]; cbn; [now rewrite H2|].
  destruct (key_eq k k0) eqn:E; cbn.
  - rewrite H2. destruct (key_eq q k0) eqn:F; [|reflexivity]. exfalso.
    rewrite key_eq_sym in E. rewrite (key_eq_trans _ _ _ F E) in H2. discriminate.
  - destruct (key_eq q k0); auto.
Qed.

Definition old_entries (o : option (list (gval * gval))) : list (gval * gval) := match o with Some es => es | None => [] end.

(** The entries [(k, v)] stored for the wire entries [tes]. *)
Definition stored (gk e : rtype) (old : list (gval * gval)) (te : tval * tval) (kv : gval * gval) : Prop :=
  gives gk (zero env gk) (fst te) (fst kv) None /\
  gives e (match map_get old (fst kv) with Some v => v | None => zero env e end) (snd te) (snd kv) None.

Lemma entries_kept lim t gk e ka va : P gk -> P e -> codec env gk ka -> codec env e va ->
  key_type env t = gk -> elem_type env t = e -> forall tes, Forall (fun p => wf lim (fst p) /\ wf lim (snd p)) tes ->
  forall es es', Forall (fun p => has_type env (fst p) gk /\ has_type env (snd p) e) es ->
  ev (fun n ln => decode_entries env (decode env ln n) t ka va es tes) (es', None) ->
  exists ks, Forall2 (fun te k => gives gk (zero env gk) (fst te) k None) tes ks /\
    (forall p, In p es -> (forall k, In k ks -> key_eq k (fst p) = false) -> In p es') /\
    (forall k v, In (k, v) es' -> In (k, v) es \/ In k ks) /\
    (ForallOrdPairs (fun a b => key_eq a b = false) ks ->
       exists vs, Forall2 (stored gk e es) tes (combine ks vs) /\ forall kv, In kv (combine ks vs) -> In kv es').
Proof using Hcl Henv.
  intros Pk Pe Ck Ce Kt Et. induction 1 as [|[tk tv] r [Wk Wv] Hr IH]; intros es es' Hes (N & H); cbn [fst snd] in *.
  - specialize (H N N ltac:(lia) ltac:(lia)). injection H as <-. exists []. conj; auto; try constructor.
    intros _. exists []. split; [constructor|]. contradiction.
  - destruct (decode_total lim tk Wk ka gk (zero env gk) Pk Ck (zero_typed env Henv gk)) as (k & rk & (M & HM) & Tk).
    assert (rk = None).
    { specialize (H (N + M)%nat (N + M)%nat ltac:(lia) ltac:(lia)). cbn [decode_entries] in H. rewrite Kt, HM in H by lia. destruct rk; congruence. }
    subst rk.
    assert (Tv : has_type env (match map_get es k with Some v => v | None => zero env e end) e).
    { destruct (map_get es k) as [v|] eqn:G; [|apply (zero_typed env Henv)].
      eapply (map_get_Forall (fun v => has_type env v e)); [|exact G].
      eapply Forall_impl; [|exact Hes]. cbn. tauto. }
    destruct (decode_total lim tv Wv va e _ Pe Ce Tv) as (v & rv & (K & HK) & Tv').
    assert (rv = None).
    { specialize (H (N + M + K)%nat (N + M + K)%nat ltac:(lia) ltac:(lia)). cbn [decode_entries] in H. rewrite Kt, Et, HM, HK in H by lia. destruct rv; congruence. }
    subst rv.
    assert (Gk : gives gk (zero env gk) tk k None).
    { apply (settled_gives _ ka); auto; [|now exists M]. eapply decode_ok_type. apply (HM M M); lia. }
    assert (Gv : gives e (match map_get es k with Some v => v | None => zero env e end) tv v None).
    { apply (settled_gives _ va); auto; [|now exists K]. eapply decode_ok_type. apply (HK K K); lia. }
    destruct (IH (map_set es k v) es') as (ks & H1 & H2 & H3 & H4).
    { apply map_set_Forall; auto. }
    { exists (N + M + K)%nat. intros n ln Hn Hl. specialize (H n ln ltac:(lia) ltac:(lia)). cbn [decode_entries] in H.
      rewrite Kt, Et, HM, HK in H by lia. exact H. }
    exists (k :: ks). conj.
    + constructor; auto.
    + intros [k' v'] Hp Hk. apply H2; [|intros; apply Hk; now right]. apply map_set_keeps; auto. apply (Hk k). now left.
    + intros k' v' Hp. destruct (H3 _ _ Hp) as [Hp'|Hp']; [|right; now right].
      apply map_set_in in Hp' as [[-> ->]|Hp']; [right; now left|now left].
    + intros Hd. inversion_clear Hd as [|? ? Hd0 Hdr]. destruct (H4 Hdr) as (vs & V1 & V2). exists (v :: vs). cbn [combine]. split.
      * constructor; [split; auto|].
        assert (Hks : Forall (fun k' => key_eq k k' = false) ks) by exact Hd0.
        clear -V1 Hks. remember (combine ks vs) as kvs eqn:E. revert ks vs E Hks.
        induction V1 as [|te kv l m Hs Hl IHl]; intros ks vs E Hks; constructor.
        -- destruct Hs as [S1 S2]. split; [exact S1|]. rewrite map_get_set in S2; [exact S2|].
           destruct ks as [|k0 ks], vs as [|v0 vs]; try discriminate. injection E as -> ->. cbn [fst].
           inversion_clear Hks. rewrite key_eq_sym. assumption.
        -- destruct ks as [|k0 ks], vs as [|v0 vs]; try discriminate. injection E as -> ->. eapply IHl; eauto. now inversion_clear Hks.
      * intros kv [<-|Hkv]; [|auto]. apply H2; [apply map_set_has|]. intros k' Hk'. cbn [fst].
        rewrite key_eq_sym. rewrite Forall_forall in Hd0. now apply Hd0.
Qed.

Theorem map_merged lim t gk e kt vt tes o o' : wf lim (VMap kt vt tes) -> P t -> under env t = RtMap gk e ->
  has_type env (GMap o) t -> gives t (GMap o) (VMap kt vt tes) (GMap o') None ->
  exists ks, Forall2 (fun te k => gives gk (zero env gk) (fst te) k None) tes ks /\
    (forall p, In p (old_entries o) -> (forall k, In k ks -> key_eq k (fst p) = false) -> In p (old_entries o')) /\
    (forall k v, In (k, v) (old_entries o') -> In (k, v) (old_entries o) \/ In k ks) /\
    (ForallOrdPairs (fun a b => key_eq a b = false) ks ->
       exists vs, Forall2 (stored gk e (old_entries o)) tes (combine ks vs) /\
         forall kv, In kv (combine ks vs) -> In kv (old_entries o')).
Proof using Hcl Henv.
  intros Hw Ht U Hd G.
  destruct (lookup_ends env t (cl_eager env P Hcl t Ht)) as (a & Hc).
  assert (A : exists ka va, a = AMap t ka va).
  { destruct Hc as [[|n] C]; [discriminate|]. cbn [lookup] in C. rewrite U in C.
    destruct (lookup env n gk), (lookup env n e); try discriminate. injection C as <-. eauto. }
  destruct A as (ka & va & ->).
  destruct (gives_settled lim t _ _ _ _ _ Hw Ht Hd Hc G) as [_ (N & S)].
  pose proof (codec_inv env _ _ Hc) as Hi; cbv iota in Hi. destruct Hi as (_ & gk' & e' & U' & Hka & Hva).
  rewrite U in U'. injection U' as <- <-.
  pose proof (cl_parts env P Hcl t Ht) as Kp; unfold parts in Kp. rewrite U in Kp. destruct Kp as [Pk Pe].
  destruct tes as [|p0 tr].
  { specialize (S (Datatypes.S N) N ltac:(lia) ltac:(lia)). cbn [decode] in S. assert (o' = o) by congruence. subst o'.
    exists []. conj; auto; try constructor. intros _. exists []. split; [constructor|contradiction]. }
  assert (Kt : key_type env t = gk) by (unfold key_type; now rewrite U).
  assert (Et : elem_type env t = e) by (unfold elem_type; now rewrite U).
  assert (Ho : Forall (fun p => has_type env (fst p) gk /\ has_type env (snd p) e) (old_entries o)).
  { destruct o as [es|]; [|constructor]. apply type_map in Hd as (k' & e' & U' & Hd). rewrite U in U'. injection U' as <- <-. exact Hd. }
  apply (entries_kept lim t gk e ka va); auto.
  - revert Hw. generalize (p0 :: tr) as l. clear. intros l Hw. cbn [wf] in Hw. destruct Hw as (_ & _ & _ & Hw).
    induction l as [|[k v] l IH]; constructor; [split; apply Hw|]. apply IH. apply Hw.
  - exists N. intros n ln Hn Hl. specialize (S (Datatypes.S n) ln ltac:(lia) ltac:(lia)). cbn [decode] in S.
    change (match o with Some es => es | None => [] end) with (old_entries o) in S.
    destruct (decode_entries env (decode env ln n) t ka va (old_entries o) (p0 :: tr)) as [[es r]|]; [|discriminate].
    injection S as <- ->. reflexivity.
Qed.
End Gives.

(** ** Over the two protocols *)
Section Both.
Context (env : tenv) (P : rtype -> Prop) (Hcl : closed env P) (Henv : env_ok env).

Theorem gives_binary strict size b t dst tv v r rest : 8 <= size -> binv size b -> wf (2 ^ 31) tv -> P t -> has_type env dst t ->
  gives env t dst tv v r -> sdata (abs b) = binary_encoding tv ++ rest ->
  exists N, forall n, (N <= n)%nat -> exists b',
    run (over (bin_reader strict) (bufio_h size)) (Unmarshal env n n (Some (RtPtr t, GPtr (Some dst)))) (tt, b) = Done (tt, b') (Some v, r) /\
    binv size b' /\ (r = None -> abs b' = mkStream rest (sfin (abs b))).
Proof using Hcl Henv.
  intros Hs Hb Hw Ht Hd G He. destruct (lookup_ends env t (cl_eager env P Hcl t Ht)) as (a & C).
  destruct (gives_settled env P Hcl Henv _ t dst tv v r a Hw Ht Hd C G) as [W (N & S)].
  destruct C as [l C]. exists (N + l)%nat. intros n Hn.
  rewrite (Unmarshal_ptr env _ n n t dst a) by (apply (lookup_more env l n); [lia|exact C]). rewrite W.
  destruct (bin_unmarshal env strict size b n n a dst tv (v, r) rest Hs Hb Hw (S n n ltac:(lia) ltac:(lia)) He) as (b' & E & B & L).
  rewrite E. exists b'. conj; auto.
Qed.

Theorem gives_compact size b t dst tv l v r rest st e : 10 <= size -> binv size b -> wf (2 ^ 63) tv -> P t -> has_type env dst t ->
  gives env t dst tv v r -> compact_enc wrap_field tv l -> cr_bool st = BNone -> abs b = mkStream (l ++ rest) (FErr e) ->
  exists N, forall n, (N <= n)%nat -> exists st' b',
    run (over cmp_reader (bufio_h size)) (Unmarshal env n n (Some (RtPtr t, GPtr (Some dst)))) (st, b) = Done (st', b') (Some v, r) /\
    binv size b' /\ (r = None -> st' = st /\ abs b' = mkStream rest (FErr e)).
Proof using Hcl Henv.
  intros Hs Hb Hw Ht Hd G Hl Hst He. destruct (lookup_ends env t (cl_eager env P Hcl t Ht)) as (a & C).
  destruct (gives_settled env P Hcl Henv _ t dst tv v r a Hw Ht Hd C G) as [W (N & S)].
  destruct C as [k C]. exists (N + k)%nat. intros n Hn.
  rewrite (Unmarshal_ptr env _ n n t dst a) by (apply (lookup_more env k n); [lia|exact C]). rewrite W.
  destruct (cmp_unmarshal env size b n n a dst tv l (v, r) rest st e Hs Hb Hw Hl Hst (S n n ltac:(lia) ltac:(lia)) He) as (st' & b' & E & B & L).
  rewrite E. exists st', b'. conj; auto.
Qed.
End Both.
