(** Which calls Marshal makes for a struct. *)
From Coq Require Import Strings.String Sorting.Permutation Sorting.Sorted.
From Verif Require Import Base BaseLemmas Prog Wire WireProof Spec Clients Fuel Reads Robust
  GoFloat Utf8 GoType Fields Arshal GoTypeProof FieldsProof ArshalSpec ArshalEnc ArshalDec ArshalTrip ArshalTotal
  ArshalThms ArshalSafe ArshalInput ArshalErr.

(** A Writer that accepts everything. *)
Definition accept : handler wireW unit :=
  fun X e s => Done s (match e in wireW X return X with
  | WMessageBegin _ | WMessageEnd | WStructBegin _ | WStructEnd | WFieldBegin _ | WFieldEnd
  | WMapBegin _ | WMapEnd | WSetBegin _ | WSetEnd | WListBegin _ | WListEnd
  | WBool _ | WByte _ | WDouble _ | WI16 _ | WI32 _ | WI64 _ | WString _ | WBytes _ | WUUID _
  | WFlush => None
  end).

Definition done (c : wcall) : {X & wireW X} * option err := (existT wireW _ (ev c), None).

Definition cof {X} (e : wireW X) : option wcall :=
  match e with
  | WStructBegin nm => Some (CStructBegin nm) | WStructEnd => Some CStructEnd
  | WFieldBegin h => Some (CFieldBegin h) | WFieldEnd => Some CFieldEnd
  | WMapBegin h => Some (CMapBegin h) | WMapEnd => Some CMapEnd
  | WSetBegin h => Some (CSetBegin h) | WSetEnd => Some CSetEnd
  | WListBegin h => Some (CListBegin h) | WListEnd => Some CListEnd
  | WBool b => Some (CBool b) | WByte b => Some (CByte b) | WDouble z => Some (CDouble z)
  | WI16 z => Some (CI16 z) | WI32 z => Some (CI32 z) | WI64 z => Some (CI64 z)
  | WString x => Some (CString x) | WBytes x => Some (CBytes x) | WUUID u => Some (CUUID u)
  | _ => None
  end.
Lemma cof_ev c : cof (ev c) = Some c.
Proof. destruct c; reflexivity. Qed.

Lemma done_inj cs : forall cs', map done cs = map done cs' -> cs = cs'.
Proof.
  induction cs as [|c r IH]; intros [|c' r'] H; try discriminate; [reflexivity|]. cbn [map] in H.
  f_equal; [|apply IH; congruence].
  assert (E : done c = done c') by congruence. apply (f_equal (fun p => cof (projT2 (fst p)))) in E. cbn in E.
  rewrite !cof_ev in E. congruence.
Qed.

Section Calls.
Context (env : tenv).

Lemma plays_accept p cs r : plays env p cs r -> forall l, run (logW accept) p (tt, l) = Done (tt, l ++ map done cs) r.
Proof.
  induction 1 as [|e He|c k cs r Hk Hn IH]; intros l; cbn [run map]; try now rewrite app_nil_r.
  unfold logW at 1. cbn [fst snd]. assert (A : accept _ (ev c) tt = Done tt None) by (destruct c; reflexivity).
  rewrite A. assert (Ex : errW (ev c) None = None) by (destruct c; reflexivity). rewrite Ex, IH, <- app_assoc. reflexivity.
Qed.

Lemma plays_fun p cs r cs' r' : plays env p cs r -> plays env p cs' r' -> cs = cs' /\ r = r'.
Proof.
  intros H1 H2. pose proof (plays_accept _ _ _ H1 []) as E1. rewrite (plays_accept _ _ _ H2 []) in E1. cbn [app] in E1.
  assert (map done cs' = map done cs) by congruence. split; [symmetry; now apply done_inj|congruence].
Qed.

(** The calls Marshal makes for [v], of type [t]. *)
Definition calls_of (t : rtype) (v : gval) (cs : list wcall) : Prop :=
  exists N, forall n, (N <= n)%nat ->
    run (logW accept) (Marshal env n n (Some (RtPtr t, GPtr (Some v)))) (tt, []) = Done (tt, map done cs) None.

Context (P : rtype -> Prop) (Hcl : closed env P) (Henv : env_ok env) (Hdem : forall t, P t -> Acc (demand env) t).

Lemma Marshal_lookup n t a v : lookup env n t = Some a ->
  Marshal env n n (Some (RtPtr t, GPtr (Some v))) = marshal env n n a v.
Proof. intros L. cbn [Marshal]. unfold is_ptr, elem_type. cbn [under]. now rewrite L. Qed.

Lemma calls_played t a v cs : codec env t a ->
  (exists N, forall n ln, (N <= n)%nat -> (N <= ln)%nat -> plays env (marshal env ln n a v) cs None) -> calls_of t v cs.
Proof.
  intros [l C] (N & H). exists (N + l)%nat. intros n Hn.
  rewrite (Marshal_lookup n t a v (lookup_more env l n _ _ ltac:(lia) C)).
  apply (plays_accept _ _ _ (H n n ltac:(lia) ltac:(lia)) []).
Qed.
Lemma played_calls t a v cs : codec env t a -> played env a v -> calls_of t v cs ->
  exists N, forall n ln, (N <= n)%nat -> (N <= ln)%nat -> plays env (marshal env ln n a v) cs None.
Proof.
  intros [l C] (N & cs' & r & H) (N' & H'). exists N. intros n ln Hn Hl.
  specialize (H' (N + N' + l)%nat ltac:(lia)).
  rewrite (Marshal_lookup _ t a v (lookup_more env l (N + N' + l) _ _ ltac:(lia) C)) in H'.
  pose proof (eq_trans (eq_sym (plays_accept _ _ _ (H (N + N' + l)%nat (N + N' + l)%nat ltac:(lia) ltac:(lia)) [])) H') as E0.
  cbn [app] in E0. clear H'.
  assert (E : map done cs' = map done cs) by congruence. apply done_inj in E. assert (r = None) by congruence. subst. auto.
Qed.

Record sel := mkSel { s_index : nat; s_opts : fieldOptions; s_wire : Z; s_val : gval; s_calls : list wcall }.
Definition sel_calls (x : sel) : list wcall :=
  CFieldBegin (mkFH (fo_name (s_opts x)) (s_wire x) (fo_id (s_opts x))) :: s_calls x ++ [CFieldEnd].

Definition sel_ok (s : nat) (vs : list gval) (x : sel) : Prop :=
  exists sf a, nth_error (te_struct env s) (s_index x) = Some sf /\ nth_error vs (s_index x) = Some (s_val x) /\
    tagged env sf (s_opts x) /\ codec env (sf_type sf) a /\ s_wire x = wire_type a /\
    calls_of (sf_type sf) (s_val x) (s_calls x).

Definition fok (s : nat) (f : structField) : Prop :=
  exists sf o, nth_error (te_struct env s) (f_index f) = Some sf /\ tagged env sf o /\
        codec env (sf_type sf) (f_fncs f) /\ f_id f = fo_id o /\ f_name f = fo_name o /\ f_required f = fo_required o /\
        (forall v, field_zero env f v = zero_field env sf v).

Lemma fields_calls t s vs : P t -> under env t = RtStruct s -> has_type env (GStruct vs) t -> forall fs,
  Forall (fok s) fs -> StronglySorted (fun f g => f_id f <= f_id g) fs -> NoDup (map f_index fs) ->
  exists N cs r, (forall n ln, (N <= n)%nat -> (N <= ln)%nat -> plays env (marshal_fields env (marshal env ln n) t vs fs) cs r) /\
    (r = None -> exists l, cs = flat_map sel_calls l ++ [CStructEnd] /\
      StronglySorted Z.le (map (fun x => fo_id (s_opts x)) l) /\ NoDup (map s_index l) /\
      (forall x, In x l -> exists f, In f fs /\ f_index f = s_index x /\ f_id f = fo_id (s_opts x)) /\
      (forall f sf v, In f fs -> nth_error (te_struct env s) (f_index f) = Some sf -> nth_error vs (f_index f) = Some v ->
         written env sf v -> In (f_index f) (map s_index l)) /\
      (forall x sf, In x l -> nth_error (te_struct env s) (s_index x) = Some sf -> written env sf (s_val x)) /\
      Forall (sel_ok s vs) l).
Proof using Hcl Henv Hdem.
  intros Ht U Hty.
  assert (Ct : codec env t (AStruct t)) by (exists 1%nat; cbn [lookup]; now rewrite U).
  apply type_struct in Hty as (s' & U' & Hvs). rewrite U in U'. injection U' as <-.
  induction fs as [|f r IHr]; intros Hf Hs Hn.
  - exists O, [CStructEnd], None. split; [intros; now apply (plays_wr env t (AStruct t) _ CStructEnd)|].
    intros _. exists []. conj; auto; try constructor; cbn; contradiction.
  - inversion_clear Hf as [|? ? Hf0 Hfr]. inversion_clear Hs as [|? ? Hsr Hs0]. inversion_clear Hn as [|? ? Hn0 Hnr].
    destruct (IHr Hfr Hsr Hnr) as (N & cs & res & E & Hd). clear IHr.
    destruct Hf0 as (sf & o & Nf & Tg & C & A0 & A1 & A2 & A3).
    assert (Psf : P (sf_type sf)).
    { pose proof (cl_parts env P Hcl t Ht) as K. unfold parts in K. rewrite U in K.
      apply (K sf o); auto. eapply nth_error_In; eauto. }
    destruct (wire_type (f_fncs f) =? T_Stop) eqn:W.
    { exists O, [], (Some (ESemantic "marshal" 0 (Some (f_typ f)) None)). split; [|discriminate].
      intros. cbn [marshal_fields]. rewrite W. apply pl_refuse. exists (f_typ f), 0, None. auto. }
    destruct (nth_error vs (f_index f)) as [v|] eqn:Nv.
    2:{ exfalso. apply nth_error_None in Nv. rewrite (Forall2_len _ _ _ Hvs) in Nv.
        assert (f_index f < length (te_struct env s))%nat by (apply nth_error_Some; congruence). lia. }
    assert (Tv : has_type env v (sf_type sf)).
    { clear -Hvs Nf Nv. revert Nf Nv. generalize (f_index f) as i. induction Hvs as [|x y l m Hx Hl IHl]; intros [|i] Nf Nv; try discriminate.
      - injection Nf as <-. injection Nv as <-. exact Hx.
      - eapply IHl; eauto. }
    assert (Wr : written env sf v <-> negb (f_required f) && field_zero env f v = false).
    { rewrite A2, A3. split.
      - intros (o' & Tg' & H). unfold tagged in *. assert (o' = o) by congruence. subst o'.
        destruct H as [H|H]; rewrite H; [reflexivity|]. now rewrite andb_false_r.
      - intros H. exists o. split; [exact Tg|]. destruct (fo_required o), (zero_field env sf v); auto; discriminate. }
    destruct (negb (f_required f) && field_zero env f v) eqn:Z.
    + exists N, cs, res. split; [intros n ln' Hn Hl; cbn [marshal_fields]; rewrite W, Nv, Z; auto|].
      intros Hr. destruct (Hd Hr) as (l & E1 & E2 & E3 & E4 & E5 & E6 & E7). exists l. conj; auto.
      * intros x Hx. destruct (E4 x Hx) as (g & Hg & Hg'). exists g. split; [now right|exact Hg'].
      * intros g sf' v' [<-|Hg] Ng Nv' Wg; [|eapply E5; eauto].
        rewrite Nf in Ng. rewrite Nv in Nv'. injection Ng as <-. injection Nv' as <-. apply Wr in Wg. discriminate.
    + destruct (marshal_played env P Hcl Henv Hdem v (sf_type sf) (f_fncs f) Psf C Tv) as (N' & cs' & [er|] & E').
      * exists N', (CFieldBegin (mkFH (f_name f) (wire_type (f_fncs f)) (f_id f)) :: cs'), (Some er). split; [|discriminate].
        intros n ln' Hn Hl. cbn [marshal_fields]. rewrite W, Nv, Z.
        apply (plays_then env _ [_] _ cs'); [now apply (plays_wr env t (AStruct t) _ (CFieldBegin _))|].
        apply plays_stop. apply E'; lia.
      * exists (N + N')%nat, (field_calls f cs' ++ cs), res. split.
        { intros n ln' Hn Hl. cbn [marshal_fields]. rewrite W, Nv, Z.
          unfold field_calls. cbn [app]. rewrite <- app_assoc.
          apply (plays_then env _ [_] _ (cs' ++ [CFieldEnd] ++ cs)); [now apply (plays_wr env t (AStruct t) _ (CFieldBegin _))|].
          apply plays_then; [apply E'; lia|]. apply plays_then; [now apply (plays_wr env t (AStruct t) _ CFieldEnd)|].
          apply E; lia. }
        intros Hr. destruct (Hd Hr) as (l & E1 & E2 & E3 & E4 & E5 & E6 & E7).
        exists (mkSel (f_index f) o (wire_type (f_fncs f)) v cs' :: l). conj.
        -- subst cs. cbn [flat_map]. rewrite <- app_assoc. f_equal. unfold field_calls, sel_calls. cbn. now rewrite A0, A1.
        -- cbn [map]. constructor; [exact E2|]. cbn. rewrite Forall_map. apply Forall_forall. intros x Hx.
           destruct (E4 x Hx) as (g & Hg & _ & <-). rewrite <- A0. rewrite Forall_forall in Hs0. now apply Hs0.
        -- cbn [map]. constructor; [|exact E3]. cbn. intros Hin. apply in_map_iff in Hin as (x & Ex & Hx).
           destruct (E4 x Hx) as (g & Hg & Ig & _). apply Hn0. rewrite <- Ex, <- Ig. now apply in_map.
        -- intros x [<-|Hx]; [exists f; cbn; auto|]. destruct (E4 x Hx) as (g & Hg & Hg'). exists g. split; [now right|exact Hg'].
        -- intros g sf' v' [<-|Hg] Ng Nv' Wg; [now left|]. right. eapply E5; eauto.
        -- intros x sf' [<-|Hx] Nx; [|eapply E6; eauto]. cbn in *. rewrite Nf in Nx. injection Nx as <-. now apply Wr.
        -- constructor; [|exact E7]. exists sf, (f_fncs f). cbn. conj; auto. apply (calls_played _ (f_fncs f)); auto.
           exists N'. exact E'.
Qed.

Lemma sorted_strong fs : sorted_by_id fs -> StronglySorted (fun f g => f_id f <= f_id g) fs.
Proof.
  induction fs as [|f r IH]; intros H; constructor.
  - apply IH. intros i j x y Hij Hx Hy. apply (H (S i) (S j) x y); auto. lia.
  - apply Forall_forall. intros g Hg. apply In_nth_error in Hg as (j & Hj). apply (H O (S j) f g); auto. lia.
Qed.

Theorem struct_calls t s vs cs : P t -> under env t = RtStruct s -> has_type env (GStruct vs) t ->
  calls_of t (GStruct vs) cs ->
  exists l, cs = CStructBegin (type_name env t) :: flat_map sel_calls l ++ [CStructEnd] /\
    StronglySorted Z.le (map (fun x => fo_id (s_opts x)) l) /\ NoDup (map s_index l) /\
    (forall j, In j (map s_index l) <->
       exists sf v, nth_error (te_struct env s) j = Some sf /\ nth_error vs j = Some v /\ written env sf v) /\
    Forall (sel_ok s vs) l.
Proof using Hcl Henv Hdem.
  intros Ht U Hty Hc.
  assert (Ct : codec env t (AStruct t)) by (exists 1%nat; cbn [lookup]; now rewrite U).
  apply (played_calls t (AStruct t)) in Hc; [|exact Ct|eapply marshal_played; eauto].
  destruct (table_ends env P Hcl Henv t s Ht U) as (ln & r & M).
  destruct Hc as (N & Hc). destruct r as [fs|e].
  2:{ exfalso. specialize (Hc (S N) (N + ln)%nat ltac:(lia) ltac:(lia)). cbn [marshal] in Hc.
      rewrite (make_fields_more env ln (N + ln) _ _ ltac:(lia) M) in Hc.
      apply plays_accept with (l := []) in Hc. discriminate. }
  destruct (fields_spec env Henv ln t fs M) as (F1 & F2 & F3).
  assert (SD : struct_def env t = te_struct env s) by (unfold struct_def; now rewrite U). rewrite SD in F1.
  assert (Hsub : Forall (fok s) fs).
  { apply Forall_forall. intros f Hf. apply F1 in Hf as (j & sf & o & a & Nf & S & L & ->). exists sf, o. cbn. conj; auto; [now exists ln|]. apply zero_field_model. }
  assert (Hall : forall j sf o, nth_error (te_struct env s) j = Some sf -> tagged env sf o -> exists f, In f fs /\ f_index f = j).
  { intros j sf o Nj Tg.
    assert (L' : exists a', lookup env ln (sf_type sf) = Some a').
    { clear -M SD Nj Tg. unfold make_struct_fields in M. rewrite SD in M.
      destruct (collect_fields env ln t 0 (te_struct env s)) as [[l|e]|] eqn:C; try discriminate. clear M SD.
      revert Nj C. generalize 0%nat as i. generalize l. revert j. induction (te_struct env s) as [|x r IH]; intros j l0 i Nj C; [destruct j; discriminate|].
      cbn [collect_fields] in C. destruct (parse_field_options (te_uni env) x) as [[o' ig] [er|]] eqn:Pf; [destruct ig; discriminate|].
      destruct ig.
      - destruct j as [|j]; [|eapply IH; eauto]. injection Nj as ->. unfold tagged in Tg. congruence.
      - destruct (lookup env ln (sf_type x)) eqn:Lx; [|discriminate].
        destruct (collect_fields env ln t (S i) r) as [[l1|e]|] eqn:C1; try discriminate.
        destruct j as [|j]; [injection Nj as ->; eauto|eapply IH; eauto]. }
    destruct L' as (a' & L'). eexists. split; [apply F1; exists j, sf, o, a'; conj; eauto|reflexivity]. }
  destruct (fields_calls t s vs Ht U Hty fs Hsub (sorted_strong fs F3) F2) as (N1 & cs1 & r1 & E & Hd).
  pose proof (Hc (S (N + N1 + ln))%nat (S (N + N1 + ln))%nat ltac:(lia) ltac:(lia)) as Hp. cbn [marshal] in Hp.
  rewrite (make_fields_more env ln (S (N + N1 + ln)) _ _ ltac:(lia) M) in Hp.
  pose proof (plays_then env _ [_] _ cs1 r1 (plays_wr env t (AStruct t) "WriteStructBegin" (CStructBegin (type_name env t)) T_Struct Ct eq_refl eq_refl)
    (E (N + N1 + ln)%nat (S (N + N1 + ln))%nat ltac:(lia) ltac:(lia))) as Hq.
  destruct (plays_fun _ _ _ _ _ Hp Hq) as [-> <-].
  destruct (Hd eq_refl) as (l & -> & E2 & E3 & E4 & E5 & E6 & E7). exists l. conj; auto.
  intros j. split.
  - intros Hin. apply in_map_iff in Hin as (x & <- & Hx). rewrite Forall_forall in E7.
    destruct (E7 x Hx) as (sf & a & H1 & H2 & _). exists sf, (s_val x). conj; auto.
  - intros (sf & v & H1 & H2 & H3). destruct H3 as (o & Tg & H3).
    destruct (Hall j sf o H1 Tg) as (f & Hf & <-). eapply E5; eauto. exists o. auto.
Qed.
End Calls.
