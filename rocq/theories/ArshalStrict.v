(** Unmarshal against an arbitrary Reader: how errors are reported. *)
From Coq Require Import Strings.String Sorting.Permutation Sorting.Sorted.
From Verif Require Import Base BaseLemmas Prog Wire WireProof Spec Clients Fuel Reads Robust
  GoFloat Utf8 GoType Fields Arshal GoTypeProof FieldsProof ArshalSpec ArshalEnc ArshalDec ArshalTrip ArshalTotal
  ArshalThms ArshalSafe ArshalInput ArshalErr ArshalReads ArshalGives.

Definition ok_call (c : {X & wireR X} * option err) : Prop := snd c = None.

Section Reports.
Context (env : tenv) (Henv : env_ok env).

(** [told h l s' l' r]: the calls in [l'] after [l] and the error [r] fit
    together.  Either all calls succeeded and [r], if any, is a refusal; or the
    last one failed and [r] wraps its error; or the last calls are those of a
    Skip over a field the struct does not have, and [r] is what Skip returned. *)
Definition told {S} (h : handler wireR S) (l : rlog) (s' : S) (l' : rlog) (r : option err) : Prop :=
  (exists l1, l' = l ++ l1 /\ Forall ok_call l1 /\ forall e, r = Some e -> refusal "unmarshal" e) \/
  (exists l1 X (c : wireR X) er e, l' = l ++ l1 ++ [(existT wireR X c, Some er)] /\ Forall ok_call l1 /\
     r = Some e /\ wrapped env "unmarshal" (rname c) er e) \/
  (exists l1 s1 s2 nm ty id fuel t st e, Forall ok_call l1 /\ under env t = RtStruct st /\ ~ known env st id /\
     h _ RFieldBegin s1 = Done s2 (mkFH nm ty id, None) /\
     run (logR h) (skip fuel ty) (s2, l ++ l1 ++ [(existT wireR _ RFieldBegin, None)]) = Done (s', l') (Some e) /\ r = Some e).

Definition reports {A} (ef : A -> option err) (p : prog wireR A) : Prop :=
  forall S (h : handler wireR S) s l s' l' a, run (logR h) p (s, l) = Done (s', l') a -> told h l s' l' (ef a).

Lemma told_later {S} (h : handler wireR S) l l0 s' l' r : Forall ok_call l0 -> told h (l ++ l0) s' l' r -> told h l s' l' r.
Proof using.
  intros H0 [(l1 & -> & H1 & H2)|[(l1 & X & c & er & e & -> & H1 & H2)|(l1 & s1 & s2 & nm & ty & id & fuel & t & st & e & H1 & H2 & H3 & H4 & H5 & H6)]].
  - left. exists (l0 ++ l1). rewrite app_assoc. conj; auto. now apply Forall_app.
  - right. left. exists (l0 ++ l1), X, c, er, e. rewrite <- !app_assoc. conj; try tauto. now apply Forall_app.
  - right. right. exists (l0 ++ l1), s1, s2, nm, ty, id, fuel, t, st, e. conj; auto; [now apply Forall_app|].
    rewrite <- app_assoc in *. exact H5.
Qed.

Lemma reports_ret {A} (ef : A -> option err) a : (forall e, ef a = Some e -> refusal "unmarshal" e) -> reports ef (Ret a).
Proof using.
  intros H S h s l s' l' a' E. cbn [run] in E. injection E as <- <- <-. left. exists []. rewrite app_nil_r. conj; auto.
Qed.
Lemma reports_crash {A} (ef : A -> option err) c : reports ef (Crash c).
Proof using. intros S h s l s' l' a' E. discriminate. Qed.

Lemma reports_vis {A} (ef : A -> option err) X (e : wireR X) k :
  (forall x er, errR e x = Some er -> exists a e', k x = Ret a /\ ef a = Some e' /\ wrapped env "unmarshal" (rname e) er e') ->
  (forall x, errR e x = None -> reports ef (k x)) -> reports ef (Vis e k).
Proof using.
  intros Hf Hk S h s l s' l' a E. cbn [run] in E. unfold logR at 1 in E. cbn [fst snd] in E.
  destruct (h X e s) as [s1 x|]; [|discriminate]. destruct (errR e x) as [er|] eqn:Ex.
  - destruct (Hf x er Ex) as (a' & e' & K & Ea & W). rewrite K in E. cbn [run] in E. injection E as <- <- <-.
    right. left. exists [], X, e, er, e'. conj; auto.
  - apply (Hk x Ex) in E. eapply told_later; [|exact E]. constructor; [reflexivity|constructor].
Qed.

Lemma reports_bind {A B} (ef : A -> option err) (eg : B -> option err) p f :
  reports ef p -> (forall a, ef a = None -> reports eg (f a)) ->
  (forall a e, ef a = Some e -> exists b, f a = Ret b /\ eg b = Some e) -> reports eg (bind p f).
Proof using.
  intros Hp Hn He S h s l s' l' b E. rewrite run_bind in E.
  destruct (run (logR h) p (s, l)) as [[s1 l1] a|] eqn:E1; [|discriminate]. cbn [obind] in E.
  apply Hp in E1. destruct (ef a) as [e|] eqn:Ea.
  - destruct (He a e Ea) as (b' & K & Eb). rewrite K in E. cbn [run] in E. injection E as <- <- <-. now rewrite Eb.
  - specialize (Hn a Ea _ _ _ _ _ _ _ E).
    destruct E1 as [(l2 & -> & H2 & _)|[(l2 & X & c & er & e & _ & _ & H & _)|(l2 & ? & ? & ? & ? & ? & ? & ? & ? & ? & _ & _ & _ & _ & _ & H)]]; try discriminate.
    eapply told_later; eauto.
Qed.

Lemma reports_loop_nat {St A} (ef : A -> option err) (body : St -> prog wireR (St + A)) n :
  (forall st, reports (lef ef) (body st)) -> forall st, reports (lef ef) (loop_nat n body st).
Proof using.
  intros Hb. induction n as [|n IH]; intros st; cbn [loop_nat]; [apply reports_ret; discriminate|].
  eapply reports_bind; [apply Hb| |].
  - intros [st'|a] Ha; [apply IH|]. apply reports_ret. intros e He. cbn in *. congruence.
  - intros [st'|a] e He; [discriminate|]. exists (inr a). auto.
Qed.
Lemma reports_loop_pos {St A} (ef : A -> option err) (body : St -> prog wireR (St + A)) n :
  (forall st, reports (lef ef) (body st)) -> forall st, reports (lef ef) (loop_pos n body st).
Proof using.
  intros Hb. induction n as [q IH|q IH|]; intros st; cbn [loop_pos]; [| |apply Hb].
  - eapply reports_bind; [apply Hb| |].
    + intros [st0|a] Ha; [|apply reports_ret; intros e He; cbn in *; congruence].
      eapply reports_bind; [apply IH| |].
      * intros [st'|a] Hb'; [apply IH|]. apply reports_ret. intros e He. cbn in *. congruence.
      * intros [st'|a] e He; [discriminate|]. exists (inr a). auto.
    + intros [st'|a] e He; [discriminate|]. exists (inr a). auto.
  - eapply reports_bind; [apply IH| |].
    + intros [st'|a] Hb'; [apply IH|]. apply reports_ret. intros e He. cbn in *. congruence.
    + intros [st'|a] e He; [discriminate|]. exists (inr a). auto.
Qed.
Lemma reports_loop_Z {St A} (ef : A -> option err) (body : St -> prog wireR (St + A)) n st :
  (forall st, reports (lef ef) (body st)) -> reports (lef ef) (loop_Z n body st).
Proof using. intros Hb. destruct n; cbn [loop_Z]; try (apply reports_ret; discriminate). now apply reports_loop_pos. Qed.

(** Reading a field header, and skipping an unknown field. *)
Lemma reports_field {A} (ef : A -> option err) (k : fhdr * option err -> prog wireR A) :
  (forall x er, exists a e', k (x, Some er) = Ret a /\ ef a = Some e' /\ wrapped env "unmarshal" "ReadFieldBegin" er e') ->
  (forall x, reports ef (k (x, None)) \/
     exists fuel f t st, k (x, None) = bind (skip fuel (fh_type x)) f /\ under env t = RtStruct st /\ ~ known env st (fh_id x) /\
       (forall e, exists a, f (Some e) = Ret a /\ ef a = Some e) /\ reports ef (f None)) ->
  reports ef (Vis RFieldBegin k).
Proof using.
  intros Hf Hk S h s l s' l' a E. cbn [run] in E. unfold logR at 1 in E. cbn [fst snd] in E.
  destruct (h _ RFieldBegin s) as [s1 [x [er|]]|] eqn:E0; [| |discriminate]; cbn [errR snd] in E.
  - destruct (Hf x er) as (a' & e' & K & Ea & W). rewrite K in E. cbn [run] in E. injection E as <- <- <-.
    right. left. exists [], _, RFieldBegin, er, e'. conj; auto.
  - destruct (Hk x) as [H|(fuel & f & t & st & K & U & Kn & He & Hn)].
    + apply H in E. eapply told_later; [|exact E]. constructor; [reflexivity|constructor].
    + rewrite K, run_bind in E. destruct (run (logR h) (skip fuel (fh_type x)) _) as [[s2 l2] [e|]|] eqn:E1; [| |discriminate]; cbn [obind] in E.
      * destruct (He e) as (a' & K' & Ea). rewrite K' in E. cbn [run] in E. injection E as <- <- <-.
        right. right. exists [], s, s1, (fh_name x), (fh_type x), (fh_id x), fuel, t, st, e. conj; auto.
        destruct x; exact E0.
      * destruct (tells_run _ _ h _ _ (tells_skip fuel (fh_type x)) _ _ _ _ _ E1) as (l3 & H3 & [[-> _]|(X & c & er & e & _ & H & _)]); [|discriminate].
        apply Hn in E. rewrite <- app_assoc in E. eapply told_later; [|exact E]. constructor; [reflexivity|exact H3].
Qed.

Lemma reports_rdu {X A} (ef : A -> option err) act wt t a (e : wireR (X * option err)) (fail : X -> err -> A) k :
  errR e = snd -> codec env t a -> wire_type a = wt -> act = rname e -> (forall x er, ef (fail x er) = Some er) ->
  (forall x, reports ef (k x)) -> reports ef (rdu act wt t e fail k).
Proof using.
  intros He C <- -> Hf Hk. unfold rdu. cbn. apply reports_vis.
  - intros [x o] er Hx. rewrite He in Hx. cbn in Hx. subst o. do 2 eexists. conj; [reflexivity|apply Hf|].
    exists t, a. auto.
  - intros [x o] Hx. rewrite He in Hx. cbn in Hx. subst o. apply Hk.
Qed.
Lemma reports_rdu0 {A} (ef : A -> option err) act wt t a (e : wireR (option err)) (fail : err -> A) k :
  errR e = (fun x => x) -> codec env t a -> wire_type a = wt -> act = rname e -> (forall er, ef (fail er) = Some er) ->
  reports ef k -> reports ef (rdu0 act wt t e fail k).
Proof using.
  intros He C <- -> Hf Hk. unfold rdu0. cbn. apply reports_vis.
  - intros x er Hx. rewrite He in Hx. subst x. do 2 eexists. conj; [reflexivity|apply Hf|].
    exists t, a. auto.
  - intros x Hx. rewrite He in Hx. subst x. apply Hk.
Qed.

Lemma reports_check wt want t dst k : reports (@snd gval (option err)) k -> reports (@snd gval (option err)) (check wt want t dst k).
Proof using.
  intros H. unfold check. destruct (wt =? want); [exact H|]. apply reports_ret. intros e He. injection He as <-.
  exists t, wt, None. auto.
Qed.
Lemma reports_scalar {X} act wt t a (e : wireR (X * option err)) dst f :
  errR e = snd -> codec env t a -> wire_type a = wt -> act = rname e ->
  reports (@snd gval (option err)) (scalar act wt t e dst f).
Proof using.
  intros. unfold scalar. eapply reports_rdu; eauto. intros x. apply reports_ret. discriminate.
Qed.

Lemma table_has ln t fs j sf o : make_struct_fields env ln t = Some (inl fs) ->
  nth_error (struct_def env t) j = Some sf -> tagged env sf o -> exists f, In f fs /\ f_id f = fo_id o.
Proof using Henv.
  intros M Nj Tg. destruct (fields_spec env Henv ln t fs M) as (F1 & _ & _).
  assert (L' : exists a', lookup env ln (sf_type sf) = Some a').
  { clear F1. unfold make_struct_fields in M.
    destruct (collect_fields env ln t 0 (struct_def env t)) as [[l|e]|] eqn:C; try discriminate. clear M.
    revert Nj C. generalize 0%nat as i. generalize l. revert j. induction (struct_def env t) as [|x r IH]; intros j l1 i Nj C; [destruct j; discriminate|].
    cbn [collect_fields] in C. destruct (parse_field_options (te_uni env) x) as [[o' ig] [er|]] eqn:Pf; [destruct ig; discriminate|].
    destruct ig.
    - destruct j as [|j]; [|eapply IH; eauto]. injection Nj as ->. unfold tagged in Tg. congruence.
    - destruct (lookup env ln (sf_type x)) eqn:Lx; [|discriminate].
      destruct (collect_fields env ln t (S i) r) as [[l2|e]|] eqn:C1; try discriminate.
      destruct j as [|j]; [injection Nj as ->; eauto|eapply IH; eauto]. }
  destruct L' as (a' & L'). eexists. split; [apply F1; exists j, sf, o, a'; conj; eauto|]. reflexivity.
Qed.

Theorem reports_unmarshal ln n : forall t a dst wt, codec env t a -> reports (@snd gval (option err)) (unmarshal env ln n a dst wt).
Proof using Henv.
  induction n as [|n IH]; intros t a dst wt Hc; [apply reports_crash|].
  pose proof (codec_inv env _ _ Hc) as Hi. cbn [unmarshal].
  destruct a as [t'|t'|t' single|t' w|t' w|t'|t'|t'|t'|t' ka va|t' set ea|t' ea]; cbv iota in Hi.
  - subst t'. apply reports_ret. intros e He. injection He as <-. exists t, wt, None. auto.
  - destruct Hi as [-> _]. apply reports_check. eapply reports_scalar; eauto.
  - destruct Hi as [-> _]. apply reports_check. eapply reports_scalar; eauto.
  - destruct Hi as [-> _]. apply reports_check. destruct w; eapply reports_scalar; eauto.
  - destruct Hi as [-> _]. apply reports_check. destruct w; eapply reports_scalar; eauto.
  - destruct Hi as [-> _]. apply reports_check. eapply reports_scalar; eauto.
  - destruct Hi as [-> _]. apply reports_check. eapply reports_scalar; eauto.
  - destruct Hi as [-> _]. apply reports_check. destruct dst; try apply reports_crash. eapply reports_rdu; eauto.
    intros x. apply reports_ret. discriminate.
  - destruct Hi as [-> Hs]. destruct (make_struct_fields env ln t) as [[fs|e]|] eqn:M.
    + apply reports_check. destruct dst; try apply reports_crash. eapply reports_rdu; eauto. intros _.
      apply (reports_bind (lef (@snd gval (option err)))).
      * apply reports_loop_nat. intros vs. unfold unmarshal_field. unfold rdu at 1. cbn [bind call]. apply reports_field.
        { intros x er. do 2 eexists. conj; [reflexivity..|]. exists t, (AStruct t). auto. }
        intros x. cbn [bind]. destruct (fh_type x =? T_Stop); [left; eapply reports_rdu0; eauto; apply reports_ret; discriminate|].
        destruct (by_id fs (fh_id x)) as [f|] eqn:Bf.
        -- left. destruct (nth_error vs (f_index f)) as [v|]; [|apply reports_crash].
           assert (Cf : exists ft, codec env ft (f_fncs f)).
           { apply find_some in Bf as [Bf _]. apply in_rev in Bf. destruct (fields_spec env Henv ln t fs M) as (F1 & _ & _).
             apply F1 in Bf as (j & sf & o & a & Nf & S & L & ->). cbn. exists (sf_type sf), ln. exact L. }
           destruct Cf as (ft & Cf). eapply reports_bind; [apply (IH ft); exact Cf| |].
           ++ intros [v' o] Ho. cbn in Ho. subst o. eapply reports_rdu0; eauto. apply reports_ret. discriminate.
           ++ intros [v' o] e He. cbn in He. subst o. eexists. split; reflexivity.
        -- right. destruct Hs as (st & U). do 2 eexists. exists t, st. conj; [reflexivity|exact U| | |].
           ++ intros (sf & o & Hin & Tg & Ei). apply In_nth_error in Hin as (j & Nj).
              destruct (table_has ln t fs j sf o M) as (f & Hf & Idf); [unfold struct_def; now rewrite U|exact Tg|].
              unfold by_id in Bf. apply in_rev in Hf. apply (find_none _ _ Bf) in Hf. rewrite Idf, Ei, Z.eqb_refl in Hf. discriminate.
           ++ intros e. eexists. split; reflexivity.
           ++ eapply reports_rdu0; eauto. apply reports_ret. discriminate.
      * intros [u|r] Hr; [apply reports_crash|]. apply reports_ret. intros e He. cbn in *. congruence.
      * intros [u|r] e He; [discriminate|]. eauto.
    + destruct (table_error env _ _ _ M) as (w & ->). apply reports_ret. intros e He. injection He as <-.
      exists t, 0, (Some (ETag w)). eauto.
    + apply reports_crash.
  - destruct Hi as (-> & kt & e & U & Hka & Hva). apply reports_check. destruct dst; try apply reports_crash.
    eapply reports_rdu; eauto. intros x. destruct (map_size x >? 0).
    + apply (reports_bind (lef (@snd gval (option err)))).
      * apply reports_loop_Z. intros es. unfold unmarshal_entry. eapply reports_bind; [eapply IH; exact Hka| |].
        -- intros [k ro] Ho. cbn in Ho. subst ro. eapply reports_bind; [eapply IH; exact Hva| |].
           ++ intros [v ro] Ho. cbn in Ho. subst ro. apply reports_ret. discriminate.
           ++ intros [v ro] e' He. cbn in He. subst ro. eexists. split; reflexivity.
        -- intros [k ro] e' He. cbn in He. subst ro. eexists. split; reflexivity.
      * intros [u|r] Hr; [eapply reports_rdu0; eauto; apply reports_ret; discriminate|]. apply reports_ret. intros e' He. cbn in *. congruence.
      * intros [u|r] e' He; [discriminate|]. eauto.
    + eapply reports_rdu0; eauto. apply reports_ret. discriminate.
  - destruct Hi as (-> & e & U & B & Hea & Hset). apply reports_check. destruct dst; try apply reports_crash.
    assert (Hfin : forall d, reports (@snd gval (option err)) (rdu0 (if set then "ReadSetEnd" else "ReadListEnd") (if set then T_Set else T_List) t
                        (if set then RSetEnd else RListEnd) (fun er => (d, Some er)) (Ret (d, None)))).
    { intros d. destruct set; eapply reports_rdu0; eauto; apply reports_ret; discriminate. }
    apply reports_rdu with (a := ASeq t set ea); auto; [destruct set; reflexivity|destruct set; reflexivity|]. intros x. destruct (set_size x >? 0).
    + apply (reports_bind (lef (@snd gval (option err)))).
      * apply reports_loop_Z. intros [[i arr] mz]. unfold unmarshal_elem.
        destruct (if Nat.eqb i (length arr) then _ else _) as [arr1 mz1]. eapply reports_bind; [eapply IH; exact Hea| |].
        -- intros [v o] Ho. cbn in Ho. subst o. apply reports_ret. discriminate.
        -- intros [v o] e' He. cbn in He. subst o. eexists. split; reflexivity.
      * intros [[[i arr] mz]|r] Hr; [apply Hfin|]. apply reports_ret. intros e' He. cbn in *. congruence.
      * intros [u|r] e' He; [discriminate|]. eauto.
    + apply Hfin.
  - destruct Hi as (-> & e & U & Hea). destruct dst as [| | | | | | | | | |o| |]; try apply reports_crash.
    eapply reports_bind; [eapply IH; exact Hea| |].
    + intros [v r] Hr. cbn in Hr. subst r. apply reports_ret. discriminate.
    + intros [v r] e' He. cbn in He. subst r. eexists. split; reflexivity.
Qed.


Theorem Unmarshal_told ln n o {S} (h : handler wireR S) s s' l' v r :
  run (logR h) (Unmarshal env ln n o) (s, []) = Done (s', l') (v, r) ->
  told h [] s' l' r \/
  (l' = [] /\ exists t, r = Some (ESemantic "unmarshal" 0 t (Some ENonNilPointer))).
Proof using Henv.
  assert (Own : forall t, run (logR h) (Ret (None, Some (ESemantic "unmarshal" 0 t (Some ENonNilPointer)))) (s, []) = Done (s', l') (v, r) ->
    l' = [] /\ exists t, r = Some (ESemantic "unmarshal" 0 t (Some ENonNilPointer))).
  { intros t E. cbn [run] in E. injection E as _ <- _ <-. eauto. }
  intros E. destruct o as [[t w]|]; cbn [Unmarshal] in E; [|right; eapply Own; exact E].
  destruct (is_ptr env t); [|right; eapply Own; exact E].
  destruct w as [| | | | | | | | | |[w|]| |]; try discriminate; [|right; eapply Own; exact E].
  destruct (lookup env ln (elem_type env t)) as [a|] eqn:L; [|discriminate]. left.
  assert (R : reports (@snd (option gval) (option err)) ('(v', e) <- unmarshal env ln n a w (wire_type a) ;; Ret (Some v', e))).
  { eapply reports_bind; [apply (reports_unmarshal ln n (elem_type env t)); now exists ln| |].
    - intros [v' e] He. cbn in He. subst e. apply reports_ret. discriminate.
    - intros [v' e] e' He. cbn in He. subst e. eexists. split; reflexivity. }
  apply R in E. exact E.
Qed.
End Reports.
