(** Unmarshal against an arbitrary Reader: how errors are reported, type
    mismatches, collection counts. *)
From Coq Require Import Strings.String Sorting.Permutation Sorting.Sorted.
From Verif Require Import Base BaseLemmas Prog Wire WireProof Spec Clients Fuel Reads Robust
  GoFloat Utf8 GoType Fields Arshal GoTypeProof FieldsProof ArshalSpec ArshalEnc ArshalDec ArshalTrip ArshalTotal
  ArshalThms ArshalSafe ArshalInput ArshalErr.

Section Tells.
Context (own : err -> Prop) (W : string -> err -> err -> Prop).

(** A failed call is the last one and its error comes out ([W]); other errors
    are in [own]. *)
Inductive tells {A} (ef : A -> option err) : prog wireR A -> Prop :=
| tl_ret a : (forall e, ef a = Some e -> own e) -> tells ef (Ret a)
| tl_crash c : tells ef (Crash c)
| tl_vis X (e : wireR X) k :
    (forall x er, errR e x = Some er -> exists a e', k x = Ret a /\ ef a = Some e' /\ W (rname e) er e') ->
    (forall x, errR e x = None -> tells ef (k x)) -> tells ef (Vis e k).

Lemma tells_bind {A B} (ef : A -> option err) (eg : B -> option err) p f :
  tells ef p -> (forall a, ef a = None -> tells eg (f a)) ->
  (forall a e, ef a = Some e -> exists b, f a = Ret b /\ eg b = Some e) -> tells eg (bind p f).
Proof.
  intros H H1 H2. induction H as [a Ha|c|X e k Hk Hn IH]; cbn [bind].
  - destruct (ef a) as [e|] eqn:E; [|now apply H1].
    destruct (H2 a e E) as (b & -> & Eb). constructor. intros e' He'. rewrite Eb in He'. injection He' as <-. auto.
  - constructor.
  - constructor; [|exact IH]. intros x er Hx. destruct (Hk x er Hx) as (a & e' & -> & Ea & We). cbn [bind].
    destruct (H2 a e' Ea) as (b & Eb & Eb'). exists b, e'. auto.
Qed.

Definition lef {St A} (ef : A -> option err) (x : St + A) : option err := match x with inl _ => None | inr a => ef a end.

Lemma tells_loop_nat {St A} (ef : A -> option err) (body : St -> prog wireR (St + A)) n :
  (forall st, tells (lef ef) (body st)) -> forall st, tells (lef ef) (loop_nat n body st).
Proof.
  intros Hb. induction n as [|n IH]; intros st; cbn [loop_nat]; [constructor; discriminate|].
  eapply tells_bind; [apply Hb| |].
  - intros [st'|a] Ha; [apply IH|]. constructor. intros e He. cbn in *. congruence.
  - intros [st'|a] e He; [discriminate|]. exists (inr a). auto.
Qed.
Lemma tells_loop_pos {St A} (ef : A -> option err) (body : St -> prog wireR (St + A)) n :
  (forall st, tells (lef ef) (body st)) -> forall st, tells (lef ef) (loop_pos n body st).
Proof.
  intros Hb. induction n as [q IH|q IH|]; intros st; cbn [loop_pos]; [| |apply Hb].
  - eapply tells_bind; [apply Hb| |].
    + intros [st0|a] Ha; [|constructor; intros e He; cbn in *; congruence].
      eapply tells_bind; [apply IH| |].
      * intros [st'|a] Hb'; [apply IH|]. constructor. intros e He. cbn in *. congruence.
      * intros [st'|a] e He; [discriminate|]. exists (inr a). auto.
    + intros [st'|a] e He; [discriminate|]. exists (inr a). auto.
  - eapply tells_bind; [apply IH| |].
    + intros [st'|a] Hb'; [apply IH|]. constructor. intros e He. cbn in *. congruence.
    + intros [st'|a] e He; [discriminate|]. exists (inr a). auto.
Qed.
Lemma tells_loop_Z {St A} (ef : A -> option err) (body : St -> prog wireR (St + A)) n st :
  (forall st, tells (lef ef) (body st)) -> tells (lef ef) (loop_Z n body st).
Proof. intros Hb. destruct n; cbn [loop_Z]; try (constructor; discriminate). now apply tells_loop_pos. Qed.

Lemma tells_run {S A} (h : handler wireR S) (ef : A -> option err) p : tells ef p -> forall s l s' l' a,
  run (logR h) p (s, l) = Done (s', l') a ->
  exists l1, Forall (fun c => snd c = None) l1 /\
    ((l' = l ++ l1 /\ forall e, ef a = Some e -> own e) \/
     (exists X (c : wireR X) er e, l' = l ++ l1 ++ [(existT wireR X c, Some er)] /\ ef a = Some e /\ W (rname c) er e)).
Proof.
  induction 1 as [a Ha|c|X e k Hk Hn IH]; intros s l s' l' r; cbn [run].
  - intros H. assert (l' = l /\ r = a) as [-> ->] by (split; congruence).
    exists []. split; [constructor|]. left. rewrite app_nil_r. auto.
  - discriminate.
  - unfold logR at 1. cbn [fst snd]. destruct (h X e s) as [s1 x|] eqn:E; [|discriminate].
    destruct (errR e x) as [er|] eqn:Ex.
    + destruct (Hk x er Ex) as (a & e' & -> & Ea & We). cbn [run]. intros H.
      assert (l' = l ++ [(existT wireR X e, Some er)] /\ r = a) as [-> ->] by (injection H as H1 H2 H3; subst; split; reflexivity).
      exists []. split; [constructor|]. right. exists X, e, er, e'. auto.
    + intros H. destruct (IH x Ex _ _ _ _ _ H) as (l1 & Hl & Hr).
      exists ((existT wireR X e, None) :: l1). split; [constructor; auto|].
      destruct Hr as [[-> Ho]|(X' & c & er & e' & -> & Ea & We)].
      * left. rewrite <- app_assoc. auto.
      * right. exists X', c, er, e'. rewrite <- app_assoc. auto.
Qed.
End Tells.

Section Unm.
Context (env : tenv) (Henv : env_ok env).

(** Skip returns the error of the call that failed, or says that the type is
    invalid. *)
Definition same_error (name : string) (er e : err) : Prop := e = er.
Definition invalid_type (e : err) : Prop := exists t, e = EInvalidType t.

Notation tl := (tells invalid_type same_error).

Lemma tells_call1 {X} (e : wireR (X * option err)) : errR e = snd -> tl (fun o : option err => o) ('(_, r) <- call e ;; Ret r).
Proof.
  intros He. cbn. constructor.
  - intros [x o] er Hx. rewrite He in Hx. cbn in Hx. subst o. exists (Some er), er. conj; auto. reflexivity.
  - intros [x o] Hx. rewrite He in Hx. cbn in Hx. subst o. constructor. discriminate.
Qed.
Lemma tells_call0 (e : wireR (option err)) : errR e = (fun x => x) -> tl (fun o : option err => o) (call e).
Proof.
  intros He. cbn. constructor.
  - intros x er Hx. rewrite He in Hx. subst x. exists (Some er), er. conj; auto. reflexivity.
  - intros x Hx. rewrite He in Hx. subst x. constructor. discriminate.
Qed.
Lemma tells_call_then {X} (e : wireR (X * option err)) (k : X -> prog wireR (option err)) : errR e = snd ->
  (forall x, tl (fun o : option err => o) (k x)) ->
  tl (fun o : option err => o) ('(h, r) <- call e ;; match r with Some _ => Ret r | None => k h end).
Proof.
  intros He Hk. cbn. constructor.
  - intros [x o] er Hx. rewrite He in Hx. cbn in Hx. subst o. exists (Some er), er. conj; auto. reflexivity.
  - intros [x o] Hx. rewrite He in Hx. cbn in Hx. subst o. apply Hk.
Qed.

Lemma tells_skip_loop n p q : tl (fun o : option err => o) p -> tl (fun o : option err => o) q ->
  tl (fun o : option err => o) (skip_loop n p q).
Proof.
  intros Hp Hq. unfold skip_loop. apply (tells_bind _ _ (lef (fun o : option err => o))).
  - apply tells_loop_Z. intros u. unfold skip_elem. eapply tells_bind; [exact Hp| |].
    + intros [e|] He; [discriminate|]. constructor. discriminate.
    + intros [e|] e' He; [|discriminate]. exists (inr (Some e)). auto.
  - intros [u|o] Ho; [exact Hq|]. cbn in Ho. subst o. constructor. discriminate.
  - intros [u|o] e He; [discriminate|]. cbn in He. subst o. eauto.
Qed.

Lemma tells_skip n : forall wt, tl (fun o : option err => o) (skip n wt).
Proof.
  induction n as [|n IH]; intros wt; cbn [skip]; [constructor|].
  destruct (kind_of wt) as [k|]; [|constructor; intros e He; injection He as <-; eexists; eauto].
  destruct k; try (now apply tells_call1); try (now apply tells_call0).
  - apply (tells_call_then RStructBegin); [reflexivity|]. intros _.
    apply (tells_bind _ _ (lef (fun o : option err => o))).
    + apply tells_loop_nat. intros u. unfold skip_field. cbn. constructor.
      * intros [x o] er Hx. cbn in Hx. subst o. exists (inr (Some er)), er. conj; auto. reflexivity.
      * intros [x o] Hx. cbn in Hx. subst o. destruct (fh_type x =? T_Stop).
        { constructor.
          - intros o er Ho. cbn in Ho. subst o. exists (inr (Some er)), er. conj; auto. reflexivity.
          - intros o Ho. cbn in Ho. subst o. constructor. discriminate. }
        eapply tells_bind; [apply IH| |].
        { intros [e|] He; [discriminate|]. constructor.
          - intros o er Ho. cbn in Ho. subst o. exists (inr (Some er)), er. conj; auto. reflexivity.
          - intros o Ho. cbn in Ho. subst o. constructor. discriminate. }
        { intros [e|] e' He; [|discriminate]. exists (inr (Some e)). auto. }
    + intros [u|o] Ho; [constructor|]. cbn in Ho. subst o. constructor. discriminate.
    + intros [u|o] e He; [discriminate|]. cbn in He. subst o. eauto.
  - apply (tells_call_then RMapBegin); [reflexivity|]. intros x. apply tells_skip_loop; [|now apply tells_call0].
    unfold and_then. eapply tells_bind; [apply IH| |].
    + intros [e|] He; [discriminate|]. apply IH.
    + intros [e|] e' He; [|discriminate]. eauto.
  - apply (tells_call_then RSetBegin); [reflexivity|]. intros x. apply tells_skip_loop; [apply IH|now apply tells_call0].
  - apply (tells_call_then RListBegin); [reflexivity|]. intros x. apply tells_skip_loop; [apply IH|now apply tells_call0].
Qed.

Notation ures := (gval * option err)%type.

(** ** Mismatches *)
Lemma set_nth_id {A} (x : A) l : forall i, nth_error l i = Some x -> set_nth i x l = l.
Proof using. induction l as [|y r IH]; intros [|i] H; cbn in *; try discriminate; [congruence|]. f_equal. auto. Qed.

Lemma unmarshal_mismatch ln n a t dst wt : codec env t a -> wt <> wire_type a ->
  (forall t' ea, a <> APtr t' ea) -> (forall t', a = AStruct t' -> exists fs, make_struct_fields env ln t' = Some (inl fs)) ->
  unmarshal env ln (S n) a dst wt = Ret (dst, Some (ESemantic "unmarshal" wt (Some t) None)).
Proof using.
  intros Hc Hw Hp Hs. pose proof (codec_inv env _ _ Hc) as Hi. cbn [unmarshal].
  assert (Ck : forall want k, want = wire_type a -> check wt want t dst k = Ret (dst, Some (ESemantic "unmarshal" wt (Some t) None))).
  { intros want k ->. unfold check. apply Z.eqb_neq in Hw. now rewrite Hw. }
  destruct a as [t'|t'|t' single|t' w|t' w|t'|t'|t'|t'|t' ka va|t' set ea|t' ea]; cbv iota in Hi;
    [subst t'; reflexivity|..]; destruct Hi as [-> _]; try (apply Ck; reflexivity).
  - destruct (Hs t eq_refl) as (fs & ->). now apply Ck.
  - now elim (Hp t ea).
Qed.

(** ** Counts *)
Section Counts.
Context {S : Type} (h : handler wireR S).

Lemma unmarshal_neg_seq ln n t (set : bool) ea nl es sp s s1 hd :
  h _ (if set then RSetBegin else RListBegin) s = Done s1 (hd, None) -> set_size hd <= 0 ->
  run h (unmarshal env ln (Datatypes.S n) (ASeq t set ea) (GSlice nl es sp) (if set then T_Set else T_List)) s =
  obind (h _ (if set then RSetEnd else RListEnd) s1) (fun s2 o =>
    Done s2 (GSlice nl [] (es ++ sp), option_map (fun er => ESemantic "unmarshal" (if set then T_Set else T_List) (Some t)
      (Some (EWire (if set then "ReadSetEnd" else "ReadListEnd") er))) o)).
Proof using.
  intros E Hn. cbn [unmarshal]. unfold check. rewrite Z.eqb_refl. unfold rdu. rewrite run_vis, E. cbn [obind].
  replace (set_size hd >? 0) with false by (symmetry; rewrite Z.gtb_ltb; apply Z.ltb_ge; lia).
  unfold rdu0. rewrite run_vis. destruct (h _ (if set then RSetEnd else RListEnd) s1) as [s2 [er|]|]; reflexivity.
Qed.
Lemma unmarshal_neg_map ln n t ka va o s s1 hd :
  h _ RMapBegin s = Done s1 (hd, None) -> map_size hd <= 0 ->
  run h (unmarshal env ln (Datatypes.S n) (AMap t ka va) (GMap o) T_Map) s =
  obind (h _ RMapEnd s1) (fun s2 r =>
    Done s2 (GMap o, option_map (fun er => ESemantic "unmarshal" T_Map (Some t) (Some (EWire "ReadMapEnd" er))) r)).
Proof using.
  intros E Hn. cbn [unmarshal]. unfold check. rewrite Z.eqb_refl. unfold rdu. rewrite run_vis, E. cbn [obind].
  replace (map_size hd >? 0) with false by (symmetry; rewrite Z.gtb_ltb; apply Z.ltb_ge; lia).
  unfold rdu0. rewrite run_vis. destruct (h _ RMapEnd s1) as [s2 [er|]|]; reflexivity.
Qed.
End Counts.
End Unm.
