(** Unmarshal makes the Reader calls that mirror Marshal's Writer calls. *)
From Coq Require Import Strings.String.
From Verif Require Import Base BaseLemmas Prog Wire WireProof Spec Clients Fuel Reads Robust
  GoFloat Utf8 GoType Fields Arshal GoTypeProof FieldsProof ArshalSpec ArshalEnc ArshalDec ArshalTrip ArshalTotal
  ArshalThms ArshalSafe ArshalInput ArshalErr Memo MemoProof.
Local Open Scope Z_scope.
Local Open Scope list_scope.

(** A call that Marshal makes, as a call recorded by a Memo. *)
Definition emb (c : ArshalEnc.wcall) : MemoProof.wcall :=
  match c with
  | ArshalEnc.CStructBegin nm => CStructBegin nm | ArshalEnc.CStructEnd => CStructEnd
  | ArshalEnc.CFieldBegin h => CFieldBegin h | ArshalEnc.CFieldEnd => CFieldEnd
  | ArshalEnc.CMapBegin h => CMapBegin h | ArshalEnc.CMapEnd => CMapEnd
  | ArshalEnc.CSetBegin h => CSetBegin h | ArshalEnc.CSetEnd => CSetEnd
  | ArshalEnc.CListBegin h => CListBegin h | ArshalEnc.CListEnd => CListEnd
  | ArshalEnc.CBool b => CBool b | ArshalEnc.CByte b => CByte b | ArshalEnc.CDouble z => CDouble z
  | ArshalEnc.CI16 z => CI16 z | ArshalEnc.CI32 z => CI32 z | ArshalEnc.CI64 z => CI64 z
  | ArshalEnc.CString x => CString x | ArshalEnc.CBytes x => CBytes x | ArshalEnc.CUUID u => CUUID u
  end.
Lemma ev_emb c : MemoProof.ev (emb c) = ArshalEnc.ev c.
Proof. destruct c; reflexivity. Qed.

Lemma replay_app cs l : replay cs l -> forall cs' l', replay cs' l' -> replay (cs ++ cs') (l ++ l').
Proof.
  induction 1 as [|c cs l l1 H R IH]; intros cs' l' R'; [exact R'|].
  cbn [app]. rewrite <- app_assoc. constructor; auto.
Qed.
Lemma replay_one c l : reads_back c l -> replay [c] l.
Proof. intros H. rewrite <- (app_nil_r l). constructor; [exact H|constructor]. Qed.

Section Asks.
Context (env : tenv).

(** [asks bad p l a]: [p] makes the calls of [l] (none of them a Skip), and if they are answered so,
    returns [a]; if one of them fails instead, it is the last one, and its error
    comes out wrapped. *)
Inductive asks {A} (bad : A -> option err) : prog wireR A -> list answer -> A -> Prop :=
| as_ret a : asks bad (Ret a) [] a
| as_call X (e : wireR X) k x l a :
    rname e = String.append "Read" (read_step e) ->
    (forall x' er, errR e x' = Some er ->
       exists b e', k x' = Ret b /\ bad b = Some e' /\ wrapped env "unmarshal" (rname e) er e') ->
    asks bad (k x) l a -> asks bad (Vis e k) (Answer e x :: l) a.

Lemma asks_bind {A B} (bad : A -> option err) (bad' : B -> option err) p l a (f : A -> prog wireR B) l' b :
  asks bad p l a -> (forall a e, bad a = Some e -> exists b, f a = Ret b /\ bad' b = Some e) ->
  asks bad' (f a) l' b -> asks bad' (bind p f) (l ++ l') b.
Proof.
  intros H Hf Hb. induction H as [a|X e k x l a Hn Hk H IH]; [exact Hb|].
  cbn [bind app]. apply as_call; [exact Hn| |now apply IH].
  intros x' er Ex. destruct (Hk x' er Ex) as (a' & e' & E & Ba & W). destruct (Hf a' e' Ba) as (b' & Eb & Bb).
  exists b', e'. rewrite E. auto.
Qed.

Lemma asks_rdu {X A} (bad : A -> option err) act wt t a0 (e : wireR (X * option err)) (fail : X -> err -> A) k x l a :
  codec env t a0 -> wire_type a0 = wt -> act = rname e -> errR e = snd -> (forall x er, bad (fail x er) = Some er) ->
  rname e = String.append "Read" (read_step e) -> asks bad (k x) l a -> asks bad (rdu act wt t e fail k) (Answer e (x, None) :: l) a.
Proof.
  intros C <- -> He Hb Hn H. unfold rdu. cbn [bind call]. apply as_call; [exact Hn| |exact H].
  intros [x' er'] er Ex. rewrite He in Ex. cbn [snd] in Ex. subst er'.
  eexists _, _. split; [reflexivity|]. split; [apply Hb|]. exists t, a0. split; [exact C|reflexivity].
Qed.

Lemma asks_rdu0 {A} (bad : A -> option err) act wt t a0 (e : wireR (option err)) (fail : err -> A) k l a :
  codec env t a0 -> wire_type a0 = wt -> act = rname e -> errR e = (fun x => x) -> (forall er, bad (fail er) = Some er) ->
  rname e = String.append "Read" (read_step e) -> asks bad k l a -> asks bad (rdu0 act wt t e fail k) (Answer e None :: l) a.
Proof.
  intros C <- -> He Hb Hn H. unfold rdu0. cbn [bind call]. apply as_call; [exact Hn| |exact H].
  intros x' er Ex. rewrite He in Ex. subst x'.
  eexists _, _. split; [reflexivity|]. split; [apply Hb|]. exists t, a0. split; [exact C|reflexivity].
Qed.

(** ** Loops *)
Definition lbad {St R} (bad : R -> option err) (x : St + R) : option err := match x with inl _ => None | inr r => bad r end.

Section Loop.
Context {St R : Type} (bad : R -> option err) (body : St -> prog wireR (St + R)).

(** [k] iterations that all go on *)
Inductive turns : nat -> St -> list answer -> St -> Prop :=
| tu_0 st : turns 0 st [] st
| tu_S k st l st1 l' st' : asks (lbad bad) (body st) l (inl st1) -> turns k st1 l' st' -> turns (S k) st (l ++ l') st'.

Lemma turns_split j : forall k st l st', turns (j + k) st l st' ->
  exists l1 mid l2, l = l1 ++ l2 /\ turns j st l1 mid /\ turns k mid l2 st'.
Proof using.
  induction j as [|j IH]; intros k st l st' H.
  - exists [], st, l. conj; auto. constructor.
  - cbn [Nat.add] in H. inversion H as [|? ? l0 st1 l' ? H1 H2]; subst.
    destruct (IH _ _ _ _ H2) as (l1 & mid & l2 & -> & A & B). exists (l0 ++ l1), mid, l2.
    rewrite <- app_assoc. conj; auto. now apply tu_S with st1.
Qed.

Lemma asks_pos p : forall st l st', turns (Pos.to_nat p) st l st' -> asks (lbad bad) (loop_pos p body st) l (inl st').
Proof using.
  induction p as [q IH|q IH|]; intros st l st' H; cbn [loop_pos].
  - rewrite Pos2Nat.inj_xI in H.
    replace (S (2 * Pos.to_nat q))%nat with (S (Pos.to_nat q + Pos.to_nat q)) in H by lia.
    inversion H as [|? ? l0 st1 l' ? H1 H2]; subst. apply turns_split in H2 as (l1 & mid & l2 & -> & A & B).
    eapply asks_bind; [exact H1| |]; [intros [?|r] e0 E0; [discriminate|]; exists (inr r); auto|]. cbn iota.
    eapply asks_bind; [apply IH; exact A| |]; [intros [?|r] e0 E0; [discriminate|]; exists (inr r); auto|]. cbn iota. now apply IH.
  - rewrite Pos2Nat.inj_xO in H. replace (2 * Pos.to_nat q)%nat with (Pos.to_nat q + Pos.to_nat q)%nat in H by lia.
    apply turns_split in H as (l1 & mid & l2 & -> & A & B).
    eapply asks_bind; [apply IH; exact A| |]; [intros [?|r] e0 E0; [discriminate|]; exists (inr r); auto|]. cbn iota. now apply IH.
  - change (Pos.to_nat 1) with 1%nat in H. inversion H as [|? ? l0 st1 l' ? H1 H2]; subst. inversion H2; subst. now rewrite app_nil_r.
Qed.

Lemma asks_loop n st l st' : 0 < n -> turns (Z.to_nat n) st l st' -> asks (lbad bad) (loop_Z n body st) l (inl st').
Proof using. intros Hn H. destruct n as [|p|p]; try lia. now apply asks_pos. Qed.
End Loop.
End Asks.

(** ** Step by step *)
Section Mirror.
Context (env : tenv) (ln : nat) (Henv : env_ok env) (Hids : unique_ids env).
Notation ures := (gval * option err)%type.
Notation ask := (asks env (@snd gval (option err))).
Notation askl := (asks env (lbad (@snd gval (option err)))).

(** What is to be shown of a codec and a value. *)
Definition mirrors (n m : nat) (a : arsh) (v dst v' : gval) : Prop :=
  exists cs l, plays env (marshal env ln n a v) cs None /\ replay (map emb cs) l /\
    ask (unmarshal env ln m a dst (wire_type a)) l (v', None).

Lemma mirrors_one n m t a v dst v' act c r : codec env t a ->
  act = wname (ArshalEnc.ev c) -> marshal env ln n a v = wr act (wire_type a) t (ArshalEnc.ev c) ->
  reads_back (emb c) [r] -> ask (unmarshal env ln m a dst (wire_type a)) [r] (v', None) ->
  mirrors n m a v dst v'.
Proof using.
  clear Henv Hids.
  intros C Ha E R A. exists [c], [r]. conj; [|now apply (replay_one (emb c))|exact A].
  rewrite E, Ha. now apply (plays_wr env t a).
Qed.

Lemma scalar_asks {X} act wt t a (e : wireR (X * option err)) dst f x : codec env t a -> wire_type a = wt ->
  act = rname e -> errR e = snd -> rname e = String.append "Read" (read_step e) -> ask (scalar act wt t e dst f) [Answer e (x, None)] (f x, None).
Proof using.
  clear Henv Hids.
  intros C W N E Hn. unfold scalar. eapply asks_rdu; eauto. constructor.
Qed.

Ltac leaf cc x := eapply mirrors_one with (c := cc); [eassumption|reflexivity|reflexivity|cbn [emb]; first [apply rb_double|constructor]|
  cbn [unmarshal wire_type width_type]; unfold check; rewrite Z.eqb_refl; match goal with |- asks _ _ (scalar ?act ?wt ?t ?e ?d ?f) _ _ => refine (scalar_asks act wt t _ e d f x _ _ _ _ _); [eassumption|reflexivity..] end].

Theorem mirror n : forall m t a v tv dst v', codec env t a -> image env ln n a v = Some tv ->
  decode env ln m a dst tv = Some (v', None) -> mirrors n m a v dst v'.
Proof using Henv Hids.
  induction n as [|n IH]; intros m t a v tv dst v' Hc Hi Hd; [discriminate|].
  destruct m as [|m]; [discriminate|].
  pose proof (codec_inv env t a Hc) as Hinv.
  destruct a as [t'|t'|t' single|t' w|t' w|t'|t'|t'|t'|t' ka va|t' set ea|t' ea];
    destruct v as [b|z|z|z|z|nl x sp|u|es|nl es sp|o|o|vs|k]; try discriminate; cbn [image] in Hi; cbn [decode] in Hd;
    try (destruct single; discriminate).
  - destruct Hinv as [-> U]. injection Hi as <-. injection Hd as <-. leaf (ArshalEnc.CBool b) b.
  - destruct Hinv as [-> U]. destruct single; [|discriminate]. injection Hi as <-. injection Hd as <-. leaf (ArshalEnc.CDouble (f32_to_f64 z)) (f32_to_f64 z).
  - destruct Hinv as [-> U]. destruct single; [discriminate|]. injection Hi as <-. injection Hd as <-. leaf (ArshalEnc.CDouble z) z.
  - destruct Hinv as [-> U]. injection Hi as <-. destruct w; injection Hd as <-;
      [leaf (ArshalEnc.CByte (z2b z)) (z2b z)|leaf (ArshalEnc.CI16 (i16 z)) (i16 z)|leaf (ArshalEnc.CI32 (i32 z)) (i32 z)|leaf (ArshalEnc.CI64 (i64 z)) (i64 z)].
  - destruct Hinv as [-> U]. injection Hi as <-. destruct w; injection Hd as <-;
      [leaf (ArshalEnc.CByte (z2b z)) (z2b z)|leaf (ArshalEnc.CI16 (i16 z)) (i16 z)|leaf (ArshalEnc.CI32 (i32 z)) (i32 z)|leaf (ArshalEnc.CI64 (i64 z)) (i64 z)].
  - destruct Hinv as [-> U]. injection Hi as <-. injection Hd as <-. leaf (ArshalEnc.CString z) z.
  - destruct Hinv as (-> & U & B). injection Hi as <-. injection Hd as <-.
    leaf (ArshalEnc.CBytes x) x.
  - destruct Hinv as (-> & U). injection Hi as <-. destruct dst as [| | | | | |old| | | | | |]; try discriminate.
    destruct (Nat.eqb (length old) 16); [|discriminate]. injection Hd as <-.
    eapply mirrors_one with (c := ArshalEnc.CUUID u) (r := Answer (RUUID old) (u, None)); [exact Hc|reflexivity|reflexivity|constructor|].
    cbn [unmarshal wire_type width_type]. unfold check. rewrite Z.eqb_refl.
    eapply asks_rdu; [exact Hc|reflexivity..|constructor].
  - destruct Hinv as (-> & s & U). 
    destruct (make_struct_fields env ln t) as [[fs|]|] eqn:M; try discriminate.
    destruct (image_fields env (image env ln n) vs fs) as [tfs|] eqn:Ei; [|discriminate]. injection Hi as <-.
    destruct dst as [| | | | | | | | | | |ds|]; try discriminate.
    destruct (Nat.ltb_spec (length tfs) (S m)) as [Hlt|]; [|discriminate].
    destruct (table env ln Henv Hids _ _ M) as (T1 & T2 & T3 & _).
    enough (G : forall r, incl r fs -> forall l k ds v', (length l < k)%nat -> image_fields env (image env ln n) vs r = Some l ->
      decode_fields (decode env ln m) m fs ds l = Some (v', None) ->
      exists cs q, plays env (marshal_fields env (marshal env ln n) t vs r) cs None /\ replay (map emb cs) q /\
        askl (loop_nat k (unmarshal_field (unmarshal env ln m) (skip m) t fs) ds) q (inr (v', None))).
    { destruct (G fs (fun x H => H) tfs (S m) ds v' Hlt Ei Hd) as (cs & q & P1 & P2 & P3).
      exists (ArshalEnc.CStructBegin (type_name env t) :: cs), (Answer RStructBegin (type_name env t, None) :: q ++ []). conj.
      - cbn [marshal]. rewrite M. apply (plays_then env _ [_] _ cs); [now apply (plays_wr env t (GoType.AStruct t) _ (ArshalEnc.CStructBegin _))|exact P1].
      - rewrite app_nil_r. cbn [map emb]. apply (rp_cons _ _ [_]); [constructor|exact P2].
      - cbn [unmarshal wire_type]. rewrite M. unfold check. rewrite Z.eqb_refl.
        eapply asks_rdu; [exact Hc|reflexivity..|].
        eapply asks_bind; [exact P3| |constructor].
        intros [?|r] e0 E0; [discriminate|]. exists r. auto. }
    clear Hd Ei Hlt tfs ds v' M. induction r as [|f r IHr]; intros Hin l k ds v' Hk Hl Hd; cbn [image_fields] in Hl; (destruct k as [|k]; [lia|]); cbn [loop_nat marshal_fields].
    + injection Hl as <-. injection Hd as <-. exists [ArshalEnc.CStructEnd], [Answer RFieldBegin (mkFH [] T_Stop 0, None); Answer RStructEnd None]. conj.
      * now apply (plays_wr env t (GoType.AStruct t) _ ArshalEnc.CStructEnd).
      * apply (replay_one CStructEnd). constructor.
      * change [Answer RFieldBegin (mkFH [] T_Stop 0, None); Answer RStructEnd None]
          with ([Answer RFieldBegin (mkFH [] T_Stop 0, None); Answer RStructEnd None] ++ []).
        eapply asks_bind with (bad := lbad snd) (a := inr (GStruct ds, None)); [| |constructor].
        -- unfold unmarshal_field. eapply asks_rdu; [exact Hc|reflexivity..|]. cbn [fh_type]. rewrite Z.eqb_refl.
           eapply asks_rdu0; [exact Hc|reflexivity..|]. constructor.
        -- intros [?|r0] e0 E0; [discriminate|]. exists (inr r0). auto.
    + destruct (wire_type (f_fncs f) =? T_Stop) eqn:W; [discriminate|].
      destruct (nth_error vs (f_index f)) as [v|] eqn:Nv; [|discriminate].
      assert (Hin' : incl r fs) by (intros g Hg; apply Hin; now right).
      destruct (negb (f_required f) && field_zero env f v) eqn:Z.
      { exact (IHr Hin' l (S k) ds v' Hk Hl Hd). }
      destruct (image env ln n (f_fncs f) v) as [tv|] eqn:Ev; [|discriminate].
      destruct (image_fields env (image env ln n) vs r) as [l'|] eqn:El; [|discriminate]. injection Hl as <-.
      assert (Hff : In f fs) by (apply Hin; now left).
      destruct (T3 f Hff) as (sf & o & N & Tg & C & A1 & _).
      cbn [decode_fields] in Hd. rewrite by_id_in in Hd by auto.
      destruct (nth_error ds (f_index f)) as [d|] eqn:Nd; [|discriminate].
      destruct (decode env ln m (f_fncs f) d tv) as [[d' [e|]]|] eqn:Dd; try discriminate.
      destruct (IH _ _ _ _ _ _ _ C Ev Dd) as (cs1 & q1 & P1 & P2 & P3).
      cbn [length] in Hk.
      destruct (IHr Hin' l' k (set_nth (f_index f) d' ds) v' ltac:(lia) eq_refl Hd) as (cs2 & q2 & Q1 & Q2 & Q3).
      set (hd := mkFH (f_name f) (wire_type (f_fncs f)) (f_id f)).
      exists (ArshalEnc.CFieldBegin hd :: cs1 ++ [ArshalEnc.CFieldEnd] ++ cs2),
        ((Answer RFieldBegin (hd, None) :: q1 ++ [Answer RFieldEnd None]) ++ q2). conj.
      * apply (plays_then env _ [_] _ (cs1 ++ [ArshalEnc.CFieldEnd] ++ cs2)); [now apply (plays_wr env t (GoType.AStruct t) _ (ArshalEnc.CFieldBegin _))|].
        apply plays_then; [exact P1|]. apply plays_then; [now apply (plays_wr env t (GoType.AStruct t) _ ArshalEnc.CFieldEnd)|exact Q1].
      * cbn [map emb]. rewrite !map_app. cbn [map emb]. replace ((Answer RFieldBegin (hd, None) :: q1 ++ [Answer RFieldEnd None]) ++ q2)
          with ([Answer RFieldBegin (hd, None)] ++ q1 ++ [Answer RFieldEnd None] ++ q2) by (cbn [app]; now rewrite <- app_assoc).
        apply rp_cons; [constructor|].
        apply replay_app; [exact P2|]. apply (rp_cons _ _ [_]); [constructor|exact Q2].
      * eapply asks_bind with (bad := lbad snd) (a := inl (set_nth (f_index f) d' ds)); [| |exact Q3]; [|intros [?|r0] e0 E0; [discriminate|]; exists (inr r0); auto].
        unfold unmarshal_field. eapply asks_rdu; [exact Hc|reflexivity..|]. cbn [fh_type fh_id hd]. rewrite W.
        rewrite by_id_in by auto. rewrite Nd.
        eapply asks_bind; [exact P3| |].
        -- intros [g [e0|]] e1 E1; [|discriminate]. eexists. split; [reflexivity|exact E1].
        -- cbn iota. eapply asks_rdu0; [exact Hc|reflexivity..|]. constructor.
  - destruct Hinv as (-> & kt & e & U & Cka & Cva).
    destruct ((wire_type ka =? T_Stop) || (wire_type va =? T_Stop)) eqn:W; [discriminate|].
    set (es := match o with Some es => es | None => [] end) in *.
    destruct (image_entries (image env ln n) ka va es) as [tes|] eqn:Ei; [|discriminate]. injection Hi as <-.
    destruct dst as [| | | | | | | | |od| | |]; try discriminate.
    assert (L : zlen tes = zlen es).
    { clear -Ei. revert tes Ei. induction es as [|[k v] r IHr]; intros l E; cbn in E; [now injection E as <-|].
      destruct (image env ln n ka k), (image env ln n va v), (image_entries (image env ln n) ka va r); try discriminate.
      injection E as <-. now rewrite !zlen_cons, (IHr _ eq_refl). }
    set (hd := mkMapH (wire_type ka) (wire_type va) (zlen es)).
    enough (G : forall es tes ds ds', image_entries (image env ln n) ka va es = Some tes ->
      decode_entries env (decode env ln m) t ka va ds tes = Some (ds', None) ->
      exists cs q, plays env (marshal_entries (marshal env ln n) t ka va es) (cs ++ [ArshalEnc.CMapEnd]) None /\ replay (map emb cs) q /\
        turns env (@snd gval (option err)) (unmarshal_entry env (unmarshal env ln m) t ka va hd) (length tes) ds q ds').
    { assert (G' : exists cs q, plays env (marshal_entries (marshal env ln n) t ka va es) (cs ++ [ArshalEnc.CMapEnd]) None /\
        replay (map emb cs) q /\ ask (if zlen es >? 0
          then x <- loop_Z (zlen es) (unmarshal_entry env (unmarshal env ln m) t ka va hd) (match od with Some es => es | None => [] end) ;;
               match x with inr r => Ret r | inl es => rdu0 "ReadMapEnd" T_Map t RMapEnd (fun er => (GMap (Some es), Some er)) (Ret (GMap (Some es), None)) end
          else rdu0 "ReadMapEnd" T_Map t RMapEnd (fun er => (GMap od, Some er)) (Ret (GMap od, None))) (q ++ [Answer RMapEnd None]) (v', None)).
      { destruct tes as [|e0 r0].
        - injection Hd as <-. rewrite <- L. exists [], []. conj.
          + destruct es as [|p es']; [|rewrite zlen_cons in L; pose proof (zlen_nonneg es'); change (zlen []) with 0 in L; lia].
            now apply (plays_wr env t (GoType.AMap t ka va) _ ArshalEnc.CMapEnd).
          + constructor.
          + eapply asks_rdu0; [exact Hc|reflexivity..|constructor].
        - destruct (decode_entries env (decode env ln m) t ka va (match od with Some es => es | None => [] end) (e0 :: r0)) as [[ds' e1]|] eqn:D; [|discriminate].
          injection Hd as <- ->. destruct (G _ _ _ _ Ei D) as (cs & q & P1 & P2 & P3). exists cs, q. conj; auto.
          assert (Hz : 0 < zlen es) by (rewrite <- L, zlen_cons; pose proof (zlen_nonneg r0); lia).
          destruct (Z.gtb_spec (zlen es) 0); [|lia].
          eapply asks_bind; [apply asks_loop; [exact Hz|]| |].
          + rewrite <- L. replace (Z.to_nat (zlen (e0 :: r0))) with (length (e0 :: r0)) by (unfold zlen; lia). exact P3.
          + intros [?|r] x0 E0; [discriminate|]. exists r. auto.
          + eapply asks_rdu0; [exact Hc|reflexivity..|constructor]. }
      destruct G' as (cs & q & P1 & P2 & P3).
      exists (ArshalEnc.CMapBegin hd :: cs ++ [ArshalEnc.CMapEnd]), (Answer RMapBegin (hd, None) :: q ++ [Answer RMapEnd None]). conj.
      - cbn [marshal]. rewrite W. fold es. apply (plays_then env _ [_] _ (cs ++ [ArshalEnc.CMapEnd])); [now apply (plays_wr env t (GoType.AMap t ka va) _ (ArshalEnc.CMapBegin _))|exact P1].
      - cbn [map emb]. rewrite map_app. apply (rp_cons _ _ [_]); [constructor|]. apply replay_app; [exact P2|]. apply (replay_one CMapEnd). constructor.
      - cbn [unmarshal wire_type]. unfold check. rewrite Z.eqb_refl. eapply asks_rdu; [exact Hc|reflexivity..|exact P3]. }
    clear - IH Hc Cka Cva U. intros es0. induction es0 as [|[k v] r IHr]; intros tes ds ds' E D; cbn [image_entries] in E; cbn [marshal_entries].
    + injection E as <-. injection D as <-. exists [], []. conj; [now apply (plays_wr env t (GoType.AMap t ka va) _ ArshalEnc.CMapEnd)|constructor|constructor].
    + destruct (image env ln n ka k) as [tk|] eqn:Ek; [|discriminate].
      destruct (image env ln n va v) as [tv|] eqn:Ev; [|discriminate].
      destruct (image_entries (image env ln n) ka va r) as [l'|] eqn:Er; [|discriminate]. injection E as <-.
      cbn [decode_entries] in D.
      destruct (decode env ln m ka (zero env (key_type env t)) tk) as [[k' [e1|]]|] eqn:Dk; try discriminate.
      destruct (decode env ln m va _ tv) as [[w [e1|]]|] eqn:Dv; try discriminate.
      destruct (IH _ _ _ _ _ _ _ Cka Ek Dk) as (cs1 & q1 & P1 & P2 & P3).
      destruct (IH _ _ _ _ _ _ _ Cva Ev Dv) as (cs2 & q2 & Q1 & Q2 & Q3).
      destruct (IHr _ _ _ eq_refl D) as (cs3 & q3 & R1 & R2 & R3).
      exists (cs1 ++ cs2 ++ cs3), ((q1 ++ q2) ++ q3). conj.
      * rewrite <- !app_assoc. apply plays_then; [exact P1|]. apply plays_then; [exact Q1|exact R1].
      * rewrite !map_app, <- app_assoc. apply replay_app; [exact P2|]. apply replay_app; [exact Q2|exact R2].
      * cbn [length]. apply tu_S with (map_set ds k' w); [|exact R3]. unfold unmarshal_entry.
        eapply asks_bind; [exact P3| |]; [intros [g [e0|]] e1 E1; [|discriminate]; eexists; split; [reflexivity|exact E1]|]. cbn iota.
        rewrite <- (app_nil_r q2).
        eapply asks_bind; [exact Q3| |]; [intros [g [e0|]] e1 E1; [|discriminate]; eexists; split; [reflexivity|exact E1]|]. cbn iota. constructor.
  - destruct Hinv as (-> & e & U & B & Cea & Hset).
    destruct (wire_type ea =? T_Stop) eqn:W; [discriminate|].
    destruct (image_elems (image env ln n) ea es) as [tes|] eqn:Ei; [|discriminate].
    assert (Htes : (match tv, set with VSet _ tes, true | VList _ tes, false => Some tes | _, _ => None end) = Some tes)
      by (injection Hi as <-; destruct set; reflexivity).
    rewrite Htes in Hd. clear Hi Htes tv.
    destruct dst as [| | | | | | | |dnl des dsp| | | |]; try discriminate.
    assert (L : zlen tes = zlen es).
    { clear -Ei. revert tes Ei. induction es as [|v r IHr]; intros l E; cbn in E; [now injection E as <-|].
      destruct (image env ln n ea v), (image_elems (image env ln n) ea r); try discriminate.
      injection E as <-. now rewrite !zlen_cons, (IHr _ eq_refl). }
    set (hd := mkSetH (wire_type ea) (zlen es)).
    set (cend := if set then ArshalEnc.CSetEnd else ArshalEnc.CListEnd).
    set (cbeg := if set then ArshalEnc.CSetBegin hd else ArshalEnc.CListBegin hd).
    set (rend := if set then RSetEnd else RListEnd).
    assert (Send : plays env (if set then wr "WriteSetEnd" T_Set t WSetEnd else wr "WriteListEnd" T_List t WListEnd) [cend] None).
    { unfold cend. destruct set; [now apply (plays_wr env t (GoType.ASeq t true ea) _ ArshalEnc.CSetEnd)|now apply (plays_wr env t (GoType.ASeq t false ea) _ ArshalEnc.CListEnd)]. }
    assert (Fin : forall g : gval, ask (rdu0 (if set then "ReadSetEnd" else "ReadListEnd") (if set then T_Set else T_List) t rend
      (fun er => (g, Some er)) (Ret (g, None))) [Answer rend None] (g, None)).
    { intros g. unfold rend. destruct set; (eapply asks_rdu0; [exact Hc|reflexivity..|constructor]). }
    enough (G : forall es tes i arr mz i' arr', image_elems (image env ln n) ea es = Some tes ->
      decode_elems env (decode env ln m) t ea i arr mz tes = Some (i', arr') -> arr' = None ->
      exists cs q i2 arr2 mz2, plays env (marshal_elems (marshal env ln n) t set ea es) (cs ++ [cend]) None /\ replay (map emb cs) q /\
        turns env (@snd gval (option err)) (unmarshal_elem env (unmarshal env ln m) t ea (wire_type ea)) (length tes) (i, arr, mz) q (i2, arr2, mz2) /\
        i' = GSlice false (firstn i2 arr2) (skipn i2 arr2)).
    { assert (G' : exists cs q, plays env (marshal_elems (marshal env ln n) t set ea es) (cs ++ [cend]) None /\
        replay (map emb cs) q /\ ask (if zlen es >? 0
          then x <- loop_Z (zlen es) (unmarshal_elem env (unmarshal env ln m) t ea (wire_type ea)) (O, des ++ dsp, true) ;;
               match x with
               | inr r => Ret r
               | inl (i, arr, _) => rdu0 (if set then "ReadSetEnd" else "ReadListEnd") (if set then T_Set else T_List) t rend
                   (fun er => (GSlice false (firstn i arr) (skipn i arr), Some er)) (Ret (GSlice false (firstn i arr) (skipn i arr), None))
               end
          else rdu0 (if set then "ReadSetEnd" else "ReadListEnd") (if set then T_Set else T_List) t rend
                   (fun er => (GSlice dnl [] (des ++ dsp), Some er)) (Ret (GSlice dnl [] (des ++ dsp), None)))
          (q ++ [Answer rend None]) (v', None)).
      { destruct tes as [|e0 r0].
        - injection Hd as <-. rewrite <- L. exists [], []. conj.
          + destruct es as [|p es']; [|rewrite zlen_cons in L; pose proof (zlen_nonneg es'); change (zlen []) with 0 in L; lia].
            exact Send.
          + constructor.
          + apply Fin.
        - destruct (G _ _ _ _ _ _ _ Ei Hd eq_refl) as (cs & q & i2 & arr2 & mz2 & P1 & P2 & P3 & ->). exists cs, q. conj; auto.
          assert (Hz : 0 < zlen es) by (rewrite <- L, zlen_cons; pose proof (zlen_nonneg r0); lia).
          destruct (Z.gtb_spec (zlen es) 0); [|lia].
          eapply asks_bind; [apply asks_loop; [exact Hz|]| |].
          + rewrite <- L. replace (Z.to_nat (zlen (e0 :: r0))) with (length (e0 :: r0)) by (unfold zlen; lia). exact P3.
          + intros [?|r] x0 E0; [discriminate|]. exists r. auto.
          + apply Fin. }
      destruct G' as (cs & q & P1 & P2 & P3).
      exists (cbeg :: cs ++ [cend]), ((if set then Answer RSetBegin (hd, None) else Answer RListBegin (hd, None)) :: q ++ [Answer rend None]). conj.
      - cbn [marshal]. rewrite W. apply (plays_then env _ [_] _ (cs ++ [cend])); [|exact P1].
        unfold cbeg. destruct set; [now apply (plays_wr env t (GoType.ASeq t true ea) _ (ArshalEnc.CSetBegin _))|now apply (plays_wr env t (GoType.ASeq t false ea) _ (ArshalEnc.CListBegin _))].
      - cbn [map emb]. rewrite map_app. apply (rp_cons _ _ [_]); [unfold cbeg; destruct set; constructor|].
        apply replay_app; [exact P2|]. apply (replay_one (emb cend)). unfold cend, rend. destruct set; constructor.
      - cbn [unmarshal]. cbn zeta. replace (wire_type (GoType.ASeq t set ea)) with (if set then T_Set else T_List) by (destruct set; reflexivity).
        unfold check. rewrite Z.eqb_refl. unfold rend in P3.
        destruct set; (eapply asks_rdu; [exact Hc|reflexivity..|exact P3]). }
    clear - IH Hc Cea U Send. intros es0. induction es0 as [|v r IHr]; intros tes i arr mz i' arr' E D Ha; cbn [image_elems] in E; cbn [marshal_elems].
    + injection E as <-. injection D as <- <-. exists [], [], i, arr, mz. conj; [exact Send|constructor|constructor|reflexivity].
    + destruct (image env ln n ea v) as [tv|] eqn:Ev; [|discriminate].
      destruct (image_elems (image env ln n) ea r) as [l'|] eqn:Er; [|discriminate]. injection E as <-.
      cbn [decode_elems] in D.
      destruct (if Nat.eqb i (length arr)
        then (arr ++ repeat (zero env (elem_type env t)) (S (te_grow env (length arr))), false)
        else (arr, mz)) as [arr1 mz1] eqn:Eg.
      destruct (decode env ln m ea _ tv) as [[w [e1|]]|] eqn:Dv; try discriminate; [congruence|].
      destruct (IH _ _ _ _ _ _ _ Cea Ev Dv) as (cs1 & q1 & P1 & P2 & P3).
      destruct (IHr _ _ _ _ _ _ eq_refl D Ha) as (cs3 & q3 & i2 & arr2 & mz2 & R1 & R2 & R3 & R4).
      exists (cs1 ++ cs3), (q1 ++ q3), i2, arr2, mz2. conj; auto.
      * rewrite <- !app_assoc. apply plays_then; [exact P1|exact R1].
      * rewrite !map_app. apply replay_app; [exact P2|exact R2].
      * cbn [length]. eapply tu_S; [|exact R3]. unfold unmarshal_elem. rewrite Eg. rewrite <- (app_nil_r q1).
        eapply asks_bind; [exact P3| |]; [intros [g [e0|]] e1 E1; [|discriminate]; eexists; split; [reflexivity|exact E1]|]. cbn iota. constructor.
  - destruct Hinv as (-> & e & U & Cea). destruct dst as [| | | | | | | | | |od| |]; try discriminate.
    destruct (decode env ln m ea _ tv) as [[w e1]|] eqn:D; [|discriminate]. injection Hd as <- ->.
    assert (Ep : image env ln n ea (match o with Some w => w | None => zero env (elem_type env t) end) = Some tv) by (destruct o; exact Hi).
    destruct (IH _ _ _ _ _ _ _ Cea Ep D) as (cs & q & P1 & P2 & P3).
    exists cs, q. conj; auto.
    + cbn [marshal]. destruct o; exact P1.
    + cbn [unmarshal wire_type]. rewrite <- (app_nil_r q).
      eapply asks_bind; [exact P3| |]; [intros [g [e0|]] e1 E1; [|discriminate]; eexists; split; [reflexivity|exact E1]|]. cbn iota. constructor.
Qed.
End Mirror.
