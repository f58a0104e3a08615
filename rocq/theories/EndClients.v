(** Whole clients of a Reader whose data end. *)
From Coq Require Import Strings.String.
From Verif Require Import Base BaseLemmas Prog Bufio BufioProof Wire WireProof Layers Spec Clients GoType Fields Arshal
  ArshalSpec ArshalErr ArshalStrict EndSpec Ends Relay.
Local Open Scope list_scope.

Lemma log_grows {S A} (h : handler wireR S) (p : prog wireR A) : forall s l s' l' a,
  run (logR h) p (s, l) = Done (s', l') a -> exists l1, l' = l ++ l1.
Proof.
  induction p as [a0|X c k IH|cr]; intros s l s' l' a E; cbn [run] in E; [| |discriminate].
  - inversion E; subst. exists []. now rewrite app_nil_r.
  - unfold logR at 1 in E. cbn [fst snd] in E. destruct (h X c s); [|discriminate].
    apply IH in E. destruct E as (l2 & ->). rewrite <- app_assoc. eexists. reflexivity.
Qed.

Lemma log_of {S A} (h : handler wireR S) (p : prog wireR A) s s' a :
  run h p s = Done s' a -> exists l', run (logR h) p (s, []) = Done (s', l') a.
Proof.
  intros E. rewrite (logR_run h p s []) in E.
  match type of E with match ?o with _ => _ end = _ => destruct o as [[s1 l1] a1|] eqn:E1; [|discriminate] end.
  inversion E; subst. exists l1. exact E1.
Qed.

Section Clients.
Context (size : Z) {S : Type} (L : layer wireR bufR S) (HL : call_ends size L).
Notation H := (over L (stream_h size)).

(** Some call in the log met the end of the data. *)
Definition met_end (e : err) (l : rlog) : Prop :=
  exists l1 X (c : wireR X) er l2, l = l1 ++ (existT wireR X c, Some er) :: l2 /\ end_error e er.

Lemma over_ends X (c : wireR X) st d e :
  (exists st' d' x, (forall q e', H X c (st, mkStream (d ++ q) (FErr e')) = Done (st', mkStream (d' ++ q) (FErr e')) x) /\
     forall er, errR c x = Some er -> not_eof er) \/
  (exists st' x er, H X c (st, mkStream d (FErr e)) = Done (st', mkStream [] (FErr e)) x /\ errR c x = Some er /\ end_error e er).
Proof using HL.
  destruct (HL X c st d e) as [(d' & [st' x] & R & N)|([st' x] & er & R & E & En)].
  - left. exists st', d', x. split; [|exact N]. intros q e'. unfold over. cbn [fst snd]. rewrite R. reflexivity.
  - right. exists st', x, er. split; [|auto]. unfold over. cbn [fst snd]. rewrite R. reflexivity.
Qed.

(** Either the run is the same whatever follows the data, and no call reported an
    end of file, or some call met the end. *)
Lemma client_ends {A} (p : prog wireR A) : forall st d e l s' l' a,
  run (logR H) p ((st, mkStream d (FErr e)), l) = Done (s', l') a ->
  (exists st' d' l1, l' = l ++ l1 /\
     (forall q e', run (logR H) p ((st, mkStream (d ++ q) (FErr e')), l) = Done ((st', mkStream (d' ++ q) (FErr e')), l') a) /\
     forall X (c : wireR X) er, In (existT wireR X c, Some er) l1 -> not_eof er) \/
  (exists l1, l' = l ++ l1 /\ met_end e l1).
Proof using HL.
  induction p as [a0|X c k IH|cr]; intros st d e l s' l' a E; cbn [run] in E; [| |discriminate].
  - inversion E; subst. left. exists st, d, []. rewrite app_nil_r. split; [reflexivity|]. split; [reflexivity|]. intros ? ? ? [].
  - unfold logR at 1 in E. cbn [fst snd] in E.
    destruct (over_ends X c st d e) as [(st1 & d1 & x & R & N)|(st1 & x & er & R & Ex & En)].
    + pose proof (R [] e) as R0. rewrite !app_nil_r in R0. rewrite R0 in E.
      destruct (IH x _ _ _ _ _ _ _ E) as [(st' & d' & l1 & El & R1 & N1)|(l1 & El & M)].
      * left. exists st', d', ((existT wireR X c, errR c x) :: l1). rewrite <- app_assoc in El. split; [exact El|]. split.
        -- intros q e'. cbn [run]. unfold logR at 1. cbn [fst snd]. rewrite R. apply R1.
        -- intros Y c' er [Q|Q]; [|exact (N1 Y c' er Q)]. apply N. exact (f_equal snd Q).
      * right. exists ((existT wireR X c, errR c x) :: l1). rewrite <- app_assoc in El. split; [exact El|].
        destruct M as (m1 & Y & c' & er & m2 & -> & En). exists ((existT wireR X c, errR c x) :: m1), Y, c', er, m2. split; [reflexivity|exact En].
    + rewrite R in E. right.
      destruct (log_grows _ _ _ _ _ _ _ E) as (l1 & El).
      rewrite <- app_assoc in El. rewrite Ex in El. exists ((existT wireR X c, Some er) :: l1). split; [exact El|].
      exists [], X, c, er, l1. auto.
Qed.

Lemma met_ok e l : met_end e l -> Forall ok_call l -> False.
Proof using.
  intros (l1 & X & c & er & l2 & -> & _) F. apply Forall_app in F. destruct F as [_ F]. inversion F as [|? ? K]. discriminate K.
Qed.
Lemma met_last e l X (c : wireR X) er : met_end e (l ++ [(existT wireR X c, Some er)]) -> Forall ok_call l -> end_error e er.
Proof using.
  intros (l1 & Y & c' & er' & l2 & E & En) F.
  destruct l2 as [|z l2] using rev_ind.
  - apply app_inj_tail in E. destruct E as [_ E]. pose proof (f_equal snd E) as Q. cbn in Q. injection Q as ->. exact En.
  - clear IHl2. change (l1 ++ (existT wireR Y c', Some er') :: l2 ++ [z]) with (l1 ++ ((existT wireR Y c', Some er') :: l2) ++ [z]) in E.
    rewrite app_assoc in E. apply app_inj_tail in E. destruct E as [-> _].
    apply Forall_app in F. destruct F as [_ F]. inversion F as [|? ? K]. discriminate K.
Qed.

(** Programs that hand on the error of the call that failed. *)
Lemma relays_ends {A} (ef : A -> option err) p st d e s' a : relays ef p ->
  run H p (st, mkStream d (FErr e)) = Done s' a ->
  (exists st' d', forall q e', run H p (st, mkStream (d ++ q) (FErr e')) = Done (st', mkStream (d' ++ q) (FErr e')) a) \/
  (exists er, ef a = Some er /\ end_error e er).
Proof using HL.
  intros Hr E. destruct (log_of _ _ _ _ _ E) as (l1 & E1).
  destruct (client_ends p _ _ _ _ _ _ _ E1) as [(st' & d' & l2 & El & R & N)|(l2 & El & M)].
  - left. exists st', d'. intros q e'. rewrite (logR_run H p _ []), R. reflexivity.
  - right. cbn in El. subst l2. destruct (relays_log ef p Hr _ H _ _ _ _ _ E1) as [(l2 & El & F)|(l2 & X & c & er & El & F & Er)].
    + cbn in El. subst l2. destruct (met_ok _ _ M F).
    + cbn in El. subst l1. exists er. split; [exact Er|]. exact (met_last _ _ _ _ _ M F).
Qed.

(** Unmarshal wraps it, or returns it as it is if it was skipping a field. *)
Lemma unmarshal_ends env (Henv : env_ok env) ln n o st d e s' v r :
  run H (Unmarshal env ln n o) (st, mkStream d (FErr e)) = Done s' (v, r) ->
  (exists st' d', forall q e', run H (Unmarshal env ln n o) (st, mkStream (d ++ q) (FErr e')) = Done (st', mkStream (d' ++ q) (FErr e')) (v, r)) \/
  (exists er, end_error e er /\ (r = Some er \/ exists t a name, r = Some (ESemantic "unmarshal" (wire_type a) (Some t) (Some (EWire name er))))).
Proof using HL.
  intros E. destruct (log_of _ _ _ _ _ E) as (l1 & E1).
  destruct (client_ends _ _ _ _ _ _ _ _ E1) as [(st' & d' & l2 & El & R & N)|(l2 & El & M)].
  - left. exists st', d'. intros q e'. rewrite (logR_run H _ _ []), R. reflexivity.
  - right. cbn in El. subst l2.
    destruct (Unmarshal_told env Henv ln n o H _ _ _ _ _ E1) as [[(l2 & El & F & _)|[(l2 & X & c & er & e2 & El & F & -> & W)|T]]|(-> & _)].
    + cbn in El. subst l2. destruct (met_ok _ _ M F).
    + cbn in El. subst l1. exists er. split; [exact (met_last _ _ _ _ _ M F)|]. right.
      destruct W as (t & a & _ & ->). eauto.
    + destruct T as (l2 & s1 & s2 & nm & ty & id & fuel & t & stt & e2 & F & _ & _ & _ & Sk & ->).
      assert (F2 : Forall ok_call (l2 ++ [(existT wireR _ RFieldBegin, None)])).
      { apply Forall_app. split; [exact F|]. constructor; [reflexivity|constructor]. }
      destruct (relays_log eid _ (relays_skip fuel ty) _ H _ _ _ _ _ Sk) as [(l3 & El & F3)|(l3 & X & c & er & El & F3 & Er)].
      * exfalso. cbn in El. subst l1. apply (met_ok _ _ M). apply Forall_app. auto.
      * cbn in El. subst l1. unfold eid in Er. injection Er as ->. exists er. split; [|now left].
        rewrite app_assoc in M. apply (met_last _ _ _ _ _ M). apply Forall_app. auto.
    + destruct M as (m1 & Y & c' & er & m2 & Q & _). destruct m1; discriminate.
Qed.
End Clients.

(** ** On bufio.Readers *)
Section Bufio.
Context (size : Z) {S : Type} (L : layer wireR bufR S) (Hs : 10 <= size) (HL : call_ends size L)
  (HF : forall X (c : wireR X) s, full_ok (L X c s)).
Notation HB := (over L (bufio_h size)).
Notation H := (over L (stream_h size)).

Lemma settled_of {A} (p : prog wireR A) st d st' d' a :
  (forall q e', run H p (st, mkStream (d ++ q) (FErr e')) = Done (st', mkStream (d' ++ q) (FErr e')) a) ->
  settled L size p st d a.
Proof using Hs HF.
  intros R. exists st', d'. intros b q e Hb Ab.
  pose proof (layer_refines size L p st b ltac:(lia) Hb HF) as G. rewrite Ab, R in G. unfold refines_l in G.
  destruct (run HB p (st, b)) as [[s1 b1] x|]; [|contradiction].
  destruct G as (-> & -> & G1 & G2). eauto.
Qed.
Lemma on_stream {A} (p : prog wireR A) st b d e st' b' a :
  binv size b -> abs b = mkStream d (FErr e) -> run HB p (st, b) = Done (st', b') a ->
  run H p (st, mkStream d (FErr e)) = Done (st', abs b') a.
Proof using Hs HF.
  intros Hb Ab E. pose proof (layer_refines size L p st b ltac:(lia) Hb HF) as G. rewrite Ab, E in G. unfold refines_l in G.
  destruct (run H p (st, mkStream d (FErr e))) as [[s1 b1] x|]; [|contradiction].
  destruct G as (-> & -> & -> & _). reflexivity.
Qed.

Lemma call_bufio X (c : wireR X) st b d e :
  binv size b -> abs b = mkStream d (FErr e) ->
  exists st' b' x, HB X c (st, b) = Done (st', b') x /\
  ((settled L size (call c) st d x /\ forall er, errR c x = Some er -> not_eof er) \/
   (abs b' = mkStream [] (FErr e) /\ exists er, errR c x = Some er /\ end_error e er)).
Proof using Hs HF HL.
  intros Hb Ab.
  pose proof (layer_refines size L (call c) st b ltac:(lia) Hb HF) as G. cbn [run call] in G. rewrite Ab in G.
  destruct (over_ends size L HL X c st d e) as [(st1 & d1 & x & R & N)|(st1 & x & er & R & Ex & En)].
  - pose proof (R [] e) as R0. rewrite !app_nil_r in R0. rewrite R0 in G. unfold refines_l in G.
    destruct (HB X c (st, b)) as [[s1 b1] y|] eqn:E; [|contradiction]. destruct G as (-> & -> & G1 & G2).
    exists st1, b1, x. split; [reflexivity|]. left. split; [|exact N]. apply (settled_of _ _ _ st1 d1).
    intros q e'. cbn [run call]. rewrite R. reflexivity.
  - rewrite R in G. unfold refines_l in G.
    destruct (HB X c (st, b)) as [[s1 b1] y|] eqn:E; [|contradiction]. destruct G as (-> & -> & G1 & G2).
    exists st1, b1, x. split; [reflexivity|]. right. eauto.
Qed.

Lemma relays_bufio {A} (ef : A -> option err) p st b d e st' b' a : relays ef p ->
  binv size b -> abs b = mkStream d (FErr e) -> run HB p (st, b) = Done (st', b') a ->
  settled L size p st d a \/ (exists er, ef a = Some er /\ end_error e er).
Proof using Hs HF HL.
  intros Hr Hb Ab E. apply (on_stream p st b d e) in E; auto.
  destruct (relays_ends size L HL ef p _ _ _ _ _ Hr E) as [(st1 & d1 & R)|R]; [|now right].
  left. exact (settled_of p st d st1 d1 a R).
Qed.

Lemma unmarshal_bufio env (Henv : env_ok env) ln n o st b d e st' b' v r :
  binv size b -> abs b = mkStream d (FErr e) -> run HB (Unmarshal env ln n o) (st, b) = Done (st', b') (v, r) ->
  settled L size (Unmarshal env ln n o) st d (v, r) \/
  (exists er, end_error e er /\ (r = Some er \/ exists t a name, r = Some (ESemantic "unmarshal" (wire_type a) (Some t) (Some (EWire name er))))).
Proof using Hs HF HL.
  intros Hb Ab E. apply (on_stream _ st b d e) in E; auto.
  destruct (unmarshal_ends size L HL env Henv _ _ _ _ _ _ _ _ _ E) as [(st1 & d1 & R)|R]; [|now right].
  left. exact (settled_of _ st d st1 d1 _ R).
Qed.
End Bufio.
