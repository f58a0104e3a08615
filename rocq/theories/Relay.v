(** Skip and reading a value hand on the error of the first call that fails. *)
From Verif Require Import Base BaseLemmas Prog Wire WireProof Spec Clients ArshalErr ArshalStrict.

(** Programs that stop at the first call that fails, with its error; [ef] is the error in a result. *)
Inductive relays {A} (ef : A -> option err) : prog wireR A -> Prop :=
| rel_ret a : relays ef (Ret a)
| rel_crash c : relays ef (Crash c)
| rel_vis X (e : wireR X) (k : X -> prog wireR A) :
    (forall x er, errR e x = Some er -> exists a, k x = Ret a /\ ef a = Some er) ->
    (forall x, errR e x = None -> relays ef (k x)) ->
    relays ef (Vis e k).

Lemma relays_bind {A B} (ef : A -> option err) (eg : B -> option err) p (f : A -> prog wireR B) :
  relays ef p ->
  (forall a er, ef a = Some er -> exists b, f a = Ret b /\ eg b = Some er) ->
  (forall a, relays eg (f a)) ->
  relays eg (bind p f).
Proof.
  intros Hp Hn Hf. induction Hp as [a|c|X e k H1 H2 IH]; cbn [bind].
  - apply Hf.
  - constructor.
  - constructor; [|exact IH].
    intros x er Hx. destruct (H1 x er Hx) as (a & E & Ha). rewrite E. cbn [bind]. auto.
Qed.
Lemma relays_call {X A} (ef : A -> option err) (e : wireR X) (k : X -> prog wireR A) :
  (forall x er, errR e x = Some er -> exists a, k x = Ret a /\ ef a = Some er) ->
  (forall x, errR e x = None -> relays ef (k x)) ->
  relays ef (bind (call e) k).
Proof. intros H1 H2. cbn. now constructor. Qed.

Definition lef {St R} (ef : R -> option err) (x : St + R) : option err := match x with inl _ => None | inr r => ef r end.
Definition eid (o : option err) : option err := o.
Definition ev2 {A} (x : A + err) : option err := match x with inl _ => None | inr er => Some er end.
Ltac relay := eexists; split; [reflexivity|]; unfold eid, lef, ev2 in *; cbn in *; congruence.

Lemma relays_loop_nat {St R} (ef : R -> option err) n (body : St -> prog wireR (St + R)) :
  (forall st, relays (lef ef) (body st)) -> forall st, relays (lef ef) (loop_nat n body st).
Proof.
  intros Hb. induction n as [|n IH]; intros st; cbn [loop_nat]; [constructor|].
  eapply relays_bind; [apply Hb| |].
  - intros [st'|r] er Hn; [discriminate|relay].
  - intros [st'|r]; [apply IH|constructor].
Qed.
Lemma relays_loop_pos {St R} (ef : R -> option err) n (body : St -> prog wireR (St + R)) :
  (forall st, relays (lef ef) (body st)) -> forall st, relays (lef ef) (loop_pos n body st).
Proof.
  intros Hb. induction n as [n IH|n IH|]; intros st; cbn [loop_pos]; [| |apply Hb].
  - eapply relays_bind; [apply Hb| |].
    + intros [st'|r] er Hn; [discriminate|relay].
    + intros [st'|r]; [|constructor]. eapply relays_bind; [apply IH| |].
      * intros [st2|r] er Hn; [discriminate|relay].
      * intros [st2|r]; [apply IH|constructor].
  - eapply relays_bind; [apply IH| |].
    + intros [st'|r] er Hn; [discriminate|relay].
    + intros [st'|r]; [apply IH|constructor].
Qed.
Lemma relays_loop_Z {St R} (ef : R -> option err) n (body : St -> prog wireR (St + R)) st :
  (forall st, relays (lef ef) (body st)) -> relays (lef ef) (loop_Z n body st).
Proof. intros Hb. destruct n; cbn; try constructor. now apply relays_loop_pos. Qed.


Lemma relays_and_then p q : relays eid p -> relays eid q -> relays eid (p >>! q).
Proof.
  intros Hp Hq. unfold and_then. eapply relays_bind; [exact Hp| |].
  - intros [e|] er H; [relay|discriminate].
  - intros [e|]; [constructor|exact Hq].
Qed.
Lemma relays_callE (e : wireR (option err)) : (forall x, errR e x = x) -> relays eid (call e).
Proof. intros H. constructor; [|constructor]. intros x er Hx. rewrite H in Hx. exists x. split; [reflexivity|exact Hx]. Qed.
Lemma relays_skip_loop n p q : relays eid p -> relays eid q -> relays eid (skip_loop n p q).
Proof.
  intros Hp Hq. unfold skip_loop. eapply relays_bind.
  - apply (relays_loop_Z eid). intros u. unfold skip_elem. eapply relays_bind; [exact Hp| |].
    + intros [e|] er H; [relay|discriminate].
    + intros [e|]; constructor.
  - intros [[]|e] er H; [discriminate|relay].
  - intros [[]|e]; [exact Hq|constructor].
Qed.
Lemma relays_skip fuel : forall t, relays eid (skip fuel t).
Proof.
  induction fuel as [|f IH]; intros t; cbn [skip]; [constructor|].
  destruct (kind_of t) as [k|]; [|constructor].
  assert (Hb : forall X (e : wireR (X * option err)) (q : X -> prog wireR (option err)),
    errR e = snd -> (forall x, relays eid (q x)) ->
    relays eid ('(x, er) <- call e ;; match er with Some _ => Ret er | None => q x end)).
  { intros X e q He Hq. apply relays_call.
    - intros [x [er|]] er' Hx; rewrite He in Hx; cbn in Hx; [relay|discriminate].
    - intros [x [er|]] Hx; [constructor|apply Hq]. }
  assert (Hs : forall X (e : wireR (X * option err)), errR e = snd -> relays eid ('(_, er) <- call e ;; Ret er)).
  { intros X e He. apply relays_call.
    - intros [x [er|]] er' Hx; rewrite He in Hx; cbn in Hx; [relay|discriminate].
    - intros [x [er|]] Hx; constructor. }
  destruct k; try (apply Hs; reflexivity); try (apply relays_callE; reflexivity).
  - apply (Hb _ RStructBegin (fun _ => _)); [reflexivity|]. intros _. eapply relays_bind.
    + apply (relays_loop_nat eid). intros u. unfold skip_field.
      apply relays_call.
      * intros [z [e|]] er Hz; [relay|discriminate].
      * intros [z [e|]] Hz; [constructor|].
        destruct (fh_type z =? T_Stop).
        -- apply relays_call; [|constructor]. intros [e|] er He; [relay|discriminate].
        -- eapply relays_bind; [apply IH| |].
           ++ intros [e|] er H; [relay|discriminate].
           ++ intros [e|]; [constructor|]. apply relays_call.
              ** intros [e|] er He; [relay|discriminate].
              ** intros [e|] He; constructor.
    + intros [[]|e] er H; [discriminate|relay].
    + intros [[]|e]; constructor.
  - apply (Hb _ RMapBegin (fun h => skip_loop (map_size h) (skip f (map_key h) >>! skip f (map_val h)) (call RMapEnd)));
      [reflexivity|]. intros y. apply relays_skip_loop.
    + apply relays_and_then; apply IH.
    + apply relays_callE; reflexivity.
  - apply (Hb _ RSetBegin (fun h => skip_loop (set_size h) (skip f (set_elem h)) (call RSetEnd)));
      [reflexivity|]. intros y. apply relays_skip_loop; [apply IH|].
    apply relays_callE; reflexivity.
  - apply (Hb _ RListBegin (fun h => skip_loop (set_size h) (skip f (set_elem h)) (call RListEnd)));
      [reflexivity|]. intros y. apply relays_skip_loop; [apply IH|].
    apply relays_callE; reflexivity.
Qed.

Lemma relays_rd {X A} (e : wireR (X * option err)) (k : X -> prog wireR (A + err)) :
  (forall x, errR e x = snd x) -> (forall x, relays ev2 (k x)) -> relays ev2 (rd e k).
Proof.
  intros He Hk. unfold rd. apply relays_call.
  - intros [x [er|]] er' Hx; rewrite He in Hx; cbn in Hx; [relay|discriminate].
  - intros [x [er|]] Hx; [constructor|apply Hk].
Qed.
Lemma relays_rd0 {A} (e : wireR (option err)) (k : prog wireR (A + err)) :
  (forall x, errR e x = x) -> relays ev2 k -> relays ev2 (rd0 e k).
Proof.
  intros He Hk. unfold rd0. apply relays_call.
  - intros [er|] er' Hx; rewrite He in Hx; [relay|discriminate].
  - intros [er|] Hx; [constructor|apply Hk].
Qed.
Lemma relays_rdp {A B} (p : prog wireR (A + err)) (k : A -> prog wireR (B + err)) :
  relays ev2 p -> (forall a, relays ev2 (k a)) -> relays ev2 (rdp p k).
Proof.
  intros Hp Hk. unfold rdp. eapply relays_bind; [exact Hp| |].
  - intros [a|er] er' H; [discriminate|relay].
  - intros [a|er]; [apply Hk|constructor].
Qed.
Lemma relays_rd_loop {A B} n (p : prog wireR (A + err)) (fin : list A -> prog wireR (B + err)) :
  relays ev2 p -> (forall l, relays ev2 (fin l)) -> relays ev2 (rd_loop n p fin).
Proof.
  intros Hp Hk. unfold rd_loop. eapply relays_bind.
  - apply (relays_loop_Z ev2). intros acc. unfold rd_step. eapply relays_bind; [exact Hp| |].
    + intros [a|er] er' H; [discriminate|relay].
    + intros [a|er]; constructor.
  - intros [l|r] er' H; [discriminate|relay].
  - intros [l|r]; [apply Hk|constructor].
Qed.
Lemma relays_read_val fuel : forall t, relays ev2 (read_val fuel t).
Proof.
  induction fuel as [|f IH]; intros t; cbn [read_val]; [constructor|].
  destruct (kind_of t) as [k|]; [|constructor].
  destruct k; try (apply relays_rd; [reflexivity|intros x; exact (rel_ret ev2 _)]).
  - apply relays_rd; [reflexivity|]. intros _. eapply relays_bind.
    + apply (relays_loop_nat ev2). intros acc. unfold rd_field. apply relays_call.
      * intros [z [e|]] er Hz; [relay|discriminate].
      * intros [z [e|]] Hz; [constructor|].
        destruct (fh_type z =? T_Stop).
        -- apply relays_call; [|constructor]. intros [e|] er He; [relay|discriminate].
        -- eapply relays_bind; [apply IH| |].
           ++ intros [v|e] er H; [discriminate|relay].
           ++ intros [v|e]; [|constructor]. apply relays_call.
              ** intros [e|] er He; [relay|discriminate].
              ** intros [e|] He; constructor.
    + intros [l|r] er H; [discriminate|relay].
    + intros [l|r]; constructor.
  - apply relays_rd; [reflexivity|]. intros h. apply relays_rd_loop.
    + apply relays_rdp; [apply IH|]. intros k. apply relays_rdp; [apply IH|]. intros; constructor.
    + intros l. apply relays_rd0; [reflexivity|constructor].
  - apply relays_rd; [reflexivity|]. intros h. apply relays_rd_loop; [apply IH|].
    intros l. apply relays_rd0; [reflexivity|constructor].
  - apply relays_rd; [reflexivity|]. intros h. apply relays_rd_loop; [apply IH|].
    intros l. apply relays_rd0; [reflexivity|constructor].
Qed.

(** In terms of the log of calls. *)
Lemma relays_log {A} (ef : A -> option err) p : relays ef p -> forall S (h : handler wireR S) s l s' l' a,
  run (logR h) p (s, l) = Done (s', l') a ->
  (exists l1, l' = l ++ l1 /\ Forall ok_call l1) \/
  (exists l1 X (c : wireR X) er, l' = l ++ l1 ++ [(existT wireR X c, Some er)] /\ Forall ok_call l1 /\ ef a = Some er).
Proof.
  induction 1 as [a|c|X e k H1 H2 IH]; intros S h s l s' l' b E; cbn [run] in E; [|discriminate|].
  - injection E as <- <- <-. left. exists []. now rewrite app_nil_r.
  - unfold logR at 1 in E. cbn [fst snd] in E. destruct (h X e s) as [s1 x|]; [|discriminate].
    destruct (errR e x) as [er|] eqn:Ex.
    + destruct (H1 x er Ex) as (a & K & Ea). rewrite K in E. cbn [run] in E. injection E as <- <- <-.
      right. exists [], X, e, er. auto.
    + apply (IH x Ex) in E. destruct E as [(l1 & -> & F)|(l1 & Y & c & er & -> & F & Er)].
      * left. exists ((existT wireR X e, None) :: l1). rewrite <- app_assoc. split; [reflexivity|]. constructor; auto. reflexivity.
      * right. exists ((existT wireR X e, None) :: l1), Y, c, er. rewrite <- app_assoc. split; [reflexivity|]. split; [|exact Er]. constructor; auto. reflexivity.
Qed.
