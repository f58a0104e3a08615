(** Facts about Skip and about reading a value that hold over any Reader with
    the stated behaviour of its single calls: success on a stream is success on
    every longer stream (so truncation is noticed), termination with a bounded
    number of calls, and agreement of skipping with reading. *)
From Verif Require Import Base BaseLemmas Prog Wire WireProof Spec Clients.

(** ** Programs whose success needs every call to succeed *)
Inductive careful {A} (ok : A -> Prop) : prog wireR A -> Prop :=
| car_ret a : careful ok (Ret a)
| car_crash c : careful ok (Crash c)
| car_vis X (e : wireR X) (k : X -> prog wireR A) :
    (forall x, errR e x <> None -> exists a, k x = Ret a /\ ~ ok a) ->
    (forall x, errR e x = None -> careful ok (k x)) ->
    careful ok (Vis e k).

Lemma careful_bind {A B} (ok : A -> Prop) (ok' : B -> Prop) p (f : A -> prog wireR B) :
  careful ok p ->
  (forall a, ~ ok a -> exists b, f a = Ret b /\ ~ ok' b) ->
  (forall a, careful ok' (f a)) ->
  careful ok' (bind p f).
Proof.
  intros Hp Hn Hf. induction Hp as [a|c|X e k H1 H2 IH]; cbn [bind].
  - apply Hf.
  - constructor.
  - constructor; [|exact IH].
    intros x Hx. destruct (H1 x Hx) as (a & E & Ha). rewrite E. cbn [bind]. auto.
Qed.

Lemma careful_call {X A} (ok : A -> Prop) (e : wireR X) (k : X -> prog wireR A) :
  (forall x, errR e x <> None -> exists a, k x = Ret a /\ ~ ok a) ->
  (forall x, errR e x = None -> careful ok (k x)) ->
  careful ok (bind (call e) k).
Proof. intros H1 H2. cbn. now constructor. Qed.

Definition lok {St R} (ok : R -> Prop) (x : St + R) : Prop :=
  match x with inl _ => True | inr r => ok r end.

Lemma careful_loop_nat {St R} (ok : R -> Prop) n (body : St -> prog wireR (St + R)) :
  (forall st, careful (lok ok) (body st)) -> forall st, careful (lok ok) (loop_nat n body st).
Proof.
  intros Hb. induction n as [|n IH]; intros st; cbn [loop_nat]; [constructor|].
  eapply careful_bind; [apply Hb| |].
  - intros [st'|r] Hn; cbn in Hn; [tauto|]. exists (inr r). auto.
  - intros [st'|r]; [apply IH|constructor].
Qed.

Lemma careful_loop_pos {St R} (ok : R -> Prop) n (body : St -> prog wireR (St + R)) :
  (forall st, careful (lok ok) (body st)) -> forall st, careful (lok ok) (loop_pos n body st).
Proof.
  intros Hb. induction n as [n IH|n IH|]; intros st; cbn [loop_pos]; [| |apply Hb].
  - eapply careful_bind; [apply Hb| |].
    + intros [st'|r] Hn; cbn in Hn; [tauto|]. exists (inr r). auto.
    + intros [st'|r]; [|constructor]. eapply careful_bind; [apply IH| |].
      * intros [st2|r] Hn; cbn in Hn; [tauto|]. exists (inr r). auto.
      * intros [st2|r]; [apply IH|constructor].
  - eapply careful_bind; [apply IH| |].
    + intros [st'|r] Hn; cbn in Hn; [tauto|]. exists (inr r). auto.
    + intros [st'|r]; [apply IH|constructor].
Qed.

Lemma careful_loop_Z {St R} (ok : R -> Prop) n (body : St -> prog wireR (St + R)) st :
  (forall st, careful (lok ok) (body st)) -> careful (lok ok) (loop_Z n body st).
Proof. intros Hb. destruct n; cbn; try constructor. now apply careful_loop_pos. Qed.

Definition okE (o : option err) : Prop := o = None.
Definition okV {A} (x : A + err) : Prop := match x with inl _ => True | inr _ => False end.

Ltac bad := eexists; split; [reflexivity|]; cbn; unfold okE; first [discriminate|tauto].

Lemma careful_and_then p q : careful okE p -> careful okE q -> careful okE (p >>! q).
Proof.
  intros Hp Hq. unfold and_then. eapply careful_bind; [exact Hp| |].
  - intros [e|] H; [bad|now elim H].
  - intros [e|]; [constructor|exact Hq].
Qed.

Lemma careful_callE (e : wireR (option err)) :
  (forall x, errR e x = x) -> careful okE (call e).
Proof.
  intros H. constructor; [|constructor]. intros x Hx. rewrite H in Hx.
  exists x. split; [reflexivity|exact Hx].
Qed.

Lemma careful_skip_loop n p q :
  careful okE p -> careful okE q -> careful okE (skip_loop n p q).
Proof.
  intros Hp Hq. unfold skip_loop. eapply careful_bind.
  - apply (careful_loop_Z okE). intros u. unfold skip_elem. eapply careful_bind; [exact Hp| |].
    + intros [e|] H; [bad|now elim H].
    + intros [e|]; constructor.
  - intros [[]|e] H; cbn in H; [tauto|]. exists e. auto.
  - intros [[]|e]; [exact Hq|constructor].
Qed.

Lemma careful_skip fuel : forall t, careful okE (skip fuel t).
Proof.
  induction fuel as [|f IH]; intros t; cbn [skip]; [constructor|].
  destruct (kind_of t) as [k|]; [|constructor].
  assert (Hb : forall X (e : wireR (X * option err)) (q : X -> prog wireR (option err)),
    errR e = snd -> (forall x, careful okE (q x)) ->
    careful okE ('(x, er) <- call e ;; match er with Some _ => Ret er | None => q x end)).
  { intros X e q He Hq. apply careful_call.
    - intros [x [er|]] Hx; rewrite He in Hx; cbn in Hx; [bad|now elim Hx].
    - intros [x [er|]] Hx; [constructor|apply Hq]. }
  assert (Hs : forall X (e : wireR (X * option err)), errR e = snd ->
    careful okE ('(_, er) <- call e ;; Ret er)).
  { intros X e He. apply careful_call.
    - intros [x [er|]] Hx; rewrite He in Hx; cbn in Hx; [bad|now elim Hx].
    - intros [x [er|]] Hx; constructor. }
  destruct k; try (apply Hs; reflexivity); try (apply careful_callE; reflexivity).
  - apply (Hb _ RStructBegin (fun _ => _)); [reflexivity|]. intros _. eapply careful_bind.
    + apply (careful_loop_nat okE). intros u. unfold skip_field.
      apply careful_call.
      * intros [z [e|]] Hz; [bad|now elim Hz].
      * intros [z [e|]] Hz; [constructor|].
        destruct (fh_type z =? T_Stop).
        -- apply careful_call; [|constructor]. intros [e|] He; [bad|now elim He].
        -- eapply careful_bind; [apply IH| |].
           ++ intros [e|] H; [bad|now elim H].
           ++ intros [e|]; [constructor|]. apply careful_call.
              ** intros [e|] He; [bad|now elim He].
              ** intros [e|] He; constructor.
    + intros [[]|e] H; cbn in H; [tauto|]. exists e. auto.
    + intros [[]|e]; constructor.
  - apply (Hb _ RMapBegin (fun h => skip_loop (map_size h) (skip f (map_key h) >>! skip f (map_val h)) (call RMapEnd)));
      [reflexivity|]. intros y. apply careful_skip_loop.
    + apply careful_and_then; apply IH.
    + apply careful_callE; reflexivity.
  - apply (Hb _ RSetBegin (fun h => skip_loop (set_size h) (skip f (set_elem h)) (call RSetEnd)));
      [reflexivity|]. intros y. apply careful_skip_loop; [apply IH|].
    apply careful_callE; reflexivity.
  - apply (Hb _ RListBegin (fun h => skip_loop (set_size h) (skip f (set_elem h)) (call RListEnd)));
      [reflexivity|]. intros y. apply careful_skip_loop; [apply IH|].
    apply careful_callE; reflexivity.
Qed.

Lemma careful_rd {X A} (e : wireR (X * option err)) (k : X -> prog wireR (A + err)) :
  (forall x, errR e x = snd x) -> (forall x, careful okV (k x)) -> careful okV (rd e k).
Proof.
  intros He Hk. unfold rd. apply careful_call.
  - intros [x [er|]] Hx; rewrite He in Hx; cbn in Hx; [bad|now elim Hx].
  - intros [x [er|]] Hx; [constructor|apply Hk].
Qed.

Lemma careful_rd0 {A} (e : wireR (option err)) (k : prog wireR (A + err)) :
  (forall x, errR e x = x) -> careful okV k -> careful okV (rd0 e k).
Proof.
  intros He Hk. unfold rd0. apply careful_call.
  - intros [er|] Hx; rewrite He in Hx; [bad|now elim Hx].
  - intros [er|] Hx; [constructor|apply Hk].
Qed.

Lemma careful_rdp {A B} (p : prog wireR (A + err)) (k : A -> prog wireR (B + err)) :
  careful okV p -> (forall a, careful okV (k a)) -> careful okV (rdp p k).
Proof.
  intros Hp Hk. unfold rdp. eapply careful_bind; [exact Hp| |].
  - intros [a|er] H; cbn in H; [tauto|bad].
  - intros [a|er]; [apply Hk|constructor].
Qed.

Lemma careful_rd_loop {A B} n (p : prog wireR (A + err)) (fin : list A -> prog wireR (B + err)) :
  careful okV p -> (forall l, careful okV (fin l)) -> careful okV (rd_loop n p fin).
Proof.
  intros Hp Hk. unfold rd_loop. eapply careful_bind.
  - apply (careful_loop_Z okV). intros acc. unfold rd_step. eapply careful_bind; [exact Hp| |].
    + intros [a|er] H; cbn in H; [tauto|bad].
    + intros [a|er]; constructor.
  - intros [l|r] H; cbn in H; [tauto|]. exists r. auto.
  - intros [l|r]; [apply Hk|constructor].
Qed.

Lemma careful_read_val fuel : forall t, careful okV (read_val fuel t).
Proof.
  induction fuel as [|f IH]; intros t; cbn [read_val]; [constructor|].
  destruct (kind_of t) as [k|]; [|constructor].
  destruct k; try (apply careful_rd; [reflexivity|intros x; exact (car_ret okV _)]).
  - apply careful_rd; [reflexivity|]. intros _. eapply careful_bind.
    + apply (careful_loop_nat okV). intros acc. unfold rd_field. apply careful_call.
      * intros [z [e|]] Hz; [bad|now elim Hz].
      * intros [z [e|]] Hz; [constructor|].
        destruct (fh_type z =? T_Stop).
        -- apply careful_call; [|constructor]. intros [e|] He; [bad|now elim He].
        -- eapply careful_bind; [apply IH| |].
           ++ intros [v|e] H; cbn in H; [tauto|bad].
           ++ intros [v|e]; [|constructor]. apply careful_call.
              ** intros [e|] He; [bad|now elim He].
              ** intros [e|] He; constructor.
    + intros [l|r] H; cbn in H; [tauto|]. exists r. auto.
    + intros [l|r]; constructor.
  - apply careful_rd; [reflexivity|]. intros h. apply careful_rd_loop.
    + apply careful_rdp; [apply IH|]. intros k. apply careful_rdp; [apply IH|]. intros; constructor.
    + intros l. apply careful_rd0; [reflexivity|constructor].
  - apply careful_rd; [reflexivity|]. intros h. apply careful_rd_loop; [apply IH|].
    intros l. apply careful_rd0; [reflexivity|constructor].
  - apply careful_rd; [reflexivity|]. intros h. apply careful_rd_loop; [apply IH|].
    intros l. apply careful_rd0; [reflexivity|constructor].
Qed.

(** ** Success carries over to longer streams *)
Section Extend.
Context {S : Type} (h : handler wireR S) (grow : S -> S).
Hypothesis Hext : forall X (e : wireR X) s s' x,
  h X e s = Done s' x -> errR e x = None -> h X e (grow s) = Done (grow s') x.

Lemma extend {A} (ok : A -> Prop) p : careful ok p -> forall s s' a,
  run h p s = Done s' a -> ok a -> run h p (grow s) = Done (grow s') a.
Proof.
  induction 1 as [a|c|X e k H1 H2 IH]; intros s s' b Hr Hok; cbn [run] in *.
  - injection Hr as -> ->. reflexivity.
  - discriminate.
  - destruct (h X e s) as [s1 x|c] eqn:E; [|discriminate].
    destruct (errR e x) as [er|] eqn:Ee.
    + destruct (H1 x) as (a & Ek & Ha); [congruence|]. rewrite Ek in Hr. cbn in Hr.
      injection Hr as -> ->. tauto.
    + rewrite (Hext _ _ _ _ _ E Ee). eauto.
Qed.
End Extend.

(** ** Skipping agrees with reading *)
Section Agree.
Context {S : Type} (h : handler wireR S).

(** Both succeed and end in the same state, or both fail with an error, or
    neither returns. *)
Definition agree {A} (o : outcome S (A + err)) (o' : outcome S (option err)) : Prop :=
  match o, o' with
  | Done s (inl _), Done s' None => s = s'
  | Done _ (inr _), Done _ (Some _) => True
  | Crashed c, Crashed c' => c = c'
  | _, _ => False
  end.

Definition agree_op {X} (o : outcome S (X * option err)) (o' : outcome S (option err)) : Prop :=
  match o, o' with
  | Done s (_, None), Done s' None => s = s'
  | Done _ (_, Some _), Done _ (Some _) => True
  | Crashed c, Crashed c' => c = c'
  | _, _ => False
  end.

Hypothesis Hstr : forall s, agree_op (h _ RString s) (h _ RSkipString s).
Hypothesis Huuid : forall s, agree_op (h _ (RUUID uuid0) s) (h _ RSkipUUID s).

(** Loop results. *)
Definition agree_l {St St' A} (o : outcome S (St + (A + err)))
  (o' : outcome S (St' + option err)) : Prop :=
  match o, o' with
  | Done s (inl _), Done s' (inl _) => s = s'
  | Done s (inr (inl _)), Done s' (inr None) => s = s'
  | Done _ (inr (inr _)), Done _ (inr (Some _)) => True
  | Crashed c, Crashed c' => c = c'
  | _, _ => False
  end.

Lemma agree_loop_nat {St St' A} n (b1 : St -> prog wireR (St + (A + err)))
  (b2 : St' -> prog wireR (St' + option err)) :
  (forall st st' s, agree_l (run h (b1 st) s) (run h (b2 st') s)) ->
  forall st st' s, agree_l (run h (loop_nat n b1 st) s) (run h (loop_nat n b2 st') s).
Proof.
  intros Hb. induction n as [|n IH]; intros st st' s; cbn [loop_nat]; [cbn; reflexivity|].
  rewrite !run_bind. specialize (Hb st st' s).
  destruct (run h (b1 st) s) as [s1 [x|[x|x]]|c], (run h (b2 st') s) as [s2 [y|[y|]]|c'];
    cbn in Hb |- *; try contradiction; subst; auto.
Qed.

Lemma agree_loop_Z {St St' A} n (b1 : St -> prog wireR (St + (A + err)))
  (b2 : St' -> prog wireR (St' + option err)) st st' s :
  (forall st st' s, agree_l (run h (b1 st) s) (run h (b2 st') s)) ->
  agree_l (run h (loop_Z n b1 st) s) (run h (loop_Z n b2 st') s).
Proof. intros Hb. rewrite !run_loop_Z. now apply agree_loop_nat. Qed.

Lemma agree_seq {A B} n (p : prog wireR (A + err)) (fin : list A -> prog wireR (B + err)) p' q' s :
  (forall s, agree (run h p s) (run h p' s)) ->
  (forall l s, agree (run h (fin l) s) (run h q' s)) ->
  agree (run h (rd_loop n p fin) s) (run h (skip_loop n p' q') s).
Proof.
  intros Hp Hq. unfold rd_loop, skip_loop. rewrite !run_bind.
  assert (Hl : agree_l (run h (loop_Z n (rd_step (B := B) p) []) s) (run h (loop_Z n (skip_elem p') tt) s)).
  { apply agree_loop_Z. intros acc [] s0. unfold rd_step, skip_elem. rewrite !run_bind.
    specialize (Hp s0).
    destruct (run h p s0) as [s1 [x|x]|c], (run h p' s0) as [s2 [y|]|c'];
      cbn in Hp |- *; try contradiction; subst; auto. }
  destruct (run h (loop_Z n (rd_step p) []) s) as [s1 [x|[x|x]]|c],
    (run h (loop_Z n (skip_elem p') tt) s) as [s2 [y|[y|]]|c'];
    cbn in Hl |- *; try contradiction; subst; auto.
Qed.

Lemma agree_end (e : wireR (option err)) (v : tval) s :
  agree (run h (rd0 e (Ret (inl v))) s) (run h (call e) s).
Proof.
  unfold rd0. rewrite run_vis, run_call. destruct (h _ e s) as [s' [x|]|c]; cbn; auto.
Qed.

Theorem skip_agrees fuel : forall t s,
  agree (run h (read_val fuel t) s) (run h (skip fuel t) s).
Proof.
  induction fuel as [|f IH]; intros t s; cbn [read_val skip]; [reflexivity|].
  destruct (kind_of t) as [k|]; [|reflexivity].
  destruct k; unfold rd; rewrite ?run_vis;
    try (match goal with |- context [h ?X ?e s] => destruct (h X e s) as [s' [y [er|]]|c] end;
         cbn [obind run agree]; reflexivity || exact I).
  - specialize (Hstr s). rewrite run_call.
    destruct (h _ RString s) as [s1 [x [er|]]|c], (h _ RSkipString s) as [s2 [y|]|c'];
      cbn in Hstr |- *; auto.
  - destruct (h _ RStructBegin s) as [s' [y [er|]]|c]; cbn [obind run agree]; auto.
    rewrite !run_bind.
    match goal with |- agree (obind (run h (loop_nat ?n ?b1 ?a1) _) _) (obind (run h (loop_nat _ ?b2 _) _) _) =>
      assert (Hl : agree_l (run h (loop_nat n b1 a1) s') (run h (loop_nat n b2 tt) s')) end.
    { apply agree_loop_nat. intros acc [] s0. unfold rd_field, skip_field. rewrite !run_vis.
      destruct (h _ RFieldBegin s0) as [s1 [z [er|]]|c]; cbn [obind run agree_l]; auto.
      destruct (fh_type z =? T_Stop).
      - rewrite !run_vis. destruct (h _ RStructEnd s1) as [s2 [er|]|c]; cbn; auto.
      - rewrite !run_bind. specialize (IH (fh_type z) s1).
        destruct (run h (read_val f (fh_type z)) s1) as [s2 [v|er]|c],
          (run h (skip f (fh_type z)) s1) as [s3 [er'|]|c'];
          cbn [agree obind run agree_l] in IH |- *; try contradiction; subst; auto.
        rewrite !run_vis. destruct (h _ RFieldEnd s3) as [s4 [er|]|c]; cbn; auto. }
    match goal with |- agree (obind ?o _) (obind ?o' _) =>
      destruct o as [s1 [x|[x|x]]|c], o' as [s2 [z|[z|]]|c'] end;
      cbn in Hl |- *; try contradiction; subst; auto.
  - destruct (h _ RMapBegin s) as [s' [y [er|]]|c]; cbn [obind run agree]; auto.
    apply agree_seq; [|intros; apply agree_end].
    intros s0. unfold rdp, and_then. rewrite !run_bind. specialize (IH (map_key y) s0) as Hk.
    destruct (run h (read_val f (map_key y)) s0) as [s1 [v|er]|c],
      (run h (skip f (map_key y)) s0) as [s2 [er'|]|c'];
      cbn [agree obind run] in Hk |- *; try contradiction; subst; auto.
    rewrite !run_bind. specialize (IH (map_val y) s2) as Hk.
    destruct (run h (read_val f (map_val y)) s2) as [s3 [w|er]|c],
      (run h (skip f (map_val y)) s2) as [s4 [er'|]|c'];
      cbn [agree obind run] in Hk |- *; try contradiction; subst; auto.
  - destruct (h _ RSetBegin s) as [s' [y [er|]]|c]; cbn [obind run agree]; auto.
    apply agree_seq; [apply IH|intros; apply agree_end].
  - destruct (h _ RListBegin s) as [s' [y [er|]]|c]; cbn [obind run agree]; auto.
    apply agree_seq; [apply IH|intros; apply agree_end].
  - specialize (Huuid s). rewrite run_call.
    destruct (h _ (RUUID uuid0) s) as [s1 [x [er|]]|c], (h _ RSkipUUID s) as [s2 [y|]|c'];
      cbn in Huuid |- *; auto.
Qed.
End Agree.

(** ** Termination and work *)

(** Counts the calls made. *)
Definition counted {E S} (h : handler E S) : handler E (S * nat) :=
  fun X e sn =>
    match h X e (fst sn) with
    | Done s' x => Done (s', Datatypes.S (snd sn)) x
    | Crashed c => Crashed c
    end.

Lemma counted_run {E S A} (h : handler E S) (p : prog E A) : forall s n,
  run h p s = match run (counted h) p (s, n) with Done (s', _) a => Done s' a | Crashed c => Crashed c end.
Proof.
  induction p as [a|X e k IH|c]; intros s n; cbn [run]; try reflexivity.
  unfold counted at 1. cbn [fst snd]. destruct (h X e s) as [s' x|c]; [|reflexivity]. apply IH.
Qed.

(** Calls that read at least one byte when they succeed. *)
Definition consumes {X} (e : wireR X) : bool :=
  match e with
  | RMessageEnd | RStructBegin | RStructEnd | RFieldEnd | RMapEnd | RSetEnd | RListEnd => false
  | _ => true
  end.

Section Total.
Context {S : Type} (h : handler wireR S) (mu : S -> nat).
Hypothesis Htot : forall X (e : wireR X) s, exists s' x,
  h X e s = Done s' x /\ (mu s' <= mu s)%nat /\
  (errR e x = None -> consumes e = true -> (mu s' < mu s)%nat).

Notation ch := (counted h).

(** One call. *)
Lemma tot_call {X} (e : wireR X) s n : exists s' x,
  ch X e (s, n) = Done (s', Datatypes.S n) x /\ (mu s' <= mu s)%nat /\
  (errR e x = None -> consumes e = true -> (mu s' < mu s)%nat).
Proof.
  destruct (Htot X e s) as (s' & x & E & H). exists s', x. unfold counted. cbn [fst snd].
  rewrite E. auto.
Qed.

(** The bound on the work done between two states. *)
Definition bound (s : S) (n : nat) (o : outcome (S * nat) (option err)) : Prop :=
  exists s' n' r, o = Done (s', n') r /\ (mu s' <= mu s)%nat /\
    (r = None -> (mu s' < mu s)%nat /\ (n' + 3 * mu s' <= n + 3 * mu s)%nat) /\
    (n' + 3 * mu s' <= n + 3 * mu s + 3)%nat.

(** [p] repeated, then [q]; the caller has consumed something before. *)
Lemma tot_loop k p : forall s n M,
  (mu s <= M)%nat ->
  (forall s n, (mu s <= M)%nat -> bound s n (run ch p (s, n))) ->
  exists s' n' (x : unit + option err), run ch (loop_nat k (skip_elem p) tt) (s, n) = Done (s', n') x /\
    (mu s' <= mu s)%nat /\ (n' + 3 * mu s' <= n + 3 * mu s + match x with inl _ => 0 | inr _ => 3 end)%nat /\
    (forall r, x = inr r -> r <> None).
Proof.
  intros s n M HM Hp. revert s n HM.
  induction k as [|k IH]; intros s n HM; cbn [loop_nat].
  - exists s, n, (inl tt). cbn. repeat split; try lia. discriminate.
  - rewrite run_bind. unfold skip_elem at 1. rewrite run_bind.
    destruct (Hp s n HM) as (s1 & n1 & r & E & H1 & H2 & H3). rewrite E. cbn [obind].
    destruct r as [er|]; cbn [run obind].
    + exists s1, n1, (inr (Some er)). repeat split; try lia. intros r Hr; injection Hr as <-; discriminate.
    + destruct (H2 eq_refl) as [H4 H5].
      destruct (IH s1 n1) as (s2 & n2 & x & E2 & H6 & H7 & H8); [lia|].
      exists s2, n2, x. rewrite E2. repeat split; auto; try lia.
Qed.

Lemma tot_coll k p (e : wireR (option err)) s n M :
  errR e = (fun x => x) ->
  (mu s <= M)%nat ->
  (forall s n, (mu s <= M)%nat -> bound s n (run ch p (s, n))) ->
  exists s' n' r, run ch (skip_loop k p (call e)) (s, n) = Done (s', n') r /\
    (mu s' <= mu s)%nat /\
    (r = None -> (n' + 3 * mu s' <= n + 3 * mu s + 1)%nat) /\
    (n' + 3 * mu s' <= n + 3 * mu s + 3)%nat.
Proof.
  intros _ HM Hp. unfold skip_loop. rewrite run_bind, run_loop_Z.
  destruct (tot_loop (Z.to_nat k) p s n M HM Hp) as (s1 & n1 & x & E & H1 & H2 & H3).
  rewrite E. cbn [obind]. destruct x as [[]|r].
  - rewrite run_call. destruct (tot_call e s1 n1) as (s2 & o & E2 & H4 & H5).
    exists s2, (Datatypes.S n1), o. rewrite E2. repeat split; auto; lia.
  - cbn [run]. exists s1, n1, r. repeat split; auto; try lia.
    intros ->. now elim (H3 None).
Qed.

(** [f] bounds depth and width; it is enough that it exceeds the measure. *)
Theorem skip_total fuel : forall t s n, (mu s < fuel)%nat -> bound s n (run ch (skip fuel t) (s, n)).
Proof.
  induction fuel as [|f IH]; intros t s n Hf; [lia|]. cbn [skip].
  destruct (kind_of t) as [k|].
  2:{ exists s, n, (Some (EInvalidType t)). cbn. repeat split; try lia; discriminate. }
  assert (Hscal : forall X (e : wireR (X * option err)), errR e = snd -> consumes e = true ->
    bound s n (run ch ('(_, er) <- call e ;; Ret er) (s, n))).
  { intros X e He Hc. rewrite run_vis.
    destruct (tot_call e s n) as (s' & [x o] & E & H1 & H2). rewrite E. cbn [obind run].
    exists s', (Datatypes.S n), o. rewrite He in H2. cbn in H2. split; [reflexivity|].
    split; [lia|]. split; [|lia]. intros ->. specialize (H2 eq_refl Hc). lia. }
  assert (Hskip : forall e : wireR (option err), errR e = (fun x => x) -> consumes e = true ->
    bound s n (run ch (call e) (s, n))).
  { intros e He Hc. rewrite run_call.
    destruct (tot_call e s n) as (s' & o & E & H1 & H2). rewrite E.
    exists s', (Datatypes.S n), o. rewrite He in H2. split; [reflexivity|].
    split; [lia|]. split; [|lia]. intros ->. specialize (H2 eq_refl Hc). lia. }
  assert (Hcoll : forall X (e : wireR (X * option err)) (k : X -> Z) p (e' : wireR (option err)),
    errR e = snd -> consumes e = true -> errR e' = (fun x => x) ->
    (forall x s n, (mu s < f)%nat -> bound s n (run ch (p x) (s, n))) ->
    bound s n (run ch ('(x, er) <- call e ;;
                       match er with
                       | Some _ => Ret er
                       | None => skip_loop (k x) (p x) (call e')
                       end) (s, n))).
  { intros X e kk p e' He Hc He' Hp. rewrite run_vis.
    destruct (tot_call e s n) as (s' & [x o] & E & H1 & H2). rewrite E. cbn [obind].
    rewrite He in H2. cbn in H2. destruct o as [er|].
    - cbn [run]. exists s', (Datatypes.S n), (Some er). repeat split; try lia; discriminate.
    - specialize (H2 eq_refl Hc).
      destruct (tot_coll (kk x) (p x) e' s' (Datatypes.S n) (mu s') He') as (s2 & n2 & r & E2 & H3 & H4 & H5);
        [lia|intros s0 n0 H0; apply Hp; lia|].
      exists s2, n2, r. rewrite E2. split; [reflexivity|]. split; [lia|]. split; [|lia].
      intros Hr. specialize (H4 Hr). lia. }
  destruct k; try (now apply Hscal); try (now apply Hskip).
  - (* struct *)
    rewrite run_vis. destruct (tot_call RStructBegin s n) as (s1 & [x o] & E & H1 & _). rewrite E.
    cbn [obind]. destruct o as [er|].
    { cbn [run]. exists s1, (Datatypes.S n), (Some er). repeat split; try lia; discriminate. }
    rewrite run_bind.
    assert (Hl : forall w s n, (mu s < w)%nat -> (w <= Datatypes.S f)%nat ->
      exists s' n' r, run ch (loop_nat w (skip_field (skip f)) tt) (s, n) = Done (s', n') (inr r) /\
        (mu s' <= mu s)%nat /\ (r = None -> (mu s' < mu s)%nat /\ (n' + 3 * mu s' + 1 <= n + 3 * mu s)%nat) /\
        (n' + 3 * mu s' <= n + 3 * mu s + 2)%nat).
    { clear E H1 s1 x s n Hf Hscal Hskip Hcoll.
      induction w as [|w IHw]; intros s n Hw Hwf; [lia|]. cbn [loop_nat]. rewrite run_bind.
      unfold skip_field at 1. rewrite run_vis.
      destruct (tot_call RFieldBegin s n) as (s1 & [x o] & E & H1 & H2). rewrite E. cbn [obind].
      cbn [errR snd consumes] in H2. destruct o as [er|].
      { cbn [run obind]. exists s1, (Datatypes.S n), (Some er). repeat split; try lia; discriminate. }
      specialize (H2 eq_refl eq_refl).
      destruct (fh_type x =? T_Stop).
      - rewrite run_vis. destruct (tot_call RStructEnd s1 (Datatypes.S n)) as (s2 & o & E2 & H3 & _).
        rewrite E2. cbn [obind run]. exists s2, (Datatypes.S (Datatypes.S n)), o.
        repeat split; try lia.
      - rewrite run_bind. destruct (IH (fh_type x) s1 (Datatypes.S n)) as (s2 & n2 & r & E2 & H3 & H4 & H5); [lia|].
        rewrite E2. cbn [obind]. destruct r as [er|].
        { cbn [run obind]. exists s2, n2, (Some er). repeat split; try lia; discriminate. }
        destruct (H4 eq_refl) as [H6 H7].
        rewrite run_vis. destruct (tot_call RFieldEnd s2 n2) as (s3 & o & E3 & H8 & _).
        rewrite E3. cbn [obind]. destruct o as [er|].
        { cbn [run obind]. exists s3, (Datatypes.S n2), (Some er). repeat split; try lia; discriminate. }
        cbn [run obind].
        destruct (IHw s3 (Datatypes.S n2)) as (s4 & n4 & r & E4 & H9 & H10 & H11); [lia|lia|].
        exists s4, n4, r. rewrite E4. split; [reflexivity|]. split; [lia|]. split; [|lia].
        intros Hr. specialize (H10 Hr). lia. }
    destruct (Hl (Datatypes.S f) s1 (Datatypes.S n)) as (s2 & n2 & r & E2 & H3 & H4 & H5); [lia|lia|].
    rewrite E2. cbn [obind run]. exists s2, n2, r. split; [reflexivity|]. split; [lia|]. split; [|lia].
    intros Hr. specialize (H4 Hr). lia.
  - (* map *)
    apply (Hcoll _ RMapBegin map_size (fun x => skip f (map_key x) >>! skip f (map_val x)) RMapEnd);
      try reflexivity.
    intros x s0 n0 H0. unfold and_then. rewrite run_bind.
    destruct (IH (map_key x) s0 n0 H0) as (s1 & n1 & r & E & H1 & H2 & H3). rewrite E. cbn [obind].
    destruct r as [er|].
    { cbn [run]. exists s1, n1, (Some er). repeat split; try lia; discriminate. }
    destruct (H2 eq_refl) as [H4 H5].
    destruct (IH (map_val x) s1 n1) as (s2 & n2 & r & E2 & H6 & H7 & H8); [lia|].
    exists s2, n2, r. rewrite E2. split; [reflexivity|]. split; [lia|]. split; [|lia].
    intros Hr. specialize (H7 Hr). lia.
  - apply (Hcoll _ RSetBegin set_size (fun x => skip f (set_elem x)) RSetEnd); try reflexivity.
    intros x s0 n0 H0. apply IH, H0.
  - apply (Hcoll _ RListBegin set_size (fun x => skip f (set_elem x)) RListEnd); try reflexivity.
    intros x s0 n0 H0. apply IH, H0.
Qed.
End Total.
