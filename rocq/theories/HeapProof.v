(** Unmarshal on memory does what Unmarshal on values does. *)
From Coq Require Import Strings.String.
From Verif Require Import Base BaseLemmas Prog Wire GoFloat Utf8 GoType Fields Arshal GoTypeProof FieldsProof ArshalSpec
  Heap HeapSpec.

Scheme holds_mind := Minimality for holds Sort Prop
  with all_hold_mind := Minimality for all_hold Sort Prop
  with entries_hold_mind := Minimality for entries_hold Sort Prop.
Combined Scheme holds_mutind from holds_mind, all_hold_mind, entries_hold_mind.

(** ** Lists of addresses *)
Definition disj (A B : list nat) : Prop := forall x, In x A -> In x B -> False.

Lemma NoDup_app_iff {A} (l m : list A) :
  NoDup (l ++ m) <-> NoDup l /\ NoDup m /\ (forall x, In x l -> In x m -> False).
Proof.
  induction l as [|a l IH]; cbn [app].
  - split; [|now intros (_ & H & _)]. intros H. conj; auto using NoDup_nil.
  - rewrite !NoDup_cons_iff, IH, in_app_iff. split.
    + intros (H1 & H2 & H3 & H4). conj; auto. intros x [<-|Hx] Hm; [tauto|eauto].
    + intros ((H1 & H2) & H3 & H4). conj; auto.
      * intros [H|H]; [tauto|]. eapply H4; [left; reflexivity|exact H].
      * intros x Hx. apply H4. now right.
Qed.

Lemma seq_add a n m : seq a (n + m) = seq a n ++ seq (a + n) m.
Proof. apply seq_app. Qed.

Lemma nth_error_ext' {A} (l : list A) : forall m, (forall i, nth_error l i = nth_error m i) -> l = m.
Proof.
  induction l as [|x l IH]; intros [|y m] E; auto; try (specialize (E O); discriminate).
  f_equal; [specialize (E O); cbn in E; congruence|]. apply IH. intros i. exact (E (S i)).
Qed.

Lemma flat_map_ext' {A B} (f g : A -> list B) l : (forall a, In a l -> f a = g a) -> flat_map f l = flat_map g l.
Proof.
  induction l as [|a l IH]; intros E; [reflexivity|]. cbn [flat_map]. rewrite (E a) by now left.
  rewrite IH; auto. intros b Hb. apply E. now right.
Qed.

(** ** Memory *)
Lemma peek_len H a n : length (peek H a n) = n.
Proof. unfold peek. now rewrite map_length, seq_length. Qed.
Lemma peek_app H a n m : peek H a (n + m) = peek H a n ++ peek H (a + n) m.
Proof. unfold peek. now rewrite seq_app, map_app. Qed.
Lemma peek_S H a n : peek H a (S n) = mem H a :: peek H (S a) n.
Proof. reflexivity. Qed.
Lemma peek_1 H a : peek H a 1 = [mem H a].
Proof. reflexivity. Qed.
Lemma peek_ext H H' a n : (forall x, In x (seq a n) -> mem H' x = mem H x) -> peek H' a n = peek H a n.
Proof. intros E. apply map_ext_in. exact E. Qed.

Lemma poke_next H a cs : next (poke H a cs) = next H.
Proof. reflexivity. Qed.
Lemma poke_other H a cs x : ~ In x (seq a (length cs)) -> mem (poke H a cs) x = mem H x.
Proof.
  rewrite in_seq. intros Hx. cbn. destruct (Nat.leb a x) eqn:E; [|reflexivity].
  apply Nat.leb_le in E. rewrite nth_overflow by lia. reflexivity.
Qed.
Lemma poke_nth H a cs i c : nth_error cs i = Some c -> mem (poke H a cs) (a + i) = c.
Proof.
  intros E. cbn. replace (Nat.leb a (a + i)) with true by (symmetry; apply Nat.leb_le; lia).
  replace (a + i - a)%nat with i by lia. now apply nth_error_nth.
Qed.
Lemma peek_poke H a cs : peek (poke H a cs) a (length cs) = cs.
Proof.
  apply nth_error_ext'. intros i. unfold peek. rewrite nth_error_map.
  destruct (nth_error cs i) as [c|] eqn:E.
  - assert (L : (i < length cs)%nat) by (apply nth_error_Some; congruence).
    rewrite (nth_error_nth' (seq a (length cs)) O) by (rewrite seq_length; exact L).
    rewrite seq_nth by exact L. cbn [option_map]. f_equal. now apply poke_nth.
  - apply nth_error_None in E. rewrite (proj2 (nth_error_None (seq a (length cs)) i)) by (rewrite seq_length; exact E). reflexivity.
Qed.
Lemma peek_poke_n H a cs n : length cs = n -> peek (poke H a cs) a n = cs.
Proof. intros <-. apply peek_poke. Qed.
Lemma poke_1 H a c : mem (poke H a [c]) a = c.
Proof. rewrite <- (Nat.add_0_r a) at 2. now apply poke_nth. Qed.

Lemma alloc_eq H cs : alloc H cs = (fst (alloc H cs), next H).
Proof. reflexivity. Qed.
Lemma alloc_next H cs : next (fst (alloc H cs)) = (next H + length cs)%nat.
Proof. reflexivity. Qed.
Lemma alloc_old H cs x : (x < next H)%nat -> mem (fst (alloc H cs)) x = mem H x.
Proof. intros Hx. unfold alloc. cbn [fst]. rewrite poke_other by (rewrite in_seq; lia). reflexivity. Qed.
Lemma alloc_peek H cs : peek (fst (alloc H cs)) (next H) (length cs) = cs.
Proof. unfold alloc. cbn [fst]. apply (peek_poke (mkHeap (mem H) (next H + length cs))). Qed.

(** ** Running two programs side by side *)
Inductive sim {E : Type -> Type} {A B} (R : A -> B -> Prop) : prog E A -> prog E B -> Prop :=
| sim_ret a b : R a b -> sim R (Ret a) (Ret b)
| sim_vis X (e : E X) k k' : (forall x, sim R (k x) (k' x)) -> sim R (Vis e k) (Vis e k')
| sim_crash c : sim R (Crash c) (Crash c).

Lemma sim_run {E S A B} (R : A -> B -> Prop) (p : prog E A) (q : prog E B) : sim R p q ->
  forall (h : handler E S) s,
  match run h p s with
  | Done s1 a => exists b, run h q s = Done s1 b /\ R a b
  | Crashed c => run h q s = Crashed c
  end.
Proof.
  induction 1 as [a b Hr|X e k k' Hk IH|c]; intros h s; cbn [run]; eauto.
  destruct (h X e s) as [s' x|c]; [apply IH|reflexivity].
Qed.

Lemma sim_bind {E A B C D} (R : A -> B -> Prop) (Q : C -> D -> Prop) (p : prog E A) (q : prog E B) f g :
  sim R p q -> (forall a b, R a b -> sim Q (f a) (g b)) -> sim Q (bind p f) (bind q g).
Proof. induction 1; intros K; cbn [bind]; auto; constructor; auto. Qed.
Lemma sim_mono {E A B} (R Q : A -> B -> Prop) (p : prog E A) (q : prog E B) :
  sim R p q -> (forall a b, R a b -> Q a b) -> sim Q p q.
Proof. induction 1; intros K; constructor; auto. Qed.
Lemma sim_same {E A} (p : prog E A) : sim eq p p.
Proof. induction p; constructor; auto. Qed.

(** Loops: [I] relates the states, [Q] the results. *)
Definition either {S S' A B} (I : S -> S' -> Prop) (Q : A -> B -> Prop) (x : S + A) (y : S' + B) : Prop :=
  match x, y with inl s, inl s' => I s s' | inr a, inr b => Q a b | _, _ => False end.

Lemma sim_loop_nat {E S S' A B} (I : S -> S' -> Prop) (Q : A -> B -> Prop) (f : S -> prog E (S + A)) (g : S' -> prog E (S' + B)) n :
  (forall s s', I s s' -> sim (either I Q) (f s) (g s')) ->
  forall s s', I s s' -> sim (either I Q) (loop_nat n f s) (loop_nat n g s').
Proof.
  intros K. induction n as [|n IH]; intros s s' Hs; cbn [loop_nat]; [now constructor|].
  eapply sim_bind; [now apply K|]. intros [x|x] [y|y] Hxy; try contradiction; [now apply IH|now constructor].
Qed.
Lemma sim_loop_pos {E S S' A B} (I : S -> S' -> Prop) (Q : A -> B -> Prop) (f : S -> prog E (S + A)) (g : S' -> prog E (S' + B)) n :
  (forall s s', I s s' -> sim (either I Q) (f s) (g s')) ->
  forall s s', I s s' -> sim (either I Q) (loop_pos n f s) (loop_pos n g s').
Proof.
  intros K. induction n as [n IH|n IH|]; intros s s' Hs; cbn [loop_pos]; [| |now apply K].
  - eapply sim_bind; [now apply K|]. intros [x|x] [y|y] Hxy; try contradiction; [|now constructor].
    eapply sim_bind; [now apply IH|]. intros [x'|x'] [y'|y'] Hxy'; try contradiction; [now apply IH|now constructor].
  - eapply sim_bind; [now apply IH|]. intros [x'|x'] [y'|y'] Hxy'; try contradiction; [now apply IH|now constructor].
Qed.
Lemma sim_loop_Z {E S S' A B} (I : S -> S' -> Prop) (Q : A -> B -> Prop) (f : S -> prog E (S + A)) (g : S' -> prog E (S' + B)) n :
  (forall s s', I s s' -> sim (either I Q) (f s) (g s')) ->
  forall s s', I s s' -> sim (either I Q) (loop_Z n f s) (loop_Z n g s').
Proof. intros K s s' Hs. destruct n; cbn [loop_Z]; try (now constructor). now apply sim_loop_pos. Qed.

(** After at least one round, a stronger relation may hold. *)
Lemma sim_loop_pos2 {E S S' A B} (J I : S -> S' -> Prop) (Q : A -> B -> Prop) (f : S -> prog E (S + A)) (g : S' -> prog E (S' + B)) n :
  (forall s s', J s s' -> sim (either I Q) (f s) (g s')) -> (forall s s', I s s' -> sim (either I Q) (f s) (g s')) ->
  forall s s', J s s' -> sim (either I Q) (loop_pos n f s) (loop_pos n g s').
Proof.
  intros K0 K. induction n as [n IH|n IH|]; intros s s' Hs; cbn [loop_pos]; [| |now apply K0].
  - eapply sim_bind; [now apply K0|]. intros [x|x] [y|y] Hxy; try contradiction; [|now constructor].
    eapply sim_bind; [now apply (sim_loop_pos I Q)|]. intros [x'|x'] [y'|y'] Hxy'; try contradiction; [now apply sim_loop_pos|now constructor].
  - eapply sim_bind; [now apply IH|]. intros [x'|x'] [y'|y'] Hxy'; try contradiction; [now apply sim_loop_pos|now constructor].
Qed.

Lemma sim_rdu {X A B} (R : A -> B -> Prop) action wt t (e : wireR (X * option err)) fail fail' k k' :
  (forall x er, R (fail x er) (fail' x er)) -> (forall x, sim R (k x) (k' x)) ->
  sim R (rdu action wt t e fail k) (rdu action wt t e fail' k').
Proof. intros K1 K2. unfold rdu. cbn. constructor. intros [x [er|]]; [constructor; auto|apply K2]. Qed.
Lemma sim_rdu0 {A B} (R : A -> B -> Prop) action wt t (e : wireR (option err)) fail fail' k k' :
  (forall er, R (fail er) (fail' er)) -> sim R k k' ->
  sim R (rdu0 action wt t e fail k) (rdu0 action wt t e fail' k').
Proof. intros K1 K2. unfold rdu0. cbn. constructor. intros [er|]; [constructor; auto|apply K2]. Qed.

Lemma alloc_peek_n H cs n : length cs = n -> peek (fst (alloc H cs)) (next H) n = cs.
Proof. intros <-. apply alloc_peek. Qed.

Section Env.
Context (env : tenv) (Henv : env_ok env).
Notation size := (size env).
Notation sizes := (sizes env).
Notation zcells := (zcells env).
Notation holds := (holds env).
Notation all_hold := (all_hold env).
Notation entries_hold := (entries_hold env).
Definition one_cell (t : rtype) : Prop := forall s, under env t <> RtStruct s.
Lemma plain_one t : plain env t -> one_cell t.
Proof. unfold plain. intros P s E. now rewrite E in P. Qed.
Lemma bytes_one t : as_bytes env t = true -> one_cell t.
Proof. unfold as_bytes. intros P s E. now rewrite E in P. Qed.

(** ** Sizes *)
Lemma zcells_n_enough n : forall m t, (te_rank env t < n)%nat -> (te_rank env t < m)%nat ->
  zcells_n env n t = zcells_n env m t.
Proof using Henv.
  induction n as [|n IH]; intros m t Hn Hm; [lia|]. destruct m as [|m]; [lia|].
  cbn [zcells_n]. destruct (under env t) eqn:U; try reflexivity.
  f_equal. apply flat_map_ext'. intros f Hf.
  pose proof (ok_struct_rank _ Henv _ _ _ U Hf). apply IH; lia.
Qed.

Lemma zcells_eq t : zcells t =
  match under env t with
  | RtStruct s => CHead :: flat_map (fun f => zcells (sf_type f)) (te_struct env s)
  | RtSlice _ => [CSlice true 0 0 0]
  | RtMap _ _ => [CMap None]
  | RtPtr _ => [CPtr None]
  | _ => [CLeaf (zero env t)]
  end.
Proof using Henv.
  unfold Heap.zcells at 1. cbn [zcells_n]. destruct (under env t) eqn:U; try reflexivity.
  f_equal. apply flat_map_ext'. intros f Hf. apply zcells_n_enough; [|lia].
  exact (ok_struct_rank _ Henv _ _ _ U Hf).
Qed.

Lemma size_one t : one_cell t -> size t = 1%nat.
Proof using Henv.
  intros Ho. unfold Heap.size. rewrite zcells_eq. destruct (under env t) eqn:U; try reflexivity. now elim (Ho sid).
Qed.
Lemma size_struct t s : under env t = RtStruct s -> size t = S (sizes (map sf_type (te_struct env s))).
Proof using Henv.
  intros U. unfold Heap.size. rewrite zcells_eq, U. cbn [length]. f_equal.
  unfold Heap.sizes. induction (te_struct env s) as [|f l IH]; [reflexivity|].
  cbn [flat_map map list_sum fold_right]. rewrite app_length, IH. reflexivity.
Qed.
Lemma size_pos t : (0 < size t)%nat.
Proof using Henv. unfold Heap.size. rewrite zcells_eq. destruct (under env t); cbn [length]; lia. Qed.
Lemma sizes_repeat e n : sizes (repeat e n) = (n * size e)%nat.
Proof. induction n as [|n IH]; [reflexivity|]. change (size e + sizes (repeat e n) = S n * size e)%nat. rewrite IH. reflexivity. Qed.
Lemma sizes_app l m : sizes (l ++ m) = (sizes l + sizes m)%nat.
Proof. unfold Heap.sizes. rewrite map_app. apply list_sum_app. Qed.
Lemma sizes_cons t l : sizes (t :: l) = (size t + sizes l)%nat.
Proof. reflexivity. Qed.

Lemma holds_len_all exact H :
  (forall t cs v G, holds exact H t cs v G -> length cs = size t) /\
  (forall ts cs vs G, all_hold exact H ts cs vs G -> length cs = sizes ts /\ length vs = length ts) /\
  (forall k e ads es G, entries_hold exact H k e ads es G -> length ads = length es).
Proof using Henv.
  apply (holds_mutind env exact H
    (fun t cs v G => length cs = size t)
    (fun ts cs vs G => length cs = sizes ts /\ length vs = length ts)
    (fun k e ads es G => length ads = length es)); intros; cbn [length]; auto;
    try (symmetry; apply size_one; auto using plain_one, bytes_one; intros ? ?; congruence).
  - rewrite (size_struct t s) by auto. now destruct H2 as [-> _].
  - rewrite app_length, sizes_cons. lia.
Qed.
Lemma holds_len exact H t cs v G : holds exact H t cs v G -> length cs = size t.
Proof using Henv. apply holds_len_all. Qed.
Lemma all_hold_len exact H ts cs vs G : all_hold exact H ts cs vs G -> length cs = sizes ts /\ length vs = length ts.
Proof using Henv. apply holds_len_all. Qed.

(** ** What a variable holds depends only on its own cells and what they refer to *)
Lemma holds_frame_all exact H H' :
  (forall t cs v G, holds exact H t cs v G -> (forall x, In x G -> mem H' x = mem H x) -> holds exact H' t cs v G) /\
  (forall ts cs vs G, all_hold exact H ts cs vs G -> (forall x, In x G -> mem H' x = mem H x) -> all_hold exact H' ts cs vs G) /\
  (forall k e ads es G, entries_hold exact H k e ads es G -> (forall x, In x G -> mem H' x = mem H x) -> entries_hold exact H' k e ads es G).
Proof.
  apply (holds_mutind env exact H
    (fun t cs v G => (forall x, In x G -> mem H' x = mem H x) -> holds exact H' t cs v G)
    (fun ts cs vs G => (forall x, In x G -> mem H' x = mem H x) -> all_hold exact H' ts cs vs G)
    (fun k e ads es G => (forall x, In x G -> mem H' x = mem H x) -> entries_hold exact H' k e ads es G)).
  - intros. econstructor; eauto.
  - intros t nl base s sp cap O L E F. constructor; auto. intros X. rewrite <- (E X). apply peek_ext.
    intros x Hx. apply F. rewrite in_seq in *. lia.
  - intros t e nl base es sp G U B N _ IH F.
    replace (peek H base (length es * size e)) with (peek H' base (length es * size e)) in *.
    + econstructor; eauto; apply IH; intros x Hx; apply F; apply in_or_app; auto.
    + apply peek_ext. intros x Hx. apply F. apply in_or_app. left. rewrite in_seq in *. nia.
  - intros. econstructor; eauto.
  - intros t k e m ads es G U M _ IH F. econstructor; eauto.
    + rewrite F; [exact M|now left].
    + apply IH. intros x Hx. apply F. now right.
  - intros. econstructor; eauto.
  - intros t e b v G U _ IH F. econstructor; eauto.
    replace (peek H' b (size e)) with (peek H b (size e)).
    + apply IH. intros x Hx. apply F. apply in_or_app. auto.
    + symmetry. apply peek_ext. intros x Hx. apply F. apply in_or_app. auto.
  - intros t s cs vs G U _ IH F. econstructor; eauto.
  - intros. constructor.
  - intros t ts c cs v vs G Gs _ IH1 _ IH2 F. constructor; [apply IH1|apply IH2]; intros x Hx; apply F, in_or_app; auto.
  - intros. constructor.
  - intros k e a b ads x y es Gx Gy G _ IH1 _ IH2 _ IH3 F. constructor.
    + replace (peek H' a (size k)) with (peek H a (size k)).
      * apply IH1. intros z Hz. apply F. rewrite !in_app_iff. auto.
      * symmetry. apply peek_ext. intros z Hz. apply F. rewrite !in_app_iff. auto.
    + replace (peek H' b (size e)) with (peek H b (size e)).
      * apply IH2. intros z Hz. apply F. rewrite !in_app_iff. auto.
      * symmetry. apply peek_ext. intros z Hz. apply F. rewrite !in_app_iff. auto.
    + apply IH3. intros z Hz. apply F. rewrite !in_app_iff. auto.
Qed.
Lemma holds_frame exact H H' t cs v G : holds exact H t cs v G -> (forall x, In x G -> mem H' x = mem H x) -> holds exact H' t cs v G.
Proof. apply holds_frame_all. Qed.
Lemma all_hold_frame exact H H' ts cs vs G : all_hold exact H ts cs vs G -> (forall x, In x G -> mem H' x = mem H x) -> all_hold exact H' ts cs vs G.
Proof. apply holds_frame_all. Qed.
Lemma entries_frame exact H H' k e ads es G : entries_hold exact H k e ads es G -> (forall x, In x G -> mem H' x = mem H x) -> entries_hold exact H' k e ads es G.
Proof. apply holds_frame_all. Qed.

Lemma holds_loose_all b H :
  (forall t cs v G, holds true H t cs v G -> holds b H t cs v G) /\
  (forall ts cs vs G, all_hold true H ts cs vs G -> all_hold b H ts cs vs G) /\
  (forall k e ads es G, entries_hold true H k e ads es G -> entries_hold b H k e ads es G).
Proof.
  apply (holds_mutind env true H
    (fun t cs v G => holds b H t cs v G)
    (fun ts cs vs G => all_hold b H ts cs vs G)
    (fun k e ads es G => entries_hold b H k e ads es G)); intros; try (econstructor; eauto; fail).
Qed.
Lemma holds_loose b H t cs v G : holds true H t cs v G -> holds b H t cs v G.
Proof. apply holds_loose_all. Qed.
Lemma all_hold_loose b H ts cs vs G : all_hold true H ts cs vs G -> all_hold b H ts cs vs G.
Proof. apply holds_loose_all. Qed.
Lemma entries_loose b H k e ads es G : entries_hold true H k e ads es G -> entries_hold b H k e ads es G.
Proof. apply holds_loose_all. Qed.

(** ** Zero values *)
Lemma holds_zero_n n H : forall t, (te_rank env t < n)%nat -> holds true H t (zcells t) (zero env t) [].
Proof using Henv.
  induction n as [|n IH]; intros t Hn; [lia|]. rewrite zcells_eq. rewrite (zero_eq env Henv t).
  destruct (under env t) eqn:U;
    try (apply h_leaf; [unfold plain; now rewrite U|exact I]; fail);
    try (econstructor; eassumption).
  - destruct (as_bytes env t) eqn:B.
    + apply (h_bytes env true H t true 0 [] [] 0); auto.
    + apply (h_slice env true H t r true 0 [] [] []); auto. constructor.
  - apply h_leaf; [unfold plain; now rewrite U|].
    destruct n0 as [|p|p]; try exact I. do 5 (destruct p as [p|p|]; try exact I). destruct r; exact I.
  - econstructor; eauto. assert (R : forall f, In f (te_struct env sid) -> (te_rank env (sf_type f) < n)%nat).
    { intros f Hf. pose proof (ok_struct_rank _ Henv _ _ _ U Hf). lia. }
    induction (te_struct env sid) as [|f l IHl]; [constructor|].
    cbn [map flat_map]. change (@nil nat) with (@nil nat ++ []). constructor.
    + apply IH. apply R. now left.
    + apply IHl. intros g Hg. apply R. now right.
Qed.
Lemma holds_zero b H t : holds b H t (zcells t) (zero env t) [].
Proof using Henv. apply holds_loose. apply (holds_zero_n (S (te_rank env t))). lia. Qed.

(** ** Keys *)
Lemma cells_eq_app c c' cs cs' : length c = length c' -> cells_eq (c ++ cs) (c' ++ cs') = cells_eq c c' && cells_eq cs cs'.
Proof.
  revert c'; induction c as [|x c IH]; intros [|y c'] L; try discriminate; [reflexivity|].
  cbn [app cells_eq]. rewrite IH by (cbn in L; lia). apply andb_assoc.
Qed.

Lemma keys_match_all b H :
  (forall t cs v G, holds b H t cs v G -> forall b' H' cs' v' G', holds b' H' t cs' v' G' -> disj G G' ->
     cells_eq cs cs' = key_eq v v') /\
  (forall ts cs vs G, all_hold b H ts cs vs G -> forall b' H' cs' vs' G', all_hold b' H' ts cs' vs' G' -> disj G G' ->
     cells_eq cs cs' = key_eq (GStruct vs) (GStruct vs')) /\
  (forall k e ads es G, entries_hold b H k e ads es G -> True).
Proof using Henv.
  apply (holds_mutind env b H
    (fun t cs v G => forall b' H' cs' v' G', holds b' H' t cs' v' G' -> disj G G' -> cells_eq cs cs' = key_eq v v')
    (fun ts cs vs G => forall b' H' cs' vs' G', all_hold b' H' ts cs' vs' G' -> disj G G' ->
       cells_eq cs cs' = key_eq (GStruct vs) (GStruct vs'))
    (fun k e ads es G => True)); auto.
  - intros t v O L b' H' cs' v' G' A _. inversion A; subst; cbn [cells_eq cell_eq];
      try (destruct v; try contradiction; reflexivity).
    apply andb_true_r.
  - intros t nl base s sp cap O L E b' H' cs' v' G' A _. inversion A; subst; reflexivity.
  - intros t e nl base es sp G U B N _ _ b' H' cs' v' G' A _. inversion A; subst; reflexivity.
  - intros t k e O b' H' cs' v' G' A _. inversion A; subst; reflexivity.
  - intros t k e m ads es G U M _ _ b' H' cs' v' G' A _. inversion A; subst; reflexivity.
  - intros t e O b' H' cs' v' G' A _. inversion A; subst; try reflexivity; destruct v'; try contradiction; reflexivity.
  - intros t e a v G U _ _ b' H' cs' v' G' A D. inversion A; subst; try reflexivity; try (destruct v'; try contradiction; reflexivity).
    cbn [cells_eq cell_eq key_eq]. replace (Nat.eqb a b0) with false; [reflexivity|]. symmetry. apply Nat.eqb_neq. intros ->.
    apply (D b0); apply in_or_app; left; apply in_seq; pose proof (size_pos e); pose proof (size_pos e0); lia.
  - intros t s cs vs G U _ IH b' H' cs' v' G' A D. inversion A; subst;
      try match goal with O : plain _ _ |- _ => now elim (plain_one _ O s) | O : as_bytes _ _ = true |- _ => now elim (bytes_one _ O s) end; try congruence.
    assert (s0 = s) as -> by congruence. cbn [cells_eq cell_eq andb]. eapply IH; eauto.
  - intros b' H' cs' vs' G' A _. inversion A; subst. reflexivity.
  - intros t ts c cs v vs G Gs Hv IH1 _ IH2 b' H' cs' vs' G' A D. inversion A; subst.
    match goal with X : HeapSpec.holds _ _ _ t ?c' _ _ |- _ => rename X into Hc end.
    rewrite cells_eq_app by (rewrite (holds_len _ _ _ _ _ _ Hv), (holds_len _ _ _ _ _ _ Hc); reflexivity).
    erewrite IH1, IH2; eauto; [reflexivity| |]; intros x Hx Hx'; apply (D x); apply in_or_app; auto.
Qed.
Lemma keys_match b H t cs v G b' H' cs' v' G' : holds b H t cs v G -> holds b' H' t cs' v' G' -> disj G G' ->
  cells_eq cs cs' = key_eq v v'.
Proof using Henv. intros A. eapply keys_match_all; eauto. Qed.

(** ** Fields and elements *)
Lemma all_hold_nth H ts cs vs G i t : all_hold true H ts cs vs G -> nth_error ts i = Some t ->
  exists v c1 c c2 G1 G' G2, nth_error vs i = Some v /\ cs = c1 ++ c ++ c2 /\ length c1 = sizes (firstn i ts) /\
    G = G1 ++ G' ++ G2 /\ holds true H t c v G' /\
    forall b H' c' v' G'', holds b H' t c' v' G'' -> (forall x, In x G1 \/ In x G2 -> mem H' x = mem H x) ->
      all_hold b H' ts (c1 ++ c' ++ c2) (set_nth i v' vs) (G1 ++ G'' ++ G2).
Proof using Henv.
  intros A; revert i. induction A as [|t0 ts c cs v vs G Gs Hv Hs IH]; intros [|i] N; try discriminate.
  - injection N as ->. exists v, [], c, cs, [], G, Gs. conj; auto.
    intros b H' c' v' G'' Hc F. cbn [app set_nth]. constructor; [exact Hc|].
    apply all_hold_loose. eapply all_hold_frame; eauto.
  - cbn in N. destruct (IH i N) as (v1 & c1 & c' & c2 & G1 & G' & G2 & N1 & -> & L & -> & Hv1 & K).
    exists v1, (c ++ c1), c', c2, (G ++ G1), G', G2. conj; auto.
    + now rewrite <- !app_assoc.
    + cbn [firstn]. rewrite app_length, sizes_cons, L, (holds_len _ _ _ _ _ _ Hv). reflexivity.
    + now rewrite <- !app_assoc.
    + intros b H' c0 v' G'' Hc F. rewrite <- !app_assoc. cbn [set_nth]. constructor.
      * apply holds_loose. eapply holds_frame; eauto. intros x Hx. apply F. rewrite in_app_iff. auto.
      * apply K; auto. intros x Hx. apply F. rewrite in_app_iff. tauto.
Qed.

Lemma all_hold_app b H ts cs vs G ts' cs' vs' G' : all_hold b H ts cs vs G -> all_hold b H ts' cs' vs' G' ->
  all_hold b H (ts ++ ts') (cs ++ cs') (vs ++ vs') (G ++ G').
Proof.
  induction 1 as [|t0 ts c cs v vs G Gs Hv Hs IH]; intros A; [exact A|].
  cbn [app]. rewrite <- !app_assoc. constructor; auto.
Qed.
Lemma all_hold_one b H t c v G : holds b H t c v G -> all_hold b H [t] c [v] G.
Proof. intros A. rewrite <- (app_nil_r c), <- (app_nil_r G). constructor; [exact A|constructor]. Qed.
Lemma all_hold_snoc b H ts cs vs G t c v G' : all_hold b H ts cs vs G -> holds b H t c v G' ->
  all_hold b H (ts ++ [t]) (cs ++ c) (vs ++ [v]) (G ++ G').
Proof. intros A B. apply all_hold_app; auto using all_hold_one. Qed.

(** ** Unmarshal *)
Definition own (b : bool) (H : heap) (t : rtype) (a : nat) (v : gval) (G : list nat) : Prop :=
  holds b H t (peek H a (size t)) v G /\ NoDup (seq a (size t) ++ G) /\
  (forall x, In x (seq a (size t) ++ G) -> (x < next H)%nat).

Definition post (H0 : heap) (F0 : list nat) (t : rtype) (va : nat) (r : gval * option err) (q : heap * option err) : Prop :=
  snd q = snd r /\ exists G, own (is_none (snd r)) (fst q) t va (fst r) G /\
    confined H0 (fst q) F0 (seq va (size t) ++ G).

Lemma confined_refl H F : confined H H F F.
Proof. unfold confined. auto. Qed.
Lemma confined_trans H H1 H2 F F1 F2 : confined H H1 F F1 -> confined H1 H2 F1 F2 -> confined H H2 F F2.
Proof.
  intros (N1 & M1 & S1) (N2 & M2 & S2). unfold confined; conj; [lia| |].
  - intros x Hx Hn. rewrite M2; [now apply M1|lia|]. intros Hi. apply S1 in Hi as [Hi|Hi]; [tauto|lia].
  - intros x Hi. apply S2 in Hi as [Hi|Hi]; [|right; lia]. auto.
Qed.
Lemma confined_sub H H' F F' F'' : confined H H' F F' -> (forall x, In x F'' -> In x F') -> confined H H' F F''.
Proof. intros (N1 & M1 & S1) K. unfold confined; conj; auto. Qed.

Lemma own_loose b H t a v G : own true H t a v G -> own b H t a v G.
Proof. intros (A & B). split; [now apply holds_loose|exact B]. Qed.
Lemma post_same H0 F0 H t va v G e : own true H t va v G -> confined H0 H F0 (seq va (size t) ++ G) ->
  post H0 F0 t va (v, e) (H, e).
Proof. intros A B. split; [reflexivity|]. exists G. split; [now apply own_loose|exact B]. Qed.

Lemma post_trans H0 F0 H t va G r q : confined H0 H F0 (seq va (size t) ++ G) ->
  post H (seq va (size t) ++ G) t va r q -> post H0 F0 t va r q.
Proof. intros A (B & G' & C & D). split; [exact B|]. exists G'. split; [exact C|]. eapply confined_trans; eauto. Qed.

(** Storing one cell. *)
Lemma own_set H t va v G b w : plain env t -> own b H t va v G -> leaf w ->
  own true (poke H va [CLeaf w]) t va w [] /\
  confined H (poke H va [CLeaf w]) (seq va (size t) ++ G) (seq va (size t) ++ []).
Proof using Henv.
  intros O (A & N & Bd) L. unfold own. rewrite (size_one t (plain_one t O)) in *. split.
  - rewrite peek_1, poke_1. conj.
    + now constructor.
    + cbn. constructor; [intros []|constructor].
    + intros x Hx. apply Bd. rewrite in_app_iff in *. cbn in *. tauto.
  - unfold confined; conj; [reflexivity| |].
    + intros x Hx Hn. apply poke_other. intros Hi. apply Hn. rewrite in_app_iff. auto.
    + intros x Hx. left. rewrite in_app_iff in *. cbn in *. tauto.
Qed.


(** *** Structs *)
Ltac nd := repeat match goal with
  | A : NoDup (_ ++ _) |- _ => apply NoDup_app_iff in A; destruct A as (? & ? & ?)
  | A : NoDup (_ :: _) |- _ => apply NoDup_cons_iff in A; destruct A as (? & ?)
  | |- NoDup (_ ++ _) => apply NoDup_app_iff; split; [|split]
  | |- NoDup (_ :: _) => apply NoDup_cons_iff; split
  end.
(** Decides membership at one address, from facts about all addresses. *)
Ltac at_addr x :=
  repeat match goal with
  | A : forall y : nat, In y _ -> _ |- _ => specialize (A x)
  | A : forall y : nat, (y < _)%nat -> _ |- _ => specialize (A x)
  end;
  do 3 (rewrite ?in_app_iff in *; cbn [In] in * ).
Ltac addrs := let x := fresh "x" in intros x; intros; at_addr x; first [tauto | intuition lia].

Lemma app_inv_len {A} (l l' m m' : list A) : length l = length l' -> l ++ m = l' ++ m' -> l = l' /\ m = m'.
Proof.
  revert l'. induction l as [|x l IH]; intros [|y l'] L E; try discriminate; [auto|].
  cbn in *. injection E as -> E. destruct (IH l') as [-> ->]; auto.
Qed.

Lemma peek_split H a n c1 c c2 : peek H a n = c1 ++ c ++ c2 ->
  c1 = peek H a (length c1) /\ c = peek H (a + length c1) (length c) /\
  c2 = peek H (a + length c1 + length c) (length c2) /\ n = (length c1 + (length c + length c2))%nat.
Proof.
  intros E. assert (L : n = (length c1 + (length c + length c2))%nat).
  { rewrite <- (peek_len H a n), E, !app_length. reflexivity. }
  rewrite L in E. rewrite peek_app in E. apply app_inv_len in E as [E1 E2]; [|apply peek_len]. symmetry in E1.
  rewrite peek_app in E2. apply app_inv_len in E2 as [E2 E3]; [|apply peek_len]. auto.
Qed.

Lemma field_focus H t s va vs G i ft : under env t = RtStruct s -> own true H t va (GStruct vs) G ->
  nth_error (field_types env t) i = Some ft ->
  let fa := field_addr env t i va in
  exists v Gi, nth_error vs i = Some v /\ own true H ft fa v Gi /\
    (forall x, In x (seq fa (size ft) ++ Gi) -> In x (seq va (size t) ++ G)) /\
    forall b H' v' Gi', own b H' ft fa v' Gi' -> confined H H' (seq fa (size ft) ++ Gi) (seq fa (size ft) ++ Gi') ->
      exists G'', own b H' t va (GStruct (set_nth i v' vs)) G'' /\
        confined H H' (seq va (size t) ++ G) (seq va (size t) ++ G'').
Proof using Henv.
  intros U (A & N & Bd) Ni fa. unfold field_types in *. rewrite U in *.
  inversion A as [| | | | | | |t0 s0 cs vs0 G0 U0 Hs E1 E2 E3 E4]; subst; [contradiction|]. assert (s0 = s) as -> by congruence. clear U0.
  rewrite (size_struct t s U) in *. rewrite peek_S in E2. injection E2 as Eh Ec. subst cs.
  destruct (all_hold_nth _ _ _ _ _ _ _ Hs Ni) as (v & c1 & c & c2 & G1 & Gi & G2 & Nv & Ecs & L1 & -> & Hv & K).
  pose proof (holds_len _ _ _ _ _ _ Hv) as Lc.
  destruct (peek_split _ _ _ _ _ _ Ecs) as (P1 & P2 & P3 & Ls).
  assert (Efa : fa = (S va + length c1)%nat).
  { unfold fa, field_addr, field_types. rewrite U, L1. lia. }
  rewrite Lc, <- Efa in P2. rewrite <- Efa, Lc in P3. rewrite Lc in Ls.
  assert (Sub : forall x, In x (seq fa (size ft)) -> In x (seq va (S (sizes (map sf_type (te_struct env s)))))).
  { intros x. rewrite !in_seq. lia. }
  exists v, Gi. split; [exact Nv|]. split; [|split].
  - unfold own. rewrite <- P2. conj; [exact Hv| |].
    + nd; auto using seq_NoDup. addrs.
    + addrs.
  - addrs.
  - intros b H' v' Gi' (A' & N' & Bd') (C1 & C2 & C3).
    assert (Q : forall x, In x (seq va (S (sizes (map sf_type (te_struct env s)))) ++ G1 ++ G2) -> ~ In x (seq fa (size ft)) -> mem H' x = mem H x).
    { intros x Hx Hn. apply C2.
      - apply Bd. rewrite !in_app_iff in *. tauto.
      - rewrite in_app_iff. intros [Hi|Hi]; [tauto|]. nd. at_addr x. tauto. }
    assert (Q1 : peek H' (S va) (length c1) = c1).
    { rewrite P1 at 2. apply peek_ext. intros x Hx. apply Q; rewrite ?in_app_iff, ?in_seq in *; lia. }
    assert (Q3 : peek H' (fa + size ft) (length c2) = c2).
    { rewrite P3 at 2. apply peek_ext. intros x Hx. apply Q; rewrite ?in_app_iff, ?in_seq in *; lia. }
    assert (Qh : mem H' va = CHead).
    { rewrite Eh. apply Q; rewrite ?in_app_iff, ?in_seq in *; lia. }
    assert (Gs : forall x, In x Gi' -> In x Gi \/ (next H <= x)%nat).
    { intros x Hx. nd. at_addr x. tauto. }
    exists (G1 ++ Gi' ++ G2). split.
    + unfold own. conj.
      * rewrite (size_struct t s U). rewrite peek_S, Qh. econstructor; [exact U|].
        replace (peek H' (S va) (sizes (map sf_type (te_struct env s)))) with (c1 ++ peek H' fa (size ft) ++ c2).
        -- apply K; [exact A'|]. intros x Hx. apply Q; [rewrite !in_app_iff; tauto|]. intros Hf. nd. at_addr x. intuition lia.
        -- rewrite Ls, peek_app, peek_app, <- Efa, Q1, Q3. reflexivity.
      * rewrite (size_struct t s U). clear -N N' Gs Bd Sub. nd; auto using seq_NoDup; addrs.
      * rewrite (size_struct t s U). clear -N' Bd Bd' C1. intros x Hx. at_addr x. intuition lia.
    + unfold confined. conj; [exact C1| |].
      * intros x Hx Hn. apply C2; auto. clear -Hn Sub. intros Hi. apply Hn. at_addr x. tauto.
      * clear -Gs. addrs.
Qed.

(** *** Slices *)
(** The slice at [va], with len = cap, while its elements are unmarshalled: the
    first [i] hold the first [i] values of [arr]; the others are zero unless
    they still have to be zeroed ([mz]). *)
Definition filling (b : bool) (H : heap) (e : rtype) (va i : nat) (arr : list gval) (mz : bool) (base : nat) (G : list nat) : Prop :=
  (exists nl, mem H va = CSlice nl base (length arr) (length arr) /\ (nl = true -> arr = [])) /\ (i <= length arr)%nat /\
  all_hold b H (repeat e i) (peek H base (i * size e)) (firstn i arr) G /\
  (mz = false -> forall j, (i <= j < length arr)%nat ->
     nth_error arr j = Some (zero env e) /\ peek H (base + j * size e) (size e) = zcells e) /\
  NoDup (va :: seq base (length arr * size e) ++ G) /\
  (forall x, In x (va :: seq base (length arr * size e) ++ G) -> (x < next H)%nat).

Lemma peek_sub H a n cs i m : peek H a n = cs -> (i + m <= n)%nat -> peek H (a + i) m = firstn m (skipn i cs).
Proof.
  intros <- L. replace n with (i + (m + (n - i - m)))%nat by lia. rewrite peek_app, skipn_app, peek_len, Nat.sub_diag.
  rewrite skipn_all2 by (rewrite peek_len; lia). cbn [skipn app].
  rewrite peek_app, firstn_app, peek_len, Nat.sub_diag, firstn_all2 by (rewrite peek_len; lia). now rewrite app_nil_r.
Qed.

Lemma concat_repeat_sub {A} (z : list A) n j : (j < n)%nat ->
  firstn (length z) (skipn (j * length z) (concat (repeat z n))) = z.
Proof.
  revert j; induction n as [|n IH]; intros j L; [lia|]. cbn [repeat concat]. destruct j as [|j].
  - cbn [Nat.mul skipn]. rewrite firstn_app, Nat.sub_diag, firstn_all. cbn. apply app_nil_r.
  - cbn [Nat.mul]. rewrite skipn_app. rewrite skipn_all2 by lia.
    replace (length z + j * length z - length z)%nat with (j * length z)%nat by lia. cbn [app]. apply IH. lia.
Qed.

Lemma nth_error_repeat' {A} (x : A) n i : (i < n)%nat -> nth_error (repeat x n) i = Some x.
Proof. intros L. rewrite (nth_error_nth' _ x) by (now rewrite repeat_length). f_equal. apply nth_repeat. Qed.

Lemma grow_ok H e va arr mz base G : filling true H e va (length arr) arr mz base G ->
  let g := S (te_grow env (length arr)) in
  filling true (grow env H e va) e va (length arr) (arr ++ repeat (zero env e) g) false (next H) G /\
  confined H (grow env H e va) (va :: seq base (length arr * size e) ++ G)
    (va :: seq (next H) (length (arr ++ repeat (zero env e) g) * size e) ++ G).
Proof using Henv.
  intros ((nl & M & Nl) & _ & A & _ & N & Bd) g. unfold grow. rewrite M, Nat.ltb_irrefl, alloc_eq. fold g.
  set (cs := peek H base (length arr * size e) ++ concat (repeat (zcells e) g)).
  assert (Lg : length (arr ++ repeat (zero env e) g) = (length arr + g)%nat) by (rewrite app_length, repeat_length; reflexivity).
  assert (Lr : length (concat (repeat (zcells e) g)) = (g * size e)%nat).
  { clear. induction g as [|g IH]; [reflexivity|]. cbn [repeat concat]. rewrite app_length, IH. reflexivity. }
  assert (Lc : length cs = ((length arr + g) * size e)%nat).
  { unfold cs. rewrite app_length, peek_len, Lr. lia. }
  set (H1 := fst (alloc H cs)). assert (Vn : (va < next H)%nat) by (apply Bd; now left).
  assert (P : forall x, x <> va -> mem (poke H1 va [CSlice false (next H) (length arr + g) (length arr + g)]) x = mem H1 x).
  { intros x Hx. apply poke_other. cbn. intuition. }
  set (H2 := poke H1 va _) in *.
  assert (E2 : peek H2 (next H) ((length arr + g) * size e) = cs).
  { transitivity (peek H1 (next H) ((length arr + g) * size e)).
    - apply peek_ext. intros x Hx. apply P. rewrite in_seq in Hx. lia.
    - rewrite <- Lc. apply alloc_peek. }
  assert (O : forall x, (x < next H)%nat -> x <> va -> mem H2 x = mem H x).
  { intros x Hx Hn. rewrite P by auto. now apply alloc_old. }
  assert (Nx : next H2 = (next H + (length arr + g) * size e)%nat).
  { unfold H2. rewrite poke_next. unfold H1. rewrite alloc_next, Lc. reflexivity. }
  split.
  - unfold filling. rewrite Lg. conj.
    + exists false. split; [|discriminate]. apply poke_1.
    + lia.
    + rewrite firstn_app, Nat.sub_diag, firstn_all. cbn [firstn]. rewrite app_nil_r. rewrite firstn_all in A.
      replace (peek H2 (next H) (length arr * size e)) with (peek H base (length arr * size e)).
      * eapply all_hold_frame; [exact A|]. intros x Hx. apply O; [apply Bd; right; rewrite in_app_iff; auto|].
        intros ->. nd. rewrite in_app_iff in *. tauto.
      * rewrite <- (Nat.add_0_r (next H)) at 1. rewrite (peek_sub _ _ _ _ _ _ E2) by lia. cbn [skipn]. unfold cs.
        rewrite <- (peek_len H base (length arr * size e)) at 2. rewrite firstn_app, Nat.sub_diag, firstn_all. cbn. now rewrite app_nil_r.
    + intros _ j Hj. split.
      * rewrite nth_error_app2 by lia. apply nth_error_repeat'. lia.
      * rewrite (peek_sub _ _ _ _ _ _ E2) by nia. unfold cs.
        replace (j * size e)%nat with (length (peek H base (length arr * size e)) + (j - length arr) * size e)%nat by (rewrite peek_len; nia).
        rewrite skipn_app. rewrite (skipn_all2 (peek H base (length arr * size e))) by apply Nat.le_add_r.
        replace (length (peek H base (length arr * size e)) + (j - length arr) * size e - length (peek H base (length arr * size e)))%nat
          with ((j - length arr) * size e)%nat by (symmetry; rewrite Nat.add_comm; apply Nat.add_sub).
        cbn [app]. apply (concat_repeat_sub (zcells e)). lia.
    + nd; auto using seq_NoDup.
      * rewrite in_app_iff, in_seq. intros [X|X]; [lia|]. rewrite in_app_iff in *. tauto.
      * intros x Hx HG. rewrite in_seq in Hx. assert (x < next H)%nat by (apply Bd; right; rewrite in_app_iff; auto). lia.
    + intros x Hx. rewrite Nx. cbn [In] in Hx. rewrite in_app_iff, in_seq in Hx. destruct Hx as [<-|[Hx|Hx]]; [lia|lia|].
      assert (x < next H)%nat by (apply Bd; right; rewrite in_app_iff; auto). lia.
  - unfold confined. rewrite Lg. conj.
    + lia.
    + intros x Hx Hn. apply O; auto. intros ->. apply Hn. now left.
    + intros x Hx. cbn [In] in *. rewrite in_app_iff, in_seq in *. destruct Hx as [<-|[Hx|Hx]]; auto. right. lia.
Qed.

Lemma firstn_snoc {A} (l : list A) i x : (i < length l)%nat -> firstn (S i) (set_nth i x l) = firstn i l ++ [x].
Proof.
  revert i; induction l as [|y l IH]; intros [|i] L; cbn in L; try lia; cbn [set_nth firstn app]; [reflexivity|].
  f_equal. apply IH. lia.
Qed.
Lemma set_nth_len {A} (l : list A) i x : length (set_nth i x l) = length l.
Proof. revert i; induction l as [|y l IH]; intros [|i]; cbn; auto. Qed.
Lemma set_nth_other {A} (l : list A) i j x : i <> j -> nth_error (set_nth i x l) j = nth_error l j.
Proof. revert i j; induction l as [|y l IH]; intros [|i] [|j] N; cbn; auto; try congruence. Qed.

Lemma repeat_snoc {A} (x : A) n : repeat x (S n) = repeat x n ++ [x].
Proof. replace (S n) with (n + 1)%nat by lia. apply repeat_app. Qed.

Lemma elem_focus H e va i arr mz base G : filling true H e va i arr mz base G -> (i < length arr)%nat ->
  let a := (base + i * size e)%nat in
  let H1 := if mz then poke H a (zcells e) else H in
  let F := va :: seq base (length arr * size e) ++ G in
  own true H1 e a (if mz then zero env e else nth i arr (GOther 0)) [] /\
  forall b H2 v' G', own b H2 e a v' G' -> confined H1 H2 (seq a (size e) ++ []) (seq a (size e) ++ G') ->
    filling b H2 e va (S i) (set_nth i v' arr) mz base (G ++ G') /\ confined H H2 F (F ++ G').
Proof using Henv.
  intros ((nl & M & Nl) & _ & A & Z & N & Bd) Li a H1 F.
  assert (Sub : forall x, In x (seq a (size e)) -> In x (seq base (length arr * size e))).
  { intros x. rewrite !in_seq. unfold a. nia. }
  assert (P : forall x, ~ In x (seq a (size e)) -> mem H1 x = mem H x).
  { intros x Hx. unfold H1. destruct mz; [|reflexivity]. now apply poke_other. }
  assert (N1 : next H1 = next H) by (unfold H1; destruct mz; reflexivity).
  split.
  - unfold own. rewrite app_nil_r. conj.
    + destruct mz.
      * unfold H1. pose proof (peek_poke H a (zcells e)) as E. fold (size e) in E. rewrite E. apply holds_zero.
      * destruct (Z eq_refl i ltac:(lia)) as [Z1 Z2]. unfold H1. fold a in Z2. rewrite Z2.
        rewrite (nth_error_nth _ _ _ Z1). apply holds_zero.
    + apply seq_NoDup.
    + intros x Hx. rewrite N1. apply Bd. right. rewrite in_app_iff. auto.
  - intros b H2 v' G' (A' & N' & Bd') (C1 & C2 & C3). rewrite app_nil_r in *.
    assert (Q : forall x, In x F -> ~ In x (seq a (size e)) -> mem H2 x = mem H x).
    { intros x Hx Hn. rewrite C2; auto. rewrite N1. auto. }
    assert (Gs : forall x, In x G' -> (next H <= x)%nat).
    { intros x Hx. rewrite N1 in *. nd. at_addr x. tauto. }
    split.
    + unfold filling. rewrite set_nth_len. conj.
      * exists nl. split.
        -- rewrite <- M. apply Q; [now left|]. intros X. apply Sub in X. nd. rewrite in_app_iff in *. tauto.
        -- intros E. apply Nl in E. subst arr. cbn in Li. lia.
      * lia.
      * rewrite firstn_snoc by exact Li. rewrite repeat_snoc. replace (S i * size e)%nat with (i * size e + size e)%nat by lia.
        rewrite peek_app. apply all_hold_snoc; [|exact A'].
        replace (peek H2 base (i * size e)) with (peek H base (i * size e)).
        -- apply all_hold_loose. eapply all_hold_frame; [exact A|]. intros x Hx. apply Q.
           ++ right. rewrite in_app_iff. auto.
           ++ intros X. apply Sub in X. nd. at_addr x. tauto.
        -- symmetry. apply peek_ext. intros x Hx. apply Q.
           ++ right. rewrite in_app_iff. left. rewrite in_seq in *. nia.
           ++ rewrite in_seq in *. unfold a. lia.
      * intros E j Hj. subst mz. destruct (Z eq_refl j ltac:(lia)) as [Z1 Z2].
        rewrite set_nth_other by lia. split; [exact Z1|]. rewrite <- Z2. apply peek_ext. intros x Hx. apply Q.
        -- right. rewrite in_app_iff. left. rewrite in_seq in *. nia.
        -- rewrite in_seq in *. unfold a. nia.
      * clear -N N' Gs Bd Sub. nd; auto using seq_NoDup.
        -- rewrite in_app_iff in *. rewrite in_app_iff. intros [X|[X|X]]; [tauto|tauto|]. apply Gs in X. specialize (Bd va (or_introl eq_refl)). lia.
        -- addrs.
        -- intros x Hx Hy. at_addr x. intuition lia.
      * intros x Hx. rewrite N1 in C1. at_addr x. intuition lia.
    + unfold confined. rewrite N1 in *. conj; [exact C1| |].
      * intros x Hx Hn. rewrite C2; auto.
        -- apply P. intros X. apply Hn. right. rewrite in_app_iff. auto.
        -- intros X. apply Hn. right. rewrite in_app_iff. auto.
      * intros x Hx. rewrite in_app_iff in Hx. destruct Hx as [Hx|Hx]; auto.
Qed.

Lemma fill_end b H t e va i arr mz base G : under env t = RtSlice e -> as_bytes env t = false -> filling b H e va i arr mz base G -> (0 < i)%nat ->
  own b (set_len H va i) t va (GSlice false (firstn i arr) (skipn i arr)) (seq base (length arr * size e) ++ G) /\
  confined H (set_len H va i) (va :: seq base (length arr * size e) ++ G) (va :: seq base (length arr * size e) ++ G).
Proof using Henv.
  intros U B ((nl & M & Nl) & Li & A & _ & N & Bd) Hi. unfold set_len. rewrite M.
  assert (nl = false) as ->. { destruct nl; [|reflexivity]. rewrite Nl in Li by reflexivity. cbn in Li. lia. }
  assert (Lf : length (firstn i arr) = i) by (rewrite firstn_length; lia).
  split.
  - unfold own. rewrite (size_one t) by (intros ? ?; congruence). rewrite peek_1, poke_1. conj.
    + pose proof (h_slice env b (poke H va [CSlice false base i (length arr)]) t e false base (firstn i arr) (skipn i arr) G U B) as K.
      rewrite Lf, skipn_length in K. replace (i + (length arr - i))%nat with (length arr) in K by lia. apply K; [discriminate|].
      replace (peek _ base (i * size e)) with (peek H base (i * size e)).
      * eapply all_hold_frame; [exact A|]. intros x Hx. apply poke_other. cbn. intros [<-|[]]. nd. rewrite in_app_iff in *. tauto.
      * symmetry. apply peek_ext. intros x Hx. apply poke_other. cbn. intros [<-|[]]. nd. rewrite in_app_iff in *.
        match goal with X : ~ (_ \/ _) |- _ => apply X end. left. rewrite in_seq in *. nia.
    + exact N.
    + exact Bd.
  - unfold confined. conj; [reflexivity| |auto]. intros x Hx Hn. apply poke_other. cbn. intros [<-|[]]. apply Hn. now left.
Qed.

(** *** Maps *)
Lemma entries_app b H kt et ads es G ads' es' G' : entries_hold b H kt et ads es G -> entries_hold b H kt et ads' es' G' ->
  entries_hold b H kt et (ads ++ ads') (es ++ es') (G ++ G').
Proof.
  induction 1 as [|kt et a c ads x y es Gx Gy G Hx Hy Hs IH]; intros A; [exact A|].
  cbn [app]. rewrite <- !app_assoc. rewrite (app_assoc (seq a _)). rewrite (app_assoc (seq c _)). constructor; auto.
Qed.
Lemma entries_keys b H kt et ads es G a c : entries_hold b H kt et ads es G -> In (a, c) ads ->
  forall x, In x (seq a (size kt)) -> In x G.
Proof.
  induction 1 as [|kt et a' c' ads x y es Gx Gy G Hx Hy Hs IH]; intros Hi z Hz; [contradiction|].
  rewrite !in_app_iff. destruct Hi as [E|Hi]; [injection E as -> ->; auto|]. right. right. now apply IH.
Qed.
Lemma find_entry_ext H H' kt k ads : peek H' k (size kt) = peek H k (size kt) ->
  (forall a c, In (a, c) ads -> peek H' a (size kt) = peek H a (size kt)) ->
  find_entry env H' kt k ads = find_entry env H kt k ads.
Proof.
  intros E K. induction ads as [|[a c] r IH]; [reflexivity|]. cbn [find_entry].
  rewrite E, (K a c) by now left. rewrite IH; [reflexivity|]. intros a' c' Hi. apply (K a' c'). now right.
Qed.

Lemma entries_find H kt et ads es G k key Gk : entries_hold true H kt et ads es G ->
  holds true H kt (peek H k (size kt)) key Gk -> disj Gk G ->
  match find_entry env H kt k ads with
  | None => map_get es key = None /\ forall w, map_set es key w = es ++ [(key, w)]
  | Some (a, c) => exists ads1 ads2 es1 es2 x y G1 Gx Gy G2,
      ads = ads1 ++ (a, c) :: ads2 /\ es = es1 ++ (x, y) :: es2 /\
      G = G1 ++ (seq a (size kt) ++ Gx) ++ (seq c (size et) ++ Gy) ++ G2 /\
      entries_hold true H kt et ads1 es1 G1 /\ entries_hold true H kt et ads2 es2 G2 /\
      holds true H et (peek H c (size et)) y Gy /\
      map_get es key = Some y /\ forall w, map_set es key w = es1 ++ (key, w) :: es2
  end.
Proof using Henv.
  induction 1 as [|kt et a c ads x y es Gx Gy G Hx Hy Hs IH]; intros Hk D; [split; reflexivity|].
  cbn [find_entry map_get map_set].
  rewrite (keys_match _ _ _ _ _ _ _ _ _ _ _ Hk Hx) by (intros z Hz Hz'; apply (D z); rewrite ?in_app_iff; auto).
  destruct (key_eq key x).
  - exists [], ads, [], es, x, y, [], Gx, Gy, G. conj; auto. constructor.
  - assert (D' : disj Gk G) by (intros z Hz Hz'; apply (D z); rewrite ?in_app_iff; auto).
    specialize (IH Hk D'). destruct (find_entry env H kt k ads) as [[a' c']|].
    + destruct IH as (ads1 & ads2 & es1 & es2 & x' & y' & G1 & Gx' & Gy' & G2 & -> & -> & -> & A1 & A2 & A3 & A4 & A5).
      exists ((a, c) :: ads1), ads2, ((x, y) :: es1), es2, x', y', ((seq a (size kt) ++ Gx) ++ (seq c (size et) ++ Gy) ++ G1), Gx', Gy', G2.
      conj; auto.
      * now rewrite <- !app_assoc.
      * constructor; auto.
      * intros w. rewrite A5. reflexivity.
    + destruct IH as [A1 A2]. split; [exact A1|]. intros w. rewrite A2. reflexivity.
Qed.

(** The map at [m] in the variable [va], with the variables [k] and [v]. *)
Definition mapping (b : bool) (H : heap) (kt et : rtype) (va m k v : nat) (es : list (gval * gval)) (G : list nat) : Prop :=
  mem H va = CMap (Some m) /\
  (exists ads, mem H m = CEntries ads /\ entries_hold b H kt et ads es G) /\
  NoDup (va :: m :: seq k (size kt) ++ seq v (size et) ++ G) /\
  (forall x, In x (va :: m :: seq k (size kt) ++ seq v (size et) ++ G) -> (x < next H)%nat).

Lemma key_focus H kt et va m k v es G : mapping true H kt et va m k v es G ->
  let H1 := poke H k (zcells kt) in
  let F := va :: m :: seq k (size kt) ++ seq v (size et) ++ G in
  own true H1 kt k (zero env kt) [] /\
  forall b H2 key Gk, own b H2 kt k key Gk -> confined H1 H2 (seq k (size kt) ++ []) (seq k (size kt) ++ Gk) ->
    mapping true H2 kt et va m k v es G /\ NoDup (F ++ Gk) /\ (forall x, In x (F ++ Gk) -> (x < next H2)%nat) /\
    confined H H2 F (F ++ Gk).
Proof using Henv.
  intros (Mv & (ads & Mm & A) & N & Bd) H1 F.
  split.
  - unfold own. rewrite app_nil_r. conj.
    + unfold H1. pose proof (peek_poke H k (zcells kt)) as E. fold (size kt) in E. rewrite E. apply holds_zero.
    + apply seq_NoDup.
    + intros x Hx. apply Bd. right. right. rewrite in_app_iff. auto.
  - intros b H2 key Gk (A' & N' & Bd') (C1 & C2 & C3). rewrite app_nil_r in *.
    assert (N1 : next H1 = next H) by reflexivity. rewrite N1 in *.
    assert (P : forall x, ~ In x (seq k (size kt)) -> mem H1 x = mem H x).
    { intros x Hx. now apply poke_other. }
    assert (Q : forall x, In x F -> ~ In x (seq k (size kt)) -> mem H2 x = mem H x).
    { intros x Hx Hn. rewrite C2; auto. }
    assert (Gs : forall x, In x Gk -> (next H <= x)%nat).
    { intros x Hx. nd. at_addr x. tauto. }
    assert (NF : NoDup (F ++ Gk)).
    { apply NoDup_app_iff. conj; [exact N|nd; auto|]. intros x Hx Hy. apply Bd in Hx. apply Gs in Hy. lia. }
    assert (BF : forall x, In x (F ++ Gk) -> (x < next H2)%nat).
    { intros x Hx. rewrite in_app_iff in Hx. destruct Hx as [Hx|Hx].
      - apply Bd in Hx. lia.
      - apply Bd'. rewrite in_app_iff. auto. }
    conj; auto.
    + unfold mapping. conj; auto.
      * rewrite Q; auto; [now left|]. nd. rewrite ?in_app_iff in *. cbn [In] in *. rewrite ?in_app_iff in *. tauto.
      * exists ads. split.
        -- rewrite Q; auto; [right; now left|]. nd. rewrite ?in_app_iff in *. tauto.
        -- eapply entries_frame; [exact A|]. intros x Hx. apply Q.
           ++ right. right. rewrite !in_app_iff. auto.
           ++ nd. at_addr x. tauto.
      * intros x Hx. apply BF. rewrite in_app_iff. auto.
    + unfold confined. conj; [exact C1| |].
      * intros x Hx Hn. rewrite C2; auto.
        -- apply P. intros X. apply Hn. right. right. rewrite in_app_iff. auto.
        -- intros X. apply Hn. right. right. rewrite in_app_iff. auto.
      * intros x Hx. rewrite in_app_iff in Hx. destruct Hx as [Hx|Hx]; auto.
Qed.

Lemma value_focus H kt et va m k v es G key Gk : mapping true H kt et va m k v es G ->
  holds true H kt (peek H k (size kt)) key Gk ->
  let F := va :: m :: seq k (size kt) ++ seq v (size et) ++ G in
  NoDup (F ++ Gk) -> (forall x, In x (F ++ Gk) -> (x < next H)%nat) ->
  let H1 := map_index env H m kt et k v in
  exists Gv, own true H1 et v (match map_get es key with Some y => y | None => zero env et end) Gv /\
  forall b H2 w Gw, own b H2 et v w Gw -> confined H1 H2 (seq v (size et) ++ Gv) (seq v (size et) ++ Gw) ->
    mem H2 va = CMap (Some m) /\
    exists G', mapping b (set_map_index env H2 m kt et k v) kt et va m k v (map_set es key w) G' /\
      confined H (set_map_index env H2 m kt et k v) (F ++ Gk) (va :: m :: seq k (size kt) ++ seq v (size et) ++ G').
Proof using Henv.
  intros (Mv & (ads & Mm & A) & _ & _) Hk F NF BF.
  assert (Dk : disj Gk G).
  { intros x Hx Hy. unfold F in NF. nd. at_addr x. tauto. }
  pose proof (entries_find _ _ _ _ _ _ _ _ _ A Hk Dk) as Fi.
  unfold map_index. rewrite Mm. cbv zeta.
  destruct (find_entry env H kt k ads) as [[a c]|] eqn:Ef.
  - destruct Fi as (ads1 & ads2 & es1 & es2 & x0 & y & G1 & Gx & Gy & G2 & -> & -> & -> & A1 & A2 & Hy & Gt & St).
    set (H1 := poke H v (peek H c (size et))). rewrite Gt.
    assert (P : forall x, ~ In x (seq v (size et)) -> mem H1 x = mem H x).
    { intros x Hx. apply poke_other. now rewrite peek_len. }
    assert (N1 : next H1 = next H) by reflexivity.
    unfold F in *. clear F.
    assert (Nva : va <> m /\ ~ In va (seq k (size kt)) /\ ~ In va (seq v (size et)) /\ ~ In va G1 /\ ~ In va (seq a (size kt)) /\
       ~ In va (seq c (size et)) /\ ~ In va Gy /\ ~ In va G2 /\ ~ In va Gk).
    { clear -NF. cbn [app] in NF. nd. at_addr va. intuition. }
    assert (Nm : ~ In m (seq k (size kt)) /\ ~ In m (seq v (size et)) /\ ~ In m G1 /\ ~ In m (seq a (size kt)) /\
       ~ In m (seq c (size et)) /\ ~ In m Gy /\ ~ In m G2 /\ ~ In m Gk).
    { clear -NF. cbn [app] in NF. nd. at_addr m. intuition. }
    assert (NF' : NoDup (seq k (size kt) ++ seq v (size et) ++ G1 ++ (seq a (size kt) ++ Gx) ++ (seq c (size et) ++ Gy) ++ G2 ++ Gk)).
    { clear -NF. cbn [app] in NF. rewrite <- !app_assoc in NF. nd; auto; addrs. }
    assert (BF' : forall x, In x (seq k (size kt) ++ seq v (size et) ++ G1 ++ (seq a (size kt) ++ Gx) ++ (seq c (size et) ++ Gy) ++ G2 ++ Gk) -> (x < next H)%nat).
    { clear -BF. addrs. }
    assert (Bv : (va < next H /\ m < next H)%nat) by (split; apply BF; cbn; auto).
    clear NF BF.
    exists Gy. split.
    + unfold own. conj.
      * assert (E : peek H1 v (size et) = peek H c (size et)).
        { apply peek_poke_n; apply peek_len. }
        rewrite E. eapply holds_frame; [exact Hy|]. intros x Hx. apply P. intros X. clear -Hx X NF'. nd. at_addr x. tauto.
      * clear -NF'. nd; auto; addrs.
      * rewrite N1. clear -BF'. addrs.
    + intros b H2 w Gw (A' & N' & Bd') (C1 & C2 & C3). rewrite N1 in *.
      assert (Q : forall x, (x < next H)%nat -> ~ In x (seq v (size et)) -> ~ In x Gy -> mem H2 x = mem H x).
      { intros x Hx Hn Hn'. rewrite C2; auto. rewrite in_app_iff. tauto. }
      assert (Gs : forall x, In x Gw -> In x Gy \/ (next H <= x)%nat).
      { intros x Hx. clear -Hx N' C3. nd. at_addr x. tauto. }
      split; [rewrite Q; auto; tauto|].
      assert (M2 : mem H2 m = CEntries (ads1 ++ (a, c) :: ads2)).
      { rewrite Q; auto; tauto. }
      assert (K2 : peek H2 k (size kt) = peek H k (size kt)).
      { apply peek_ext. intros x Hx. apply Q; clear -Hx NF' BF'; nd; at_addr x; tauto. }
      assert (F2 : find_entry env H2 kt k (ads1 ++ (a, c) :: ads2) = Some (a, c)).
      { rewrite <- Ef. apply find_entry_ext; [exact K2|]. intros a' c' Hi. apply peek_ext. intros x Hx.
        rewrite in_app_iff in Hi. cbn [In] in Hi. destruct Hi as [Hi|[E|Hi]].
        - pose proof (entries_keys _ _ _ _ _ _ _ _ _ A1 Hi x Hx) as X. clear Hi Hx. apply Q; clear -X NF' BF'; nd; at_addr x; tauto.
        - injection E as <- <-. apply Q; clear -Hx NF' BF'; nd; at_addr x; tauto.
        - pose proof (entries_keys _ _ _ _ _ _ _ _ _ A2 Hi x Hx) as X. clear Hi Hx. apply Q; clear -X NF' BF'; nd; at_addr x; tauto. }
      unfold set_map_index. rewrite M2, F2.
      set (H3 := poke H2 a (peek H2 k (size kt))). set (H4 := poke H3 c (peek H2 v (size et))).
      assert (P4 : forall x, ~ In x (seq a (size kt)) -> ~ In x (seq c (size et)) -> mem H4 x = mem H2 x).
      { intros x X1 X2. unfold H4. rewrite poke_other by (now rewrite peek_len). apply poke_other. now rewrite peek_len. }
      assert (E1 : peek H4 a (size kt) = peek H k (size kt)).
      { rewrite <- K2. transitivity (peek H3 a (size kt)).
        - apply peek_ext. intros x Hx. apply poke_other. rewrite peek_len. clear -Hx NF'. intros X. nd. at_addr x. tauto.
        - unfold H3. apply peek_poke_n; apply peek_len. }
      assert (E2 : peek H4 c (size et) = peek H2 v (size et)).
      { unfold H4. apply peek_poke_n; apply peek_len. }
      assert (R : forall x, (x < next H)%nat -> ~ In x (seq v (size et)) -> ~ In x Gy -> ~ In x (seq a (size kt)) -> ~ In x (seq c (size et)) ->
        mem H4 x = mem H x).
      { intros x X1 X2 X3 X4 X5. rewrite P4 by auto. now apply Q. }
      exists (G1 ++ (seq a (size kt) ++ Gk) ++ (seq c (size et) ++ Gw) ++ G2). split.
      * unfold mapping. conj.
        -- rewrite R; auto; tauto.
        -- exists (ads1 ++ (a, c) :: ads2). split; [rewrite R; auto; tauto|]. rewrite St. apply entries_app.
           ++ apply entries_loose. eapply entries_frame; [exact A1|]. intros x Hx. apply R; clear -Hx NF' BF'; nd; at_addr x; tauto.
           ++ constructor.
              ** rewrite E1. apply holds_loose. eapply holds_frame; [exact Hk|]. intros x Hx. apply R; clear -Hx NF' BF'; nd; at_addr x; tauto.
              ** rewrite E2. eapply holds_frame; [exact A'|]. intros x Hx. apply Gs in Hx. apply P4; clear -Hx NF' BF'; nd; at_addr x; intuition lia.
              ** apply entries_loose. eapply entries_frame; [exact A2|]. intros x Hx. apply R; clear -Hx NF' BF'; nd; at_addr x; tauto.
        -- assert (X1 : ~ In va Gw) by (intros X; apply Gs in X; destruct X; [tauto|lia]).
           assert (X2 : ~ In m Gw) by (intros X; apply Gs in X; destruct X; [tauto|lia]).
           assert (Y : NoDup (seq k (size kt) ++ seq v (size et) ++ G1 ++ (seq a (size kt) ++ Gk) ++ (seq c (size et) ++ Gw) ++ G2)).
           { clear -NF' N' Gs BF'. nd; auto; addrs. }
           constructor; [|constructor; [|exact Y]]; cbn [In]; rewrite ?in_app_iff; intuition.
        -- intros x Hx. change (next H4) with (next H2). clear -Hx BF' Bd' C1 Bv. at_addr x. intuition lia.
      * unfold confined. change (next H4) with (next H2). conj; [exact C1| |].
        -- intros x Hx Hn. apply R; auto; clear -Hn; intros X; apply Hn; cbn [In app]; rewrite ?in_app_iff; tauto.
        -- intros x Hx. clear -Hx Gs. at_addr x. cbn [In app]. rewrite ?in_app_iff. tauto.
  - destruct Fi as [Gt St]. set (H1 := poke H v (zcells et)). rewrite Gt.
    assert (P : forall x, ~ In x (seq v (size et)) -> mem H1 x = mem H x).
    { intros x Hx. now apply poke_other. }
    assert (N1 : next H1 = next H) by reflexivity.
    unfold F in *. clear F.
    assert (Nva : va <> m /\ ~ In va (seq k (size kt)) /\ ~ In va (seq v (size et)) /\ ~ In va G /\ ~ In va Gk).
    { clear -NF. cbn [app] in NF. nd. at_addr va. intuition. }
    assert (Nm : ~ In m (seq k (size kt)) /\ ~ In m (seq v (size et)) /\ ~ In m G /\ ~ In m Gk).
    { clear -NF. cbn [app] in NF. nd. at_addr m. intuition. }
    assert (NF' : NoDup (seq k (size kt) ++ seq v (size et) ++ G ++ Gk)).
    { clear -NF. cbn [app] in NF. rewrite <- !app_assoc in NF. nd; auto; addrs. }
    assert (BF' : forall x, In x (seq k (size kt) ++ seq v (size et) ++ G ++ Gk) -> (x < next H)%nat).
    { clear -BF. addrs. }
    assert (Bv : (va < next H /\ m < next H)%nat) by (split; apply BF; cbn; auto).
    clear NF BF.
    exists []. split.
    + unfold own. rewrite app_nil_r. conj.
      * unfold H1. pose proof (peek_poke H v (zcells et)) as E. fold (size et) in E. rewrite E. apply holds_zero.
      * apply seq_NoDup.
      * rewrite N1. clear -BF'. addrs.
    + intros b H2 w Gw (A' & N' & Bd') (C1 & C2 & C3). rewrite N1 in *. rewrite app_nil_r in *.
      assert (Q : forall x, (x < next H)%nat -> ~ In x (seq v (size et)) -> mem H2 x = mem H x).
      { intros x Hx Hn. rewrite C2; auto. }
      assert (Gs : forall x, In x Gw -> (next H <= x < next H2)%nat).
      { intros x Hx. clear -Hx N' C3 Bd'. nd. at_addr x. tauto. }
      split; [rewrite Q; auto; tauto|].
      assert (M2 : mem H2 m = CEntries ads).
      { rewrite Q; auto; tauto. }
      assert (K2 : peek H2 k (size kt) = peek H k (size kt)).
      { apply peek_ext. intros x Hx. apply Q; clear -Hx NF' BF'; nd; at_addr x; tauto. }
      assert (F2 : find_entry env H2 kt k ads = None).
      { rewrite <- Ef. apply find_entry_ext; [exact K2|]. intros a' c' Hi. apply peek_ext. intros x Hx.
        pose proof (entries_keys _ _ _ _ _ _ _ _ _ A Hi x Hx) as X. clear Hi Hx. apply Q; clear -X NF' BF'; nd; at_addr x; tauto. }
      unfold set_map_index. rewrite M2, F2. rewrite alloc_eq.
      set (H3 := fst (alloc H2 (peek H2 k (size kt)))). rewrite alloc_eq.
      set (H4 := fst (alloc H3 (peek H3 v (size et)))). set (H5 := poke H4 m _).
      assert (N3 : next H3 = (next H2 + size kt)%nat) by (unfold H3; rewrite alloc_next, peek_len; reflexivity).
      assert (N4 : next H4 = (next H2 + size kt + size et)%nat) by (unfold H4; rewrite alloc_next, peek_len, N3; reflexivity).
      assert (O : forall x, (x < next H2)%nat -> x <> m -> mem H5 x = mem H2 x).
      { intros x Hx Hn. unfold H5. rewrite poke_other by (cbn; intuition). unfold H4. rewrite alloc_old by lia.
        unfold H3. now apply alloc_old. }
      assert (E1 : peek H5 (next H2) (size kt) = peek H k (size kt)).
      { rewrite <- K2. transitivity (peek H3 (next H2) (size kt)).
        - apply peek_ext. intros x Hx. rewrite in_seq in Hx. unfold H5. rewrite poke_other by (cbn; lia).
          unfold H4. apply alloc_old. lia.
        - unfold H3. apply alloc_peek_n; apply peek_len. }
      assert (Vn : forall x, In x (seq v (size et)) -> (x < next H2)%nat).
      { intros x Hx. apply Bd'. rewrite in_app_iff. auto. }
      assert (E2 : peek H5 (next H3) (size et) = peek H2 v (size et)).
      { transitivity (peek H4 (next H3) (size et)).
        - apply peek_ext. intros x Hx. rewrite in_seq in Hx. unfold H5. rewrite poke_other by (cbn; lia). reflexivity.
        - unfold H4. rewrite alloc_peek_n by apply peek_len. apply peek_ext. intros x Hx.
          unfold H3. apply alloc_old. auto. }
      assert (R : forall x, (x < next H)%nat -> ~ In x (seq v (size et)) -> x <> m -> mem H5 x = mem H x).
      { intros x X1 X2 X3. rewrite O by (auto; lia). now apply Q. }
      exists (G ++ (seq (next H2) (size kt) ++ Gk) ++ (seq (next H3) (size et) ++ Gw) ++ []). split.
      * unfold mapping. conj.
        -- rewrite R; auto; tauto.
        -- eexists. split; [unfold H5; apply poke_1|]. rewrite St. apply entries_app.
           ++ apply entries_loose. eapply entries_frame; [exact A|]. intros x Hx.
              assert (x <> m) by (intros ->; tauto). apply R; auto; clear -Hx NF' BF'; nd; at_addr x; tauto.
           ++ constructor.
              ** rewrite E1. apply holds_loose. eapply holds_frame; [exact Hk|]. intros x Hx.
                 assert (x <> m) by (intros ->; tauto). apply R; auto; clear -Hx NF' BF'; nd; at_addr x; tauto.
              ** rewrite E2. eapply holds_frame; [exact A'|]. intros x Hx. apply Gs in Hx. apply O; lia.
              ** constructor.
        -- assert (Y : NoDup (seq k (size kt) ++ seq v (size et) ++ G ++ (seq (next H2) (size kt) ++ Gk) ++ (seq (next H3) (size et) ++ Gw) ++ [])).
           { assert (B2 : forall x, In x (seq (next H2) (size kt)) -> (next H2 <= x < next H3)%nat) by (intros x; rewrite in_seq; lia).
             assert (B3 : forall x, In x (seq (next H3) (size et)) -> (next H3 <= x)%nat) by (intros x; rewrite in_seq; lia).
             assert (L3 : (next H2 <= next H3)%nat) by lia.
             clear -NF' N' Gs BF' B2 B3 L3 C1. rewrite app_nil_r. nd; auto using seq_NoDup; addrs. }
           assert (X1 : forall x, (x < next H)%nat -> ~ In x Gw) by (intros x Hx X; apply Gs in X; lia).
           assert (X2 : forall x, (x < next H)%nat -> ~ In x (seq (next H2) (size kt))) by (intros x Hx X; rewrite in_seq in X; lia).
           assert (X3 : forall x, (x < next H)%nat -> ~ In x (seq (next H3) (size et))) by (intros x Hx X; rewrite in_seq in X; lia).
           destruct Bv as [Bv Bm].
           pose proof (X1 va Bv). pose proof (X2 va Bv). pose proof (X3 va Bv).
           pose proof (X1 m Bm). pose proof (X2 m Bm). pose proof (X3 m Bm). clear X1 X2 X3.
           constructor; [|constructor; [|exact Y]]; cbn [In]; rewrite ?in_app_iff; cbn [In]; intuition.
        -- intros x Hx. change (next H5) with (next H4).
           assert (B2 : In x (seq (next H2) (size kt)) -> (x < next H4)%nat) by (rewrite in_seq; lia).
           assert (B3 : In x (seq (next H3) (size et)) -> (x < next H4)%nat) by (rewrite in_seq; lia).
           assert (L4 : (next H2 <= next H4)%nat) by lia.
           clear -Hx BF' Bd' C1 Bv B2 B3 L4. at_addr x. intuition lia.
      * unfold confined. change (next H5) with (next H4). conj; [lia| |].
        -- intros x Hx Hn. apply R; auto; clear -Hn.
           ++ intros X; apply Hn; cbn [In app]; rewrite ?in_app_iff; tauto.
           ++ intros ->. apply Hn. cbn. auto.
        -- intros x Hx.
           assert (B2 : In x (seq (next H2) (size kt)) -> (next H <= x)%nat) by (rewrite in_seq; lia).
           assert (B3 : In x (seq (next H3) (size et)) -> (next H <= x)%nat) by (rewrite in_seq; lia).
           clear -Hx Gs B2 B3. at_addr x. cbn [In app]. rewrite ?in_app_iff. intuition.
Qed.
End Env.
