(** Under any interleaving there is one codec per type and one field table per
    struct type. *)
From Coq Require Import Strings.String Sorting.Permutation.
From Verif Require Import Base BaseLemmas Prog Wire GoType Fields FieldsProof ArshalTotal Cache.
Local Open Scope list_scope.

Lemma upd_same {A} (f : nat -> A) i x : upd f i x i = x.
Proof. unfold upd. destruct (Nat.eq_dec i i); congruence. Qed.
Lemma upd_other {A} (f : nat -> A) i x j : i <> j -> upd f i x j = f j.
Proof. unfold upd. destruct (Nat.eq_dec i j); congruence. Qed.
Lemma updt_same {A} (f : rtype -> A) t x : updt f t x t = x.
Proof. unfold updt. destruct (rtype_eq_dec t t); congruence. Qed.
Lemma updt_other {A} (f : rtype -> A) t x u : t <> u -> updt f t x u = f u.
Proof. unfold updt. destruct (rtype_eq_dec t u); congruence. Qed.

(** ** What only grows, and what a goroutine may rely on *)
Definition cells (s : shared) (id : nat) : table + err :=
  match sh_err s id with
  | Some e => inr e
  | None => inl (match sh_fields s id with Some tb => tb | None => mkTable [] [] end)
  end.
Record mono (s s' : shared) : Prop := mkMono {
  mo_cache : forall t c, sh_cache s t = Some c -> sh_cache s' t = Some c;
  mo_type : forall id t, sh_type s id = Some t -> sh_type s' id = Some t;
  mo_done : forall id, sh_once s id = ODone -> sh_once s' id = ODone /\ cells s' id = cells s id }.
Definition rely (i : nat) (s s' : shared) : Prop :=
  mono s s' /\ forall id, sh_once s id = ORunning i ->
    sh_once s' id = ORunning i /\ sh_fields s' id = sh_fields s id /\ sh_err s' id = sh_err s id.

Lemma mono_refl s : mono s s.
Proof. constructor; auto. Qed.
Lemma mono_trans a b c : mono a b -> mono b c -> mono a c.
Proof.
  intros [C1 T1 D1] [C2 T2 D2]. constructor; auto. intros id H. destruct (D1 id H) as [H1 E1]. destruct (D2 id H1) as [H2 E2].
  split; congruence.
Qed.
Lemma rely_refl i s : rely i s s.
Proof. split; [apply mono_refl|auto]. Qed.
Lemma rely_trans i a b c : rely i a b -> rely i b c -> rely i a c.
Proof.
  intros [M1 R1] [M2 R2]. split; [exact (mono_trans _ _ _ M1 M2)|]. intros id H. destruct (R1 id H) as (H1 & F1 & E1).
  destruct (R2 id H1) as (H2 & F2 & E2). repeat split; congruence.
Qed.

Definition held (s : shared) (c : cod) : Prop := exists t, sh_cache s t = Some c.
Lemma held_mono s s' c : mono s s' -> held s c -> held s' c.
Proof. intros M [t H]. exists t. now apply (mo_cache _ _ M). Qed.

Section Proof.
Context (env : tenv) (Henv : env_ok env).

(** A field table for [t], with the cache's codecs in it. *)
Definition valid (s : shared) (t : rtype) (r : table + err) : Prop :=
  match r with
  | inr e => exists n, make_struct_fields env n t = Some (inr e)
  | inl tb =>
      (exists n, make_struct_fields env n t = Some (inl (tb_fields tb))) /\
      (forall f, In f (tb_fields tb) -> exists c, In (f_index f, c) (tb_ptrs tb) /\ sh_cache s (f_typ f) = Some c /\ erase c = f_fncs f) /\
      NoDup (map fst (tb_ptrs tb)) /\
      (forall i c, In (i, c) (tb_ptrs tb) -> held s c)
  end.
Lemma valid_mono s s' t r : mono s s' -> valid s t r -> valid s' t r.
Proof using.
  intros M. destruct r as [tb|e]; [|auto]. intros (N & F & D & P). repeat split; auto.
  - intros f Hf. destruct (F f Hf) as (c & H1 & H2 & H3). exists c. repeat split; auto. now apply (mo_cache _ _ M).
  - intros i c H. eapply held_mono; eauto.
Qed.

Definition inits (l : list happened) : list rtype :=
  flat_map (fun h => match h with HInit t _ => [t] | _ => [] end) l.

Record inv (s : shared) : Prop := mkInv {
  iv_cache : forall t c, sh_cache s t = Some c -> codec env t (erase c) /\ sh_type s (c_id c) = Some t;
  iv_child : forall c d, held s c -> In d (children c) -> held s d;
  iv_next : forall id, (sh_next s <= id)%nat -> sh_type s id = None;
  iv_once : forall id, sh_once s id <> ONew -> exists t, sh_cache s t = Some (CStruct id t) /\ In (HInit t id) (sh_log s);
  iv_done : forall id t, sh_once s id = ODone -> sh_cache s t = Some (CStruct id t) -> valid s t (cells s id);
  iv_return : forall t c, In (HReturn t c) (sh_log s) -> sh_cache s t = Some c;
  iv_init : forall t id, In (HInit t id) (sh_log s) -> sh_cache s t = Some (CStruct id t) /\ sh_once s id <> ONew;
  iv_inits : NoDup (inits (sh_log s));
  iv_table : forall id r, In (HTable id r) (sh_log s) -> sh_once s id = ODone /\ cells s id = r }.

Lemma inv0 : inv shared0.
Proof using. constructor; cbn; try discriminate; try tauto; try congruence; try constructor. intros c d [t H]; discriminate. Qed.

(** Two types have two objects. *)
Lemma one_type s id t t' : inv s -> sh_cache s t = Some (CStruct id t) -> sh_cache s t' = Some (CStruct id t') -> t = t'.
Proof using. intros I H H'. apply (iv_cache s I) in H as [_ H], H' as [_ H']. cbn in *. congruence. Qed.

(** What a goroutine must know before an access. *)
Definition ok (i : nat) {X} (e : shE X) (s : shared) : Prop :=
  match e with
  | SNew _ | SLoad _ => True
  | SLoadOrStore t c => codec env t (erase c) /\ sh_type s (c_id c) = Some t /\ forall d, In d (children c) -> held s d
  | SOnce id t => sh_cache s t = Some (CStruct id t)
  | SOnceDone id => sh_once s id = ORunning i /\ exists t, sh_cache s t = Some (CStruct id t) /\ valid s t (cells s id)
  | SSetFields id _ | SSetErr id _ => sh_once s id = ORunning i
  | SGetErr id | SGetFields id => sh_once s id = ODone
  | SNote (HReturn t c) => sh_cache s t = Some c
  | SNote (HInit _ _) => False
  | SNote (HTable id r) => sh_once s id = ODone /\ cells s id = r
  end.

(** An access keeps the invariant and is what the others rely on. *)
Lemma access_keeps i X (e : shE X) s s' x : inv s -> ok i e s -> access i e s = Some (s', x) ->
  inv s' /\ mono s s' /\ forall j, j <> i -> rely j s s'.
Proof using.
  intros I O A.
  cut (inv s' /\ mono s s' /\ forall j id, j <> i -> sh_once s id = ORunning j ->
    sh_once s' id = ORunning j /\ sh_fields s' id = sh_fields s id /\ sh_err s' id = sh_err s id).
  { intros (H1 & H2 & H3). split; [exact H1|]. split; [exact H2|]. intros j Hj. split; [exact H2|]. intros id. now apply H3. }
  pose proof I as [Ic Ich In_ Io Id Ir Ii Iis It].
  destruct e as [t|t|t c|id t|id|id f|id er|id|id|h]; cbn [access ok] in A, O.
  - (* SNew *)
    injection A as <- <-. cbn.
    assert (Tm : forall id u, sh_type s id = Some u -> upd (sh_type s) (sh_next s) (Some t) id = Some u).
    { intros id u H. rewrite upd_other; [exact H|]. intros <-. rewrite In_ in H by lia. discriminate. }
    split; [|split]; [|constructor; cbn; auto|auto].
    constructor; cbn; auto.
    + intros u c H. destruct (Ic u c H) as [H1 H2]. auto.
    + intros id H. rewrite upd_other by lia. apply In_. lia.
  - (* SLoad *)
    injection A as <- <-. split; [exact I|]. split; [apply mono_refl|]. auto.
  - (* SLoadOrStore *)
    destruct (sh_cache s t) as [c'|] eqn:C; injection A as <- <-; [split; [exact I|]; split; [apply mono_refl|auto]|].
    destruct O as (O1 & O2 & O3).
    assert (Cm : forall u d, sh_cache s u = Some d -> updt (sh_cache s) t (Some c) u = Some d).
    { intros u d H. rewrite updt_other; [exact H|]. intros <-. congruence. }
    set (s' := mkShared _ _ _ _ _ _ _).
    assert (M : mono s s') by (constructor; cbn; auto).
    split; [|split; [exact M|auto]].
    constructor; cbn; auto.
    + intros u d H. unfold updt in H. destruct (rtype_eq_dec t u) as [<-|]; [injection H as <-; auto|]. auto.
    + intros a d [u H] Hd. cbn in H. unfold updt in H. destruct (rtype_eq_dec t u) as [<-|].
      * injection H as <-. eapply held_mono; [exact M|]. apply O3. exact Hd.
      * eapply held_mono; [exact M|]. eapply Ich; [exists u; exact H|exact Hd].
    + intros id H. destruct (Io id H) as (u & H1 & H2). exists u. auto.
    + intros id u H Hc. eapply valid_mono; [exact M|]. destruct (Io id) as (u' & H1 & _); [congruence|].
      assert (u' = u); [|subst; now apply Id].
      pose proof (Cm _ _ H1) as H1'. assert (T1 : sh_type s id = Some u') by exact (proj2 (Ic _ _ H1)).
      unfold updt in Hc. destruct (rtype_eq_dec t u) as [<-|].
      * injection Hc as ->. cbn in O2. congruence.
      * assert (T2 : sh_type s id = Some u) by exact (proj2 (Ic _ _ Hc)). congruence.
    + intros u id H. destruct (Ii u id H) as [H1 H2]. split; auto.
  - (* SOnce *)
    destruct (sh_once s id) as [|j|] eqn:On; [|discriminate|injection A as <- <-; split; [exact I|]; split; [apply mono_refl|auto]].
    injection A as <- <-. set (s' := mkShared _ _ _ _ _ _ _).
    assert (M : mono s s').
    { constructor; cbn; auto. intros id' H. split; [|reflexivity]. rewrite upd_other; [exact H|]. intros <-. congruence. }
    split; [|split; [exact M|]].
    + constructor; cbn; auto.
      * intros id' H. unfold upd in H. destruct (Nat.eq_dec id id') as [<-|].
        -- exists t. split; [exact O|]. apply in_or_app. right. left. reflexivity.
        -- destruct (Io id' H) as (u & H1 & H2). exists u. split; [exact H1|]. apply in_or_app. now left.
      * intros id' u H Hc. unfold upd in H. destruct (Nat.eq_dec id id') as [<-|]; [discriminate|].
        eapply valid_mono; [exact M|]. exact (Id id' u H Hc).
      * intros u c H. apply in_app_or in H as [H|[H|[]]]; [auto|discriminate].
      * intros u id' H. apply in_app_or in H as [H|[H|[]]].
        -- destruct (Ii u id' H) as [H1 H2]. split; [exact H1|]. unfold upd. destruct (Nat.eq_dec id id'); [discriminate|exact H2].
        -- injection H as <- <-. split; [exact O|]. rewrite upd_same. discriminate.
      * unfold inits. rewrite flat_map_app. cbn.
        apply (Permutation_NoDup (l := t :: inits (sh_log s))); [apply Permutation_cons_append|].
        constructor; [|exact Iis]. unfold inits. intros H. apply in_flat_map in H as (h & Hh & Ht).
        destruct h as [|u id'|]; cbn in Ht; try tauto. destruct Ht as [<-|[]].
        destruct (Ii u id' Hh) as [H1 H2]. assert (id' = id) by congruence. subst. congruence.
      * intros id' r H. apply in_app_or in H as [H|[H|[]]]; [|discriminate]. destruct (It id' r H) as [H1 H2].
        split; [|exact H2]. rewrite upd_other; [exact H1|]. intros <-. congruence.
    + intros j id' Hj H. cbn. rewrite upd_other; [auto|]. intros <-. congruence.
  - (* SOnceDone *)
    destruct O as (On & t & Ot & Ov). injection A as <- <-. set (s' := mkShared _ _ _ _ _ _ _).
    assert (M : mono s s').
    { constructor; cbn; auto. intros id' H. split; [|reflexivity]. unfold upd. destruct (Nat.eq_dec id id'); auto. }
    split; [|split; [exact M|]].
    + constructor; cbn; auto.
      * intros id' H. apply Io. unfold upd in H. destruct (Nat.eq_dec id id') as [<-|]; [congruence|exact H].
      * intros id' u H Hc. unfold upd in H. eapply valid_mono; [exact M|]. destruct (Nat.eq_dec id id') as [<-|].
        -- rewrite (one_type s id u t I Hc Ot). exact Ov.
        -- exact (Id id' u H Hc).
      * intros u id' H. destruct (Ii u id' H) as [H1 H2]. split; [exact H1|]. unfold upd. destruct (Nat.eq_dec id id'); [discriminate|exact H2].
      * intros id' r H. destruct (It id' r H) as [H1 H2]. split; [|exact H2]. unfold upd. destruct (Nat.eq_dec id id'); auto.
    + intros j id' Hj H. cbn. rewrite upd_other; [auto|]. intros <-. congruence.
  - (* SSetFields *)
    injection A as <- <-. set (s' := mkShared _ _ _ _ _ _ _).
    assert (Ce : forall id', sh_once s id' = ODone -> cells s' id' = cells s id').
    { intros id' H. unfold cells. cbn. rewrite upd_other; [reflexivity|]. intros <-. congruence. }
    assert (M : mono s s') by (constructor; cbn; auto).
    split; [|split; [exact M|]].
    + constructor; cbn; auto.
      * intros id' u H Hc. rewrite (Ce id' H). eapply valid_mono; [exact M|]. auto.
      * intros id' r H. destruct (It id' r H) as [H1 H2]. split; [exact H1|]. now rewrite (Ce id' H1).
    + intros j id' Hj H. cbn. rewrite upd_other; [auto|]. intros <-. congruence.
  - (* SSetErr *)
    injection A as <- <-. set (s' := mkShared _ _ _ _ _ _ _).
    assert (Ce : forall id', sh_once s id' = ODone -> cells s' id' = cells s id').
    { intros id' H. unfold cells. cbn. rewrite upd_other; [reflexivity|]. intros <-. congruence. }
    assert (M : mono s s') by (constructor; cbn; auto).
    split; [|split; [exact M|]].
    + constructor; cbn; auto.
      * intros id' u H Hc. rewrite (Ce id' H). eapply valid_mono; [exact M|]. auto.
      * intros id' r H. destruct (It id' r H) as [H1 H2]. split; [exact H1|]. now rewrite (Ce id' H1).
    + intros j id' Hj H. cbn. rewrite upd_other; [auto|]. intros <-. congruence.
  - injection A as <- <-. split; [exact I|]. split; [apply mono_refl|]. auto.
  - injection A as <- <-. split; [exact I|]. split; [apply mono_refl|]. auto.
  - (* SNote *)
    injection A as <- <-. set (s' := mkShared _ _ _ _ _ _ _).
    assert (M : mono s s') by (constructor; cbn; auto).
    split; [|split; [exact M|auto]].
    constructor; cbn; auto.
    + intros id H. destruct (Io id H) as (t & H1 & H2). exists t. split; [exact H1|]. apply in_or_app. now left.
    + intros t c H. apply in_app_or in H as [H|[H|[]]]; [auto|]. rewrite H in O. exact O.
    + intros t id H. apply in_app_or in H as [H|[H|[]]]; [auto|]. rewrite H in O. destruct O.
    + unfold inits. rewrite flat_map_app. destruct h; cbn; try rewrite app_nil_r; try exact Iis. destruct O.
    + intros id r H. apply in_app_or in H as [H|[H|[]]]; [exact (It id r H)|]. rewrite H in O. exact O.
Qed.

(** ** A goroutine's program, with the others interfering after each access *)
Fixpoint wp (i : nat) {A} (p : prog shE A) (Q : A -> shared -> Prop) (s : shared) : Prop :=
  match p with
  | Ret a => Q a s
  | Crash _ => True
  | Vis e k => ok i e s /\ forall s1 x, access i e s = Some (s1, x) ->
                 forall s2, rely i s1 s2 -> inv s2 -> wp i (k x) Q s2
  end.

Lemma wp_bind i A B (p : prog shE A) (f : A -> prog shE B) Q : forall s,
  wp i p (fun a s' => wp i (f a) Q s') s -> wp i (bind p f) Q s.
Proof using.
  induction p as [a|X e k IH|c]; intros s H; cbn [bind wp] in *; auto. destruct H as [O H]. split; [exact O|].
  intros s1 x A1 s2 R I. apply IH. exact (H s1 x A1 s2 R I).
Qed.
Lemma wp_conseq i A (p : prog shE A) (Q Q' : A -> shared -> Prop) : (forall a s, Q a s -> Q' a s) -> forall s, wp i p Q s -> wp i p Q' s.
Proof using.
  intros W. induction p as [a|X e k IH|c]; intros s H; cbn [wp] in *; auto. destruct H as [O H]. split; [exact O|].
  intros s1 x A1 s2 R I. apply IH. exact (H s1 x A1 s2 R I).
Qed.

(** Accesses that leave the tables alone. *)
Definition quiet {X} (e : shE X) : bool :=
  match e with SNew _ | SLoad _ | SLoadOrStore _ _ | SNote _ | SGetErr _ | SGetFields _ => true | _ => false end.
Lemma quiet_rely i X (e : shE X) s s' x : quiet e = true -> inv s -> ok i e s -> access i e s = Some (s', x) -> rely i s s'.
Proof using.
  intros Hq I O A. destruct (access_keeps i X e s s' x I O A) as (_ & M & _). split; [exact M|]. intros id H.
  destruct e; try discriminate Hq; cbn [access] in A; try destruct (sh_cache s t); injection A as <- <-; auto.
Qed.
Lemma wp_quiet i A X (e : shE X) (k : X -> prog shE A) Q s : quiet e = true -> inv s -> ok i e s ->
  (forall s1 x s2, access i e s = Some (s1, x) -> inv s2 -> rely i s1 s2 -> rely i s s2 -> wp i (k x) Q s2) -> wp i (Vis e k) Q s.
Proof using.
  intros Hq I O H. split; [exact O|]. intros s1 x A1 s2 R I2. apply (H s1 x s2); auto.
  eapply rely_trans; [exact (quiet_rely i X e s s1 x Hq I O A1)|exact R].
Qed.

(** *** Lookups *)
Definition found (i : nat) (t : rtype) (s : shared) (c : cod) (s' : shared) : Prop :=
  inv s' /\ rely i s s' /\ sh_cache s' t = Some c.
Definition made (i : nat) (t : rtype) (s : shared) (c : cod) (s' : shared) : Prop :=
  inv s' /\ rely i s s' /\ codec env t (erase c) /\ sh_type s' (c_id c) = Some t /\ forall d, In d (children c) -> held s' d.

Lemma found_codec i t s c s' : found i t s c s' -> codec env t (erase c).
Proof using. intros (I & _ & H). exact (proj1 (iv_cache s' I t c H)). Qed.
Lemma cached_keeps i s s' t c : rely i s s' -> sh_cache s t = Some c -> sh_cache s' t = Some c.
Proof using. intros [M _]. apply (mo_cache _ _ M). Qed.
Lemma typed_keeps i s s' id t : rely i s s' -> sh_type s id = Some t -> sh_type s' id = Some t.
Proof using. intros [M _]. apply (mo_type _ _ M). Qed.

Lemma make_wp i rec t s : inv s -> (forall u s, inv s -> wp i (rec u) (found i u s) s) ->
  wp i (make_codec env rec t) (made i t s) s.
Proof using.
  intros I Rec. unfold make_codec. cbn [bind call]. apply wp_quiet; [reflexivity|exact I|exact Logic.I|].
  intros s1 id s2 A1 I2 R12 R2.
  assert (T : sh_type s2 id = Some t).
  { eapply typed_keeps; [exact R12|]. cbn [access] in A1. injection A1 as <- <-. cbn. apply upd_same. }
  clear A1 R12.
  assert (Leaf : forall a, codec env t a -> wp i (Ret (CLeaf id a)) (made i t s) s2).
  { intros a C. cbn [wp]. split; [exact I2|]. split; [exact R2|]. split; [exact C|]. split; [exact T|]. intros d []. }
  assert (Seq : forall set e, (forall a n, lookup env n e = Some a -> lookup env (S n) t = Some (ASeq t set a)) ->
    wp i (c <- rec e ;; Ret (CSeq id t set c)) (made i t s) s2).
  { intros set e Hl. apply wp_bind. eapply wp_conseq; [|apply Rec; exact I2]. intros c s3 F. pose proof (found_codec _ _ _ _ _ F) as [n C].
    destruct F as (I3 & R3 & H3). cbn [wp]. split; [exact I3|]. split; [eapply rely_trans; eauto|].
    split; [exists (S n); cbn [erase]; now apply Hl|]. split; [eapply typed_keeps; eauto|]. intros d [<-|[]]. now exists e. }
  assert (L1 : forall a, lookup env 1 t = Some a -> codec env t a) by (intros a H; exists 1%nat; exact H).
  destruct (under env t) eqn:U;
    try (apply Leaf, L1; cbn [lookup]; rewrite U; reflexivity).
  - (* slice *)
    destruct (implements_set env t) eqn:S1; [apply Seq; intros a n E; cbn [lookup]; rewrite U, S1, E; reflexivity|].
    destruct (implements_list env t) eqn:S2; [apply Seq; intros a n E; cbn [lookup]; rewrite U, S1, S2, E; reflexivity|].
    destruct (as_bytes env t) eqn:S3; [apply Leaf, L1; cbn [lookup]; rewrite U, S1, S2, S3; reflexivity|].
    apply Seq; intros a n E; cbn [lookup]; rewrite U, S1, S2, S3, E; reflexivity.
  - (* array *)
    assert (E : exists a, lookup env 1 t = Some a /\ forall (K : arsh -> prog shE cod), K a = match n with
      | 16 => match r with RtUint8 => match t with RtArray _ _ => K (AUUID t) | _ => K (AInvalid t) end | _ => K (AInvalid t) end
      | _ => K (AInvalid t) end).
    { cbn [lookup]. rewrite U. repeat match goal with |- context [match ?x with _ => _ end] => destruct x end; eexists; split; reflexivity. }
    destruct E as (a & E & K). specialize (K (fun a => Ret (CLeaf id a))). cbn beta in K. rewrite <- K. apply Leaf, L1, E.
  - (* map *)
    apply wp_bind. eapply wp_conseq; [|apply Rec; exact I2]. intros c s3 F. pose proof (found_codec _ _ _ _ _ F) as [n C].
    destruct F as (I3 & R3 & H3). apply wp_bind. eapply wp_conseq; [|apply Rec; exact I3]. intros c' s4 F'.
    pose proof (found_codec _ _ _ _ _ F') as [n' C']. destruct F' as (I4 & R4 & H4). cbn [wp]. split; [exact I4|].
    split; [eapply rely_trans; [exact R2|]; eapply rely_trans; eauto|]. split.
    { exists (S (n + n')). cbn [erase lookup]. rewrite U, (lookup_more env n (n + n') _ _ ltac:(lia) C), (lookup_more env n' (n + n') _ _ ltac:(lia) C'). reflexivity. }
    split; [eapply typed_keeps; [exact R4|]; eapply typed_keeps; eauto|]. intros d [<-|[<-|[]]].
    + exists r1. eapply cached_keeps; eauto.
    + exists r2. exact H4.
  - (* pointer *)
    apply wp_bind. eapply wp_conseq; [|apply Rec; exact I2]. intros c s3 F. pose proof (found_codec _ _ _ _ _ F) as [n C].
    destruct F as (I3 & R3 & H3). cbn [wp]. split; [exact I3|]. split; [eapply rely_trans; eauto|].
    split; [exists (S n); cbn [erase lookup]; now rewrite U, C|]. split; [eapply typed_keeps; eauto|]. intros d [<-|[]]. now exists r.
Qed.

Lemma lookup_wp i n : forall t s, inv s -> wp i (lookupArshaler env n t) (found i t s) s.
Proof using.
  induction n as [|n IH]; intros t s I; cbn [lookupArshaler]; [exact Logic.I|].
  cbn [bind call]. apply wp_quiet; [reflexivity|exact I|exact Logic.I|]. intros s1 v s2 A1 I2 R12 R2.
  apply wp_bind with (A := cod). apply wp_conseq with (Q := found i t s).
  - intros c s3 (I3 & R3 & H3). apply wp_quiet; [reflexivity|exact I3|exact H3|]. intros s4 [] s5 A4 I5 R45 R35.
    cbn [wp]. split; [exact I5|]. split; [eapply rely_trans; eauto|]. eapply cached_keeps; eauto.
  - cbn [access] in A1. injection A1 as <- <-. destruct (sh_cache s t) as [c|] eqn:C.
    + cbn [wp]. split; [exact I2|]. split; [exact R2|]. eapply cached_keeps; eauto.
    + apply wp_bind. eapply wp_conseq; [|apply make_wp; [exact I2|exact IH]]. intros c s3 (I3 & R3 & C3 & T3 & D3).
      apply wp_quiet; [reflexivity|exact I3|split; auto|]. intros s4 c' s5 A4 I5 R45 R35.
      cbn [wp]. split; [exact I5|]. split; [eapply rely_trans; [exact R2|]; eapply rely_trans; eauto|].
      eapply cached_keeps; [exact R45|]. cbn [access] in A4. destruct (sh_cache s3 t) as [c''|] eqn:C'; injection A4 as <- <-; [exact C'|].
      cbn. apply updt_same.
Qed.

(** *** Field tables *)
Definition collected (s : shared) (t : rtype) (j : nat) (fs : list sfield) (r : (list structField * list (nat * cod)) + err) : Prop :=
  match r with
  | inr e => exists n, collect_fields env n t j fs = Some (inr e)
  | inl (l, ps) =>
      (exists n, collect_fields env n t j fs = Some (inl l)) /\
      (forall f, In f l -> exists c, In (f_index f, c) ps /\ sh_cache s (f_typ f) = Some c /\ erase c = f_fncs f) /\
      NoDup (map fst ps) /\
      (forall i c, In (i, c) ps -> (j <= i)%nat /\ held s c)
  end.

Lemma collect_wp i n t fs : forall j s, inv s ->
  wp i (collect_table env n t j fs) (fun r s' => inv s' /\ rely i s s' /\ collected s' t j fs r) s.
Proof using.
  induction fs as [|sf r IH]; intros j s I; cbn [collect_table].
  { cbn [wp]. split; [exact I|]. split; [apply rely_refl|]. cbn. split; [exists O; reflexivity|]. split; [intros f []|].
    split; [constructor|]. intros k c []. }
  destruct (parse_field_options (te_uni env) sf) as [[o ig] [e|]] eqn:Po.
  { assert (G : inv s /\ rely i s s /\ collected s t j (sf :: r) (inr (ESemantic "" 0 (Some t) (Some e)))).
    { split; [exact I|]. split; [apply rely_refl|]. exists O. cbn [collect_fields]. rewrite Po. destruct ig; reflexivity. }
    destruct ig; exact G. }
  destruct ig.
  { eapply wp_conseq; [|apply IH; exact I]. intros x s' (I' & R' & C). split; [exact I'|]. split; [exact R'|].
    destruct x as [[l ps]|e].
    - destruct C as ([m C] & F & N & P). split; [exists m; cbn [collect_fields]; now rewrite Po|]. split; [exact F|]. split; [exact N|].
      intros k c H. destruct (P k c H). split; [lia|auto].
    - destruct C as [m C]. exists m. cbn [collect_fields]. now rewrite Po. }
  apply wp_bind. eapply wp_conseq; [|apply lookup_wp; exact I]. intros c s1 F1. pose proof (found_codec _ _ _ _ _ F1) as [n1 C1].
  destruct F1 as (I1 & R1 & H1). apply wp_bind. eapply wp_conseq; [|apply IH; exact I1]. intros x s2 (I2 & R2 & C2).
  assert (R : rely i s s2) by (eapply rely_trans; eauto).
  destruct x as [[l ps]|e]; cbn [wp]; (split; [exact I2|]); (split; [exact R|]).
  - destruct C2 as ([m C2] & F & N & P). split; [|split; [|split]].
    + exists (n1 + m)%nat. cbn [collect_fields]. rewrite Po, (lookup_more env n1 (n1 + m) _ _ ltac:(lia) C1).
      now rewrite (collect_more env m (n1 + m) t r ltac:(lia) _ _ C2).
    + intros f [<-|Hf]; cbn.
      * exists c. split; [now left|]. split; [exact (cached_keeps i s1 s2 _ _ R2 H1)|reflexivity].
      * destruct (F f Hf) as (d & D1 & D2 & D3). exists d. split; [now right|]. auto.
    + cbn. constructor; [|exact N]. intros H. apply in_map_iff in H as ([k d] & Hk & H). cbn in Hk. subst k. apply P in H as [H _]. lia.
    + intros k d [H|H].
      * injection H as <- <-. split; [lia|]. exists (sf_type sf). exact (cached_keeps i s1 s2 _ _ R2 H1).
      * apply P in H as [H H']. split; [lia|exact H'].
  - destruct C2 as [m C2]. exists (n1 + m)%nat. cbn [collect_fields]. rewrite Po, (lookup_more env n1 (n1 + m) _ _ ltac:(lia) C1).
    now rewrite (collect_more env m (n1 + m) t r ltac:(lia) _ _ C2).
Qed.

Lemma table_wp i n t s : inv s -> wp i (make_table env n t) (fun r s' => inv s' /\ rely i s s' /\ valid s' t r) s.
Proof using Henv.
  intros I. unfold make_table. apply wp_bind. eapply wp_conseq; [|apply collect_wp; exact I].
  intros x s' (I' & R & C). destruct x as [[l ps]|e].
  2:{ cbn [wp]. split; [exact I'|]. split; [exact R|]. destruct C as [m C]. exists m. unfold make_struct_fields. now rewrite C. }
  destruct C as ([m C] & F & N & P).
  assert (V : (forall n, collect_fields env n t 0 (struct_def env t) = Some (inl l) -> make_struct_fields env n t = Some (inl (te_sort env l))) ->
    valid s' t (inl (mkTable (te_sort env l) ps))).
  { intros E. cbn. split; [exists m; now apply E|]. split; [|split; [exact N|]].
    - intros f Hf. apply F. eapply Permutation_in; [symmetry; apply (ok_sort_perm env Henv)|exact Hf].
    - intros k c H. exact (proj2 (P k c H)). }
  destruct (struct_def env t) as [|d ds] eqn:Sd.
  { cbn [wp]. split; [exact I'|]. split; [exact R|]. apply V. intros k E. unfold make_struct_fields. rewrite Sd. now rewrite E. }
  destruct l as [|f l].
  - destruct (existsb has_tag (d :: ds)) eqn:Ht; cbn [wp]; (split; [exact I'|]); (split; [exact R|]).
    + apply V. intros k E. unfold make_struct_fields. rewrite Sd, E, Ht. reflexivity.
    + exists m. unfold make_struct_fields. rewrite Sd, C, Ht. reflexivity.
  - cbn [wp]. split; [exact I'|]. split; [exact R|]. apply V. intros k E. unfold make_struct_fields. rewrite Sd, E. reflexivity.
Qed.

Lemma open_wp i n id t s : inv s -> sh_cache s t = Some (CStruct id t) ->
  wp i (open_table env n id t) (fun r s' => inv s' /\ mono s s' /\ valid s' t r) s.
Proof using Henv.
  intros I Hc. unfold open_table. cbn [bind call]. split; [exact Hc|]. intros s1 b A1 s2 R12 I2.
  destruct (access_keeps i _ (SOnce id t) s s1 b I Hc A1) as (I1 & M1 & _).
  assert (M2 : mono s s2) by (eapply mono_trans; [exact M1|exact (proj1 R12)]).
  apply wp_bind with (A := unit). apply wp_conseq with (Q := fun _ s' => inv s' /\ mono s s' /\ sh_once s' id = ODone).
  - intros [] s3 (I3 & M3 & D3). apply wp_quiet; [reflexivity|exact I3|exact D3|]. intros s4 e s5 A4 I5 R45 R35.
    cbn [access] in A4. injection A4 as <- <-.
    destruct (mo_done _ _ (proj1 R35) id D3) as [D5 Ce5].
    assert (V5 : valid s5 t (cells s5 id)).
    { apply (iv_done s5 I5); [exact D5|]. apply (mo_cache _ _ (proj1 R35)), (mo_cache _ _ M3), Hc. }
    assert (M5 : mono s s5) by (eapply mono_trans; [exact M3|exact (proj1 R35)]).
    apply wp_bind with (A := (table + err)%type). apply wp_conseq with (Q := fun r s' => inv s' /\ mono s s' /\ sh_once s' id = ODone /\ cells s' id = r /\ valid s' t r).
    + intros r s6 (I6 & M6 & D6 & Ce6 & V6). apply wp_quiet; [reflexivity|exact I6|split; [exact D6|exact Ce6]|].
      intros s7 [] s8 A7 I8 R78 R68. cbn [wp]. split; [exact I8|]. split; [eapply mono_trans; [exact M6|exact (proj1 R68)]|].
      eapply valid_mono; [exact (proj1 R68)|exact V6].
    + destruct (sh_err s3 id) as [e|] eqn:Er.
      * assert (E : cells s5 id = inr e) by (rewrite Ce5; unfold cells; now rewrite Er).
        rewrite E in V5. cbn [wp]. auto.
      * apply wp_quiet; [reflexivity|exact I5|exact D5|]. intros s6 f s7 A6 I7 R67 R57. cbn [access] in A6. injection A6 as <- <-.
        destruct (mo_done _ _ (proj1 R57) id D5) as [D7 Ce7]. cbn [wp].
        assert (E : cells s5 id = inl (match sh_fields s5 id with Some tb => tb | None => mkTable [] [] end)).
        { destruct (cells s5 id) as [tb|e] eqn:Ce.
          - unfold cells in Ce. destruct (sh_err s5 id); [discriminate|]. congruence.
          - unfold cells in Ce5. rewrite Er in Ce5. discriminate. }
        rewrite <- E. split; [exact I7|]. split; [eapply mono_trans; [exact M5|exact (proj1 R57)]|]. split; [exact D7|]. split; [exact Ce7|].
        eapply valid_mono; [exact (proj1 R57)|exact V5].
  - cbn [access] in A1. destruct (sh_once s id) as [|j|] eqn:On; [|discriminate|].
    2:{ injection A1 as <- <-. cbn [wp]. split; [exact I2|]. split; [exact M2|]. exact (proj1 (mo_done _ _ (proj1 R12) id On)). }
    injection A1 as <- <-.
    assert (On2 : sh_once s2 id = ORunning i) by (apply (proj2 R12 id); cbn; apply upd_same).
    apply wp_bind. eapply wp_conseq; [|apply table_wp; exact I2]. intros x s3 (I3 & R23 & V3).
    assert (M3 : mono s s3) by (eapply mono_trans; [exact M2|exact (proj1 R23)]).
    assert (On3 : sh_once s3 id = ORunning i) by exact (proj1 (proj2 R23 id On2)).
    (* fields = ... *)
    cbn [bind call]. split; [exact On3|]. intros s4 [] A4 s5 R45 I5.
    destruct (access_keeps i _ (SSetFields id _) s3 s4 tt I3 On3 A4) as (_ & M34 & _).
    cbn [access] in A4. injection A4 as <-.
    assert (M5 : mono s3 s5) by (eapply mono_trans; [exact M34|exact (proj1 R45)]).
    destruct (proj2 R45 id) as (On5 & F5 & E5); [exact On3|]. cbn in F5, E5. rewrite upd_same in F5.
    (* errInit = ... *)
    cbn [bind call]. split; [exact On5|]. intros s6 [] A6 s7 R67 I7.
    destruct (access_keeps i _ (SSetErr id _) s5 s6 tt I5 On5 A6) as (_ & M56 & _).
    cbn [access] in A6. injection A6 as <-.
    assert (M7 : mono s3 s7) by (eapply mono_trans; [exact M5|]; eapply mono_trans; [exact M56|exact (proj1 R67)]).
    destruct (proj2 R67 id) as (On7 & F7 & E7); [exact On5|]. cbn in F7, E7. rewrite upd_same in E7.
    assert (Ce7 : cells s7 id = x).
    { unfold cells. rewrite E7, F7, F5. destruct x; reflexivity. }
    (* done *)
    assert (O7 : ok i (SOnceDone id) s7).
    { split; [exact On7|]. exists t. split; [apply (mo_cache _ _ M7), (mo_cache _ _ M3), Hc|]. rewrite Ce7. eapply valid_mono; [exact M7|exact V3]. }
    cbn [wp call]. split; [exact O7|]. intros s8 [] A8 s9 R89 I9.
    destruct (access_keeps i _ (SOnceDone id) s7 s8 tt I7 O7 A8) as (_ & M78 & _).
    cbn [access] in A8. injection A8 as <-.
    split; [exact I9|]. split; [eapply mono_trans; [exact M3|]; eapply mono_trans; [exact M7|]; eapply mono_trans; [exact M78|exact (proj1 R89)]|].
    apply (mo_done _ _ (proj1 R89) id). cbn. apply upd_same.
Qed.

(** *** Goroutines *)
Lemma held_within s c d : inv s -> within c d -> held s c -> held s d.
Proof using. intros I W. induction W as [c|c d e H W IH]; auto. intros H1. apply IH. eapply (iv_child s I); eauto. Qed.
Lemma struct_own_type t u : codec env t (AStruct u) -> u = t.
Proof using.
  intros [[|n] H]; [discriminate|]. cbn [lookup] in H.
  repeat match type of H with context [match ?x with _ => _ end] => destruct x; try discriminate H end; try congruence; unfold option_map in H; destruct (lookup env n r); discriminate H.
Qed.
Lemma held_struct s id t : inv s -> held s (CStruct id t) -> sh_cache s t = Some (CStruct id t).
Proof using. intros I [u H]. pose proof (proj1 (iv_cache s I u _ H)) as C. cbn in C. apply struct_own_type in C. now subst. Qed.

Lemma goroutine_wp i n A (p : prog useE A) : forall (known : cod -> Prop) s, inv s -> (forall c, known c -> held s c) -> honest known p ->
  wp i (goroutine env n p) (fun _ _ => True) s.
Proof using Henv.
  induction p as [a|X e k IH|c]; intros known s I K H; cbn [goroutine]; [exact Logic.I| |exact Logic.I].
  destruct e as [t|id t]; cbn [honest] in H.
  - apply wp_bind. eapply wp_conseq; [|apply lookup_wp; exact I]. intros c s' (I' & R & Hc).
    eapply IH; [exact I'| |exact (H c)]. intros d [Hd| ->]; [eapply held_mono; [exact (proj1 R)|auto]|now exists t].
  - destruct H as [(c & Kc & W) H]. apply wp_bind. eapply wp_conseq; [|apply open_wp; [exact I|]].
    2:{ apply held_struct; [exact I|]. eapply held_within; eauto. }
    intros r s' (I' & M & V). eapply IH; [exact I'| |exact (H r)].
    intros d [Hd|Hd]; [eapply held_mono; [exact M|auto]|].
    destruct r as [tb|e]; [|destruct Hd]. destruct Hd as [j Hd]. destruct V as (_ & _ & _ & V). eapply V; eauto.
Qed.

(** ** All interleavings *)
Definition safe (c : shared * (nat -> prog shE unit)) : Prop :=
  inv (fst c) /\ forall j s2, rely j (fst c) s2 -> inv s2 -> wp j (snd c j) (fun _ _ => True) s2.

Lemma step_safe c d : safe c -> step c d -> safe d /\ mono (fst c) (fst d).
Proof using.
  intros [I W] H. inversion H as [s pool i X e k s' x P A]; subst. cbn [fst snd] in *.
  pose proof (W i s (rely_refl _ _) I) as Wi. rewrite P in Wi. cbn [wp] in Wi. destruct Wi as [O Wi].
  destruct (access_keeps i X e s s' x I O A) as (I' & M & R). split; [|exact M]. split; cbn [fst snd]; [exact I'|].
  intros j s2 R2 I2. unfold upd. destruct (Nat.eq_dec i j) as [<-|N].
  - exact (Wi s' x A s2 R2 I2).
  - apply W; [|exact I2]. eapply rely_trans; [apply R; auto|exact R2].
Qed.
Lemma steps_safe c d : safe c -> steps c d -> safe d /\ mono (fst c) (fst d).
Proof using.
  intros S0 H. induction H as [c|c d e H IH H']; [split; [exact S0|apply mono_refl]|].
  destruct (IH S0) as [S1 M1]. destruct (step_safe d e S1 H') as [S2 M2]. split; [exact S2|exact (mono_trans _ _ _ M1 M2)].
Qed.
Lemma start_safe n (prgs : nat -> prog useE unit) : (forall i, honest (fun _ => False) (prgs i)) ->
  safe (shared0, fun i => goroutine env n (prgs i)).
Proof using Henv.
  intros H. split; cbn [fst snd]; [apply inv0|]. intros j s2 _ I. eapply goroutine_wp; [exact I| |apply H]. intros c [].
Qed.
End Proof.

(** ** No goroutine waits for ever *)
(** [disc h p]: [p] never ends while in an init, starts no init in another, and
    does not crash; [h] is the init it is in. *)
Fixpoint disc (h : option nat) {A} (p : prog shE A) (Q : A -> option nat -> Prop) : Prop :=
  match p with
  | Ret a => Q a h
  | Crash _ => False
  | Vis e k =>
      match e in shE X return (X -> option nat -> Prop) -> Prop with
      | SOnce id _ => fun k => h = None /\ k true (Some id) /\ k false None
      | SOnceDone id => fun k => h = Some id /\ k tt None
      | _ => fun k => forall x, k x h
      end (fun x h => disc h (k x) Q)
  end.
Lemma disc_bind A B (p : prog shE A) (f : A -> prog shE B) Q : forall h,
  disc h p (fun a h' => disc h' (f a) Q) -> disc h (bind p f) Q.
Proof.
  induction p as [a|X e k IH|c]; intros h H; cbn [bind disc] in *; auto.
  destruct e; try (intros x; apply IH, H).
  - destruct H as (H1 & H2 & H3). split; [exact H1|]. split; apply IH; assumption.
  - destruct H as (H1 & H2). split; [exact H1|]. apply IH, H2.
Qed.
Lemma disc_conseq A (p : prog shE A) (Q Q' : A -> option nat -> Prop) : (forall a h, Q a h -> Q' a h) -> forall h, disc h p Q -> disc h p Q'.
Proof.
  intros W. induction p as [a|X e k IH|c]; intros h H; cbn [disc] in *; auto.
  destruct e; try (intros x; apply IH, H).
  - destruct H as (H1 & H2 & H3). split; [exact H1|]. split; apply IH; assumption.
  - destruct H as (H1 & H2). split; [exact H1|]. apply IH, H2.
Qed.

(** The goroutine only uses types whose codecs and tables can be made, within
    the bound on the depth of recursion, and does not panic. *)
Fixpoint bounded (env : tenv) (n : nat) {A} (p : prog useE A) : Prop :=
  match p with
  | Ret _ => True
  | Crash _ => False
  | Vis e k =>
      match e with
      | ULookup t => lookup env n t <> None
      | UFields id t => make_struct_fields env n t <> None
      end /\ forall x, bounded env n (k x)
  end.

Section Progress.
Context (env : tenv).
Notation same h := (fun _ h' => h' = h).
Lemma lookup_disc n : forall t h, lookup env n t <> None -> disc h (lookupArshaler env n t) (same h).
Proof.
  induction n as [|n IH]; intros t h H; [destruct H; reflexivity|]. cbn [lookupArshaler bind call disc]. intros v.
  apply disc_bind with (A := cod). apply disc_conseq with (Q := same h); [intros c h' ->; cbn; auto|].
  destruct v as [c|]; [reflexivity|]. apply disc_bind. apply disc_conseq with (Q := same h); [intros c h' ->; cbn; auto|].
  unfold make_codec. cbn [bind call disc]. intros id. cbn [lookup] in H.
  assert (Seq : forall set e, option_map (ASeq t set) (lookup env n e) <> None -> disc h (c <- lookupArshaler env n e ;; Ret (CSeq id t set c)) (same h)).
  { intros set e He. apply disc_bind. apply disc_conseq with (Q := same h); [intros c h' ->; reflexivity|]. apply IH.
    intros E. rewrite E in He. now apply He. }
  destruct (under env t) eqn:U; try reflexivity.
  - repeat match goal with |- context [if ?b then _ else _] => destruct b end; try reflexivity; apply Seq; exact H.
  - repeat match goal with |- context [match ?x with _ => _ end] => destruct x; try reflexivity end.
  - apply disc_bind. apply disc_conseq with (Q := same h).
    + intros c h' ->. apply disc_bind. apply disc_conseq with (Q := same h); [intros c' h' ->; reflexivity|]. apply IH.
      intros E. rewrite E in H. destruct (lookup env n r1); now apply H.
    + apply IH. intros E. rewrite E in H. now apply H.
  - apply disc_bind. apply disc_conseq with (Q := same h); [intros c h' ->; reflexivity|]. apply IH.
    intros E. rewrite E in H. now apply H.
Qed.
Lemma collect_disc n t fs : forall j h, collect_fields env n t j fs <> None -> disc h (collect_table env n t j fs) (same h).
Proof.
  induction fs as [|sf r IH]; intros j h H; cbn [collect_table collect_fields] in *; [reflexivity|].
  destruct (parse_field_options (te_uni env) sf) as [[o ig] [e|]]; [destruct ig; reflexivity|].
  destruct ig; [now apply IH|]. apply disc_bind. apply disc_conseq with (Q := same h).
  - intros c h' ->. apply disc_bind. apply disc_conseq with (Q := same h); [intros [[l ps]|e] h' ->; reflexivity|]. apply IH.
    intros E. rewrite E in H. destruct (lookup env n (sf_type sf)); now apply H.
  - apply lookup_disc. intros E. rewrite E in H. now apply H.
Qed.
Lemma open_disc n id t : make_struct_fields env n t <> None -> disc None (open_table env n id t) (same None).
Proof.
  intros H. unfold open_table.
  assert (T : disc None (e <- call (SGetErr id) ;;
    r <- match e with Some e => Ret (inr e) | None => f <- call (SGetFields id) ;; Ret (inl (match f with Some tb => tb | None => mkTable [] [] end)) end ;;
    _ <- call (SNote (HTable id r)) ;; Ret r) (same None)).
  { cbn [bind call disc]. intros [e|]; cbn [bind call disc]; auto. }
  apply disc_bind. cbn [call disc]. split; [reflexivity|]. split.
  - apply disc_bind. apply disc_bind. apply disc_conseq with (Q := same (Some id)).
    + intros x h ->. cbn [bind call disc]. intros [] []. split; [reflexivity|]. exact T.
    + unfold make_table. apply disc_bind. apply disc_conseq with (Q := same (Some id)).
      * intros [[l ps]|e] h ->; [|reflexivity]. destruct (struct_def env t); [reflexivity|]. destruct l; [|reflexivity].
        destruct (existsb _ _); reflexivity.
      * apply collect_disc. intros E. apply H. unfold make_struct_fields. now rewrite E.
  - exact T.
Qed.
Lemma goroutine_disc n A (p : prog useE A) : bounded env n p -> disc None (goroutine env n p) (same None).
Proof.
  induction p as [a|X e k IH|c]; intros H; cbn [goroutine bounded] in *; [reflexivity| |destruct H].
  destruct H as [He Hk]. destruct e as [t|id t]; apply disc_bind; apply disc_conseq with (Q := same None).
  - intros c h ->. apply IH, Hk.
  - now apply lookup_disc.
  - intros c h ->. apply IH, Hk.
  - now apply open_disc.
Qed.

Definition tracks (c : shared * (nat -> prog shE unit)) (hs : nat -> option nat) : Prop :=
  (forall j, disc (hs j) (snd c j) (same None)) /\ forall id j, sh_once (fst c) id = ORunning j <-> hs j = Some id.
Lemma step_tracks c d hs : tracks c hs -> step c d -> exists hs', tracks d hs'.
Proof.
  intros [D T] H. inversion H as [s pool i X e k s' x P A]; subst. cbn [fst snd] in *.
  pose proof (D i) as Di. rewrite P in Di. cbn [disc] in Di.
  assert (Same : disc (hs i) (k x) (same None) -> sh_once s' = sh_once s -> exists hs', tracks (s', upd pool i (k x)) hs').
  { intros Dk E. exists hs. split; cbn [fst snd].
    - intros j. unfold upd. destruct (Nat.eq_dec i j) as [<-|]; auto.
    - intros id j. rewrite E. apply T. }
  destruct e; cbn [access] in A; try (injection A as <- <-; apply Same; [exact (Di _)|reflexivity]).
  - destruct (sh_cache s t); injection A as <- <-; apply Same; try reflexivity; exact (Di _).
  - destruct Di as (Hi & Dt & Df). destruct (sh_once s id) as [|j|] eqn:On; [|discriminate|].
    + injection A as <- <-. exists (upd hs i (Some id)). split; cbn [fst snd sh_once].
      * intros j. unfold upd. destruct (Nat.eq_dec i j) as [<-|]; auto.
      * intros id' j. unfold upd. destruct (Nat.eq_dec id id') as [<-|N], (Nat.eq_dec i j) as [<-|Nj].
        -- split; congruence.
        -- split; [congruence|]. intros E. apply T in E. congruence.
        -- split; [|congruence]. intros E. apply T in E. congruence.
        -- apply T.
    + injection A as <- <-. apply Same; [|reflexivity]. rewrite Hi. exact Df.
  - destruct Di as (Hi & Dk). injection A as <- <-. exists (upd hs i None). split; cbn [fst snd sh_once].
    + intros j. unfold upd. destruct (Nat.eq_dec i j) as [<-|]; auto.
    + intros id' j. unfold upd. destruct (Nat.eq_dec id id') as [<-|N], (Nat.eq_dec i j) as [<-|Nj].
      * split; congruence.
      * split; [congruence|]. intros E. apply T in E. apply T in Hi. congruence.
      * split; [|congruence]. intros E. apply T in E. congruence.
      * apply T.
Qed.
Lemma steps_tracks c d hs : tracks c hs -> steps c d -> exists hs', tracks d hs'.
Proof.
  intros T H. induction H as [c|c d e H IH H']; [eauto|]. destruct (IH T) as [hs' T']. eapply step_tracks; eauto.
Qed.
Lemma tracks_progress s pool hs i : tracks (s, pool) hs -> pool i <> Ret tt -> exists d, step (s, pool) d.
Proof.
  intros [D T] Hi. cbn [fst snd] in *.
  assert (Run : forall j X (e : shE X) k, pool j = Vis e k -> (forall id, hs j = Some id \/ match e with SOnce _ _ => False | _ => True end) ->
    exists d, step (s, pool) d).
  { intros j X e k P Hj. destruct (access j e s) as [[s' x]|] eqn:A; [eexists; eapply Step; eauto|].
    pose proof (D j) as Dj. rewrite P in Dj. exfalso. destruct e; cbn [access] in A; try discriminate A.
    - destruct (sh_cache s t); discriminate A.
    - cbn [disc] in Dj. destruct Dj as (Dj & _). destruct (Hj id) as [E|[]]. congruence. }
  pose proof (D i) as Di. destruct (pool i) as [[]|X e k|c] eqn:P; [now destruct Hi| |destruct Di].
  destruct (access i e s) as [[s' x]|] eqn:A; [eexists; eapply Step; eauto|].
  assert (W : exists id j, sh_once s id = ORunning j).
  { destruct e; cbn [access] in A; try discriminate A; [destruct (sh_cache s t); discriminate A|].
    destruct (sh_once s id) as [|j|] eqn:On; try discriminate A. eauto. }
  destruct W as (id & j & On). apply T in On. pose proof (D j) as Dj. rewrite On in Dj.
  destruct (pool j) as [u|X' e' k'|c] eqn:Pj; [discriminate Dj| |destruct Dj].
  eapply Run; [exact Pj|]. intros id'. right. destruct e'; auto. cbn [disc] in Dj. destruct Dj as (Dj & _). discriminate.
Qed.
End Progress.
