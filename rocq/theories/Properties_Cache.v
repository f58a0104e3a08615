(** Property C32: goroutines calling Marshal and Unmarshal at the same time see
    one codec per type and one complete field table per struct. *)
From Coq Require Import Strings.String.
From Verif Require Import Base BaseLemmas Prog Wire GoType Fields FieldsProof ArshalExample Cache CacheProof.
Local Open Scope list_scope.

(** [reachable env prgs c]: goroutine [i] runs [prgs i], which makes up no
    codecs; [c] is the shared memory, and what is left of each goroutine, after
    some interleaving, starting with an empty cache. *)
Definition reachable (env : tenv) (n : nat) (prgs : nat -> prog useE unit) (c : shared * (nat -> prog shE unit)) : Prop :=
  (forall i, honest (fun _ => False) (prgs i)) /\
  steps (shared0, fun i => goroutine env n (prgs i)) c.

Section Properties.
Context (env : tenv) (Henv : env_ok env) (n : nat) (prgs : nat -> prog useE unit).
Notation reachable := (reachable env n prgs).

Lemma reachable_safe c : reachable c -> safe env c.
Proof. intros [H S]. exact (proj1 (steps_safe env _ _ (start_safe env Henv n prgs H) S)). Qed.

(** All lookups of a type return the same [*arshaler] -- the same object, with
    the same objects in it -- and it is the type's codec. *)
Theorem C32_one_codec c t x y : reachable c ->
  In (HReturn t x) (sh_log (fst c)) -> In (HReturn t y) (sh_log (fst c)) -> x = y /\ codec env t (erase x).
Proof.
  intros R Hx Hy. destruct (reachable_safe c R) as [I _]. apply (iv_return env _ I) in Hx, Hy.
  split; [congruence|]. exact (proj1 (iv_cache env _ I t x Hx)).
Qed.

(** A cached codec is never replaced. *)
Theorem C32_never_changes c d t x : reachable c -> steps c d ->
  sh_cache (fst c) t = Some x -> sh_cache (fst d) t = Some x.
Proof.
  intros R S H. destruct (steps_safe env c d (reachable_safe c R) S) as [_ M]. exact (mo_cache _ _ M t x H).
Qed.

(** makeStructFields starts at most once per type, in whatever object. *)
Theorem C32_built_once c t before after id id' : reachable c ->
  sh_log (fst c) = before ++ HInit t id :: after -> ~ In (HInit t id') (before ++ after).
Proof.
  intros R E H. destruct (reachable_safe c R) as [I _]. pose proof (iv_inits env _ I) as N. rewrite E in N.
  unfold inits in N. rewrite flat_map_app in N. cbn [flat_map app] in N. apply NoDup_remove_2 in N. apply N.
  rewrite <- flat_map_app. apply in_flat_map. exists (HInit t id'). split; [exact H|now left].
Qed.

(** A table that is observed was built, once, and is complete: it is what
    makeStructFields computes for the struct, and its fields have the codecs
    that lookups of their types return.  All observers see the same table. *)
Theorem C32_complete_table c id r : reachable c -> In (HTable id r) (sh_log (fst c)) ->
  exists t, In (HInit t id) (sh_log (fst c)) /\ sh_cache (fst c) t = Some (CStruct id t) /\
    match r with
    | inr e => exists n, make_struct_fields env n t = Some (inr e)
    | inl tb =>
        (exists n, make_struct_fields env n t = Some (inl (tb_fields tb))) /\
        forall f, In f (tb_fields tb) -> exists x, (forall y, In (f_index f, y) (tb_ptrs tb) <-> y = x) /\
          sh_cache (fst c) (f_typ f) = Some x /\ erase x = f_fncs f
    end /\
    forall r', In (HTable id r') (sh_log (fst c)) -> r' = r.
Proof.
  intros R H. destruct (reachable_safe c R) as [I _]. destruct (iv_table env _ I id r H) as [D E].
  destruct (iv_once env _ I id) as (t & Hc & Hi); [congruence|]. exists t. split; [exact Hi|]. split; [exact Hc|]. split.
  - pose proof (iv_done env _ I id t D Hc) as V. rewrite E in V. destruct r as [tb|e]; [|exact V].
    destruct V as (V1 & V2 & V3 & _). split; [exact V1|]. intros f Hf. destruct (V2 f Hf) as (x & X1 & X2 & X3).
    exists x. split; [|auto]. intros y. split; [|intros ->; exact X1]. intros Y.
    assert (G : forall (l : list (nat * cod)) k a b, NoDup (map fst l) -> In (k, a) l -> In (k, b) l -> a = b); [|eapply G; eauto].
    clear. induction l as [|[j z] l IH]; intros k a b N A B; [destruct A|].
    cbn in N. inversion N as [|? ? N1 N2]; subst. destruct A as [A|A], B as [B|B].
    + congruence.
    + injection A as -> ->. destruct N1. apply in_map_iff. exists (k, b). auto.
    + injection B as -> ->. destruct N1. apply in_map_iff. exists (k, a). auto.
    + eapply IH; eauto.
  - intros r' H'. destruct (iv_table env _ I id r' H') as [_ E']. congruence.
Qed.

(** Nobody touches a table while another goroutine builds it: before an access
    to the variables fields and errInit of the object [id], either its
    sync.Once is done and the access is a read, or this goroutine is running
    the init. *)
Theorem C32_no_race c i X (e : shE X) k : reachable c -> snd c i = Vis e k ->
  match e with
  | SGetErr id | SGetFields id => sh_once (fst c) id = ODone
  | SSetErr id _ | SSetFields id _ => sh_once (fst c) id = ORunning i
  | _ => True
  end.
Proof.
  intros R P. destruct (reachable_safe c R) as [I W]. specialize (W i (fst c) (rely_refl _ _) I). rewrite P in W.
  destruct W as [O _]. destruct e; auto.
Qed.

(** If the goroutines panic nowhere and their types have codecs, then while one
    of them has not ended, one of them can go on: waiting for a sync.Once never
    blocks them all. *)
Theorem C32_no_deadlock c i : (forall j, bounded env n (prgs j)) -> reachable c ->
  snd c i <> Ret tt -> exists d, step c d.
Proof.
  intros B [_ S] H.
  destruct (steps_tracks (shared0, fun i => goroutine env n (prgs i)) c (fun _ => None)) as [hs T]; [|exact S|].
  - split; cbn; [|split; discriminate]. intros j. apply goroutine_disc, B.
  - destruct c as [s pool]. cbn [snd] in H. eapply tracks_progress; eauto.
Qed.
End Properties.
Print Assumptions C32_one_codec.
Print Assumptions C32_never_changes.
Print Assumptions C32_built_once.
Print Assumptions C32_complete_table.
Print Assumptions C32_no_race.
Print Assumptions C32_no_deadlock.

(** ** A race *)
Definition use_node : prog useE unit :=
  Vis (ULookup Node) (fun c =>
    match c with
    | CStruct id t => if rtype_eq_dec t Node then Vis (UFields id Node) (fun _ => Ret tt) else Ret tt
    | _ => Ret tt
    end).
Definition race (i : nat) : prog useE unit := match i with O | S O => use_node | _ => Ret tt end.

Fixpoint schedule (l : list nat) (c : shared * (nat -> prog shE unit)) : option (shared * (nat -> prog shE unit)) :=
  match l with
  | [] => Some c
  | i :: l =>
      match snd c i with
      | Vis e k => match access i e (fst c) with Some (s, x) => schedule l (s, upd (snd c) i (k x)) | None => None end
      | _ => None
      end
  end.
Lemma schedule_steps l : forall c d, schedule l c = Some d -> steps c d.
Proof.
  assert (L : forall c d e, step c d -> steps d e -> steps c e).
  { intros c d e H S. induction S; [eapply steps_step; [apply steps_refl|exact H]|]. eapply steps_step; eauto. }
  induction l as [|i l IH]; intros [s pool] d H; cbn [schedule fst snd] in H; [injection H as <-; constructor|].
  destruct (pool i) eqn:P; try discriminate. destruct (access i e s) as [[s' x]|] eqn:A; [|discriminate].
  eapply L; [|apply IH; exact H]. eapply Step; eauto.
Qed.

Lemma race_honest i : honest (fun _ => False) (race i).
Proof.
  destruct i as [|[|i]]; cbn; auto; intros [| id t | | |]; cbn; auto; destruct (rtype_eq_dec t Node) as [->|]; cbn; auto;
    (split; [|auto]; eexists; split; [right; reflexivity|constructor]).
Qed.
Lemma race_bounded i : bounded node_env 3 (race i).
Proof.
  destruct i as [|[|i]]; cbn [race use_node bounded]; auto; (split; [vm_compute; discriminate|]); intros [| id t | | |]; cbn; auto;
    destruct (rtype_eq_dec t Node) as [->|]; cbn [bounded]; auto; (split; [vm_compute; discriminate|]); intros; exact I.
Qed.

Fixpoint returns (l : list happened) : list (rtype * cod) :=
  match l with HReturn t c :: r => (t, c) :: returns r | _ :: r => returns r | [] => [] end.
(** Both find the cache empty and make a codec; goroutine 1 stores its first.
    Goroutine 0 gets it too and starts the init.  Then 1 can only wait; when 0
    has ended, 1 reads the table. *)
Example C32_sample :
  let c0 := (shared0, fun i => goroutine node_env 3 (race i)) in
  let first := [0;1;0;1;1;0;1;0;0]%nat in
  match schedule first c0, schedule (first ++ [1%nat]) c0, schedule (first ++ repeat O 34 ++ repeat 1%nat 4) c0 with
  | Some (s, _), None, Some (s', pool) =>
      returns (sh_log s) = [(Node, CStruct 1 Node); (Node, CStruct 1 Node)] /\ sh_once s 1 = ORunning 0 /\
      inits (sh_log s') = [Node] /\ sh_once s' 1 = ODone /\ pool O = Ret tt /\ pool 1%nat = Ret tt /\
      length (filter (fun h => match h with HTable 1 (inl tb) => (length (tb_fields tb) =? 4)%nat | _ => false end) (sh_log s')) = 2%nat
  | _, _, _ => False
  end.
Proof. vm_compute. repeat split. Qed.
Example C32_sample_reachable : exists c, reachable node_env 3 race c /\ length (sh_log (fst c)) = 13%nat.
Proof.
  destruct (schedule ([0;1;0;1;1;0;1;0;0]%nat ++ repeat O 34 ++ repeat 1%nat 4) (shared0, fun i => goroutine node_env 3 (race i))) as [c|] eqn:E.
  - exists c. split; [split; [exact race_honest|exact (schedule_steps _ _ _ E)]|].
    assert (L : option_map (fun c => length (sh_log (fst c))) (Some c) = Some 13%nat); [|now injection L].
    rewrite <- E. vm_compute. reflexivity.
  - exfalso. assert (L : option_map (fun c => length (sh_log (fst c))) (@None (shared * (nat -> prog shE unit))) = Some 13%nat); [|discriminate L].
    rewrite <- E. vm_compute. reflexivity.
Qed.
