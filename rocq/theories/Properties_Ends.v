(** Property C31, continued: exactly when Marshal ends. *)
From Coq Require Import Strings.String.
From Verif Require Import Base BaseLemmas Prog Wire Spec GoType Fields Arshal GoTypeProof FieldsProof
  ArshalSpec ArshalEnc ArshalTotal ArshalThms ArshalCalls ArshalRefute MapSpec MapProof MarshalEnds.
Local Open Scope list_scope.

(** Building the codec of a type ends just if no chain of pointer, slice and map element types is endless. *)
Theorem C31_codec_exact env t : (exists n a, lookup env n t = Some a) <-> Acc (eager env) t.
Proof.
  split; [intros (n & a & H); exact (lookup_eager env n t a H)|].
  intros H. destruct (lookup_ends env t H) as (a & n & L). eauto.
Qed.
Print Assumptions C31_codec_exact.

(** Types of the supported kinds: a value that stands for a (finite) Thrift value is written in the end, whatever the Writer
    answers.  For one that does not, because zero values would be written inside themselves, Marshal never ends with a Writer
    that accepts everything. *)
Theorem C31_marshal_exact env (P : rtype -> Prop) t v i : env_ok env ->
  (forall t, P t -> supported_kind env P t) -> (forall t, P t -> Acc (eager env) t) -> P t -> has_type env v t -> passes env i t v ->
  ((exists tv, stands_for env t v tv) -> exists N, forall n, (N <= n)%nat ->
     forall S (h : handler wireW S) s, (forall X (e : wireW X) s c, h X e s <> Crashed c) -> exists s' r, run h (Marshal env n n (Some i)) s = Done s' r) /\
  ((forall tv, ~ stands_for env t v tv) -> forall n, run accept (Marshal env n n (Some i)) tt = Crashed OutOfFuel).
Proof.
  intros He HK HE Pt Ht Hp. destruct (lookup_ends env t (HE t Pt)) as (a & l0 & L). split.
  - intros (tv & S). destruct (imaged_at env _ _ (stands_imaged env P HK HE He t v tv S a Pt (ex_intro _ l0 L) Ht)) as (N & x & E).
    exists (l0 + N)%nat. intros n Hn T h s Hh. rewrite (Marshal_passes env n n i t v a Hp (lookup_more env l0 n t a ltac:(lia) L)).
    exact (image_ends env n n a v x (E n n ltac:(lia) ltac:(lia)) T h Hh s).
  - intros Hno n. destruct (lookup env n t) as [b|] eqn:Lb.
    + rewrite (Marshal_passes env n n i t v b Hp Lb).
      destruct (marshal_or env P HK HE He n n t b v Pt (ex_intro _ n Lb) Ht) as [H|[_ (tv & H)]]; [exact H|].
      exfalso. apply (Hno tv). exact (image_stands env He n n t b v tv (ex_intro _ n Lb) Ht H).
    + destruct Hp as [(pt & U & ->)|[Np ->]]; cbn [Marshal]; [unfold is_ptr, elem_type; rewrite U|rewrite Np]; rewrite Lb; reflexivity.
Qed.
Print Assumptions C31_marshal_exact.

(** The zero value of a type (which is what a nil pointer is written as) stands for a Thrift value just if no chain of required
    fields and pointers to be written in it is endless. *)
Theorem C31_zero_exact env (P : rtype -> Prop) t : env_ok env ->
  (forall t, P t -> supported_kind env P t) -> (forall t, P t -> Acc (eager env) t) -> P t ->
  (exists tv, stands_for env t (zero env t) tv) <-> Acc (demand env) t.
Proof.
  intros He HK HE Pt. split; [intros (tv & S); exact (stands_demand env He t _ tv S eq_refl)|].
  intros A. destruct (lookup_ends env t (HE t Pt)) as (a & C). destruct (kind_zero env P HK HE He t A Pt a C) as (n & tv & E).
  exists tv. exact (image_stands env He n n t a _ tv C (zero_typed env He t) E).
Qed.
Print Assumptions C31_zero_exact.

(** The struct with a required pointer to itself: the hypotheses hold, and its zero value demands itself. *)
Example C31_exact_sample : let P := fun t => t = Ring \/ t = RtPtr Ring in
  env_ok ring_env /\ (forall t, P t -> supported_kind ring_env P t) /\ (forall t, P t -> Acc (eager ring_env) t) /\ ~ Acc (demand ring_env) Ring.
Proof.
  cbv zeta. conj.
  - exact ring_ok.
  - intros t [->| ->]; [|now left]. cbn. split; [|right].
    + intros sf [<-|[]]. left. eexists. split; [vm_compute; reflexivity|]. now right.
    + eexists. split; [left; reflexivity|]. left. discriminate.
  - assert (R : Acc (eager ring_env) Ring) by (constructor; intros e []).
    intros t [->| ->]; [exact R|]. constructor. intros e ->. exact R.
  - assert (D1 : demand ring_env (RtPtr Ring) Ring).
    { eexists. split; [left; reflexivity|]. split; [reflexivity|]. eexists. split; [vm_compute; reflexivity|]. left. reflexivity. }
    assert (D2 : demand ring_env Ring (RtPtr Ring)) by reflexivity.
    assert (N : forall t, Acc (demand ring_env) t -> t = Ring \/ t = RtPtr Ring -> False).
    { induction 1 as [t _ IH]. intros [->| ->]; [apply (IH _ D1); auto|apply (IH _ D2); auto]. }
    intros H. apply (N Ring H). auto.
Qed.
