(** Exactly when codec lookup and Marshal end (C31). *)
From Coq Require Import Strings.String Sorting.Sorted.
From Verif Require Import Base BaseLemmas Prog BinaryProof Wire Spec GoFloat Utf8 GoType Fields Arshal GoTypeProof FieldsProof
  ArshalSpec ArshalEnc ArshalTrip ArshalTotal ArshalThms ArshalCalls MapSpec MapProof.

Local Open Scope list_scope.

Section Ends.
Context (env : tenv).

(** ** Lookup *)
Lemma lookup_eager n : forall t a, lookup env n t = Some a -> Acc (eager env) t.
Proof.
  induction n as [|n IH]; intros t a H; [discriminate|]. constructor. intros e He. unfold eager in He. cbn [lookup] in H.
  destruct (under env t) as [| | | | | | | | | | | | | | | | | | | | |x|k x|kt x|x|sid|id] eqn:U; try contradiction.
  - destruct He as [B ->]. rewrite B in H. destruct (lookup env n x) as [b|] eqn:L; [eauto|].
    destruct (implements_set env t), (implements_list env t); discriminate.
  - destruct (lookup env n kt) as [b|] eqn:L1, (lookup env n x) as [c|] eqn:L2; try discriminate. destruct He as [->| ->]; eauto.
  - subst x. destruct (lookup env n e) as [b|] eqn:L; [eauto|discriminate].
Qed.

Context (P : rtype -> Prop) (HK : forall t, P t -> supported_kind env P t) (HE : forall t, P t -> Acc (eager env) t) (Henv : env_ok env).

(** ** Values with a meaning are written *)
Lemma field_type_of vs fs i v sf : Forall2 (fun v f => has_type env v (sf_type f)) vs fs ->
  nth_error fs i = Some sf -> nth_error vs i = Some v -> has_type env v (sf_type sf).
Proof.
  intros H. revert i. induction H as [|x y l m Hx Hl IH]; intros [|i] N Nv; try discriminate; [|eauto].
  injection N as <-. injection Nv as <-. exact Hx.
Qed.

Lemma stop_free a t : P t -> codec env t a -> (wire_type a =? T_Stop) = false.
Proof using HK. intros Pt C. apply Z.eqb_neq. now apply (kind_wire env P HK a t). Qed.

Lemma field_P t s sf o : P t -> under env t = RtStruct s -> In sf (te_struct env s) -> tagged env sf o -> P (sf_type sf).
Proof using HK.
  intros Pt U N T. pose proof (HK t Pt) as K. unfold supported_kind in K. rewrite U in K. destruct K as [K _].
  destruct (K sf N) as [(o' & _ & H)|(o' & H)]; [exact H|]. unfold tagged in T. rewrite H in T. discriminate.
Qed.

Lemma imaged_elems ea es e : P e -> codec env e ea -> Forall (fun v => imaged env ea v) es ->
  exists n l, forall m ln, (n <= m)%nat -> (n <= ln)%nat -> image_elems (image env ln m) ea es = Some l.
Proof using HK HE.
  intros Pe C. induction 1 as [|v r Hv Hr (n & l & E)]; [exists O, []; reflexivity|].
  destruct (imaged_at env _ _ Hv) as (n' & tv & E'). exists (n + n')%nat, (tv :: l). intros m ln Hm Hl. cbn [image_elems]. now rewrite E', E by lia.
Qed.

Lemma imaged_slice t e a nl es sp : under env t = RtSlice e -> P t -> codec env t a -> has_type env (GSlice nl es sp) t ->
  (forall ea, P e -> codec env e ea -> Forall (fun v => imaged env ea v) es) -> imaged env a (GSlice nl es sp).
Proof using HK HE.
  intros U Pt C Ht H. apply type_slice in Ht as (e' & U' & B & _). rewrite U in U'. injection U' as <-.
  pose proof (codec_inv env _ _ C) as Hi. pose proof (HK t Pt) as K. unfold supported_kind in K. rewrite U in K. destruct K as [K|Pe]; [congruence|].
  destruct a as [t'|t'|t' single|t' w|t' w|t'|t'|t'|t'|t' ka va|t' set ea|t' ea];
    try (exfalso; now apply (kind_wire env P HK _ t Pt C));
    try (exfalso; destruct Hi as [? Hi]; subst t'; rewrite U in Hi; first [discriminate|destruct single; discriminate|destruct w; discriminate
      |destruct Hi as [_ Hi]; congruence|destruct Hi as [? Hi]; discriminate|destruct Hi as (? & Hi & _); discriminate|destruct Hi as (? & ? & Hi & _); discriminate]).
  - destruct Hi as (-> & e' & U' & _ & Ce & _). rewrite U in U'. injection U' as <-.
    destruct (imaged_elems ea es e Pe Ce (H ea Pe Ce)) as (n & l & E). exists (S n). cbn [image].
    rewrite (stop_free ea e Pe Ce), E by lia. eexists. reflexivity.
Qed.

Lemma stands_imaged t v tv : stands_for env t v tv -> forall a, P t -> codec env t a -> has_type env v t -> imaged env a v.
Proof using HK HE Henv.
  revert t v tv. refine (stands_ind env (fun t v tv => forall a, P t -> codec env t a -> has_type env v t -> imaged env a v) _ _ _ _ _ _ _).
  - intros t v tv S Hv a Pt C Ht. pose proof (codec_inv env _ _ C) as Hi. pose proof (kind_wire env P HK a t Pt C) as W.
    destruct a as [t'|t'|t' single|t' w|t' w|t'|t'|t'|t'|t' ka va|t' set ea|t' ea]; try (now elim W);
    destruct v as [b|z|z|z|z|nl x sp|u|es|nl es sp|o|o|vs|k]; try contradiction;
    try (destruct Hi as [-> U]; cbn [has_type] in Ht; rewrite U in Ht;
         first [contradiction | destruct w; contradiction | destruct single; contradiction
               | exists 1%nat; eexists; reflexivity | destruct w; exists 1%nat; eexists; reflexivity
               | destruct single; [exists 1%nat; eexists; reflexivity|contradiction]
               | destruct single; [contradiction|exists 1%nat; eexists; reflexivity]]; fail);
    try (destruct Hi as (-> & U & B); cbn [has_type] in Ht; rewrite U in Ht; contradiction);
    try (destruct Hi as (-> & s & U); cbn [has_type] in Ht; rewrite U in Ht; contradiction);
    try (destruct Hi as (-> & s & U & _); cbn [has_type] in Ht; rewrite U in Ht; contradiction);
    try (destruct Hi as (-> & s & e & U & _); cbn [has_type] in Ht; rewrite U in Ht; contradiction).
    all: try (exists 1%nat; eexists; reflexivity).
    all: try (destruct Hi as (-> & e & U & B & _); exfalso; cbn [has_type] in Ht; rewrite U in Ht; destruct Ht as [Ht _]; congruence).
    all: try (destruct Hi as (-> & U); exfalso; cbn [has_type] in Ht; rewrite U in Ht; destruct Ht as [Ht _]; now apply Ht).
  - intros t e k nl es sp tvs U _ _ _ F a Pt C Ht. apply (imaged_slice t e); auto. intros ea Pe Ce.
    apply type_slice in Ht as (e' & U' & _ & _ & Ht & _). rewrite U in U'. injection U' as <-.
    clear - F Ht Pe Ce. induction F; constructor; inversion_clear Ht; auto.
  - intros t e k nl es sp tvs U _ _ F a Pt C Ht. apply (imaged_slice t e); auto. intros ea Pe Ce.
    apply type_slice in Ht as (e' & U' & _ & _ & Ht & _). rewrite U in U'. injection U' as <-.
    clear - F Ht Pe Ce. induction F; constructor; inversion_clear Ht; auto.
  - intros t k e kk ke o tvs U _ _ F a Pt C Ht. pose proof (codec_inv env _ _ C) as Hi. pose proof (HK t Pt) as K. unfold supported_kind in K. rewrite U in K.
    destruct K as [Pk Pe].
    destruct a as [t'|t'|t' single|t' w|t' w|t'|t'|t'|t'|t' ka va|t' set ea|t' ea];
      try (exfalso; now apply (kind_wire env P HK _ t Pt C));
      try (exfalso; destruct Hi as [? Hi]; subst t'; rewrite U in Hi; first [discriminate|destruct single; discriminate|destruct w; discriminate
        |destruct Hi as [Hi _]; discriminate|destruct Hi as [? Hi]; discriminate|destruct Hi as (? & Hi & _); discriminate]).
    + destruct Hi as (-> & k' & e' & U' & Ck & Ce). rewrite U in U'. injection U' as <- <-.
      set (es := match o with Some es => es | None => [] end) in *.
      assert (Hty : Forall (fun p => has_type env (fst p) k /\ has_type env (snd p) e) es).
      { subst es. destruct o as [es|]; [|constructor]. apply type_map in Ht as (k' & e' & U' & Ht). rewrite U in U'. injection U' as <- <-. exact Ht. }
      assert (G : exists n l, forall m ln, (n <= m)%nat -> (n <= ln)%nat -> image_entries (image env ln m) ka va es = Some l).
      { clearbody es. clear - F Hty Pk Pe Ck Ce. revert Hty. induction F as [|[x y] q ps qs [A B] F IH]; intros Hty; [exists O, []; reflexivity|].
        inversion_clear Hty as [|? ? [H1 H2] Hr]. cbn [fst snd] in *. destruct (IH Hr) as (n & l & E).
        destruct (imaged_at env _ _ (A ka Pk Ck H1)) as (n1 & tk & E1). destruct (imaged_at env _ _ (B va Pe Ce H2)) as (n2 & tv & E2).
        exists (n + n1 + n2)%nat, ((tk, tv) :: l). intros m ln Hm Hl. cbn [image_entries]. now rewrite E1, E2, E by lia. }
      destruct G as (n & l & E). exists (S n). cbn [image]. fold es. rewrite (stop_free ka k Pk Ck), (stop_free va e Pe Ce), E by lia. eexists. reflexivity.
  - intros t e v tv U IH a Pt C Ht. pose proof (codec_inv env _ _ C) as Hi. pose proof (HK t Pt) as K. unfold supported_kind in K. rewrite U in K.
    cbn [has_type] in Ht. rewrite U in Ht.
    destruct a as [t'|t'|t' single|t' w|t' w|t'|t'|t'|t'|t' ka va|t' set ea|t' ea];
      try (exfalso; now apply (kind_wire env P HK _ t Pt C));
      try (exfalso; destruct Hi as [? Hi]; subst t'; rewrite U in Hi; first [discriminate|destruct single; discriminate|destruct w; discriminate
        |destruct Hi as [Hi _]; discriminate|destruct Hi as [? Hi]; discriminate|destruct Hi as (? & Hi & _); discriminate|destruct Hi as (? & ? & Hi & _); discriminate]).
    + destruct Hi as (-> & e' & U' & Ce). rewrite U in U'. injection U' as <-.
      destruct (imaged_at env _ _ (IH ea K Ce Ht)) as (n & x & E). exists (S n), x. cbn [image]. apply E; lia.
  - intros t e tv U IH a Pt C Ht. pose proof (codec_inv env _ _ C) as Hi. pose proof (HK t Pt) as K. unfold supported_kind in K. rewrite U in K.
    destruct a as [t'|t'|t' single|t' w|t' w|t'|t'|t'|t'|t' ka va|t' set ea|t' ea];
      try (exfalso; now apply (kind_wire env P HK _ t Pt C));
      try (exfalso; destruct Hi as [? Hi]; subst t'; rewrite U in Hi; first [discriminate|destruct single; discriminate|destruct w; discriminate
        |destruct Hi as [Hi _]; discriminate|destruct Hi as [? Hi]; discriminate|destruct Hi as (? & Hi & _); discriminate|destruct Hi as (? & ? & Hi & _); discriminate]).
    + destruct Hi as (-> & e' & U' & Ce). rewrite U in U'. injection U' as <-.
      destruct (imaged_at env _ _ (IH ea K Ce (zero_typed env Henv e))) as (n & x & E). exists (S n), x. cbn [image]. unfold elem_type. rewrite U. apply E; lia.
  - intros t s vs js l U _ J F _ a Pt C Ht. pose proof (codec_inv env _ _ C) as Hi.
    destruct a as [t'|t'|t' single|t' w|t' w|t'|t'|t'|t'|t' ka va|t' set ea|t' ea];
      try (exfalso; now apply (kind_wire env P HK _ t Pt C));
      try (exfalso; destruct Hi as [? Hi]; subst t'; rewrite U in Hi; first [discriminate|destruct single; discriminate|destruct w; discriminate
        |destruct Hi as [Hi _]; discriminate|destruct Hi as (? & Hi & _); discriminate|destruct Hi as (? & ? & Hi & _); discriminate]).
    + destruct Hi as (-> & s' & _). apply (kind_struct env P HK HE Henv t s); auto. intros i sf v a N Nv Ps Ca Wr.
      apply written_sent in Wr. assert (In i js) as Hin by (apply J; eauto).
      destruct (Forall2_l _ _ _ _ F Hin) as (p & _ & sf' & v' & req & N' & Nv' & _ & IH). rewrite N in N'. injection N' as <-. rewrite Nv in Nv'. injection Nv' as <-.
      apply IH; auto. apply type_struct in Ht as (s'' & U'' & Ht). rewrite U in U''. injection U'' as <-. exact (field_type_of _ _ _ _ _ Ht N Nv).
Qed.

(** ** Marshal ends with every Writer *)
Lemma wr_ends {S} (h : handler wireW S) action wt t c : (forall X (e : wireW X) s c, h X e s <> Crashed c) ->
  forall s, exists s' r, run h (wr action wt t c) s = Done s' r.
Proof using.
  intros Hh s. unfold wr. rewrite run_bind, run_call. destruct (h _ c s) as [s' [e|]|x] eqn:E; cbn [obind run]; eauto. now elim (Hh _ c s x).
Qed.

Lemma then_ends {S} (h : handler wireW S) p q : (forall s, exists s' r, run h p s = Done s' r) -> (forall s, exists s' r, run h q s = Done s' r) ->
  forall s, exists s' r, run h (p >>! q) s = Done s' r.
Proof using.
  intros Hp Hq s. rewrite run_and_then. destruct (Hp s) as (s' & [e|] & E); rewrite E; cbn [obind]; eauto.
Qed.

Lemma image_ends ln n : forall a v tv, image env ln n a v = Some tv ->
  forall S (h : handler wireW S), (forall X (e : wireW X) s c, h X e s <> Crashed c) -> forall s, exists s' r, run h (marshal env ln n a v) s = Done s' r.
Proof using.
  induction n as [|n IH]; intros a v tv H S h Hh; [discriminate|].
  destruct a as [t|t|t single|t w|t w|t|t|t|t|t ka va|t set ea|t ea];
    destruct v as [b|z|z|z|z|nl x sp|u|es|nl es sp|o|o|vs|k]; try discriminate; cbn [image marshal] in *; try discriminate; try (destruct single; discriminate); try (now apply wr_ends); try (destruct single; first [discriminate|now apply wr_ends]).
  - destruct (make_struct_fields env ln t) as [[fs|]|]; try discriminate. apply then_ends; [now apply wr_ends|].
    destruct (image_fields env (image env ln n) vs fs) as [l|] eqn:E; [|discriminate]. clear H. revert l E.
    induction fs as [|f r IHr]; intros l E; cbn [image_fields marshal_fields] in *; [now apply wr_ends|].
    destruct (wire_type (f_fncs f) =? T_Stop); [discriminate|]. destruct (nth_error vs (f_index f)) as [v|]; [|discriminate].
    destruct (negb (f_required f) && field_zero env f v); [eauto|].
    destruct (image env ln n (f_fncs f) v) as [tw|] eqn:Ev; [|discriminate].
    destruct (image_fields env (image env ln n) vs r) as [l'|]; [|discriminate].
    repeat apply then_ends; try (now apply wr_ends); eauto.
  - destruct (_ || _); [discriminate|]. apply then_ends; [now apply wr_ends|].
    destruct (image_entries (image env ln n) ka va _) as [l|] eqn:E; [|discriminate]. clear H. revert l E. generalize (match o with Some es => es | None => [] end).
    intros es. induction es as [|[k w] r IHr]; intros l E; cbn [image_entries marshal_entries] in *; [now apply wr_ends|].
    destruct (image env ln n ka k) as [tk|] eqn:Ek; [|discriminate]. destruct (image env ln n va w) as [tw|] eqn:Ew; [|discriminate].
    destruct (image_entries (image env ln n) ka va r) as [l'|]; [|discriminate]. repeat apply then_ends; eauto.
  - destruct (wire_type ea =? T_Stop); [discriminate|]. apply then_ends; [destruct set; now apply wr_ends|].
    destruct (image_elems (image env ln n) ea es) as [l|] eqn:E; [|discriminate]. clear H. revert l E.
    induction es as [|w r IHr]; intros l E; cbn [image_elems marshal_elems] in *; [destruct set; now apply wr_ends|].
    destruct (image env ln n ea w) as [tw|] eqn:Ew; [|discriminate]. destruct (image_elems (image env ln n) ea r) as [l'|]; [|discriminate].
    apply then_ends; eauto.
  - destruct o; eauto.
Qed.

(** ** With a Writer that accepts everything it goes on for ever or writes a value *)
Definition or_writes ln n a v : Prop :=
  run accept (marshal env ln n a v) tt = Crashed OutOfFuel \/
  run accept (marshal env ln n a v) tt = Done tt None /\ exists tv, image env ln n a v = Some tv.

Local Ltac acc :=
  match goal with |- context [run accept (wr ?a ?b ?c ?e) ?s] => change (run accept (wr a b c e) s) with (@Done unit (option err) s None) end.

Lemma table_inl ln t s r : P t -> under env t = RtStruct s -> make_struct_fields env ln t = Some r -> exists fs, r = inl fs.
Proof using HK HE Henv.
  intros Pt U M. destruct (kind_table env P HK HE Henv t s Pt U) as (ln' & fs & M').
  apply (make_fields_more env ln (ln + ln') t r ltac:(lia)) in M. apply (make_fields_more env ln' (ln + ln') t _ ltac:(lia)) in M'.
  rewrite M in M'. injection M' as ->. eauto.
Qed.

Lemma marshal_or ln n : forall t a v, P t -> codec env t a -> has_type env v t -> or_writes ln n a v.
Proof using HK HE Henv.
  induction n as [|n IH]; intros t a v Pt C Ht; [now left|]. unfold or_writes.
  pose proof (codec_inv env _ _ C) as Hi. pose proof (kind_wire env P HK a t Pt C) as W. pose proof (HK t Pt) as K. unfold supported_kind in K.
  destruct a as [t'|t'|t' single|t' w|t' w|t'|t'|t'|t'|t' ka va|t' set ea|t' ea]; try (now elim W);
    destruct v as [b|z|z|z|z|nl x sp|u|es|nl es sp|o|o|vs|k];
    try (destruct Hi as [-> U]; cbn [has_type] in Ht; rewrite U in Ht;
         first [contradiction | destruct w; contradiction | destruct single; contradiction]; fail);
    try (destruct Hi as (-> & U & B); cbn [has_type] in Ht; rewrite U in Ht; contradiction);
    try (destruct Hi as (-> & s & U); cbn [has_type] in Ht; rewrite U in Ht; contradiction);
    try (destruct Hi as (-> & s & U & _); cbn [has_type] in Ht; rewrite U in Ht; contradiction);
    try (destruct Hi as (-> & s & e & U & _); cbn [has_type] in Ht; rewrite U in Ht; contradiction);
    cbn [marshal image]; try (acc; right; eauto; fail); try (destruct w; cbn [write_action width_type width_write]; acc; right; eauto; fail).
  all: try (destruct Hi as [-> U]; cbn [has_type] in Ht; rewrite U in Ht; destruct single; try contradiction; acc; right; eauto; fail).
  all: try (destruct Hi as (-> & e & U & B & _); exfalso; cbn [has_type] in Ht; rewrite U in Ht; destruct Ht as [Ht _]; congruence).
  all: try (destruct Hi as (-> & U); exfalso; cbn [has_type] in Ht; rewrite U in Ht; destruct Ht as [Ht _]; now apply Ht).
  all: try (destruct Hi as (-> & U & B); exfalso; cbn [has_type] in Ht; rewrite U in Ht; destruct Ht as [Ht _]; congruence).
  all: try (destruct o; destruct Hi as [-> Hi]; repeat match type of Hi with _ /\ _ => destruct Hi as [Hi _] | exists _, _ => destruct Hi as [? Hi] end;
    exfalso; cbn [has_type] in Ht; rewrite Hi in Ht; first [contradiction|destruct w; contradiction|destruct single; contradiction]).
  - destruct Hi as (-> & s & U). apply type_struct in Ht as (s' & U' & Ht). rewrite U in U'. injection U' as <-.
    destruct (make_struct_fields env ln t) as [r|] eqn:M; [|now left]. destruct (table_inl ln t s r Pt U M) as (fs & ->).
    destruct (fields_spec env Henv ln t fs M) as (F1 & _ & _).
    assert (SD : struct_def env t = te_struct env s) by (unfold struct_def; now rewrite U). rewrite SD in F1.
    rewrite run_and_then; acc. cbn [obind].
    assert (G : run accept (marshal_fields env (marshal env ln n) t vs fs) tt = Crashed OutOfFuel \/
      run accept (marshal_fields env (marshal env ln n) t vs fs) tt = Done tt None /\ exists l, image_fields env (image env ln n) vs fs = Some l).
    { assert (Hsub : forall f, In f fs -> exists sf v, P (sf_type sf) /\ codec env (sf_type sf) (f_fncs f) /\ nth_error vs (f_index f) = Some v /\ has_type env v (sf_type sf)).
      { intros f Hf. apply F1 in Hf as (j & sf & o & a & N & T & L & ->). exists sf. cbn.
        destruct (nth_error vs j) as [v|] eqn:Nv.
        2:{ exfalso. apply nth_error_None in Nv. rewrite (ArshalTrip.Forall2_len _ _ _ Ht) in Nv.
            assert (j < length (te_struct env s))%nat by (apply nth_error_Some; congruence). lia. }
        exists v. conj; auto; [exact (field_P t s sf o Pt U (nth_error_In _ _ N) T)|now exists ln|exact (field_type_of _ _ _ _ _ Ht N Nv)]. }
      clear M F1. induction fs as [|f r IHr]; cbn [marshal_fields image_fields]; [right; acc; eauto|].
      destruct (Hsub f (or_introl eq_refl)) as (sf & v & Psf & Cf & Nv & Hv). rewrite (stop_free _ _ Psf Cf), Nv.
      specialize (IHr (fun g Hg => Hsub g (or_intror Hg))).
      destruct (negb (f_required f) && field_zero env f v); [exact IHr|].
      rewrite run_and_then; acc. cbn [obind]. rewrite run_and_then.
      destruct (IH (sf_type sf) (f_fncs f) v Psf Cf Hv) as [E|[E (tv & Ev)]]; rewrite E; cbn [obind]; [now left|]. rewrite run_and_then; acc. cbn [obind].
      destruct IHr as [E'|[E' (l & El)]]; [now left|]. right. rewrite Ev, El. eauto. }
    destruct G as [G|[G (l & El)]]; [now left|]. right. rewrite El. cbn [option_map]. eauto.
  - destruct Hi as (-> & kt & e & U & Ck & Ce). rewrite U in K. destruct K as [Pk Pe]. rewrite (stop_free ka kt Pk Ck), (stop_free va e Pe Ce). cbn [orb].
    set (es := match o with Some es => es | None => [] end) in *.
    assert (Hty : Forall (fun p => has_type env (fst p) kt /\ has_type env (snd p) e) es).
    { subst es. destruct o as [es|]; [|constructor]. apply type_map in Ht as (k' & e' & U' & Ht). rewrite U in U'. injection U' as <- <-. exact Ht. }
    rewrite run_and_then; acc. cbn [obind].
    assert (G : run accept (marshal_entries (marshal env ln n) t ka va es) tt = Crashed OutOfFuel \/
      run accept (marshal_entries (marshal env ln n) t ka va es) tt = Done tt None /\ exists l, image_entries (image env ln n) ka va es = Some l).
    { clearbody es. induction Hty as [|[x y] r [Hx Hy] Hr IHr]; cbn [marshal_entries image_entries]; [right; acc; eauto|]. cbn [fst snd] in *.
      rewrite run_and_then. destruct (IH kt ka x Pk Ck Hx) as [E|[E (tx & Ex)]]; rewrite E; cbn [obind]; [now left|].
      rewrite run_and_then. destruct (IH e va y Pe Ce Hy) as [E'|[E' (ty & Ey)]]; rewrite E'; cbn [obind]; [now left|].
      destruct IHr as [G|[G (l & El)]]; [now left|]. right. rewrite Ex, Ey, El. eauto. }
    destruct G as [G|[G (l & El)]]; [now left|]. right. rewrite El. cbn [option_map]. eauto.
  - destruct Hi as (-> & e & U & B & Ce & _). rewrite U in K. destruct K as [K|Pe]; [congruence|]. rewrite (stop_free ea e Pe Ce).
    apply type_slice in Ht as (e' & U' & _ & _ & Ht & _). rewrite U in U'. injection U' as <-.
    rewrite run_and_then. assert (Q : forall b, run accept (if set then wr "WriteSetBegin" T_Set t (WSetBegin b) else wr "WriteListBegin" T_List t (WListBegin b)) tt = Done tt None)
      by (intros; destruct set; acc; reflexivity). rewrite Q. cbn [obind].
    assert (G : run accept (marshal_elems (marshal env ln n) t set ea es) tt = Crashed OutOfFuel \/
      run accept (marshal_elems (marshal env ln n) t set ea es) tt = Done tt None /\ exists l, image_elems (image env ln n) ea es = Some l).
    { induction Ht as [|x r Hx Hr IHr]; cbn [marshal_elems image_elems]; [right; destruct set; acc; eauto|].
      rewrite run_and_then. destruct (IH e ea x Pe Ce Hx) as [E|[E (tx & Ex)]]; rewrite E; cbn [obind]; [now left|].
      destruct IHr as [G|[G (l & El)]]; [now left|]. right. rewrite Ex, El. eauto. }
    destruct G as [G|[G (l & El)]]; [now left|]. right. rewrite El. cbn [option_map]. eauto.
  - destruct Hi as (-> & e & U & Ce). rewrite U in K. unfold elem_type. rewrite U. cbn [has_type] in Ht. rewrite U in Ht.
    destruct o as [w|]; [exact (IH e ea w K Ce Ht)|exact (IH e ea _ K Ce (zero_typed env Henv e))].
Qed.

(** ** Zero values *)
Lemma stands_demand t v tv : stands_for env t v tv -> v = zero env t -> Acc (demand env) t.
Proof using Henv.
  revert t v tv. refine (stands_ind env (fun t v tv => v = zero env t -> Acc (demand env) t) _ _ _ _ _ _ _).
  - intros t v tv S Hv Hz. constructor. intros e He. exfalso. rewrite (zero_eq env Henv) in Hz. unfold demand in He. subst v.
    destruct (under env t); contradiction.
  - intros t e k nl es sp tvs U _ _ _ _ _. constructor. intros x Hx. unfold demand in Hx. rewrite U in Hx. contradiction.
  - intros t e k nl es sp tvs U _ _ _ _. constructor. intros x Hx. unfold demand in Hx. rewrite U in Hx. contradiction.
  - intros t k e kk ke o tvs U _ _ _ _. constructor. intros x Hx. unfold demand in Hx. rewrite U in Hx. contradiction.
  - intros t e v tv U _ Hz. rewrite (zero_eq env Henv), U in Hz. discriminate.
  - intros t e tv U IH _. constructor. intros x Hx. unfold demand in Hx. rewrite U in Hx. subst x. auto.
  - intros t s vs js l U _ J F _ Hz. rewrite (zero_eq env Henv), U in Hz. injection Hz as ->. constructor. intros x Hx. unfold demand in Hx. rewrite U in Hx.
    destruct Hx as (sf & Hin & -> & W). apply In_nth_error in Hin as (i & N). apply written_sent in W.
    assert (Nv : nth_error (map (fun f => zero env (sf_type f)) (te_struct env s)) i = Some (zero env (sf_type sf))) by (rewrite nth_error_map, N; reflexivity).
    assert (In i js) as Hj by (apply J; eauto).
    destruct (Forall2_l _ _ _ _ F Hj) as (p & _ & sf' & v' & req & N' & Nv' & _ & IH). rewrite N in N'. injection N' as <-. rewrite Nv in Nv'. injection Nv' as <-. auto.
Qed.
End Ends.
