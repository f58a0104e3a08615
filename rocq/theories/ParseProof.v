(** The parser: it always returns, and it reports no error exactly when the
    tokens derive the tree it returns. *)
From Coq Require Import Strings.String.
From Verif Require Import Base BaseLemmas GoType Utf8 Tokens Scan LexSpec LexProof ScanProof Parse GrammarSpec.

Section parser.
Context (u : unicode) (src : list byte).
Notation at_ := (at_ src).
Notation bounded := (bounded src).
Notation next := (p_next u src).
Notation token s := ((s_tok s, s_lit src s) : tok).

(** ** Tokens still to come, if nothing is wrong *)

(** The scanner may be called. *)
Definition ready (s : sstate) : Prop := (exists cs, at_ s cs) /\ (s_tok s = K_EOF -> s_off s = length src).
Definition clean_from (s : sstate) (toks : list tok) : Prop :=
  exists cs, at_ s cs /\ tokens u cs toks /\ Forall ok_char (tl cs).

Lemma at_inj s cs cs' : at_ s cs -> at_ s cs' -> cs = cs'.
Proof. intros A B. now rewrite <- (at_chars _ _ _ A), <- (at_chars _ _ _ B). Qed.

Lemma whites_no_lexes cs k t r : whites cs -> ~ lexes u cs k t r.
Proof.
  intros W (ws & -> & _ & L & _). apply Forall_app in W. destruct W as (_ & W). apply Forall_app in W. destruct W as (W & _).
  destruct t as [|c t]; [now apply (lexeme_nonempty u _ _ L)|]. inversion_clear W as [|? ? Hc _]. now apply (lexeme_not_white u _ _ _ L).
Qed.

Lemma next_lit s s' cs gap t cs' E : next_ok u src s s' cs gap t cs' E -> at_ s cs -> s_lit src s' = text t.
Proof.
  intros N A. unfold s_lit. rewrite (nx_off _ _ _ _ _ _ _ _ _ N), (nx_pos _ _ _ _ _ _ _ _ _ N).
  replace (s_off s + length (text gap) + length (text t) - (s_off s + length (text gap)))%nat with (length (text t)) by lia.
  rewrite <- skipn_skipn'.
  assert (T : skipn (s_off s) src = text gap ++ text t ++ text cs').
  { rewrite <- (text_chars (skipn (s_off s) src)), (at_chars _ _ _ A), (nx_split _ _ _ _ _ _ _ _ _ N), !text_app. reflexivity. }
  rewrite T, skipn_app, skipn_all, Nat.sub_diag. cbn [skipn app]. rewrite firstn_app, firstn_all, Nat.sub_diag. cbn. now rewrite app_nil_r.
Qed.

Lemma news_split t r : t <> [] -> tl (t ++ r) = news t r ++ tl r.
Proof. intros H. destruct t as [|c t]; [congruence|]. unfold news. cbn [app tl]. rewrite <- app_assoc. f_equal. now destruct r. Qed.

Section one.
Context (s s' : sstate) (cs gap t cs' : list char) (E : list perr).
Hypotheses (A : at_ s cs) (N : next_ok u src s s' cs gap t cs' E) (R : s_tok s = K_EOF -> s_off s = length src).

Lemma eof_iff : s_tok s' = K_EOF <-> t = [].
Proof.
  split.
  - intros K. destruct t as [|c t'] eqn:Et; [reflexivity|]. exfalso.
    pose proof (nx_not_end _ _ _ _ _ _ _ _ _ N ltac:(discriminate) K) as K0. apply R in K0.
    apply (proj2 (at_eof _ _ _ A)) in K0. rewrite (nx_split _ _ _ _ _ _ _ _ _ N) in K0. apply app_eq_nil in K0. destruct K0. discriminate.
  - intros K. now apply (nx_end _ _ _ _ _ _ _ _ _ N).
Qed.

Lemma next_ready : ready s'.
Proof.
  split; [exists cs'; apply N|]. intros K. apply eof_iff in K. destruct (nx_end _ _ _ _ _ _ _ _ _ N K) as (-> & _).
  exact (proj1 (at_eof _ _ _ (nx_at _ _ _ _ _ _ _ _ _ N)) eq_refl).
Qed.

Lemma clean_end : E = [] -> s_tok s' = K_EOF -> clean_from s [].
Proof.
  intros E0 K. apply eof_iff in K. exists cs. split; [exact A|]. pose proof (nx_split _ _ _ _ _ _ _ _ _ N) as Ec.
  destruct (nx_end _ _ _ _ _ _ _ _ _ N K) as (C & _). rewrite K, C in Ec. cbn in Ec. rewrite app_nil_r in Ec.
  destruct (nx_token _ _ _ _ _ _ _ _ _ N) as [(_ & L & _)|[(W & _ & I)|(X & _)]].
  - exfalso. rewrite K in L. now apply (lexeme_nonempty u _ _ L).
  - rewrite Ec. split; [now constructor|]. apply I in E0. unfold news in E0. cbn in E0. now rewrite app_nil_r in E0.
  - contradiction.
Qed.

Lemma clean_cons toks : E = [] -> s_tok s' <> K_EOF -> clean_from s' toks -> clean_from s (token s' :: toks).
Proof.
  intros E0 K (cs2 & A2 & T2 & O2). pose proof (at_inj _ _ _ A2 (nx_at _ _ _ _ _ _ _ _ _ N)) as ->. exists cs. split; [exact A|].
  pose proof (nx_split _ _ _ _ _ _ _ _ _ N) as Ec.
  destruct (nx_token _ _ _ _ _ _ _ _ _ N) as [(W & L & St & I)|[(_ & X & _)|(X & _)]].
  - split.
    + rewrite (next_lit _ _ _ _ _ _ _ N A). apply tk_cons with cs'; [|exact T2]. exists gap. auto.
    + rewrite Ec, app_assoc, news_split; [apply Forall_app; split; [now apply I|exact O2]|].
      intros Z0. apply app_eq_nil in Z0. destruct Z0 as (_ & ->). now apply (lexeme_nonempty u _ _ L).
  - apply eof_iff in X. contradiction.
  - contradiction.
Qed.

Lemma clean_end_inv : clean_from s [] -> E = [] /\ s_tok s' = K_EOF.
Proof.
  intros (cs2 & A2 & T2 & O2). pose proof (at_inj _ _ _ A2 A) as ->. inversion T2 as [? W|]; subst.
  destruct (nx_token _ _ _ _ _ _ _ _ _ N) as [(W' & L & St & I)|[(W' & X & I)|(_ & X & _)]].
  - exfalso. apply (whites_no_lexes cs (s_tok s') t cs' W). exists gap. split; [apply N|]. auto.
  - split; [|now apply eof_iff]. apply I. pose proof (nx_split _ _ _ _ _ _ _ _ _ N) as Ec. destruct (nx_end _ _ _ _ _ _ _ _ _ N X) as (C & _).
    rewrite X, C in Ec. cbn in Ec. rewrite app_nil_r in Ec. unfold news. cbn. rewrite app_nil_r, <- Ec. exact O2.
  - contradiction.
Qed.

Lemma clean_cons_inv x toks : clean_from s (x :: toks) -> E = [] /\ s_tok s' <> K_EOF /\ x = token s' /\ clean_from s' toks.
Proof.
  intros (cs2 & A2 & T2 & O2). pose proof (at_inj _ _ _ A2 A) as ->. inversion T2 as [|? k t0 rest ? L0 T3]; subst.
  destruct (nx_token _ _ _ _ _ _ _ _ _ N) as [(W' & L & St & I)|[(W' & X & I)|(_ & _ & X)]].
  - assert (L' : lexes u cs (s_tok s') t cs'). { exists gap. split; [apply N|]. auto. }
    destruct (lexes_unique u _ _ _ _ _ _ _ L0 L') as (-> & -> & ->).
    assert (Hn : gap ++ t <> []). { intros Z0. apply app_eq_nil in Z0. destruct Z0 as (_ & ->). now apply (lexeme_nonempty u _ _ L). }
    pose proof (nx_split _ _ _ _ _ _ _ _ _ N) as Ec. rewrite Ec, app_assoc, (news_split _ _ Hn) in O2. apply Forall_app in O2. destruct O2 as (O2 & O3).
    split; [now apply I|]. split; [intros K; apply eof_iff in K; apply Hn; subst; now apply (lexeme_nonempty u _ _ L) in K || (exfalso; now apply (lexeme_nonempty u _ _ L))|].
    split; [now rewrite (next_lit _ _ _ _ _ _ _ N A)|]. exists cs'. split; [apply N|]. auto.
  - exfalso. pose proof (nx_split _ _ _ _ _ _ _ _ _ N) as Ec. destruct (nx_end _ _ _ _ _ _ _ _ _ N X) as (C & _). rewrite X, C in Ec. cbn in Ec. rewrite app_nil_r in Ec.
    subst. now apply (whites_no_lexes _ _ _ _ W' L0).
  - exfalso. now apply (X k t0 rest).
Qed.
End one.

(** ** p.next *)

(** The parser stands at a token. *)
Record inv (s : sstate) : Prop := mkInv {
  inv_at : exists cs, at_ s cs;
  inv_eof : s_tok s = K_EOF -> s_pos s = length src /\ s_off s = length src;
  inv_tok : s_tok s <> K_EOF -> (s_pos s < s_off s)%nat;
  inv_comment : s_tok s <> K_COMMENT }.

Lemma inv_ready s : inv s -> ready s.
Proof. intros I. split; [apply I|]. intros K. now apply (inv_eof _ I). Qed.
Lemma inv_le s : inv s -> (s_pos s <= s_off s <= length src)%nat.
Proof.
  intros I. destruct (inv_at _ I) as (cs & A). pose proof (at_off _ _ _ A).
  destruct (Z.eq_dec (s_tok s) K_EOF) as [K|K]; [apply (inv_eof _ I) in K|apply (inv_tok _ I) in K]; lia.
Qed.

Definition mu (s : sstate) : nat := length src - s_pos s.
Lemma mu_eof s : inv s -> (mu s = O <-> s_tok s = K_EOF).
Proof.
  intros I. unfold mu. pose proof (inv_le _ I). destruct (Z.eq_dec (s_tok s) K_EOF) as [K|K].
  - pose proof (inv_eof _ I K). split; [auto|lia].
  - pose proof (inv_tok _ I K). split; [lia|contradiction].
Qed.

(** What p.next does: it passes comments, then stops at a token. *)
Record nexts (s s' : sstate) (E : list perr) : Prop := mkNexts {
  ns_run : next s = Ret tt s';
  ns_inv : inv s';
  ns_off : (s_off s <= s_pos s')%nat;
  ns_errs : s_errs s' = s_errs s ++ E;
  ns_bound : bounded E;
  ns_end : E = [] -> s_tok s' = K_EOF -> exists toks, clean_from s toks /\ no_comments toks = [];
  ns_cons : E = [] -> s_tok s' <> K_EOF -> forall toks, clean_from s' toks ->
    exists toks0, clean_from s toks0 /\ no_comments toks0 = token s' :: no_comments toks;
  ns_clean : forall toks, clean_from s toks -> E = [] /\
    ((s_tok s' = K_EOF /\ no_comments toks = []) \/
     (s_tok s' <> K_EOF /\ exists toks', (length toks' < length toks)%nat /\ no_comments toks = token s' :: no_comments toks' /\ clean_from s' toks')) }.

Lemma next_n_ok : forall n s, ready s -> (length src - s_off s < n)%nat ->
  exists s' E, p_next_n u src n s = Ret tt s' /\
    inv s' /\ (s_off s <= s_pos s')%nat /\ s_errs s' = s_errs s ++ E /\ bounded E /\
    (E = [] -> s_tok s' = K_EOF -> exists toks, clean_from s toks /\ no_comments toks = []) /\
    (E = [] -> s_tok s' <> K_EOF -> forall toks, clean_from s' toks ->
      exists toks0, clean_from s toks0 /\ no_comments toks0 = token s' :: no_comments toks) /\
    (forall toks, clean_from s toks -> E = [] /\
      ((s_tok s' = K_EOF /\ no_comments toks = []) \/
       (s_tok s' <> K_EOF /\ exists toks', (length toks' < length toks)%nat /\ no_comments toks = token s' :: no_comments toks' /\ clean_from s' toks'))).
Proof.
  induction n as [|n IH]; intros s ((cs & A) & R) L; [lia|]. cbn [p_next_n].
  destruct (next_spec u src s cs A) as (s1 & gap & t & cs' & E & Hn & N). rewrite Hn.
  pose proof (next_ready _ _ _ _ _ _ _ A N R) as R1. pose proof (eof_iff _ _ _ _ _ _ _ A N R) as EI.
  pose proof (nx_pos _ _ _ _ _ _ _ _ _ N) as Hp. pose proof (nx_off _ _ _ _ _ _ _ _ _ N) as Ho.
  pose proof (nx_at _ _ _ _ _ _ _ _ _ N) as A1. pose proof (at_off _ _ _ A1) as B1.
  assert (TN : s_tok s1 <> K_EOF -> (s_pos s1 < s_off s1)%nat).
  { intros K. rewrite EI in K. rewrite Ho. destruct t as [|c t]; [congruence|].
    pose proof (at_off _ _ _ A) as B0.
    pose proof (chars_nonempty (skipn (s_off s) src)) as M. rewrite (at_chars _ _ _ A), (nx_split _ _ _ _ _ _ _ _ _ N) in M.
    apply Forall_app in M. destruct M as (_ & M). inversion_clear M as [|? ? Mc _]. change (text (c :: t)) with (snd c ++ text t). rewrite app_length. destruct (snd c); [congruence|cbn; lia]. }
  destruct (Z.eqb_spec (s_tok s1) K_COMMENT) as [KC|KC].
  - assert (K : s_tok s1 <> K_EOF) by (rewrite KC; discriminate). pose proof (TN K) as TN1.
    destruct (IH s1 R1) as (s2 & E2 & R2 & I2 & O2 & X2 & B2 & C2 & D2 & F2); [lia|].
    exists s2, (E ++ E2). split; [exact R2|]. split; [exact I2|]. split; [lia|].
    split; [rewrite X2, (nx_errs _ _ _ _ _ _ _ _ _ N); now rewrite app_assoc|]. split; [apply Forall_app; split; [apply N|exact B2]|].
    split; [|split].
    + intros E0 K2. apply app_eq_nil in E0. destruct E0 as (E0 & E20). destruct (C2 E20 K2) as (toks & CF & NC).
      exists (token s1 :: toks). split; [now apply (clean_cons _ _ _ _ _ _ _ A N R)|]. cbn. rewrite KC. cbn. exact NC.
    + intros E0 K2 toks CF. apply app_eq_nil in E0. destruct E0 as (E0 & E20). destruct (D2 E20 K2 toks CF) as (toks0 & CF0 & NC).
      exists (token s1 :: toks0). split; [now apply (clean_cons _ _ _ _ _ _ _ A N R)|]. unfold no_comments at 1. cbn [filter fst]. rewrite KC. exact NC.
    + intros toks CF. destruct toks as [|x toks].
      { destruct (clean_end_inv _ _ _ _ _ _ _ A N R CF). contradiction. }
      destruct (clean_cons_inv _ _ _ _ _ _ _ A N R x toks CF) as (E0 & _ & -> & CF1). destruct (F2 _ CF1) as (E20 & F). split; [now rewrite E0, E20|].
      unfold no_comments. cbn [filter fst]. rewrite KC. cbn [negb Z.eqb]. fold (no_comments toks). change (negb (K_COMMENT =? K_COMMENT)) with false. cbv iota.
      destruct F as [F|(F1 & toks' & F2' & F3 & F4)]; [now left|right]. split; [exact F1|]. exists toks'. cbn [length]. split; [lia|auto].
  - exists s1, E. split; [reflexivity|]. split.
    { constructor; [now exists cs'| |exact TN|exact KC]. intros K. pose proof K as K0. apply (proj2 R1) in K0. split; [|exact K0]. apply EI in K. rewrite K in Ho. cbn in Ho. lia. }
    split; [lia|]. split; [apply N|]. split; [apply N|]. split; [|split].
    + intros E0 K. exists []. split; [now apply (clean_end _ _ _ _ _ _ _ A N R)|reflexivity].
    + intros E0 K toks CF. exists (token s1 :: toks). split; [now apply (clean_cons _ _ _ _ _ _ _ A N R)|].
      unfold no_comments at 1. cbn [filter fst]. rewrite (proj2 (Z.eqb_neq _ _) KC). reflexivity.
    + intros toks CF. destruct toks as [|x toks].
      * destruct (clean_end_inv _ _ _ _ _ _ _ A N R CF). split; [assumption|left; auto].
      * destruct (clean_cons_inv _ _ _ _ _ _ _ A N R x toks CF) as (E0 & K & -> & CF1). split; [exact E0|]. right. split; [exact K|].
        exists toks. split; [cbn; lia|]. split; [|exact CF1]. unfold no_comments at 1. cbn [filter fst]. rewrite (proj2 (Z.eqb_neq _ _) KC). reflexivity.
Qed.

Lemma next_total s : ready s -> exists s' E, nexts s s' E.
Proof.
  intros R. destruct (next_n_ok (fuel src) s R) as (s' & E & H1 & H2 & H3 & H4 & H5 & H6 & H7 & H8); [unfold fuel; lia|].
  exists s', E. constructor; assumption.
Qed.

(** ** Consuming tokens without an error *)
Inductive eats : sstate -> list tok -> sstate -> Prop :=
| eats_nil s : eats s [] s
| eats_cons s s1 t s2 : s_tok s <> K_EOF -> next s = Ret tt s1 -> s_errs s1 = s_errs s -> eats s1 t s2 ->
    eats s (token s :: t) s2.

Lemma eats_app s t1 s1 t2 s2 : eats s t1 s1 -> eats s1 t2 s2 -> eats s (t1 ++ t2) s2.
Proof. induction 1; intros H'; [exact H'|]. cbn. econstructor; eauto. Qed.
Lemma eats_split t1 : forall s t2 s2, eats s (t1 ++ t2) s2 -> exists s1, eats s t1 s1 /\ eats s1 t2 s2.
Proof.
  induction t1 as [|x t1 IH]; intros s t2 s2 H; [exists s; split; [constructor|exact H]|].
  cbn in H. inversion H as [|? s1 ? ? K Hn HE He]; subst. destruct (IH _ _ _ He) as (s3 & H7 & H8). exists s3. split; [econstructor; eauto|exact H8].
Qed.

(** From a state about to read the first token. *)
Lemma eats_clean : forall n toks s s1, (length toks < n)%nat -> ready s -> next s = Ret tt s1 -> clean_from s toks ->
  exists s2, eats s1 (no_comments toks) s2 /\ s_tok s2 = K_EOF /\ s_errs s2 = s_errs s.
Proof.
  induction n as [|n IH]; intros toks s s1 L R Hn CF; [lia|].
  destruct (next_total s R) as (s1' & E & N). pose proof (ns_run _ _ _ N) as Hn'. rewrite Hn in Hn'. injection Hn' as <-.
  destruct (ns_clean _ _ _ N _ CF) as (E0 & H). pose proof (ns_errs _ _ _ N) as HE. rewrite E0, app_nil_r in HE.
  destruct H as [(K & NC)|(K & toks' & L' & NC & CF')].
  - exists s1. rewrite NC. split; [constructor|auto].
  - destruct (next_total s1 (inv_ready _ (ns_inv _ _ _ N))) as (s2 & E2 & N2).
    destruct (IH toks' s1 s2 ltac:(lia) (inv_ready _ (ns_inv _ _ _ N)) (ns_run _ _ _ N2) CF') as (s3 & X1 & X2 & X3).
    exists s3. rewrite NC. split; [|split; [exact X2|congruence]]. apply eats_cons with s2; [exact K|apply N2| |exact X1].
    destruct (ns_clean _ _ _ N2 _ CF') as (E20 & _). rewrite (ns_errs _ _ _ N2), E20. now rewrite app_nil_r.
Qed.

Lemma clean_eats s1 l s2 : eats s1 l s2 -> s_tok s2 = K_EOF -> forall s, ready s -> next s = Ret tt s1 -> s_errs s1 = s_errs s ->
  exists toks, clean_from s toks /\ no_comments toks = l.
Proof.
  induction 1 as [s1|s1 s1' t s2 K Hn HE He IH]; intros K2 s R Hs HEs.
  - destruct (next_total s R) as (s1' & E & N). pose proof (ns_run _ _ _ N) as Hn'. rewrite Hs in Hn'. injection Hn' as <-.
    apply (ns_end _ _ _ N); [|exact K2]. pose proof (ns_errs _ _ _ N) as X. rewrite HEs in X. symmetry in X. rewrite <- app_nil_r in X. now apply app_inv_head in X.
  - destruct (next_total s R) as (s1x & E & N). pose proof (ns_run _ _ _ N) as Hn'. rewrite Hs in Hn'. injection Hn' as <-.
    destruct (IH K2 s1 (inv_ready _ (ns_inv _ _ _ N)) Hn HE) as (toks & CF & NC).
    assert (E0 : E = []). { pose proof (ns_errs _ _ _ N) as X. rewrite HEs in X. symmetry in X. rewrite <- app_nil_r in X. now apply app_inv_head in X. }
    destruct (ns_cons _ _ _ N E0 K toks CF) as (toks0 & CF0 & NC0). exists toks0. split; [exact CF0|]. now rewrite NC0, NC.
Qed.

(** ** The outcome of a parsing method *)
Definition ends (b : bool) (s s' : sstate) (Q : list perr -> Prop) : Prop :=
  inv s' /\ (mu s' <= mu s)%nat /\ (b = true -> (0 < mu s)%nat -> (mu s' < mu s)%nat) /\
  exists E, s_errs s' = s_errs s ++ E /\ bounded E /\ Q E.

(** From [s]: it returns or panics with badDef; it goes forward, certainly so
    if [b]; a panic comes with an error; and without an error the tokens
    consumed and the result are related by [G]. *)
Definition good {A} (b : bool) (s : sstate) (G : A -> list tok -> Prop) (r : res A) : Prop :=
  match r with
  | Ret a s' => ends b s s' (fun E => E = [] -> exists t, eats s t s' /\ G a t)
  | Bad s' => ends false s s' (fun E => E <> [])
  | Stuck => False
  end.

Lemma good_ret {A} (a : A) s (G : A -> list tok -> Prop) : inv s -> G a [] -> good false s G (Ret a s).
Proof.
  intros I H. split; [exact I|]. split; [lia|]. split; [discriminate|]. exists []. rewrite app_nil_r. split; [reflexivity|]. split; [constructor|].
  intros _. exists []. split; [constructor|exact H].
Qed.

Lemma good_impl {A} (b b' : bool) s (G G' : A -> list tok -> Prop) r : good b s G r -> (b' = true -> b = true) -> (forall a t, G a t -> G' a t) -> good b' s G' r.
Proof.
  intros H Hb HG. destruct r as [a s'|s'|]; [|exact H|exact H]. destruct H as (I & L & S & E & X & B & C). split; [exact I|]. split; [exact L|]. split; [auto|].
  exists E. split; [exact X|]. split; [exact B|]. intros E0. destruct (C E0) as (t & T1 & T2). eauto.
Qed.

(** Sequencing of the relations. *)
Definition seq {A B} (G : A -> list tok -> Prop) (H : A -> B -> list tok -> Prop) (b : B) (t : list tok) : Prop :=
  exists a t1 t2, t = t1 ++ t2 /\ G a t1 /\ H a b t2.

Lemma good_bind {A B} b1 b2 (m : parser A) (k : A -> parser B) s G H :
  good b1 s G (m s) ->
  (forall a s1, inv s1 -> (mu s1 <= mu s)%nat -> (b1 = true -> (0 < mu s)%nat -> (mu s1 < mu s)%nat) -> good b2 s1 (H a) (k a s1)) ->
  good (b1 || b2) s (seq G H) (pbind m k s).
Proof.
  intros Hm Hk. unfold pbind. destruct (m s) as [a s1|s1|]; [|exact Hm|contradiction].
  destruct Hm as (I1 & L1 & S1 & E1 & X1 & B1 & C1). specialize (Hk a s1 I1 L1 S1).
  destruct (k a s1) as [b s2|s2|]; [| |contradiction].
  - destruct Hk as (I2 & L2 & S2 & E2 & X2 & B2 & C2). split; [exact I2|]. split; [lia|]. split.
    { intros Hb Hp. apply orb_true_iff in Hb. destruct Hb as [Hb|Hb]; [specialize (S1 Hb Hp); lia|].
      destruct (mu s1) as [|m1] eqn:Em; [lia|]. specialize (S2 Hb ltac:(lia)). lia. }
    exists (E1 ++ E2). split; [rewrite X2, X1; now rewrite app_assoc|]. split; [apply Forall_app; auto|].
    intros E0. apply app_eq_nil in E0. destruct E0 as (E10 & E20). destruct (C1 E10) as (t1 & T1 & G1). destruct (C2 E20) as (t2 & T2 & G2).
    exists (t1 ++ t2). split; [now apply eats_app with s1|]. exists a, t1, t2. auto.
  - destruct Hk as (I2 & L2 & _ & E2 & X2 & B2 & C2). split; [exact I2|]. split; [lia|]. split; [discriminate|].
    exists (E1 ++ E2). split; [rewrite X2, X1; now rewrite app_assoc|]. split; [apply Forall_app; auto|].
    intros E0. apply app_eq_nil in E0. now destruct E0.
Qed.

(** *** The basic methods *)
Lemma good_next s : inv s -> good true s (fun _ t => s_tok s = K_EOF \/ t = [token s]) (next s).
Proof.
  intros I. destruct (next_total s (inv_ready _ I)) as (s' & E & N). rewrite (ns_run _ _ _ N).
  pose proof (inv_le _ I). pose proof (ns_off _ _ _ N). pose proof (inv_le _ (ns_inv _ _ _ N)).
  split; [apply N|]. split; [unfold mu; lia|]. split.
  { intros _ Hp. assert (s_tok s <> K_EOF) as K by (rewrite <- (mu_eof _ I); lia). pose proof (inv_tok _ I K). unfold mu in *. lia. }
  exists E. split; [apply N|]. split; [apply N|]. intros E0.
  destruct (Z.eq_dec (s_tok s) K_EOF) as [K|K].
  - (* the state does not change at the end *)
    exists []. split; [|now left]. destruct (inv_at _ I) as (cs & A). assert (cs = []) as ->. { apply (at_eof _ _ _ A). now apply (inv_eof _ I). }
    pose proof (ns_run _ _ _ N) as Hr. unfold p_next in Hr. unfold fuel in Hr. cbn [p_next_n] in Hr.
    unfold s_next, fuel in Hr. cbn [s_next_n] in Hr. pose proof (at_ch _ _ _ A) as Hc. cbn in Hc.
    unfold fuel in Hr. cbn [scan_while] in Hr. rewrite Hc in Hr. change (is_white eof) with false in Hr. cbv iota in Hr.
    cbn [set_pos s_ch] in Hr. rewrite Hc in Hr. change (isLetter eof) with false in Hr. change (0x80 <=? eof) with false in Hr. cbv iota in Hr.
    unfold s_switch in Hr. cbn [set_pos s_ch] in Hr. rewrite Hc in Hr. rewrite Z.eqb_refl in Hr. cbn [s_tok set_tok] in Hr. change (K_EOF =? K_COMMENT) with false in Hr. cbv iota in Hr.
    injection Hr as <-. destruct (inv_eof _ I K) as (P1 & P2). replace (set_tok K_EOF (set_pos (s_off s) s)) with s; [constructor|].
    destruct s; cbn in *. subst. reflexivity.
  - exists [token s]. split; [|now right]. econstructor; [exact K|apply N| |constructor]. rewrite (ns_errs _ _ _ N), E0. now rewrite app_nil_r.
Qed.

Lemma expected_inv m s : inv s -> exists s' e, p_expected src m s = Ret tt s' /\ inv s' /\ s_errs s' = s_errs s ++ [e] /\ bounded [e] /\ mu s' = mu s /\ s_tok s' = s_tok s.
Proof.
  intros I. unfold p_expected, p_errorExpected, p_error. cbv zeta. match goal with |- context [s_error _ ?m _] => set (msg := m) end.
  destruct (s_error_fields (s_pos s) msg s) as (F1 & F2 & F3 & F4 & F5 & F6 & e & F7 & F8).
  eexists _, e. split; [reflexivity|]. split.
  { destruct I as [(cs & A) X Y Z0]. constructor; rewrite ?F2, ?F4, ?F5; auto. exists cs. now apply at_error. }
  split; [exact F7|]. split; [constructor; [rewrite F8; pose proof (inv_le _ I); lia|constructor]|]. split; [unfold mu; now rewrite F5|exact F4].
Qed.

(** An error, then anything: no claim on the tokens. *)
Lemma good_expected {A} b m (k : parser A) s G : inv s ->
  (forall s1, inv s1 -> mu s1 = mu s -> s_tok s1 = s_tok s -> good b s1 (fun _ _ => True) (k s1)) -> good b s G (pbind (p_expected src m) (fun _ => k) s).
Proof.
  intros I Hk. destruct (expected_inv m s I) as (s1 & e & R & I1 & X1 & B1 & M1 & K1). unfold pbind. rewrite R. specialize (Hk s1 I1 M1 K1).
  destruct (k s1) as [a s2|s2|]; [| |contradiction]; destruct Hk as (I2 & L2 & S2 & E2 & X2 & B2 & C2); rewrite M1 in *; (split; [exact I2|split; [exact L2|split; [exact S2|]]]);
  exists (e :: E2); (split; [rewrite X2, X1; now rewrite <- app_assoc|]); (split; [apply (Forall_app _ [e] E2); auto|]); discriminate.
Qed.

Lemma good_panic {A} b m s (G : A -> list tok -> Prop) : inv s -> good b s G ((p_expected src m ;;; p_panic) s).
Proof.
  intros I. destruct (expected_inv m s I) as (s1 & e & R & I1 & X1 & B1 & M1 & K1). unfold pbind. rewrite R. unfold p_panic.
  split; [exact I1|]. split; [lia|]. split; [discriminate|]. exists [e]. split; [exact X1|]. split; [exact B1|discriminate].
Qed.

Lemma good_got k s : inv s -> k <> K_EOF -> good false s (flag k) (p_got u src k s).
Proof.
  intros I Hk. unfold p_got. destruct (Z.eqb_spec (s_tok s) k) as [E|E]; [|apply good_ret; [exact I|constructor]].
  eapply good_impl; [apply good_bind with (b2 := false) (H := fun (_ : unit) (b : bool) (t : list tok) => b = true /\ t = []); [now apply good_next|]| discriminate |].
  - intros a s1 I1 _ _. apply good_ret; auto.
  - intros b t (_ & t1 & t2 & -> & [K| ->] & -> & ->); [congruence|]. rewrite E. constructor.
Qed.

(** got, when the token is known to be there: it goes forward *)
Lemma good_want k s : inv s -> k <> K_EOF -> good true s (fun _ t => exists x, t = [(k, x)]) (p_want u src k s).
Proof.
  intros I Hk. unfold p_want, p_got, pbind at 1. destruct (Z.eqb_spec (s_tok s) k) as [E|E].
  - pose proof (good_next s I) as H. unfold pbind, pret. destruct (next s) as [a s1|s1|] eqn:En; [|exact H|contradiction].
    destruct a. eapply good_impl; [exact H|auto|]. intros a t [K| ->]; [congruence|]. rewrite E. eauto.
  - apply good_expected; [exact I|]. intros s1 I1 _ _. eapply good_impl; [now apply good_next|auto|auto].
Qed.

Lemma good_gotAssign s : inv s -> good false s (fun b t => flag K_ASSIGN b t) (p_gotAssign u src s).
Proof.
  intros I. unfold p_gotAssign, p_got, pbind at 1. destruct (Z.eqb_spec (s_tok s) K_ASSIGN) as [E|E].
  - pose proof (good_next s I) as H. unfold pbind, pret. destruct (next s) as [a s1|s1|] eqn:En; [|exact H|contradiction].
    destruct H as (I1 & L1 & S1 & E1 & X1 & B1 & C1). split; [exact I1|]. split; [exact L1|]. split; [discriminate|]. exists E1. split; [exact X1|]. split; [exact B1|].
    intros E0. destruct (C1 E0) as (t & T1 & [K| ->]); [rewrite E in K; discriminate|]. rewrite E in T1. eexists. split; [exact T1|constructor].
  - unfold pbind at 1, p_tok. destruct (Z.eqb_spec (s_tok s) K_EQL) as [E'|E']; [|apply good_ret; [exact I|constructor]].
    (* == is an error *)
    unfold p_want, p_got. unfold pbind at 1 2. rewrite (proj2 (Z.eqb_neq _ _) E).
    pose proof (good_expected true (lit "'" ++ token_string K_ASSIGN ++ lit "'") (p_next u src) s (fun _ _ => False) I) as H.
    assert (H' : forall s1, inv s1 -> mu s1 = mu s -> s_tok s1 = s_tok s -> good true s1 (fun _ _ => True) (next s1)).
    { intros s1 I1 _ _. eapply good_impl; [now apply good_next|auto|auto]. }
    specialize (H H'). unfold pret. destruct (pbind _ _ s) as [a s1|s1|]; [|exact H|contradiction].
    destruct H as (I1 & L1 & S1 & E1 & X1 & B1 & C1). split; [exact I1|]. split; [exact L1|]. split; [discriminate|]. exists E1. split; [exact X1|]. split; [exact B1|].
    intros E0. destruct (C1 E0) as (t & _ & []).
Qed.

Lemma good_separator_n : forall n s, inv s -> (mu s <= n)%nat -> good false s (fun _ t => separators t) (p_separator_n u src n s).
Proof.
  induction n as [|n IH]; intros s I L; cbn [p_separator_n].
  - destruct (Z.eqb_spec (s_tok s) K_COMMA) as [E|E]; [exfalso; assert (K : s_tok s = K_EOF) by (apply (mu_eof _ I); lia); rewrite E in K; discriminate|].
    destruct (Z.eqb_spec (s_tok s) K_SEMICOLON) as [E'|E']; [exfalso; assert (K : s_tok s = K_EOF) by (apply (mu_eof _ I); lia); rewrite E' in K; discriminate|].
    cbn. apply good_ret; [exact I|constructor].
  - destruct ((s_tok s =? K_COMMA) || (s_tok s =? K_SEMICOLON)) eqn:E; [|apply good_ret; [exact I|constructor]].
    apply orb_true_iff in E. rewrite !Z.eqb_eq in E. assert (K : s_tok s <> K_EOF) by (destruct E as [E|E]; rewrite E; discriminate).
    assert (Hp : (0 < mu s)%nat). { pose proof (proj1 (mu_eof s I)). lia. }
    eapply good_impl; [apply good_bind with (b2 := false); [now apply good_next|]| discriminate |].
    + intros a s1 I1 _ S1. apply IH; [exact I1|]. specialize (S1 eq_refl Hp). lia.
    + intros a t (_ & t1 & t2 & -> & [K'| ->] & S2); [contradiction|]. constructor; [exact E|exact S2].
Qed.
Lemma mu_fuel s : (mu s < fuel src)%nat.
Proof. unfold mu, fuel. lia. Qed.
Lemma good_separator s : inv s -> good false s (fun _ t => separators t) (p_separator u src s).
Proof. intros I. apply good_separator_n; [exact I|]. pose proof (mu_fuel s). lia. Qed.

Lemma good_items {A} close (f : parser A) G N :
  (forall s, inv s -> (mu s < N)%nat -> good true s G (f s)) ->
  forall n s, inv s -> (mu s < N)%nat -> (mu s <= n)%nat -> good false s (items G) (p_items u src n close f s).
Proof.
  intros Hf. induction n as [|n IH]; intros s I LN L; cbn [p_items].
  - rewrite (proj1 (mu_eof s I) ltac:(lia)), Z.eqb_refl. cbn. apply good_ret; [exact I|constructor].
  - destruct (negb (s_tok s =? K_EOF) && negb (s_tok s =? close)) eqn:E; [|apply good_ret; [exact I|constructor]].
    apply andb_true_iff in E. destruct E as (E & _). apply negb_true_iff, Z.eqb_neq in E.
    assert (Hp : (0 < mu s)%nat). { pose proof (proj1 (mu_eof s I)). lia. }
    eapply good_impl; [apply good_bind with (b2 := false); [now apply Hf|]| discriminate |].
    + intros a s1 I1 L1 S1. specialize (S1 eq_refl Hp). apply good_bind with (b1 := false) (b2 := false) (G := fun _ t => separators t) (H := fun (_ : unit) l (t : list tok) => exists l', l = a :: l' /\ items G l' t); [now apply good_separator|].
      intros [] s2 I2 L2 _. eapply good_impl; [apply good_bind with (b1 := false) (b2 := false) (H := fun l l' (t : list tok) => l' = a :: l /\ t = []); [apply IH; [exact I2|lia|lia]|]|auto|].
      * intros l s3 I3 _ _. apply good_ret; auto.
      * intros l t (l' & t1 & t2 & -> & H1 & -> & ->). exists l'. rewrite app_nil_r. auto.
    + intros l t (a & t1 & t2 & -> & H1 & _ & t3 & t4 & -> & H2 & l' & -> & H3). now constructor.
Qed.


(** *** Composite methods, by symbolic execution *)
Lemma good_pret {A} (a : A) s : inv s -> good false s (fun b t => b = a /\ t = []) (pret a s).
Proof. intros I. now apply good_ret. Qed.
Lemma good_tok {B} b (k : Z -> parser B) s G : good b s G (k (s_tok s) s) -> good b s G (pbind p_tok k s).
Proof. auto. Qed.
Ltac step := eapply good_bind; [|let x := fresh "x" in let s := fresh "s" in let I := fresh "I" in let L := fresh "L" in let S := fresh "S" in intros x s I L S].
Ltac done := apply good_pret; assumption.
Ltac execute := repeat first [done|step]; eauto.
Ltac open_seq :=
  repeat match goal with
  | H : seq _ _ _ _ |- _ => destruct H as (? & ? & ? & ? & ? & ?); subst
  | H : exists _, _ |- _ => destruct H as (? & ?)
  | H : _ /\ _ |- _ => destruct H
  end; subst; rewrite ?app_nil_r.

Lemma good_list {A} open close (f : parser A) G N s :
  (forall s, inv s -> (mu s < N)%nat -> good true s G (f s)) -> open <> K_EOF -> close <> K_EOF ->
  inv s -> (forall m, (m < mu s)%nat -> (m < N)%nat) -> (mu s = O -> (0 < N)%nat) -> good true s (bracketed open close G) (p_list u src open close f s).
Proof.
  intros Hf Ho Hc I HN H0. unfold p_list. eapply good_impl.
  - step; [now apply good_want|]. step.
    { apply good_items with N; [exact Hf|assumption| |pose proof (mu_fuel s0); lia].
      destruct (mu s) as [|m] eqn:Em; [specialize (H0 eq_refl); lia|]. apply HN. apply S; [reflexivity|lia]. }
    step; [now apply good_want|]. done.
  - auto.
  - intros l t H. open_seq. now constructor.
Qed.
Lemma good_list0 {A} open close (f : parser A) G s :
  (forall s, inv s -> good true s G (f s)) -> open <> K_EOF -> close <> K_EOF ->
  inv s -> good true s (bracketed open close G) (p_list u src open close f s).
Proof. intros Hf Ho Hc I. apply good_list with (Datatypes.S (mu s)); auto; lia. Qed.

Lemma good_lit k s : inv s -> k <> K_EOF -> good true s (lexical k) (p_lit u src k s).
Proof.
  intros I Hk. unfold p_lit. destruct (Z.eqb_spec (s_tok s) k) as [E|E].
  - eapply good_impl; [apply good_bind with (b2 := false) (H := fun (_ : unit) w (t : list tok) => w = s_lit src s /\ t = []); [now apply good_next|]|auto|].
    + intros [] s1 I1 _ _. now apply good_ret.
    + intros w t (_ & t1 & t2 & -> & [K| ->] & -> & ->); [congruence|]. rewrite E. constructor.
  - unfold p_want, p_got. unfold pbind at 1 2. rewrite (proj2 (Z.eqb_neq _ _) E).
    pose proof (good_expected true (lit "'" ++ token_string k ++ lit "'") (p_next u src) s (fun _ _ => False) I) as H.
    assert (H' : forall s1, inv s1 -> mu s1 = mu s -> s_tok s1 = s_tok s -> good true s1 (fun _ _ => True) (next s1)).
    { intros s1 I1 _ _. eapply good_impl; [now apply good_next|auto|auto]. }
    specialize (H H'). unfold pret. destruct (pbind _ _ s) as [a s1|s1|]; [|exact H|contradiction].
    destruct H as (I1 & L1 & S1 & E1 & X1 & B1 & C1). split; [exact I1|]. split; [exact L1|]. split; [exact S1|]. exists E1. split; [exact X1|]. split; [exact B1|].
    intros E0. destruct (C1 E0) as (t & _ & []).
Qed.



Definition opt_of {A} (b : bool) (G : A -> list tok -> Prop) (o : option A) (t : list tok) : Prop :=
  if b then exists a, o = Some a /\ G a t else o = None /\ t = [].
Lemma good_if {A} (b : bool) (f : parser A) s G : inv s -> (b = true -> exists c, good c s G (f s)) ->
  good false s (opt_of b G) ((if b then a <- f ;; pret (Some a) else pret None) s).
Proof.
  intros I H. destruct b; [|now apply good_ret]. destruct (H eq_refl) as (c & H'). eapply good_impl; [step; [exact H'|]; done|discriminate|].
  intros o t X. open_seq. exists x. auto.
Qed.
Lemma flag_opt {A} k b t1 (G : A -> list tok -> Prop) o t2 : flag k b t1 -> opt_of b G o t2 -> optional (after k G) o (t1 ++ t2).
Proof. intros [|x] H; cbn in H; [destruct H as (-> & ->); constructor|]. destruct H as (a & -> & H). constructor. now constructor. Qed.

Lemma good_annotation s : inv s -> good true s g_annotation (p_annotation u src s).
Proof.
  intros I. unfold p_annotation. eapply good_impl.
  - step; [now apply good_lit|]. step; [now apply good_gotAssign|]. step; [apply good_if; [assumption|]; intros _; exists true; now apply good_lit|]. done.
  - auto.
  - intros a t H. open_seq. inversion H0; subst. cbn [app]. constructor. eapply flag_opt; eassumption.
Qed.

Lemma good_annotations s : inv s -> good false s g_annots (p_annotations u src s).
Proof.
  intros I. unfold p_annotations. apply good_tok. destruct (Z.eqb_spec (s_tok s) K_LPAREN) as [E|E]; cbn [negb]; [|apply good_ret; [exact I|constructor]].
  eapply good_impl.
  - step; [apply good_list0 with (G := g_annotation); [apply good_annotation|discriminate|discriminate|exact I]|]. done.
  - discriminate.
  - intros o t H. open_seq. now constructor.
Qed.

Lemma tok_mu s k : inv s -> s_tok s = k -> k <> K_EOF -> (0 < mu s)%nat.
Proof. intros I <- K. pose proof (proj1 (mu_eof s I)). lia. Qed.

Lemma good_type : forall n s, inv s -> (mu s < n)%nat -> good true s g_type (p_type u src n s).
Proof.
  induction n as [|n IH]; intros s I L; [lia|]. cbn [p_type]. apply good_tok.
  destruct (Z.eqb_spec (s_tok s) K_MAP) as [E|E].
  { pose proof (tok_mu _ _ I E ltac:(discriminate)) as Hp. eapply good_impl.
    - step; [now apply good_want|]. specialize (S eq_refl Hp). step; [now apply good_want|]. step; [apply IH; [assumption|lia]|]. step; [now apply good_want|].
      step; [apply IH; [assumption|lia]|]. step; [now apply good_want|]. step; [now apply good_annotations|]. done.
    - auto.
    - intros a t H. open_seq. cbn [app]. now constructor. }
  destruct (Z.eqb_spec (s_tok s) K_SET) as [E1|E1].
  { pose proof (tok_mu _ _ I E1 ltac:(discriminate)) as Hp. eapply good_impl.
    - step; [now apply good_want|]. specialize (S eq_refl Hp). step; [now apply good_want|]. step; [apply IH; [assumption|lia]|].
      step; [now apply good_want|]. step; [now apply good_annotations|]. done.
    - auto.
    - intros a t H. open_seq. cbn [app]. now constructor. }
  destruct (Z.eqb_spec (s_tok s) K_LIST) as [E2|E2].
  { pose proof (tok_mu _ _ I E2 ltac:(discriminate)) as Hp. eapply good_impl.
    - step; [now apply good_want|]. specialize (S eq_refl Hp). step; [now apply good_want|]. step; [apply IH; [assumption|lia]|].
      step; [now apply good_want|]. step; [now apply good_annotations|]. done.
    - auto.
    - intros a t H. open_seq. cbn [app]. now constructor. }
  destruct (Z.eqb_spec (s_tok s) K_IDENT) as [E3|E3].
  { eapply good_impl.
    - step; [now apply good_lit|]. step; [now apply good_annotations|]. done.
    - auto.
    - intros a t H. open_seq. inversion H0; subst. now constructor. }
  now apply good_panic.
Qed.

Lemma good_value : forall n s, inv s -> (mu s < n)%nat -> good true s g_value (p_value u src n s).
Proof.
  induction n as [|n IH]; intros s I L; [lia|]. cbn [p_value]. apply good_tok.
  destruct (Z.eqb_spec (s_tok s) K_IDENT) as [E|E].
  { eapply good_impl; [step; [now apply good_lit|]; done|auto|]. intros a t H. open_seq. inversion H0; subst. constructor. }
  destruct (Z.eqb_spec (s_tok s) K_INT) as [E1|E1].
  { eapply good_impl; [step; [now apply good_lit|]; done|auto|]. intros a t H. open_seq. inversion H0; subst. constructor. }
  destruct (Z.eqb_spec (s_tok s) K_FLOAT) as [E2|E2].
  { eapply good_impl; [step; [now apply good_lit|]; done|auto|]. intros a t H. open_seq. inversion H0; subst. constructor. }
  destruct (Z.eqb_spec (s_tok s) K_STRING) as [E3|E3].
  { eapply good_impl; [step; [now apply good_lit|]; done|auto|]. intros a t H. open_seq. inversion H0; subst. constructor. }
  destruct (Z.eqb_spec (s_tok s) K_LBRACK) as [E4|E4].
  { pose proof (tok_mu _ _ I E4 ltac:(discriminate)) as Hp. eapply good_impl.
    - step; [apply good_list with (G := g_value) (N := n); [exact IH|discriminate|discriminate|exact I|lia|lia]|]. done.
    - auto.
    - intros a t H. open_seq. now constructor. }
  destruct (Z.eqb_spec (s_tok s) K_LBRACE) as [E5|E5].
  { pose proof (tok_mu _ _ I E5 ltac:(discriminate)) as Hp. eapply good_impl.
    - step; [apply good_list with (G := g_pair g_value) (N := n); [|discriminate|discriminate|exact I|lia|lia]|]. 2:done.
      intros s0 I0 L0. unfold p_keyValuePair. eapply good_impl.
      + step; [now apply IH|]. step; [now apply good_want|]. step; [apply IH; [assumption|lia]|]. done.
      + auto.
      + intros a t H. open_seq. now constructor.
    - auto.
    - intros a t H. open_seq. now constructor. }
  now apply good_panic.
Qed.
Lemma good_type_ s : inv s -> good true s g_type (p_type_ u src s).
Proof. intros I. apply good_type; [exact I|]. pose proof (mu_fuel s). lia. Qed.
Lemma good_value_ s : inv s -> good true s g_value (p_value_ u src s).
Proof. intros I. apply good_value; [exact I|]. pose proof (mu_fuel s). lia. Qed.

Lemma good_enumValue s : inv s -> good true s g_enum_value (p_enumValue u src s).
Proof.
  intros I. unfold p_enumValue. eapply good_impl.
  - step; [now apply good_lit|]. step; [now apply good_gotAssign|]. step; [apply good_if; [assumption|]; intros _; exists true; now apply good_lit|].
    step; [now apply good_annotations|]. done.
  - auto.
  - intros a t H. open_seq. inversion H0; subst. cbn [app]. rewrite app_assoc. constructor; [eapply flag_opt; eassumption|assumption].
Qed.

Lemma good_fieldName s : inv s -> good true s g_field_name (p_fieldName u src s).
Proof.
  intros I. unfold p_fieldName. destruct ((s_tok s =? K_IDENT) || isKeyword (s_tok s)) eqn:E.
  - apply orb_true_iff in E. rewrite Z.eqb_eq in E. eapply good_impl.
    + step; [now apply good_next|]. done.
    + auto.
    + intros w t H. open_seq. destruct H0 as [K| ->]; [rewrite K in E; destruct E; discriminate|]. now constructor.
  - pose proof (good_lit K_IDENT s I ltac:(discriminate)) as H. unfold p_lit in H. apply orb_false_iff in E. destruct E as (E & _). rewrite E in H.
    eapply good_impl; [exact H|auto|]. intros w t X. inversion X; subst. constructor. now left.
Qed.

Lemma good_field s : inv s -> good true s g_field (p_field u src s).
Proof.
  intros I. unfold p_field. apply good_tok. eapply good_impl.
  - step.
    { instantiate (1 := optional g_field_id). instantiate (1 := false). destruct (Z.eqb_spec (s_tok s) K_INT); [|apply good_ret; [exact I|constructor]].
      eapply good_impl; [step; [now apply good_lit|]; step; [now apply good_want|]; done|discriminate|]. intros o t H. open_seq. inversion H0; subst. constructor. constructor. }
    step; [now apply good_got|].
    step. { instantiate (1 := fun op t => if x0 then op = false /\ t = [] else flag K_OPTIONAL op t). instantiate (1 := false). destruct x0; [now apply good_ret|]. now apply good_got. }
    step; [now apply good_type_|]. step; [now apply good_got|]. step; [now apply good_fieldName|]. step; [now apply good_gotAssign|].
    step; [apply good_if; [assumption|]; intros _; exists true; now apply good_value_|]. step; [now apply good_annotations|]. done.
  - auto.
  - intros a t H. open_seq.
    replace (x0 ++ x3 ++ x5 ++ x7 ++ x9 ++ x11 ++ x13 ++ x15 ++ x17) with (x0 ++ (x3 ++ x5) ++ x7 ++ x9 ++ x11 ++ (x13 ++ x15) ++ x17) by now rewrite <- !app_assoc.
    constructor; try assumption; [|eapply flag_opt; eassumption].
    destruct H1; [|destruct H2 as (-> & ->); constructor]. destruct H2; constructor.
Qed.

Lemma good_fields open close s : inv s -> open <> K_EOF -> close <> K_EOF -> good true s (bracketed open close g_field) (p_fields u src open close s).
Proof. intros I Ho Hc. apply good_list0; auto. apply good_field. Qed.

Lemma good_method s : inv s -> good true s g_method (p_method u src s).
Proof.
  intros I. unfold p_method. eapply good_impl.
  - step; [now apply good_got|]. step; [now apply good_got|].
    step. { instantiate (1 := fun r t => if x0 then r = None /\ t = [] else exists ty, r = Some ty /\ g_type ty t). instantiate (1 := false).
      destruct x0; [now apply good_ret|]. eapply good_impl; [step; [now apply good_type_|]; done|discriminate|]. intros o t H. open_seq. eauto. }
    step; [now apply good_lit|]. step; [now apply good_fields|]. step; [now apply good_got|].
    step; [apply good_if; [assumption|]; intros _; exists true; now apply good_fields|]. step; [now apply good_annotations|]. done.
  - auto.
  - intros a t H. open_seq.
    replace (x0 ++ x3 ++ x5 ++ x7 ++ x9 ++ x11 ++ x13 ++ x15) with (x0 ++ (x3 ++ x5) ++ x7 ++ x9 ++ (x11 ++ x13) ++ x15) by now rewrite <- !app_assoc.
    inversion H3; subst. cbn [app]. constructor; try assumption; [|eapply flag_opt; eassumption].
    destruct H1; [destruct H2 as (ty0 & -> & H2); now constructor|destruct H2 as (-> & ->); constructor].
Qed.

(** Headers. *)
Lemma good_include s : inv s -> good true s g_header (p_include u src s).
Proof.
  intros I. unfold p_include. eapply good_impl.
  - step; [now apply good_want|]. step; [now apply good_lit|]. done.
  - auto.
  - intros a t H. open_seq. inversion H1; subst. constructor.
Qed.
Lemma good_namespace s : inv s -> good true s g_header (p_namespace u src s).
Proof.
  intros I. unfold p_namespace. eapply good_impl.
  - step; [now apply good_want|]. step; [now apply good_got|].
    step. { instantiate (1 := fun o t => if x0 then o = None /\ t = [] else exists w, o = Some w /\ t = [(K_IDENT, w)]). instantiate (1 := false).
      destruct x0; [now apply good_ret|]. eapply good_impl; [step; [now apply good_lit|]; done|discriminate|]. intros o t H. open_seq. inversion H0; subst. eexists. split; reflexivity. }
    step; [now apply good_lit|]. step; [now apply good_annotations|]. done.
  - auto.
  - intros a t H. open_seq. inversion H3; subst. destruct H1; [destruct H2 as (w0 & -> & ->)|destruct H2 as (-> & ->)]; cbn [app]; now constructor.
Qed.

(** Definitions: what remains after the keyword. *)
Definition later {A} (s : sstate) (r : res A) : Prop := match r with Bad s' => (mu s' < mu s)%nat | _ => True end.
Lemma want_later {A} k0 (k : parser A) b s G : inv s -> (0 < mu s)%nat -> k0 <> K_EOF ->
  (forall s1, inv s1 -> good b s1 G (k s1)) -> later s ((p_want u src k0 ;;; k) s).
Proof.
  intros I Hp K0 Hk. pose proof (good_want k0 s I K0) as H. unfold pbind. destruct (p_want u src k0 s) as [[] s1|s1|] eqn:Ew; [| |contradiction].
  - destruct H as (I1 & L1 & S1 & _). specialize (Hk s1 I1). destruct (k s1) as [a s2|s2|]; cbn; auto. destruct Hk as (_ & L2 & _). specialize (S1 eq_refl Hp). lia.
  - exfalso. unfold p_want, p_got, pbind in Ew. destruct (next_total s (inv_ready _ I)) as (s2 & E2 & N2). rewrite (ns_run _ _ _ N2) in Ew.
    destruct (s_tok s =? k0); [discriminate|]. destruct (expected_inv (lit "'" ++ token_string k0 ++ lit "'") s I) as (s3 & e & R & I3 & _). rewrite R in Ew.
    destruct (next_total s3 (inv_ready _ I3)) as (s4 & E4 & N4). rewrite (ns_run _ _ _ N4) in Ew. discriminate.
Qed.

Ltac rest := eapply good_impl.
Lemma good_const s : inv s -> (0 < mu s)%nat -> good true s g_def (p_const u src s) /\ later s (p_const u src s).
Proof.
  intros I Hp. assert (H : forall s1, inv s1 -> good true s1 (fun d t => forall x, g_def d ((K_CONST, x) :: t)) ((t <- p_type_ u src ;; name <- p_ident u src ;; p_want u src K_ASSIGN ;;; v <- p_value_ u src ;; p_separator u src ;;; pret (Const t name v)) s1)).
  { intros s1 I1. rest.
    - step; [now apply good_type_|]. step; [now apply good_lit|]. step; [now apply good_want|]. step; [now apply good_value_|]. step; [now apply good_separator|]. done.
    - auto.
    - intros a t H x'. open_seq. inversion H1; subst. cbn [app]. now constructor. }
  split; [|now apply want_later with (b := true) (G := fun d t => forall x, g_def d ((K_CONST, x) :: t))].
  unfold p_const. rest; [step; [now apply good_want|]; apply H; assumption|auto|]. intros a t X. open_seq. cbn. auto.
Qed.
Lemma good_typedef s : inv s -> (0 < mu s)%nat -> good true s g_def (p_typedef u src s) /\ later s (p_typedef u src s).
Proof.
  intros I Hp. assert (H : forall s1, inv s1 -> good true s1 (fun d t => forall x, g_def d ((K_TYPEDEF, x) :: t)) ((t <- p_type_ u src ;; name <- p_ident u src ;; a <- p_annotations u src ;; p_separator u src ;;; pret (Typedef t name a)) s1)).
  { intros s1 I1. rest.
    - step; [now apply good_type_|]. step; [now apply good_lit|]. step; [now apply good_annotations|]. step; [now apply good_separator|]. done.
    - auto.
    - intros a t H x'. open_seq. inversion H1; subst. cbn [app]. now constructor. }
  split; [|now apply want_later with (b := true) (G := fun d t => forall x, g_def d ((K_TYPEDEF, x) :: t))].
  unfold p_typedef. rest; [step; [now apply good_want|]; apply H; assumption|auto|]. intros a t X. open_seq. cbn. auto.
Qed.
Lemma good_enum s : inv s -> (0 < mu s)%nat -> good true s g_def (p_enum u src s) /\ later s (p_enum u src s).
Proof.
  intros I Hp. assert (H : forall s1, inv s1 -> good true s1 (fun d t => forall x, g_def d ((K_ENUM, x) :: t)) ((name <- p_ident u src ;; l <- p_list u src K_LBRACE K_RBRACE (p_enumValue u src) ;; a <- p_annotations u src ;; pret (Enum name l a)) s1)).
  { intros s1 I1. rest.
    - step; [now apply good_lit|]. step; [apply good_list0 with (G := g_enum_value); [apply good_enumValue|discriminate|discriminate|assumption]|]. step; [now apply good_annotations|]. done.
    - auto.
    - intros a t H x'. open_seq. inversion H0; subst. cbn [app]. now constructor. }
  split; [|now apply want_later with (b := true) (G := fun d t => forall x, g_def d ((K_ENUM, x) :: t))].
  unfold p_enum. rest; [step; [now apply good_want|]; apply H; assumption|auto|]. intros a t X. open_seq. cbn. auto.
Qed.
Lemma good_struct k s : inv s -> (0 < mu s)%nat -> (k = K_STRUCT \/ k = K_UNION \/ k = K_EXCEPTION) -> good true s g_def (p_struct u src k s) /\ later s (p_struct u src k s).
Proof.
  intros I Hp Hk. assert (Hk0 : k <> K_EOF) by (destruct Hk as [->|[->| ->]]; discriminate).
  assert (Hk1 : g_struct_kind k (k =? K_UNION) (k =? K_EXCEPTION)) by (destruct Hk as [->|[->| ->]]; constructor).
  assert (H : forall s1, inv s1 -> good true s1 (fun d t => forall x, g_def d ((k, x) :: t)) ((name <- p_ident u src ;; l <- p_fields u src K_LBRACE K_RBRACE ;; a <- p_annotations u src ;; pret (Struct (k =? K_UNION) (k =? K_EXCEPTION) name l a)) s1)).
  { intros s1 I1. rest.
    - step; [now apply good_lit|]. step; [now apply good_fields|]. step; [now apply good_annotations|]. done.
    - auto.
    - intros a t H x'. open_seq. inversion H0; subst. cbn [app]. now constructor. }
  split; [|now apply want_later with (b := true) (G := fun d t => forall x, g_def d ((k, x) :: t))].
  unfold p_struct. rest; [step; [now apply good_want|]; apply H; assumption|auto|]. intros a t X. open_seq. cbn. auto.
Qed.
Lemma good_service s : inv s -> (0 < mu s)%nat -> good true s g_def (p_service u src s) /\ later s (p_service u src s).
Proof.
  intros I Hp. assert (H : forall s1, inv s1 -> good true s1 (fun d t => forall x, g_def d ((K_SERVICE, x) :: t)) ((name <- p_ident u src ;; has <- p_got u src K_EXTENDS ;;
    ext <- (if has : bool then w <- p_ident u src ;; pret (Some w) else pret None) ;; l <- p_list u src K_LBRACE K_RBRACE (p_method u src) ;; a <- p_annotations u src ;; pret (Service name ext l a)) s1)).
  { intros s1 I1. rest.
    - step; [now apply good_lit|]. step; [now apply good_got|]. step; [apply good_if; [assumption|]; intros _; exists true; now apply good_lit|].
      step; [apply good_list0 with (G := g_method); [apply good_method|discriminate|discriminate|assumption]|]. step; [now apply good_annotations|]. done.
    - auto.
    - intros a t H x'. open_seq. inversion H0; subst. cbn [app].
      match goal with |- g_def _ (_ :: _ :: ?a ++ ?b ++ ?c) => replace (a ++ b ++ c) with ((a ++ b) ++ c) by now rewrite <- app_assoc end.
      constructor; [eapply flag_opt; eassumption|assumption|assumption]. }
  split; [|now apply want_later with (b := true) (G := fun d t => forall x, g_def d ((K_SERVICE, x) :: t))].
  unfold p_service. rest; [step; [now apply good_want|]; apply H; assumption|auto|]. intros a t X. open_seq. cbn. auto.
Qed.

Lemma good_def_switch s : inv s -> (0 < mu s)%nat -> good true s g_def (p_def_switch u src s) /\
  (later s (p_def_switch u src s) \/ (isDefinition (s_tok s) = false /\ exists s', p_def_switch u src s = Bad s' /\ s_tok s' = s_tok s /\ mu s' = mu s)).
Proof.
  intros I Hp. remember (p_def_switch u src s) as r eqn:Er. unfold p_def_switch, pbind at 1, p_tok in Er. revert Er.
  destruct (Z.eqb_spec (s_tok s) K_CONST) as [E|E]. { intros ->. destruct (good_const s I Hp). auto. }
  destruct (Z.eqb_spec (s_tok s) K_TYPEDEF) as [E1|E1]. { intros ->. destruct (good_typedef s I Hp). auto. }
  destruct (Z.eqb_spec (s_tok s) K_ENUM) as [E2|E2]. { intros ->. destruct (good_enum s I Hp). auto. }
  destruct ((s_tok s =? K_STRUCT) || (s_tok s =? K_UNION) || (s_tok s =? K_EXCEPTION)) eqn:E3.
  { intros ->. destruct (good_struct (s_tok s) s I Hp); [|auto]. apply orb_true_iff in E3. rewrite orb_true_iff, !Z.eqb_eq in E3. tauto. }
  destruct (Z.eqb_spec (s_tok s) K_SERVICE) as [E4|E4]. { intros ->. destruct (good_service s I Hp). auto. }
  intros ->. split; [now apply good_panic|]. right. split.
  - unfold isDefinition. apply orb_false_iff in E3. destruct E3 as (E3 & E5). apply orb_false_iff in E3. destruct E3 as (E3 & E6). rewrite Z.eqb_neq in *.
    unfold K_definition_beg, K_definition_end, K_CONST, K_TYPEDEF, K_ENUM, K_STRUCT, K_UNION, K_EXCEPTION, K_SERVICE in *.
    destruct (Z.ltb_spec 35 (s_tok s)); [|reflexivity]. destruct (Z.ltb_spec (s_tok s) 43); [|reflexivity]. lia.
  - destruct (expected_inv (lit "definition") s I) as (s1 & e & R & I1 & X1 & B1 & M1 & K1). assert (X : (p_expected src (lit "definition") ;;; @p_panic def) s = Bad s1) by (unfold pbind; now rewrite R). exists s1. split; [exact X|auto].
Qed.

Lemma good_recover : forall n s, inv s -> (mu s <= n)%nat -> good (negb (isDefinition (s_tok s))) s (fun _ _ => True) (p_recover_n u src n s).
Proof.
  induction n as [|n IH]; intros s I L; cbn [p_recover_n].
  - rewrite (proj1 (mu_eof s I) ltac:(lia)), Z.eqb_refl. cbn [negb andb]. split; [exact I|]. split; [lia|]. split; [lia|]. exists []. rewrite app_nil_r. split; [reflexivity|]. split; [constructor|]. intros _. exists []. split; [constructor|exact Logic.I].
  - destruct (Z.eqb_spec (s_tok s) K_EOF) as [K|K]; cbn [negb andb].
    { apply (mu_eof s I) in K. split; [exact I|]. split; [lia|]. split; [lia|]. exists []. rewrite app_nil_r. split; [reflexivity|]. split; [constructor|]. intros _. exists []. split; [constructor|exact Logic.I]. }
    destruct (isDefinition (s_tok s)); cbn [negb]; [now apply good_ret|].
    assert (Hp : (0 < mu s)%nat) by now apply (tok_mu s (s_tok s)).
    rest; [step; [now apply good_next|]; eapply good_impl with (b' := false); [apply IH; [assumption|]|discriminate|intros ? ? X; exact X]|auto|auto]. specialize (S eq_refl Hp). lia.
Qed.

Lemma good_def s : inv s -> (0 < mu s)%nat -> good true s g_def (p_def u src s).
Proof.
  intros I Hp. unfold p_def. destruct (good_def_switch s I Hp) as (H & HL). destruct (p_def_switch u src s) as [d s1|s1|] eqn:ED; [exact H| |contradiction].
  destruct H as (I1 & L1 & _ & E1 & X1 & B1 & C1).
  pose proof (good_recover (fuel src) s1 I1 ltac:(pose proof (mu_fuel s1); lia)) as HR. unfold pbind.
  destruct (p_recover_n u src (fuel src) s1) as [[] s2|s2|]; [| |contradiction].
  - destruct HR as (I2 & L2 & S2 & E2 & X2 & B2 & _). split; [exact I2|]. split; [lia|]. split.
    { intros _ _. destruct HL as [HL|(D & s' & Eb & K & M)]; [cbn in HL; lia|]. injection Eb as <-. rewrite K, D in S2. specialize (S2 eq_refl ltac:(lia)). lia. }
    exists (E1 ++ E2). split; [rewrite X2, X1; now rewrite app_assoc|]. split; [apply Forall_app; auto|]. intros E0. apply app_eq_nil in E0. destruct E0. contradiction.
  - destruct HR as (I2 & L2 & _ & E2 & X2 & B2 & C2). split; [exact I2|]. split; [lia|]. split; [discriminate|].
    exists (E1 ++ E2). split; [rewrite X2, X1; now rewrite app_assoc|]. split; [apply Forall_app; auto|]. intros E0. apply app_eq_nil in E0. destruct E0. contradiction.
Qed.

Lemma good_headers : forall n s, inv s -> (mu s < n)%nat -> good false s (many g_header) (p_headers u src n s).
Proof.
  induction n as [|n IH]; intros s I L; [lia|].
  assert (EQ : p_headers u src (Datatypes.S n) s =
    if s_tok s =? K_INCLUDE then (h <- p_include u src ;; l <- p_headers u src n ;; pret (h :: l)) s
    else if s_tok s =? K_NAMESPACE then (h <- p_namespace u src ;; l <- p_headers u src n ;; pret (h :: l)) s
    else Ret [] s).
  { cbn [p_headers]. unfold p_header, pbind, p_tok, pret. destruct (s_tok s =? K_INCLUDE); [now destruct (p_include u src s)|].
    destruct (s_tok s =? K_NAMESPACE); [now destruct (p_namespace u src s)|reflexivity]. }
  rewrite EQ. clear EQ.
  destruct (Z.eqb_spec (s_tok s) K_INCLUDE) as [E|E].
  { pose proof (tok_mu _ _ I E ltac:(discriminate)) as Hm. rest; [step; [now apply good_include|]; step; [apply IH; [assumption|specialize (S eq_refl Hm); lia]|]; done|discriminate|]. intros a t H. open_seq. now constructor. }
  destruct (Z.eqb_spec (s_tok s) K_NAMESPACE) as [E1|E1].
  { pose proof (tok_mu _ _ I E1 ltac:(discriminate)) as Hm. rest; [step; [now apply good_namespace|]; step; [apply IH; [assumption|specialize (S eq_refl Hm); lia]|]; done|discriminate|]. intros a t H. open_seq. now constructor. }
  apply good_ret; [exact I|constructor].
Qed.

Lemma good_defs : forall n s, inv s -> (mu s <= n)%nat -> good false s (many g_def) (p_defs u src n s) /\ (forall l s', p_defs u src n s = Ret l s' -> s_tok s' = K_EOF).
Proof.
  induction n as [|n IH]; intros s I L; cbn [p_defs].
  - pose proof (proj1 (mu_eof s I) ltac:(lia)) as K. rewrite K, Z.eqb_refl. cbn [negb]. split; [apply good_ret; [exact I|constructor]|]. intros l s' E. injection E as <- <-. exact K.
  - destruct (Z.eqb_spec (s_tok s) K_EOF) as [K|K]; cbn [negb]; [split; [apply good_ret; [exact I|constructor]|intros l s' E; injection E as <- <-; exact K]|].
    assert (Hp : (0 < mu s)%nat) by now apply (tok_mu s (s_tok s)). split.
    + rest; [step; [now apply good_def|]; step; [apply IH; [assumption|specialize (S eq_refl Hp); lia]|]; done|discriminate|]. intros a t H. open_seq. now constructor.
    + intros l s' E. pose proof (good_def s I Hp) as H. unfold pbind in E. destruct (p_def u src s) as [d s1|s1|]; try discriminate.
      destruct H as (I1 & _ & S1 & _). specialize (S1 eq_refl Hp). destruct (IH s1 I1 ltac:(lia)) as (_ & IH2). destruct (p_defs u src n s1) as [l2 s2|s2|]; try discriminate.
      injection E as _ <-. now apply (IH2 l2).
Qed.

Lemma good_file s : inv s -> good false s g_file (p_file u src s) /\ (forall f s', p_file u src s = Ret f s' -> s_tok s' = K_EOF).
Proof.
  intros I. assert (L1 : forall s, (mu s <= fuel src)%nat) by (intros s0; pose proof (mu_fuel s0); lia). split.
  - unfold p_file. rest; [step; [apply good_headers; [exact I|specialize (L1 s); lia]|]; step; [apply good_defs; [assumption|apply L1]|]; done|discriminate|].
    intros a t H. open_seq. now constructor.
  - intros f s' E. unfold p_file, pbind in E. pose proof (good_headers (Datatypes.S (fuel src)) s I ltac:(specialize (L1 s); lia)) as H. destruct (p_headers u src _ s) as [h s1|s1|]; try discriminate.
    destruct H as (I1 & _). destruct (good_defs (fuel src) s1 I1 (L1 s1)) as (_ & H2). destruct (p_defs u src _ s1) as [d s2|s2|]; try discriminate. injection E as _ <-. now apply (H2 d).
Qed.

(** No badDef leaves the parser. *)
Definition never_bad {A} (m : parser A) : Prop := forall s s', m s <> Bad s'.
Lemma nb_bind {A B} (m : parser A) (k : A -> parser B) : never_bad m -> (forall a, never_bad (k a)) -> never_bad (pbind m k).
Proof. intros Hm Hk s s'. unfold pbind. specialize (Hm s). destruct (m s) as [a s1|s1|]; [apply Hk|intros E; now apply (Hm s1)|discriminate]. Qed.
Lemma nb_ret {A} (a : A) : never_bad (pret a).
Proof. discriminate. Qed.
Lemma nb_if {A} (b : bool) (m m' : parser A) : never_bad m -> never_bad m' -> never_bad (if b then m else m').
Proof. now destruct b. Qed.
Lemma nb_tok : never_bad p_tok.
Proof. discriminate. Qed.
Lemma nb_expected m : never_bad (p_expected src m).
Proof. discriminate. Qed.
Lemma nb_next : never_bad next.
Proof.
  unfold p_next. generalize (fuel src). intros n s s'. revert s. induction n as [|n IH]; intros s; cbn [p_next_n]; (destruct (s_next u src s) as [s1|]; [|discriminate]; destruct (s_tok s1 =? K_COMMENT); [|discriminate]); [discriminate|apply IH].
Qed.
Lemma nb_got k : never_bad (p_got u src k).
Proof. intros s s'. unfold p_got. destruct (s_tok s =? k); [|discriminate]. apply nb_bind; [apply nb_next|intros; apply nb_ret]. Qed.
Ltac nb := repeat first [simple apply nb_bind; [|intros ?]|simple apply nb_if|simple apply nb_ret|simple apply nb_tok|simple apply nb_next|simple apply nb_got|simple apply nb_expected].
Lemma nb_want k : never_bad (p_want u src k).
Proof. unfold p_want. nb. Qed.
Lemma nb_gotAssign : never_bad (p_gotAssign u src).
Proof. unfold p_gotAssign. nb. apply nb_want. Qed.
Lemma nb_lit k : never_bad (p_lit u src k).
Proof. intros s s'. unfold p_lit. destruct (s_tok s =? k); apply nb_bind; intros; try apply nb_ret; [apply nb_next|apply nb_want]. Qed.
Lemma nb_separator : never_bad (p_separator u src).
Proof.
  unfold p_separator. generalize (fuel src). induction n as [|n IH]; intros s s'; cbn [p_separator_n]; (destruct ((s_tok s =? K_COMMA) || (s_tok s =? K_SEMICOLON)); [|discriminate]); [discriminate|].
  apply nb_bind; [apply nb_next|intros; apply IH].
Qed.
Lemma nb_list {A} open close (f : parser A) : never_bad f -> never_bad (p_list u src open close f).
Proof.
  intros Hf. unfold p_list. nb; try apply nb_want. generalize (fuel src). induction n as [|n IH]; intros s s'; cbn [p_items]; (destruct (negb (s_tok s =? K_EOF) && negb (s_tok s =? close)); [|discriminate]); [discriminate|].
  apply nb_bind; [exact Hf|intros]. nb; [apply nb_separator|apply IH].
Qed.
Lemma nb_annotations : never_bad (p_annotations u src).
Proof. unfold p_annotations. nb. apply nb_list. unfold p_annotation. nb; first [apply nb_lit|apply nb_gotAssign]. Qed.
Lemma nb_header : never_bad (p_header u src).
Proof. unfold p_header, p_include, p_namespace. nb; first [apply nb_want|apply nb_lit|apply nb_annotations]. Qed.
Lemma nb_headers n : never_bad (p_headers u src n).
Proof. induction n as [|n IH]; [discriminate|]. cbn [p_headers]. nb; [apply nb_header|]. destruct a; nb. apply IH. Qed.
Lemma nb_def : never_bad (p_def u src).
Proof.
  intros s s'. unfold p_def. destruct (p_def_switch u src s) as [d s1|s1|]; [discriminate| |discriminate]. apply nb_bind; [|discriminate].
  clear. generalize (fuel src). induction n as [|n IH]; intros s s'; cbn [p_recover_n]; (destruct (negb (s_tok s =? K_EOF) && negb (isDefinition (s_tok s))); [|discriminate]); [discriminate|].
  apply nb_bind; [apply nb_next|intros; apply IH].
Qed.
Lemma nb_defs n : never_bad (p_defs u src n).
Proof.
  induction n as [|n IH]; intros s s'; cbn [p_defs]; (destruct (negb (s_tok s =? K_EOF)); [|discriminate]); [discriminate|]. apply nb_bind; [apply nb_def|intros]. nb. apply IH.
Qed.
Lemma nb_file : never_bad (p_file u src).
Proof. unfold p_file. nb; [apply nb_headers|apply nb_defs]. Qed.

(** ** The whole run *)
Lemma init_ready : ready (s_init src).
Proof. destruct (init_spec src) as (E & A & _ & _ & K & _). split; [eauto|]. rewrite K. discriminate. Qed.

Lemma source_clean toks : source_tokens u src toks <-> s_errs (s_init src) = [] /\ clean_from (s_init src) toks.
Proof.
  destruct (init_spec src) as (E & A & HE & _ & _ & HI). rewrite HE, HI. unfold source_tokens, clean_from. set (cs := drop_bom (chars src)) in *. split.
  - intros (O & T). split; [|exists cs; split; [exact A|]; split; [exact T|]]; destruct cs as [|c cs']; cbn; inversion_clear O; auto.
  - intros (O1 & cs2 & A2 & T2 & O2). pose proof (at_inj _ _ _ A2 A) as ->. split; [|exact T2]. destruct cs as [|c cs']; [constructor|]. cbn in *. inversion_clear O1. now constructor.
Qed.

Theorem run_total : exists f s, p_run u src = Ret f s /\ bounded (s_errs s) /\
  (s_errs s = [] -> exists toks, source_tokens u src toks /\ g_file f (no_comments toks)).
Proof.
  unfold p_run, pbind. destruct (next_total _ init_ready) as (s1 & E1 & N). rewrite (ns_run _ _ _ N). pose proof (ns_inv _ _ _ N) as I1.
  destruct (good_file s1 I1) as (H & HK). pose proof (nb_file s1) as NB. destruct (p_file u src s1) as [f s2|s2|]; [|exfalso; now apply (NB s2)|contradiction].
  exists f, s2. split; [reflexivity|]. destruct H as (I2 & _ & _ & E2 & X2 & B2 & C2). destruct (init_spec src) as (E0 & A0 & HE0 & HB0 & _).
  rewrite X2, (ns_errs _ _ _ N), HE0. split; [apply Forall_app; split; [apply Forall_app; split; [exact HB0|apply N]|exact B2]|].
  intros Z0. apply app_eq_nil in Z0. destruct Z0 as (Z0 & Z2). apply app_eq_nil in Z0. destruct Z0 as (Z0 & Z1). destruct (C2 Z2) as (t & T1 & T2).
  destruct (clean_eats s1 t s2 T1 (HK f s2 eq_refl) (s_init src) init_ready (ns_run _ _ _ N)) as (toks & CF & NC).
  { rewrite (ns_errs _ _ _ N), Z1. now rewrite app_nil_r. }
  exists toks. split; [apply source_clean; split; [congruence|exact CF]|]. now rewrite NC.
Qed.

End parser.
