(** Where the BadDefs of a tree lie. *)
From Coq Require Import Strings.String.
From Verif Require Import Base BaseLemmas GoType Utf8 Tokens Scan Parse PosSpec PosProof ParseProof.
Local Open Scope list_scope.

Section BadDefs.
Context (u : unicode) (src : list byte).

(** A badDef panic comes right after an error at the current token. *)
Definition told {A} (m : parser A) : Prop := forall s s', m s = Bad s' -> exists e, In e (s_errs s') /\ pe_off e = s_pos s'.

Lemma told_bind {A B} (m : parser A) (k : A -> parser B) : told m -> (forall a, told (k a)) -> told (pbind m k).
Proof. intros Hm Hk s s'. unfold pbind. destruct (m s) as [a s1|s1|] eqn:E; [apply Hk|intros H; apply (Hm s); congruence|discriminate]. Qed.
Lemma told_nb {A} (m : parser A) : never_bad m -> told m.
Proof. intros H s s' E. exfalso. exact (H _ _ E). Qed.
Lemma told_panic {A} m : told (p_expected src m ;;; @p_panic A).
Proof.
  intros s s'. unfold pbind, p_expected, p_errorExpected, p_error, p_panic. cbv zeta. injection 1; intros; subst.
  unfold s_error. destruct (position _ _) as [l c]. cbn. eexists. split; [apply in_or_app; right; left; reflexivity|]. reflexivity.
Qed.
Lemma told_stuck {A} : told (fun _ => @Stuck A).
Proof. discriminate. Qed.
Hint Resolve told_nb nb_ret nb_tok nb_next nb_got nb_want nb_gotAssign nb_lit nb_separator nb_annotations nb_expected nb_header told_panic told_stuck : told.
Ltac told := repeat first
  [ progress auto with told
  | match goal with |- told (pbind _ _) => apply told_bind; [|intros ?] end
  | match goal with |- told (if ?b then _ else _) => destruct b end
  | match goal with |- told (match ?b with _ => _ end) => destruct b end ].

Lemma told_items {A} close (f : parser A) n : told f -> told (p_items u src n close f).
Proof.
  intros Hf. induction n as [|n IH]; intros s s'; cbn [p_items]; (destruct (_ && _); [|discriminate]); [discriminate|].
  assert (H : told (x <- f;; p_separator u src ;;; l <- p_items u src n close f;; pret (x :: l))) by told. apply H.
Qed.
Lemma told_list {A} open close (f : parser A) : told f -> told (p_list u src open close f).
Proof. intros Hf. unfold p_list. told. apply told_items. exact Hf. Qed.
Hint Resolve told_list : told.
Lemma told_type n : told (p_type u src n).
Proof. induction n as [|n IH]; cbn [p_type]; unfold p_ident; told. Qed.
Lemma told_value n : told (p_value u src n).
Proof.
  induction n as [|n IH]; cbn [p_value]; [told|].
  assert (L : told (p_keyValuePair u src (p_value u src n))) by (unfold p_keyValuePair; told).
  unfold p_ident, p_int, p_float, p_string. told.
Qed.
Lemma told_type_ : told (p_type_ u src).
Proof. apply told_type. Qed.
Lemma told_value_ : told (p_value_ u src).
Proof. apply told_value. Qed.
Hint Resolve told_type_ told_value_ : told.
Lemma told_fieldName : told (p_fieldName u src).
Proof.
  intros s s'. unfold p_fieldName. destruct (_ || _).
  - assert (H : told (p_next u src ;;; pret (s_lit src s))) by told. apply H.
  - assert (H : told (p_want u src K_IDENT ;;; pret (@nil byte))) by told. apply H.
Qed.
Hint Resolve told_fieldName : told.
Lemma told_field : told (p_field u src).
Proof. unfold p_field, p_int. told. Qed.
Hint Resolve told_field : told.
Lemma told_enumValue : told (p_enumValue u src).
Proof. unfold p_enumValue, p_ident, p_int. told. Qed.
Lemma told_method : told (p_method u src).
Proof. unfold p_method, p_fields, p_ident. told. Qed.
Hint Resolve told_enumValue told_method : told.
Lemma told_def_switch : told (p_def_switch u src).
Proof. unfold p_def_switch, p_const, p_typedef, p_enum, p_struct, p_service, p_fields, p_ident. told. Qed.

(** Errors are only added, and positions only grow. *)
Definition after (p0 : nat) (E0 : list perr) (s : sstate) : Prop :=
  (p0 <= s_pos s <= s_off s)%nat /\ (s_off s <= s_rd s <= length src)%nat /\ exists E, s_errs s = E0 ++ E.
Lemma after_error p0 E0 s o m : after p0 E0 s -> after p0 E0 (s_error o m s).
Proof.
  intros (H1 & H2 & E & H3). destruct (error_same s o m) as (A1 & A2 & A3 & A4 & A5). unfold after. rewrite A2, A3, A5.
  split; [exact H1|]. split; [exact H2|]. unfold s_error. destruct (position _ _). cbn. rewrite H3, <- app_assoc. eauto.
Qed.
Lemma nextch_offs s : (s_off s <= s_rd s <= length src)%nat ->
  (s_off s <= s_off (nextch src s) <= s_rd (nextch src s))%nat /\ (s_rd (nextch src s) <= length src)%nat /\ s_pos (nextch src s) = s_pos s /\
  exists E, s_errs (nextch src s) = s_errs s ++ E.
Proof.
  intros H. unfold nextch. destruct (skipn (s_rd s) src) as [|b t] eqn:E.
  - apply (f_equal (@length byte)) in E. rewrite skipn_length in E. cbn in *. split; [lia|]. split; [lia|]. split; [reflexivity|]. exists []. now rewrite app_nil_r.
  - apply (f_equal (@length byte)) in E as El. rewrite skipn_length in El. cbn [length] in El. cbv zeta.
    set (lines := if s_ch s =? 10 then _ else _). set (s0 := set_ch s (s_ch s) (s_rd s) (s_rd s) lines).
    assert (Err : forall m, s_pos (s_error (s_rd s) m s0) = s_pos s /\ exists E, s_errs (s_error (s_rd s) m s0) = s_errs s ++ E).
    { intros m. destruct (error_same s0 (s_rd s) m) as (_ & _ & _ & _ & A5). rewrite A5. split; [reflexivity|].
      unfold s_error. destruct (position _ _). cbn. eauto. }
    destruct (b2z b =? 0); [|destruct (Z.leb_spec 0x80 (b2z b)) as [Hb|Hb]].
    + destruct (Err (lit "illegal character NUL")) as (A1 & A2). cbn. split; [lia|]. split; [lia|]. auto.
    + change (s_rd s0) with (s_rd s). rewrite E. destruct (decode_rune (b :: t)) as [r w] eqn:Er.
      destruct (decode_high _ _ _ Er) as (_ & R2 & _); [exists b, t; split; [reflexivity|lia]|]. cbn [length] in R2.
      destruct (_ && _); [|destruct (_ && _)].
      * destruct (Err (lit "illegal UTF-8 encoding")) as (A1 & A2). cbn. split; [lia|]. split; [lia|]. auto.
      * destruct (Err (lit "illegal byte order mark")) as (A1 & A2). cbn. split; [lia|]. split; [lia|]. auto.
      * cbn. split; [lia|]. split; [lia|]. split; [reflexivity|]. exists []. now rewrite app_nil_r.
    + cbn. split; [lia|]. split; [lia|]. split; [reflexivity|]. exists []. now rewrite app_nil_r.
Qed.
Lemma after_nextch p0 E0 s : after p0 E0 s -> after p0 E0 (nextch src s).
Proof.
  intros (H1 & H2 & E & H3). destruct (nextch_offs s H2) as (A1 & A2 & A3 & E' & A4). unfold after. rewrite A3, A4, H3, <- app_assoc.
  split; [lia|]. split; [lia|]. eauto.
Qed.
Lemma after_tok p0 E0 s k : after p0 E0 s -> after p0 E0 (set_tok k s).
Proof. exact (fun H => H). Qed.
Lemma after_pos p0 E0 s : after p0 E0 s -> after p0 E0 (set_pos (s_off s) s).
Proof. intros (H1 & H2 & H3). split; [cbn; lia|]. auto. Qed.
Lemma after_refl s : (s_pos s <= s_off s)%nat -> (s_off s <= s_rd s <= length src)%nat -> after (s_pos s) (s_errs s) s.
Proof. intros H1 H2. split; [lia|]. split; [lia|]. exists []. now rewrite app_nil_r. Qed.

Definition offs (s : sstate) : Prop := (s_pos s <= s_off s)%nat /\ (s_off s <= s_rd s <= length src)%nat.
Lemma after_offs p0 E0 s : after p0 E0 s -> offs s.
Proof. intros (H1 & H2 & _). split; [lia|exact H2]. Qed.

Section Use.
Context (p0 : nat) (E0 : list perr).
Lemma scan_after : sk (after p0 E0) (s_next u src).
Proof. apply keep_s_next; auto using after_nextch, after_error, after_tok, after_pos. Qed.
Lemma def_switch_after s : after p0 E0 s ->
  match p_def_switch u src s with Ret _ s' => after p0 E0 s' | Bad s' => after p0 E0 s' | Stuck => True end.
Proof. apply keep_def_switch; auto using after_error, scan_after. Qed.
Lemma recover_after n s : after p0 E0 s ->
  match p_recover_n u src n s with Ret _ s' => after p0 E0 s' | Bad s' => after p0 E0 s' | Stuck => True end.
Proof. apply keep_recover; auto using after_error, scan_after. Qed.
Lemma def_after s : after p0 E0 s ->
  match p_def u src s with Ret _ s' => after p0 E0 s' | Bad s' => after p0 E0 s' | Stuck => True end.
Proof. apply keep_def; auto using after_error, scan_after. Qed.
Lemma defs_after n s : after p0 E0 s ->
  match p_defs u src n s with Ret _ s' => after p0 E0 s' | Bad s' => after p0 E0 s' | Stuck => True end.
Proof. apply keep_defs; auto using after_error, scan_after. Qed.
Lemma headers_after n s : after p0 E0 s ->
  match p_headers u src n s with Ret _ s' => after p0 E0 s' | Bad s' => after p0 E0 s' | Stuck => True end.
Proof. apply keep_headers; auto using after_error, scan_after. Qed.
Lemma next_after s : after p0 E0 s ->
  match p_next u src s with Ret _ s' => after p0 E0 s' | Bad s' => after p0 E0 s' | Stuck => True end.
Proof. apply keep_p_next; auto using after_error, scan_after. Qed.
End Use.

(** What is parsed as a definition is no BadDef. *)
Definition gives {A} (P : A -> Prop) (m : parser A) : Prop := forall s a s', m s = Ret a s' -> P a.
Lemma gives_bind {A B} (P : B -> Prop) (m : parser A) (k : A -> parser B) : (forall a, gives P (k a)) -> gives P (pbind m k).
Proof. intros H s b s'. unfold pbind. destruct (m s) as [a s1| |]; [apply H|discriminate|discriminate]. Qed.
Definition real (d : def) : Prop := match d with BadDef _ _ => False | _ => True end.
Lemma gives_ret {A} (P : A -> Prop) a : P a -> gives P (pret a).
Proof. intros H s b s' E. injection E as -> _. exact H. Qed.
Lemma def_switch_real : gives real (p_def_switch u src).
Proof.
  unfold p_def_switch, p_const, p_typedef, p_enum, p_struct, p_service.
  repeat first [ match goal with |- gives _ (pbind _ _) => apply gives_bind; intros ? end
    | match goal with |- gives _ (if ?b then _ else _) => destruct b end
    | apply gives_ret; exact Logic.I
    | discriminate ].
Qed.

(** One definition. *)
Definition bad_ok (s s' : sstate) (d : def) : Prop :=
  match d with
  | BadDef a b => a = s_pos s /\ b = s_pos s' /\ (a < b <= length src)%nat /\ exists e, In e (s_errs s') /\ (a <= pe_off e <= b)%nat
  | _ => True
  end.
Lemma def_bad s s' d : inv src s -> offs s -> (0 < mu src s)%nat -> p_def u src s = Ret d s' -> bad_ok s s' d.
Proof.
  intros I Ho Hp E. pose proof (good_def u src s I Hp) as G. rewrite E in G. destruct G as (I2 & _ & G & _). specialize (G eq_refl Hp).
  revert E. unfold p_def.
  pose proof (def_switch_after (s_pos s) (s_errs s) s (after_refl s (proj1 Ho) (proj2 Ho))) as A1.
  pose proof (told_def_switch s) as T1.
  destruct (p_def_switch u src s) as [d1 s1|s1|] eqn:E1; [| |discriminate].
  - injection 1; intros; subst. apply def_switch_real in E1. destruct d; try exact Logic.I. contradiction.
  - unfold pbind. pose proof (recover_after (s_pos s1) (s_errs s1) (fuel src) s1) as A2.
    destruct (T1 s1 eq_refl) as (e & He & Hoff).
    destruct (p_recover_n u src (fuel src) s1) as [[] s2|s2|]; try discriminate. injection 1; intros; subst.
    destruct (after_offs _ _ _ A1) as (O1 & O2). specialize (A2 (after_refl s1 O1 O2)). pose proof (after_offs _ _ _ A2) as (O3 & O4).
    destruct A1 as (A1 & _), A2 as (A2 & _ & E' & A3). unfold mu in G. cbn. split; [reflexivity|]. split; [reflexivity|]. split; [lia|].
    exists e. split; [rewrite A3; apply in_or_app; left; exact He|]. lia.
Qed.

(** All of them. *)
Fixpoint bad_all (s : nat) (errs : list perr) (l : list def) : Prop :=
  match l with
  | [] => True
  | BadDef a b :: l => (s <= a < b)%nat /\ (b <= length src)%nat /\ (exists e, In e errs /\ (a <= pe_off e <= b)%nat) /\ bad_all b errs l
  | _ :: l => bad_all s errs l
  end.
Lemma bad_all_le errs l : forall s s', (s <= s')%nat -> bad_all s' errs l -> bad_all s errs l.
Proof. induction l as [|d l IH]; intros s s' H; [auto|]. cbn. destruct d; try (apply IH; exact H). intros (A & B & C & D). conj; auto. lia. lia. Qed.

Lemma defs_bad : forall n s l s', inv src s -> offs s -> (mu src s <= n)%nat -> p_defs u src n s = Ret l s' -> bad_all (s_pos s) (s_errs s') l.
Proof.
  induction n as [|n IH]; intros s l s' I Ho Hn; cbn [p_defs]; (destruct (Z.eqb_spec (s_tok s) K_EOF) as [K|K]; cbn [negb]; [injection 1; intros; subst; exact Logic.I|]); [discriminate|].
  pose proof (tok_mu src s _ I eq_refl K) as Hp. pose proof (good_def u src s I Hp) as G. pose proof (def_bad s) as B.
  pose proof (def_after (s_pos s) (s_errs s) s (after_refl s (proj1 Ho) (proj2 Ho))) as A.
  unfold pbind. destruct (p_def u src s) as [d s1| |] eqn:E; [|discriminate|discriminate].
  destruct G as (I1 & _ & G & _). specialize (G eq_refl Hp). specialize (B s1 d I Ho Hp eq_refl).
  pose proof (after_offs _ _ _ A) as Ho1. pose proof (IH s1) as IH1.
  pose proof (defs_after (s_pos s1) (s_errs s1) n s1 (after_refl s1 (proj1 Ho1) (proj2 Ho1))) as A1.
  destruct (p_defs u src n s1) as [l1 s2| |]; [|discriminate|discriminate]. unfold pret. injection 1; intros; subst.
  specialize (IH1 l1 s' I1 Ho1 ltac:(lia) eq_refl). destruct A as (A & _).
  destruct A1 as (_ & _ & E' & A1). cbn [bad_all]. destruct d; try (apply bad_all_le with (s_pos s1); [lia|exact IH1]).
  destruct B as (-> & -> & B1 & e & B2 & B3). conj; auto; try lia. exists e. split; [rewrite A1; apply in_or_app; now left|lia].
Qed.

Theorem run_bad f s : p_run u src = Ret f s -> bad_all O (s_errs s) (file_defs f).
Proof.
  assert (H0 : after O [] (s_init src)).
  { assert (H : after O [] (mkS 32 0 0 [O] K_ILLEGAL 0 [])) by (split; [cbn; lia|]; split; [cbn; lia|]; now exists []).
    unfold s_init. cbv zeta. apply after_nextch in H. destruct (_ =? _); [apply after_nextch|]; exact H. }
  unfold p_run, p_file, pbind. destruct (next_total u src _ (init_ready src)) as (s1 & E1 & N).
  pose proof (next_after O [] _ H0) as H1. rewrite (ns_run _ _ _ _ _ N) in *. pose proof (ns_inv _ _ _ _ _ N) as I1.
  pose proof (headers_after O [] (Datatypes.S (fuel src)) s1 H1) as H2.
  pose proof (good_headers u src (Datatypes.S (fuel src)) s1 I1 ltac:(pose proof (mu_fuel src s1); lia)) as G2.
  destruct (p_headers u src _ s1) as [h s2| |]; [|discriminate|discriminate]. destruct G2 as (I2 & _).
  pose proof (defs_bad (fuel src) s2) as D. destruct (p_defs u src (fuel src) s2) as [l s3| |]; [|discriminate|discriminate].
  unfold pret. injection 1; intros; subst. cbn [file_defs]. apply bad_all_le with (s_pos s2); [lia|]. apply D; auto; [exact (after_offs _ _ _ H2)|].
  pose proof (mu_fuel src s2). lia.
Qed.
End BadDefs.
