(** Where a token starts decides how it is scanned; what follows a BadDef. *)
From Coq Require Import Strings.String Permutation.
From Verif Require Import Base BaseLemmas GoType Utf8 Tokens Scan LexSpec LexProof Parse PosSpec PosProof ScanProof ParseProof BadDefs Shift.
Local Open Scope list_scope.

(** ** The scanner does not look at the kind or the place of the token before *)
Section Ignore.
Context (u : unicode) (src : list byte).
Lemma nextch_set_tok k s : nextch src (set_tok k s) = set_tok k (nextch src s).
Proof.
  unfold nextch, s_error. cbn. destruct (skipn (s_rd s) src) as [|b t]; [reflexivity|]. destruct (b2z b =? 0).
  - now destruct (position _ _).
  - destruct (0x80 <=? b2z b); [|reflexivity]. destruct (decode_rune (b :: t)) as [r w]. destruct (_ && _); [now destruct (position _ _)|].
    destruct (_ && _); [now destruct (position _ _)|reflexivity].
Qed.
Lemma nextch_set_pos p s : nextch src (set_pos p s) = set_pos p (nextch src s).
Proof.
  unfold nextch, s_error. cbn. destruct (skipn (s_rd s) src) as [|b t]; [reflexivity|]. destruct (b2z b =? 0).
  - now destruct (position _ _).
  - destruct (0x80 <=? b2z b); [|reflexivity]. destruct (decode_rune (b :: t)) as [r w]. destruct (_ && _); [now destruct (position _ _)|].
    destruct (_ && _); [now destruct (position _ _)|reflexivity].
Qed.
Lemma while_set_tok k c : forall n s, scan_while src n c (set_tok k s) = option_map (set_tok k) (scan_while src n c s).
Proof. induction n as [|n IH]; intros s; cbn [scan_while set_tok s_ch]; destruct (c (s_ch s)); try reflexivity. change (mkS _ _ _ _ _ _ _) with (set_tok k s). now rewrite nextch_set_tok, IH. Qed.
Lemma while_set_pos p c : forall n s, scan_while src n c (set_pos p s) = option_map (set_pos p) (scan_while src n c s).
Proof. induction n as [|n IH]; intros s; cbn [scan_while set_pos s_ch]; destruct (c (s_ch s)); try reflexivity. change (mkS _ _ _ _ _ _ _) with (set_pos p s). now rewrite nextch_set_pos, IH. Qed.
Lemma ident_set_tok k s : s_ident u src (set_tok k s) = s_ident u src s.
Proof.
  unfold s_ident. rewrite while_set_tok. destruct (scan_while _ _ _ s) as [s1|]; cbn [option_map]; [|reflexivity].
  change (s_ch (set_tok k s1)) with (s_ch s1). destruct (0x80 <=? s_ch s1); [|reflexivity].
  rewrite while_set_tok. destruct (scan_while _ _ _ s1) as [s2|]; reflexivity.
Qed.
Lemma next_set_pos p s : s_next u src (set_pos p s) = s_next u src s.
Proof.
  unfold s_next. change (fuel src) with (Datatypes.S (length src)). cbn [s_next_n]. rewrite while_set_pos. destruct (scan_while _ _ _ s) as [s1|]; reflexivity.
Qed.

(** ** How a token was scanned *)
Record where_ (s : sstate) : Prop := mkWhere {
  w_at : exists cs, at_ src s cs;
  w_pos : (s_pos s <= s_off s)%nat;
  w_errs : Forall (fun e => (pe_off e <= s_off s)%nat) (s_errs s) }.

Lemma where_error s o m : (o <= s_off s)%nat -> where_ s -> where_ (s_error o m s).
Proof.
  intros Ho [(cs & A) B C]. split.
  - exists cs. now apply at_error.
  - unfold s_error. destruct (position _ _). exact B.
  - unfold s_error. destruct (position _ _). cbn. apply Forall_app. split; [exact C|]. repeat constructor. exact Ho.
Qed.
Lemma nextch_errs s : Forall (fun e => (pe_off e <= s_off s)%nat) (s_errs s) -> (s_off s <= s_off (nextch src s))%nat ->
  Forall (fun e => (pe_off e <= s_off (nextch src s))%nat) (s_errs (nextch src s)).
Proof.
  intros H Ho. assert (H' : Forall (fun e => (pe_off e <= s_off (nextch src s))%nat) (s_errs s)).
  { eapply Forall_impl; [|exact H]. cbn. intros a Ha. lia. }
  clear H. revert H'. clear Ho. unfold nextch. destruct (skipn (s_rd s) src) as [|b t]; [auto|]. cbv zeta.
  assert (Err : forall o m x, Forall (fun e => (pe_off e <= o)%nat) (s_errs x) -> Forall (fun e => (pe_off e <= o)%nat) (s_errs (s_error o m x))).
  { intros o m x Hx. unfold s_error. destruct (position _ _). cbn. apply Forall_app. split; [exact Hx|]. repeat constructor. }
  destruct (b2z b =? 0); [intros H; now apply Err|]. destruct (0x80 <=? b2z b); [|auto]. cbn [s_rd set_ch].
  destruct (decode_rune _) as [r w]. destruct (_ && _); [intros H; now apply Err|]. destruct (_ && _); [intros H; now apply Err|auto].
Qed.
Lemma where_nextch s : where_ s -> where_ (nextch src s).
Proof.
  intros [(cs & A) B C].
  assert (T : exists c' t' E, travels src s (nextch src s) t' c' E).
  { destruct cs as [|c cs]; [exists [], [], []; now apply nextch_eof|]. destruct (travels_nextch src s c cs A) as (E & T). eauto. }
  destruct T as (c' & t' & E & T). pose proof (tr_off _ _ _ _ _ _ T) as To. split.
  - exists c'. apply T.
  - rewrite (tr_pos _ _ _ _ _ _ T). lia.
  - apply nextch_errs; [exact C|lia].
Qed.
Lemma where_tok s k : where_ s -> where_ (set_tok k s).
Proof. intros [(cs & A) B C]. split; auto. exists cs. now apply at_tok. Qed.
Lemma where_pos s : where_ s -> where_ (set_pos (s_off s) s).
Proof. intros [(cs & A) B C]. split; auto. exists cs. now apply at_pos. Qed.
Lemma where_init : where_ (s_init src).
Proof.
  assert (H : where_ (nextch src (mkS 32 0 0 [O] K_ILLEGAL 0 []))).
  { destruct (nextch_gen src (mkS 32 0 0 [O] K_ILLEGAL 0 []) O eq_refl ltac:(lia)) as (A & Ho & Hp & _). cbv zeta in *. split; [eauto|rewrite Hp; cbn; lia|].
    apply nextch_errs; cbn; [constructor|lia]. }
  unfold s_init. cbv zeta. destruct (_ =? _); [now apply where_nextch|exact H].
Qed.

Lemma where_next : sk where_ (s_next u src).
Proof. apply keep_s_next; auto using where_nextch, where_tok, where_pos. intros s m H. now apply where_error. Qed.

Definition quoted (p : nat) : Prop := nth_error src p = Some x22 \/ nth_error src p = Some x27.

(** Its first character made it an identifier or keyword. *)
Definition from_letter (s0 : sstate) : Prop :=
  exists sx, where_ sx /\ s_pos sx = s_off sx /\ isLetter (s_ch sx) = true /\ s_ident u src (nextch src sx) = Some s0.

Lemma tok_while c n s s' : scan_while src n c s = Some s' -> s_tok s' = s_tok s.
Proof. revert s. induction n as [|n IH]; intros s; cbn [scan_while]; destruct (c (s_ch s)); try discriminate; try (injection 1; intros; now subst). intros H. apply IH in H. now rewrite H, nextch_tok. Qed.
Lemma tok_exponent k s s' : s_exponent src k s = Some s' -> s_tok s' = k \/ s_tok s' = K_FLOAT.
Proof.
  unfold s_exponent. destruct (_ =? 101); cbv zeta; [|injection 1; intros; subst; now left].
  destruct (scan_while _ _ _ _); [|discriminate]. injection 1; intros; subst. now right.
Qed.
Lemma tok_decimal s s' : s_decimal src s = Some s' -> s_tok s' = K_INT \/ s_tok s' = K_FLOAT.
Proof.
  unfold s_decimal. destruct (scan_while _ _ _ _) as [s1|]; [|discriminate]. destruct (_ =? 46); [|apply tok_exponent].
  destruct (scan_while _ _ _ _) as [s2|]; [|discriminate]. intros H. apply tok_exponent in H. tauto.
Qed.
Lemma tok_number s s' : s_number src s = Some s' -> s_tok s' = K_INT \/ s_tok s' = K_FLOAT.
Proof.
  unfold s_number. destruct (_ =? 48); [|apply tok_decimal]. cbv zeta. destruct (_ =? 120); [|apply tok_decimal].
  destruct (scan_while _ _ _ _); [|discriminate]. injection 1; intros; subst. now left.
Qed.
Lemma tok_full n s s' : s_tok s = K_COMMENT -> s_full_loop src n s = Some s' -> s_tok s' = K_COMMENT.
Proof.
  apply (keep_full_loop src (fun s => s_tok s = K_COMMENT)).
  - intros x Hx. now rewrite nextch_tok.
  - intros x m Hx. unfold s_error. now destruct (position _ _).
Qed.
Lemma tok_single c k : single c = Some k -> isDefinition k = false.
Proof. unfold single. repeat (destruct (_ =? _); [injection 1; intros; subst; reflexivity|]). discriminate. Qed.
Lemma switch_tok redo s s' : s_switch u src redo s = Some s' -> isDefinition (s_tok s') = true ->
  s_ch s = 34 \/ s_ch s = 39 \/ exists x, (x = nextch src (s_error (s_off s) (lit "invalid character " ++ fmt_U u (s_ch s)) s)) /\ redo x = Some s'.
Proof.
  unfold s_switch. cbv zeta. intros H D.
  assert (Num : forall x, s_number src x = Some s' -> False).
  { intros x Hx. apply tok_number in Hx. destruct Hx as [Hx|Hx]; rewrite Hx in D; discriminate. }
  assert (Lin : forall x, s_line_comment src x = Some s' -> False).
  { intros x Hx. apply tok_while in Hx. rewrite Hx in D. discriminate. }
  assert (Ful : forall x, s_full_comment src x = Some s' -> False).
  { intros x Hx. apply tok_full in Hx; [|reflexivity]. rewrite Hx in D. discriminate. }
  destruct (s_ch s =? eof); [injection H as <-; discriminate|]. destruct (isDecimal _); [now apply Num in H|].
  destruct (Z.eqb_spec (s_ch s) 34); [auto|]. destruct (Z.eqb_spec (s_ch s) 39); [auto|]. cbn [orb] in H.
  destruct (_ =? 43). { destruct (isDecimal _); [now apply Num in H|injection H as <-; discriminate]. }
  destruct (_ =? 45). { destruct (isDecimal _); [now apply Num in H|injection H as <-; discriminate]. }
  destruct (_ =? 47). { destruct (_ =? 47); [now apply Lin in H|]. destruct (_ =? 42); [now apply Ful in H|injection H as <-; discriminate]. }
  destruct (_ =? 61). { destruct (_ =? 61); injection H as <-; discriminate. }
  destruct (_ =? 35); [now apply Lin in H|].
  destruct (single (s_ch s)) eqn:E; [injection H as <-; cbn in D; apply tok_single in E; congruence|]. right. right. eauto.
Qed.

Lemma at_byte s cs c : at_ src s cs -> s_ch s = c -> 0 <= c < 128 -> exists t, skipn (s_off s) src = z2b c :: t /\ s_rd s = Datatypes.S (s_off s).
Proof.
  intros A <- Hc. destruct (skipn (s_off s) src) as [|b t] eqn:E.
  - exfalso. pose proof (at_chars _ _ _ A) as X. rewrite E in X. cbn in X. subst cs. rewrite (at_ch _ _ _ A) in Hc. unfold hd_code, eof in Hc. lia.
  - pose proof (at_chars _ _ _ A) as X. rewrite E in X. rewrite chars_cons in X by discriminate. subst cs. pose proof (at_ch _ _ _ A) as Y. pose proof (at_rd _ _ _ A) as Z. cbn [hd_code hd_width fst snd] in Y, Z.
    destruct (decode_rune (b :: t)) as [r w] eqn:D. cbn [fst snd] in *. destruct (Z.lt_ge_cases (b2z b) 0x80) as [L|L].
    + exists t. unfold decode_rune in D. rewrite (proj2 (Z.ltb_lt _ _) L) in D. injection D as <- <-. rewrite Y, z2b_b2z. split; [reflexivity|]. cbn in Z. lia.
    + exfalso. destruct (decode_high _ _ _ D) as (R1 & _); [exists b, t; split; [reflexivity|lia]|]. lia.
Qed.

Lemma pos_ident p s s' : s_pos s = p -> s_ident u src s = Some s' -> s_pos s' = p.
Proof.
  apply (keep_ident u src (fun s => s_pos s = p)); auto. intros x Hx. rewrite <- Hx.
  unfold nextch, s_error. destruct (skipn (s_rd x) src) as [|b t]; [reflexivity|]. destruct (b2z b =? 0).
  - now destruct (position _ _).
  - destruct (0x80 <=? b2z b); [|reflexivity]. destruct (decode_rune _) as [r w]. destruct (_ && _); [now destruct (position _ _)|].
    destruct (_ && _); [now destruct (position _ _)|reflexivity].
Qed.
Lemma nextch_pos s : s_pos (nextch src s) = s_pos s.
Proof.
  unfold nextch, s_error. destruct (skipn (s_rd s) src) as [|b t]; [reflexivity|]. destruct (b2z b =? 0).
  - now destruct (position _ _).
  - destruct (0x80 <=? b2z b); [|reflexivity]. destruct (decode_rune _) as [r w]. destruct (_ && _); [now destruct (position _ _)|].
    destruct (_ && _); [now destruct (position _ _)|reflexivity].
Qed.
Lemma pos_string p s s' : s_pos s = p -> s_string src s = Some s' -> s_pos s' = p.
Proof.
  apply (keep_string src (fun s => s_pos s = p)); auto.
  - intros x Hx. now rewrite nextch_pos.
  - intros x m Hx. unfold s_error. now destruct (position _ _).
Qed.
Lemma keyword_ascii text k : keywords text = Some k -> exists b t, text = b :: t /\ b2z b < 128.
Proof.
  unfold keywords. intros H. apply find_some in H. destruct H as [H1 H2]. apply bytes_eqb_true in H2. subst text.
  assert (A : forallb (fun k => match token_string k with b :: _ => b2z b <? 128 | [] => false end) keyword_kinds = true) by (vm_compute; reflexivity).
  rewrite forallb_forall in A. specialize (A k H1). destruct (token_string k) as [|b t]; [discriminate|]. exists b, t. split; [reflexivity|]. now apply Z.ltb_lt.
Qed.
Lemma ident_keyword s s' : s_ident u src s = Some s' -> isDefinition (s_tok s') = true -> keywords (s_lit src s') = Some (s_tok s').
Proof.
  unfold s_ident. destruct (scan_while _ _ _ s) as [s1|]; [|discriminate].
  match goal with |- match ?x with _ => _ end = _ -> _ => destruct x as [s2|] end; [|discriminate]. cbv zeta. injection 1; intros <-. cbn [set_tok s_tok].
  change (s_lit src (set_tok _ s2)) with (s_lit src s2). destruct (2 <? _)%nat; [|discriminate]. destruct (keywords (s_lit src s2)); [auto|discriminate].
Qed.

Lemma next_n_def : forall n s s', where_ s -> s_next_n u src n s = Some s' -> isDefinition (s_tok s') = true -> quoted (s_pos s') \/ from_letter s'.
Proof.
  induction n as [|n IH]; intros s s' W H D; cbn [s_next_n] in H; [discriminate|].
  destruct (scan_while src (fuel src) is_white s) as [s1|] eqn:E1; [|discriminate].
  assert (W1 : where_ s1). { refine (keep_while src where_ _ _ _ _ _ W E1). exact where_nextch. }
  cbv zeta in H. pose proof (where_pos _ W1) as W2. assert (P2 : s_pos (set_pos (s_off s1) s1) = s_off (set_pos (s_off s1) s1)) by reflexivity.
  set (sx := set_pos (s_off s1) s1) in *. clearbody sx. clear E1 W1 s1.
  assert (Sw : s_switch u src (s_next_n u src n) sx = Some s' -> quoted (s_pos s') \/ from_letter s').
  { intros H'. destruct W2 as [(cs & A) B C].
    assert (Q : forall c, s_ch sx = c -> c = 34 \/ c = 39 -> quoted (s_off sx)).
    { intros c Hc Hq. destruct (at_byte sx cs c A Hc ltac:(lia)) as (t & T & _). unfold quoted. pose proof (nth_skipn (s_off sx) src 0) as N. rewrite T, Nat.add_0_r in N. cbn in N. rewrite <- N.
      destruct Hq; subst c; [left|right]; rewrite H0; reflexivity. }
    destruct (switch_tok _ _ _ H' D) as [X|[X|(x & -> & X)]].
    - left. revert H'. unfold s_switch. cbv zeta. rewrite X. cbn -[s_string]. intros H'. rewrite (pos_string (s_pos sx) sx s' eq_refl H'), P2. apply (Q 34); auto.
    - left. revert H'. unfold s_switch. cbv zeta. rewrite X. cbn -[s_string]. intros H'. rewrite (pos_string (s_pos sx) sx s' eq_refl H'), P2. apply (Q 39); auto.
    - refine (IH _ _ _ X D). apply where_nextch, where_error; [lia|]. split; eauto. }
  destruct (isLetter (s_ch sx)) eqn:EL.
  { right. exists sx. auto. }
  destruct (Z.leb_spec 0x80 (s_ch sx)) as [Hi|Hi]; [|now apply Sw].
  unfold atIdent in H. cbv zeta in H.
  assert (No : forall y, s_pos y = s_off sx -> s_ident u src (nextch src y) = Some s' -> False).
  { intros y Hy Hi'. pose proof (ident_keyword _ _ Hi' D) as K. apply keyword_ascii in K. destruct K as (b & t & K & Kb).
    assert (P : s_pos s' = s_off sx). { refine (pos_ident (s_off sx) _ _ _ Hi'). now rewrite nextch_pos. }
    unfold s_lit in K. rewrite P in K. destruct W2 as [(cs & A) _ _].
    destruct (skipn (s_off sx) src) as [|b' t'] eqn:ES; [now rewrite firstn_nil in K|]. destruct (s_off s' - s_off sx)%nat; [discriminate|]. injection K as -> _.
    pose proof (at_chars _ _ _ A) as X. rewrite ES, chars_cons in X by discriminate. subst cs. pose proof (at_ch _ _ _ A) as Y. cbn [hd_code fst] in Y.
    unfold decode_rune in Y. rewrite (proj2 (Z.ltb_lt _ _) Kb) in Y. cbn [fst] in Y. lia. }
  destruct (_ || (s_ch sx =? 95)). { exfalso. exact (No sx P2 H). }
  destruct (_ || (s_ch sx =? 46)).
  { exfalso. refine (No _ _ H). unfold s_error. now destruct (position _ _). }
  now apply Sw.
Qed.

(** ** The parser's state between tokens *)
Definition tokened (s : sstate) : Prop := isDefinition (s_tok s) = true -> quoted (s_pos s) \/
  exists s0 E, from_letter s0 /\ s_ch s = s_ch s0 /\ s_off s = s_off s0 /\ s_rd s = s_rd s0 /\ s_tok s = s_tok s0 /\ s_pos s = s_pos s0 /\
    s_errs s = s_errs s0 ++ E /\ Forall (fun e => pe_off e = s_pos s) E.
Definition between (s : sstate) : Prop := where_ s /\ tokened s.

Lemma between_next : sk between (s_next u src).
Proof.
  intros s s' [W _] H. split; [exact (where_next _ _ W H)|]. intros D. destruct (next_n_def _ _ _ W H D) as [Q|F]; [now left|right].
  exists s', []. rewrite app_nil_r. conj; auto.
Qed.
Lemma between_first s' : s_next u src (s_init src) = Some s' -> between s'.
Proof.
  intros H. split; [exact (where_next _ _ where_init H)|]. intros D. destruct (next_n_def _ _ _ where_init H D) as [Q|F]; [now left|right].
  exists s', []. rewrite app_nil_r. conj; auto.
Qed.
Lemma between_error s m : between s -> between (s_error (s_pos s) m s).
Proof.
  intros [W T]. split; [apply where_error; [apply W|exact W]|]. unfold tokened in *. destruct (s_error_fields (s_pos s) m s) as (A1 & A2 & A3 & A4 & A5 & _ & e & A6 & A7).
  rewrite A4, A5. intros D. destruct (T D) as [Q|(s0 & E & F & B1 & B2 & B3 & B4 & B5 & B6 & B7)]; [now left|right].
  exists s0, (E ++ [e]). rewrite A1, A2, A3, A6, B6, app_assoc. conj; auto. apply Forall_app. split; [exact B7|]. repeat constructor. exact A7.
Qed.
End Ignore.

(** ** What follows a BadDef *)
Section Rest.
Context (u : unicode) (src : list byte).

Lemma recover_end : forall n s s', p_recover_n u src n s = Ret tt s' -> s_tok s' = K_EOF \/ isDefinition (s_tok s') = true.
Proof.
  induction n as [|n IH]; intros s s'; cbn [p_recover_n]; destruct (Z.eqb_spec (s_tok s) K_EOF) as [K|K]; cbn [negb andb];
    try (injection 1; intros; subst; auto; fail).
  - destruct (isDefinition (s_tok s)) eqn:D; cbn [negb]; [injection 1; intros; subst; auto|discriminate].
  - destruct (isDefinition (s_tok s)) eqn:D; cbn [negb]; [injection 1; intros; subst; auto|]. unfold pbind. destruct (p_next u src s) as [[] s1| |]; try discriminate. apply IH.
Qed.
Lemma def_end s s' a b : p_def u src s = Ret (BadDef a b) s' -> s_tok s' = K_EOF \/ isDefinition (s_tok s') = true.
Proof.
  unfold p_def. destruct (p_def_switch u src s) as [d s1|s1|] eqn:E; [|unfold pbind|discriminate].
  - injection 1; intros; subst. apply def_switch_real in E. contradiction.
  - destruct (p_recover_n u src (fuel src) s1) as [[] s2| |] eqn:R; try discriminate. injection 1; intros; subst. exact (recover_end _ _ _ R).
Qed.
Lemma def_between s : between u src s -> match p_def u src s with Ret _ s' => between u src s' | Bad s' => between u src s' | Stuck => True end.
Proof. apply keep_def; [apply between_next|apply between_error]. Qed.

Lemma defs_split a b after : forall before n s s', inv src s -> between u src s -> (mu src s <= n)%nat ->
  p_defs u src n s = Ret (before ++ BadDef a b :: after) s' ->
  exists n' s1, inv src s1 /\ between u src s1 /\ s_pos s1 = b /\ (s_tok s1 = K_EOF \/ isDefinition (s_tok s1) = true) /\ p_defs u src n' s1 = Ret after s'.
Proof.
  induction before as [|d before IH]; intros n s s' I B L H; (destruct n as [|n]; cbn [p_defs] in H;
    (destruct (Z.eqb_spec (s_tok s) K_EOF) as [K|K]; cbn [negb] in H; [discriminate|]); [discriminate|]);
  pose proof (tok_mu src s _ I eq_refl K) as Hp; pose proof (good_def u src s I Hp) as G; pose proof (def_between s B) as B1;
  unfold pbind in H; (destruct (p_def u src s) as [d1 s1| |] eqn:E; [|discriminate|discriminate]);
  destruct G as (I1 & _ & G & _); specialize (G eq_refl Hp);
  (destruct (p_defs u src n s1) as [l s2| |] eqn:E2; [|discriminate|discriminate]); unfold pret in H; injection H as -> -> ->.
  - exists n, s1. conj; auto; [|exact (def_end _ _ _ _ E)].
    destruct B as [W _]. assert (O : offs src s).
    { destruct W as [(cs & A) Wp _]. split; [exact Wp|]. pose proof (at_off _ _ _ A). pose proof (at_rd _ _ _ A). pose proof (at_length _ _ _ A) as AL.
      destruct cs as [|c cs]; cbn [hd_width] in *; [lia|]. change (text (c :: cs)) with (snd c ++ text cs) in AL. rewrite app_length in AL. lia. }
    destruct (def_bad u src s s1 _ I O Hp E) as (_ & -> & _). reflexivity.
  - apply (IH n s1 s'); auto. lia.
Qed.

Lemma letter_code c : isLetter c = true -> 65 <= c < 128.
Proof.
  unfold isLetter. rewrite orb_true_iff, (lower_range 97 122 c) by lia. unfold in_range. rewrite orb_true_iff, !andb_true_iff, !Z.leb_le, Z.eqb_eq. lia.
Qed.

Lemma letter_start s0 : from_letter u src s0 -> isDefinition (s_tok s0) = true ->
  exists s2 X, p_next u (skipn (s_pos s0) src) (s_init (skipn (s_pos s0) src)) = Ret tt s2 /\
    sim (skipn (s_pos s0) src) (s_pos s0) X s0 s2 /\ Forall (fun x => (fst x <= s_pos s0)%nat) X.
Proof.
  intros (sx & [(cs & A) _ We] & Hp & HL & HI) D. pose proof (letter_code _ HL) as Hc.
  assert (P0 : s_pos s0 = s_pos sx) by (refine (pos_ident u src _ _ _ _ HI); apply nextch_pos). rewrite P0, Hp. set (b := s_off sx) in *. set (src2 := skipn b src).
  destruct (at_byte src sx cs (s_ch sx) A eq_refl ltac:(lia)) as (t & T & Rd). fold b in T, Rd. fold src2 in T.
  assert (BZ : b2z (z2b (s_ch sx)) = s_ch sx) by (rewrite b2z_z2b; apply Z.mod_small; lia).
  assert (I2 : s_init src2 = mkS (s_ch sx) 0 1 [O] K_ILLEGAL 0 []).
  { assert (N1 : nextch src2 (mkS 32 0 0 [O] K_ILLEGAL 0 []) = mkS (s_ch sx) 0 1 [O] K_ILLEGAL 0 []).
    { unfold nextch. cbn [s_rd skipn s_ch]. rewrite T. cbv zeta. rewrite BZ.
      destruct (Z.eqb_spec (s_ch sx) 0); [lia|]. destruct (Z.leb_spec 0x80 (s_ch sx)); [lia|]. reflexivity. }
    unfold s_init. cbv zeta. rewrite N1. cbn [s_ch]. unfold bom. destruct (Z.eqb_spec (s_ch sx) 0xFEFF); [lia|]. reflexivity. }
  set (X := map key (s_errs sx)).
  assert (S0 : sim src2 b X (set_tok K_ILLEGAL sx) (s_init src2)).
  { rewrite I2. constructor; cbn; auto; try lia. rewrite app_nil_r. reflexivity. }
  assert (Hb : (b <= length src)%nat) by apply A.
  pose proof (sim_next src src2 b X Hb eq_refl _ _ S0) as S1.
  pose proof (so_ident u src src2 b X Hb eq_refl _ _ S1) as S2. rewrite nextch_set_tok, ident_set_tok, HI in S2.
  assert (EN : s_next u src2 (s_init src2) = s_ident u src2 (nextch src2 (s_init src2))).
  { rewrite I2. unfold s_next. change (fuel src2) with (Datatypes.S (length src2)). cbn [s_next_n]. change (fuel src2) with (Datatypes.S (length src2)). cbn [scan_while s_ch].
    assert (NW : is_white (s_ch sx) = false) by (unfold is_white; repeat match goal with |- context [?x =? ?y] => destruct (Z.eqb_spec x y); [lia|] end; reflexivity).
    rewrite NW. cbn [set_pos s_off s_ch s_rd s_lines s_tok s_errs]. rewrite HL. reflexivity. }
  destruct (next_total u src2 _ (init_ready src2)) as (s2 & E2 & N). pose proof (ns_run _ _ _ _ _ N) as R.
  unfold p_next in R |- *. change (fuel src2) with (Datatypes.S (length src2)) in R |- *. cbn [p_next_n] in R |- *. rewrite EN in R |- *.
  destruct (s_ident u src2 (nextch src2 (s_init src2))) as [s2'|]; [|discriminate].
  pose proof (m_tok _ _ _ _ _ S2) as Tk. destruct (Z.eqb_spec (s_tok s2') K_COMMENT) as [K|K]; [rewrite Tk, K in D; discriminate|].
  exists s2', X. conj; auto. unfold X. apply Forall_forall. intros x Hx. apply in_map_iff in Hx. destruct Hx as (e & <- & He). exact (proj1 (Forall_forall _ _) We e He).
Qed.

Theorem rest_of f s b before a after : p_run u src = Ret f s -> file_defs f = before ++ BadDef a b :: after -> ~ quoted src b ->
  exists f2 s2 X, p_run u (skipn b src) = Ret f2 s2 /\ file_headers f2 = [] /\ Forall2 (def_moved b) after (file_defs f2) /\
    Permutation (map key (s_errs s)) (X ++ map (moved b) (map key (s_errs s2))) /\ Forall (fun x => (fst x <= b)%nat) X.
Proof.
  intros HR HD NQ. unfold p_run, p_file, pbind in HR.
  assert (B1 : match p_next u src (s_init src) with Ret _ s1 => between u src s1 | _ => True end).
  { pose proof (where_init src) as W0. unfold p_next. change (fuel src) with (Datatypes.S (length src)). cbn [p_next_n].
    destruct (s_next u src (s_init src)) as [s1|] eqn:E1; [|exact Logic.I]. pose proof (between_first u src s1 E1) as H1.
    destruct (s_tok s1 =? K_COMMENT); [|exact H1].
    assert (K : forall m x, between u src x -> match p_next_n u src m x with Ret _ y => between u src y | Bad y => between u src y | Stuck => True end).
    { induction m as [|m IH]; intros x Hx; cbn [p_next_n]; (destruct (s_next u src x) as [y|] eqn:Ey; [|exact Logic.I]); pose proof (between_next u src x y Hx Ey) as Hy;
      (destruct (s_tok y =? K_COMMENT); [|exact Hy]); [exact Logic.I|]. now apply IH. }
    specialize (K (length src) s1 H1). now destruct (p_next_n u src (length src) s1). }
  destruct (next_total u src _ (init_ready src)) as (s1 & E1 & N). rewrite (ns_run _ _ _ _ _ N) in HR, B1. pose proof (ns_inv _ _ _ _ _ N) as I1.
  pose proof (good_headers u src (Datatypes.S (fuel src)) s1 I1 ltac:(pose proof (mu_fuel src s1); lia)) as G2.
  pose proof (keep_headers u src (between u src) (between_next u src) (between_error u src) (Datatypes.S (fuel src)) s1 B1) as B2.
  destruct (p_headers u src _ s1) as [h s2| |]; [|discriminate|discriminate]. destruct G2 as (I2 & _).
  destruct (p_defs u src (fuel src) s2) as [l s3| |] eqn:ED; [|discriminate|discriminate]. unfold pret in HR. injection HR as <- <-. cbn [file_defs] in HD. subst l.
  destruct (defs_split a b after before (fuel src) s2 s3 I2 B2 ltac:(pose proof (mu_fuel src s2); lia) ED) as (n' & x & Ix & Bx & Px & Tx & Dx).
  destruct (run_total u (skipn b src)) as (f2 & z & R2 & _).
  destruct (s_tok x =? K_EOF) eqn:EK.
  - (* the end of the file *)
    apply Z.eqb_eq in EK. destruct (inv_eof _ _ Ix EK) as (Hpos & Hoff).
    assert (Hb : skipn b src = []) by (apply skipn_all2; lia). rewrite Hb in *.
    assert (after = [] /\ x = s3) as [-> ->].
    { destruct n'; cbn [p_defs] in Dx; rewrite EK in Dx; cbn in Dx; injection Dx as -> ->; auto. }
    assert (R0 : p_run u [] = Ret (mkFile [] []) (mkS eof 0 0 [O] K_EOF 0 [])) by (vm_compute; reflexivity).
    rewrite R0. do 3 eexists. split; [reflexivity|]. split; [reflexivity|]. split; [constructor|]. cbn. rewrite app_nil_r. split; [reflexivity|].
    destruct Bx as [[_ _ We] _]. apply Forall_forall. intros y Hy. apply in_map_iff in Hy. destruct Hy as (e & <- & He). pose proof (proj1 (Forall_forall _ _) We e He). cbn in *. lia.
  - assert (D : isDefinition (s_tok x) = true) by (destruct Tx as [Tx|Tx]; [rewrite Tx in EK; discriminate|exact Tx]).
    destruct Bx as [Wx Tk]. destruct (Tk D) as [Q|(s0 & E & F & A1 & A2 & A3 & A4 & A5 & A6 & A7)]; [now rewrite Px in Q|].
    rewrite A4 in D. destruct (letter_start s0 F D) as (y & X & RY & S & FX). assert (P0 : s_pos s0 = b) by congruence. rewrite Px in A7. rewrite P0 in RY, S, FX. clear A5.
    assert (Hb : (b <= length src)%nat). { destruct Wx as [(cs & A) Wp _]. pose proof (at_off _ _ _ A). lia. }
    assert (S' : sim (skipn b src) b (X ++ map key E) x y).
    { destruct S as [M1 M2 M3 M4 M5 M6 M7]. constructor; try congruence; auto.
      rewrite A6, map_app, M7, <- !app_assoc. apply Permutation_app_head, Permutation_app_comm. }
    assert (Dy : isDefinition (s_tok y) = true) by now rewrite <- (m_tok _ _ _ _ _ S).
    unfold p_run, p_file, pbind in R2. rewrite RY in R2.
    assert (HH : p_headers u (skipn b src) (Datatypes.S (fuel (skipn b src))) y = Ret [] y).
    { cbn [p_headers]. unfold pbind, p_header. unfold pbind, p_tok. cbv beta iota.
      destruct (Z.eqb_spec (s_tok y) K_INCLUDE) as [K|K]; [rewrite K in Dy; discriminate|].
      destruct (Z.eqb_spec (s_tok y) K_NAMESPACE) as [K'|K']; [rewrite K' in Dy; discriminate|]. reflexivity. }
    rewrite HH in R2. pose proof (sp_defs u src (skipn b src) b (X ++ map key E) Hb eq_refl n' (fuel (skipn b src)) x y S') as SD. rewrite Dx in SD.
    destruct (p_defs u (skipn b src) (fuel (skipn b src)) y) as [l2 y'| |] eqn:E2; [|discriminate|discriminate]. destruct SD as [F2 S2]. unfold pret in R2. injection R2 as <- <-.
    exists (mkFile [] l2), y', (X ++ map key E). conj; auto.
    + unfold p_run, p_file, pbind. rewrite RY, HH, E2. reflexivity.
    + exact (m_errs _ _ _ _ _ S2).
    + apply Forall_app. split; [exact FX|]. apply Forall_forall. intros z' Hz. apply in_map_iff in Hz. destruct Hz as (e & <- & He). pose proof (proj1 (Forall_forall _ _) A7 e He). cbn in *. lia.
Qed.
End Rest.

(** ** A byte order mark at the start *)
Section Mark.
Context (u : unicode) (src : list byte).
Definition mark : list byte := [xef; xbb; xbf].

Lemma decode_bom s : fst (decode_rune s) = bom -> exists t, s = mark ++ t.
Proof.
  unfold decode_rune, bom, RuneError. destruct s as [|b0 r]; cbn [fst]; [discriminate|]. cbv zeta. pose proof (b2z_range b0) as R0.
  assert (Conv : forall b n, b2z b = n -> b = z2b n) by (intros b n <-; symmetry; apply z2b_b2z).
  destruct (Z.ltb_spec (b2z b0) 0x80); cbn [fst]; [lia|].
  destruct (Z.leb_spec 0xC2 (b2z b0)); destruct (Z.leb_spec (b2z b0) 0xDF); cbn [andb].
  1: { destruct r as [|b1 r]; [discriminate|]. unfold cont_in. destruct (Z.leb_spec 0x80 (b2z b1)); destruct (Z.leb_spec (b2z b1) 0xBF); cbn [andb fst]; lia. }
  all: destruct (Z.leb_spec 0xE0 (b2z b0)); destruct (Z.leb_spec (b2z b0) 0xEF); cbn [andb]; try lia.
  1: { destruct r as [|b1 [|b2 r]]; [discriminate|discriminate|]. unfold cont_in. destruct (_ && _) eqn:C; cbn [fst]; [|discriminate]. intros E.
    rewrite !andb_true_iff, !Z.leb_le in C. destruct C as ((C1 & C2) & C3 & C4). pose proof (b2z_range b1). pose proof (b2z_range b2).
    assert (C1' : 0x80 <= b2z b1) by (destruct (_ =? 0xE0); lia). assert (C2' : b2z b1 <= 0xBF) by (destruct (_ =? 0xED); lia). clear C1 C2.
    assert (b2z b0 = 0xEF) by lia. assert (b2z b1 = 0xBB) by lia. assert (b2z b2 = 0xBF) by lia.
    exists r. rewrite (Conv b0 0xEF), (Conv b1 0xBB), (Conv b2 0xBF) by assumption. reflexivity. }
  all: destruct (Z.leb_spec 0xF0 (b2z b0)); destruct (Z.leb_spec (b2z b0) 0xF4); cbn [andb fst]; try lia.
  destruct r as [|b1 [|b2 [|b3 r]]]; [discriminate|discriminate|discriminate|]. unfold cont_in. destruct (_ && _) eqn:C; cbn [fst]; [|discriminate]. intros E.
  rewrite !andb_true_iff, !Z.leb_le in C. destruct C as (((C1 & C2) & C3 & C4) & C5 & C6).
  destruct (Z.eqb_spec (b2z b0) 0xF0); lia.
Qed.

Lemma mark_init : (forall t, src <> mark ++ t) -> sim src 3 [] (set_pos 3 (s_init (mark ++ src))) (s_init src).
Proof.
  intros NB.
  assert (S1 : nextch (mark ++ src) (mkS 32 0 0 [O] K_ILLEGAL 0 []) = mkS bom 0 3 [O] K_ILLEGAL 0 []) by reflexivity.
  assert (N2 : s_init src = nextch src (mkS 32 0 0 [O] K_ILLEGAL 0 [])).
  { unfold s_init. cbv zeta. destruct (Z.eqb_spec (s_ch (nextch src (mkS 32 0 0 [O] K_ILLEGAL 0 []))) bom) as [K|]; [|reflexivity]. exfalso. revert K.
    unfold nextch. cbn [s_rd skipn s_ch]. destruct src as [|b t]; [discriminate|]. cbv zeta. pose proof (b2z_range b). unfold bom at 2. destruct (b2z b =? 0); [cbn [s_ch set_ch]; lia|].
    destruct (0x80 <=? b2z b); [|cbn [s_ch set_ch]; lia]. cbn [s_rd set_ch skipn]. destruct (decode_rune (b :: t)) as [r w] eqn:D. cbn [s_ch set_ch]. intros ->.
    destruct (decode_bom (b :: t)) as (t' & E); [now rewrite D|]. exact (NB _ E). }
  rewrite N2. unfold s_init. cbv zeta. rewrite S1. change (s_ch (mkS bom 0 3 [O] K_ILLEGAL 0 []) =? bom) with true. cbv iota. rewrite <- nextch_set_pos.
  unfold nextch. cbn [s_rd set_pos s_ch s_off s_lines s_tok s_pos s_errs]. change (skipn 3 (mark ++ src)) with src. cbn [skipn].
  assert (Hk : (3 <= length (mark ++ src))%nat) by (rewrite app_length; cbn; lia).
  destruct src as [|b t] eqn:Es; [constructor; cbn; auto|]. rewrite <- Es in *. cbv zeta. change (bom =? 10) with false. change (32 =? 10) with false. cbv iota.
  cbn [s_rd set_ch]. change (skipn 3 (mark ++ src)) with src. cbn [skipn].
  destruct (b2z b =? 0); [constructor; cbn; auto|]. destruct (0x80 <=? b2z b); [|constructor; cbn; auto].
  destruct (decode_rune src) as [r w] eqn:D.
  assert (Nr : r =? bom = false).
  { apply Z.eqb_neq. intros ->. destruct (decode_bom src) as (t' & E); [now rewrite D|]. exact (NB _ E). }
  assert (Hw : (0 < w)%nat).
  { revert D. rewrite Es. clear. unfold decode_rune. repeat match goal with |- context [if ?x then _ else _] => destruct x | |- context [match ?x with [] => _ | _ => _ end] => destruct x end; injection 1; intros; subst; lia. }
  rewrite Nr. cbn [andb]. destruct (_ && _); constructor; cbn; auto; lia.
Qed.

Theorem mark_run f s : (forall t, src <> mark ++ t) -> p_run u src = Ret f s ->
  exists f' s', p_run u (mark ++ src) = Ret f' s' /\ file_headers f' = file_headers f /\ Forall2 (def_moved 3) (file_defs f') (file_defs f) /\
    Permutation (map key (s_errs s')) (map (moved 3) (map key (s_errs s))).
Proof.
  intros NB R. pose proof (mark_init NB) as S0. assert (Hk : (3 <= length (mark ++ src))%nat) by (rewrite app_length; cbn; lia).
  destruct (run_total u (mark ++ src)) as (f' & s' & R' & _). exists f', s'. split; [exact R'|].
  assert (PS : p_next u (mark ++ src) (set_pos 3 (s_init (mark ++ src))) = p_next u (mark ++ src) (s_init (mark ++ src))).
  { unfold p_next. change (fuel (mark ++ src)) with (Datatypes.S (length (mark ++ src))). cbn [p_next_n]. now rewrite next_set_pos. }
  assert (SF : sp src 3 [] (file_moved 3) (p_next u (mark ++ src) ;;; p_file u (mark ++ src)) (p_next u src ;;; p_file u src)).
  { apply (sp_eq src 3 []); [now apply sp_next|]. intros _. now apply sp_file. }
  specialize (SF _ _ S0). unfold p_run in R, R'. unfold pbind in SF, R, R'. rewrite PS, R, R' in SF. destruct SF as [[H1 H2] H3]. conj; auto. exact (m_errs _ _ _ _ _ H3).
Qed.
End Mark.
