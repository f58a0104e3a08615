(** The line table, and the positions of errors. *)
From Coq Require Import Strings.String.
From Verif Require Import Base BaseLemmas GoType Utf8 Tokens Scan Parse PosSpec.
Local Open Scope list_scope.

Section Keep.
Context (u : unicode) (src : list byte) (I : sstate -> Prop).
Context (K_next : forall s, I s -> I (nextch src s))
        (K_off : forall s m, I s -> I (s_error (s_off s) m s))
        (K_at : forall s m, I s -> I (s_error (s_pos s) m s))
        (K_tok : forall s k, I s -> I (set_tok k s))
        (K_pos : forall s, I s -> I (set_pos (s_off s) s)).

(** ** What every step of the scanner keeps *)
Definition sk (f : sstate -> option sstate) : Prop := forall s s', I s -> f s = Some s' -> I s'.

Lemma keep_while c n : sk (scan_while src n c).
Proof.
  induction n as [|n IH]; intros s s' Hs; cbn [scan_while]; destruct (c (s_ch s)); try discriminate;
    try (injection 1; intros; subst; assumption).
  apply IH; auto.
Qed.

Lemma keep_map k f : sk f -> sk (fun s => option_map (set_tok k) (f s)).
Proof. intros Hf s s' Hs. destruct (f s) eqn:E; cbn [option_map]; [|discriminate]. injection 1; intros; subst. eauto. Qed.

Lemma keep_exponent k : sk (s_exponent src k).
Proof.
  intros s s' Hs. unfold s_exponent. destruct (lower (s_ch s) =? 101).
  - cbv zeta. refine (keep_map K_FLOAT (scan_while src (fuel src) isDecimal) (keep_while _ _) _ s' _).
    destruct (_ || _); auto.
  - injection 1; intros; subst; auto.
Qed.

Lemma keep_decimal : sk (s_decimal src).
Proof.
  intros s s' Hs. unfold s_decimal.
  destruct (scan_while src (fuel src) isDecimal s) as [s1|] eqn:E1; [|discriminate].
  pose proof (keep_while _ _ _ _ Hs E1) as H1.
  destruct (s_ch s1 =? 46); [|apply keep_exponent; auto].
  destruct (scan_while src (fuel src) isDecimal (nextch src s1)) as [s2|] eqn:E2; [|discriminate].
  apply keep_exponent. refine (keep_while _ _ _ _ _ E2). auto.
Qed.

Lemma keep_number : sk (s_number src).
Proof.
  intros s s' Hs. unfold s_number. destruct (s_ch s =? 48); [|apply keep_decimal; auto].
  cbv zeta. destruct (lower (s_ch (nextch src s)) =? 120).
  - refine (keep_map K_INT (scan_while src (fuel src) isHex) (keep_while _ _) _ s' _). auto.
  - apply keep_decimal; auto.
Qed.

Lemma keep_escape q s : I s -> I (snd (s_escape src q s)).
Proof. intros Hs. unfold s_escape. cbv zeta. repeat match goal with |- context [if ?b then _ else _] => destruct b end; cbn [snd]; auto. Qed.

Lemma keep_string_loop q n : sk (s_string_loop src n q).
Proof.
  induction n as [|n IH]; intros s s' Hs; cbn [s_string_loop]; [discriminate|]. cbv zeta.
  destruct (s_ch s =? q); [injection 1; intros; subst; auto|].
  destruct (s_ch s =? 92).
  - pose proof (keep_escape q (nextch src s) (K_next _ Hs)) as H1.
    destruct (s_escape src q (nextch src s)) as [ok s1]. cbn [snd] in H1. destruct ok.
    + apply IH; auto.
    + injection 1; intros; subst; auto.
  - destruct (s_ch s =? 10); [injection 1; intros; subst; auto|].
    destruct (s_ch s <? 0); [injection 1; intros; subst; auto|]. apply IH; auto.
Qed.

Lemma keep_string : sk (s_string src).
Proof. intros s s' Hs. apply keep_string_loop. auto. Qed.

Lemma keep_line : sk (s_line_comment src).
Proof. intros s s' Hs. apply keep_while. auto. Qed.

Lemma keep_stars n s b s' : I s -> s_stars src n s = Some (b, s') -> I s'.
Proof.
  revert s. induction n as [|n IH]; intros s Hs; cbn [s_stars]; destruct (s_ch s =? 42); try discriminate;
    try (injection 1; intros; subst; assumption).
  destruct (s_ch (nextch src s) =? 47); [injection 1; intros; subst; auto|]. apply IH; auto.
Qed.

Lemma keep_full_loop n : sk (s_full_loop src n).
Proof.
  induction n as [|n IH]; intros s s' Hs; cbn [s_full_loop]; destruct (0 <=? s_ch s); try discriminate;
    try (injection 1; intros; subst; auto; fail).
  destruct (s_stars src (fuel src) s) as [[b s1]|] eqn:E; [|discriminate].
  pose proof (keep_stars _ _ _ _ Hs E) as H1. destruct b; [injection 1; intros; subst; auto|]. apply IH; auto.
Qed.

Lemma keep_full : sk (s_full_comment src).
Proof. intros s s' Hs. apply keep_full_loop. auto. Qed.

Lemma keep_ident : sk (s_ident u src).
Proof.
  intros s s' Hs. unfold s_ident.
  destruct (scan_while src (fuel src) _ s) as [s1|] eqn:E1; [|discriminate].
  pose proof (keep_while _ _ _ _ Hs E1) as H1.
  destruct (0x80 <=? s_ch s1).
  - destruct (scan_while src (fuel src) _ s1) as [s2|] eqn:E2; [|discriminate].
    pose proof (keep_while _ _ _ _ H1 E2). injection 1; intros; subst; auto.
  - injection 1; intros; subst; auto.
Qed.

Lemma keep_switch redo : sk redo -> sk (s_switch u src redo).
Proof.
  intros Hr s s' Hs. unfold s_switch. cbv zeta.
  destruct (s_ch s =? eof); [injection 1; intros; subst; auto|].
  destruct (isDecimal (s_ch s)); [apply keep_number; auto|].
  destruct (_ || _); [apply keep_string; auto|].
  destruct (s_ch s =? 43).
  { destruct (isDecimal _); [apply keep_number; auto|injection 1; intros; subst; auto]. }
  destruct (s_ch s =? 45).
  { destruct (isDecimal _); [apply keep_number; auto|injection 1; intros; subst; auto]. }
  destruct (s_ch s =? 47).
  { destruct (_ =? 47); [apply keep_line; auto|]. destruct (_ =? 42); [apply keep_full; auto|].
    injection 1; intros; subst; auto. }
  destruct (s_ch s =? 61).
  { destruct (_ =? 61); injection 1; intros; subst; auto. }
  destruct (s_ch s =? 35); [apply keep_line; auto|].
  destruct (single (s_ch s)); [injection 1; intros; subst; auto|]. apply Hr; auto.
Qed.

Lemma keep_next_n n : sk (s_next_n u src n).
Proof.
  induction n as [|n IH]; intros s s' Hs; cbn [s_next_n]; [discriminate|].
  destruct (scan_while src (fuel src) is_white s) as [s1|] eqn:E1; [|discriminate].
  pose proof (keep_while _ _ _ _ Hs E1) as H1. cbv zeta.
  pose proof (K_pos _ H1) as H2. set (s2 := set_pos (s_off s1) s1) in *. clearbody s2.
  assert (H3 : I (snd (if isLetter (s_ch s2) then (true, s2) else if 0x80 <=? s_ch s2 then atIdent u true s2 else (false, s2)))).
  { destruct (isLetter _); [auto|]. destruct (_ <=? _); [|auto]. unfold atIdent. cbv zeta.
    repeat match goal with |- context [if ?b then _ else _] => destruct b end; cbn [snd]; auto. }
  destruct (if isLetter (s_ch s2) then _ else _) as [id s3]. cbn [snd] in H3.
  destruct id; [apply keep_ident; auto|]. apply keep_switch; auto.
Qed.

Lemma keep_s_next : sk (s_next u src).
Proof. apply keep_next_n. Qed.
End Keep.

(** ** What every step of the parser keeps *)
Section KeepParser.
Context (u : unicode) (src : list byte) (I : sstate -> Prop).
Context (K_scan : sk I (s_next u src))
        (K_at : forall s m, I s -> I (s_error (s_pos s) m s)).
Definition pk {A} (p : parser A) : Prop := forall s, I s ->
  match p s with Ret _ s' => I s' | Bad s' => I s' | Stuck => True end.

Lemma keep_bind {A B} (m : parser A) (k : A -> parser B) : pk m -> (forall a, pk (k a)) -> pk (pbind m k).
Proof. intros Hm Hk s Hs. unfold pbind. specialize (Hm s Hs). destruct (m s) as [a s1|s1|]; auto. apply Hk. exact Hm. Qed.
Lemma keep_ret {A} (a : A) : pk (pret a).
Proof. intros s Hs. exact Hs. Qed.
Lemma keep_p_tok : pk p_tok.
Proof. intros s Hs. exact Hs. Qed.
Lemma keep_panic {A} : pk (@p_panic A).
Proof. intros s Hs. exact Hs. Qed.
Lemma keep_p_next : pk (p_next u src).
Proof.
  unfold p_next. generalize (fuel src). induction n as [|n IH]; intros s Hs; cbn [p_next_n];
  (destruct (s_next u src s) as [s1|] eqn:E; [|exact Logic.I]);
  pose proof (K_scan _ _ Hs E) as H1; (destruct (s_tok s1 =? K_COMMENT); [|exact H1]); [exact Logic.I|].
  apply IH; auto.
Qed.
Lemma keep_expected m : pk (p_expected src m).
Proof. intros s Hs. unfold p_expected, p_errorExpected, p_error. cbv zeta. apply K_at. exact Hs. Qed.

Hint Resolve keep_ret keep_p_tok keep_panic keep_p_next keep_expected : keep.
Ltac keep := repeat first
  [ progress auto with keep
  | match goal with |- pk (pbind _ _) => apply keep_bind; [|intros ?] end
  | match goal with |- pk (if ?b then _ else _) => destruct b end
  | match goal with |- pk (match ?b with _ => _ end) => destruct b end ].

Lemma keep_got k : pk (p_got u src k).
Proof. intros s Hs. unfold p_got. destruct (_ =? _); [|exact Hs]. assert (H : pk (p_next u src ;;; pret true)) by keep. apply H. exact Hs. Qed.
Hint Resolve keep_got : keep.
Lemma keep_want k : pk (p_want u src k).
Proof. unfold p_want. keep. Qed.
Hint Resolve keep_want : keep.
Lemma keep_gotAssign : pk (p_gotAssign u src).
Proof. unfold p_gotAssign. keep. Qed.
Hint Resolve keep_gotAssign : keep.
Lemma keep_separator : pk (p_separator u src).
Proof.
  unfold p_separator. generalize (fuel src). induction n as [|n IH]; intros s Hs; cbn [p_separator_n];
  (destruct (_ || _); [|exact Hs]); [exact Logic.I|].
  assert (H : pk (p_next u src ;;; p_separator_n u src n)) by keep. apply H. exact Hs.
Qed.
Hint Resolve keep_separator : keep.
Lemma keep_items {A} close (f : parser A) n : pk f -> pk (p_items u src n close f).
Proof.
  intros Hf. induction n as [|n IH]; intros s Hs; cbn [p_items]; (destruct (_ && _); [|exact Hs]); [exact Logic.I|].
  assert (H : pk (x <- f;; p_separator u src ;;; l <- p_items u src n close f;; pret (x :: l))) by keep. apply H. exact Hs.
Qed.
Lemma keep_list {A} open close (f : parser A) : pk f -> pk (p_list u src open close f).
Proof. intros Hf. unfold p_list. keep. apply keep_items. exact Hf. Qed.
Lemma keep_lit k : pk (p_lit u src k).
Proof.
  intros s Hs. unfold p_lit. destruct (_ =? _).
  - assert (H : pk (p_next u src ;;; pret (s_lit src s))) by keep. apply H. exact Hs.
  - assert (H : pk (p_want u src k ;;; pret (@nil byte))) by keep. apply H. exact Hs.
Qed.
Hint Resolve keep_list keep_lit : keep.
Lemma keep_annotation : pk (p_annotation u src).
Proof. unfold p_annotation, p_ident, p_string. keep. Qed.
Hint Resolve keep_annotation : keep.
Lemma keep_annotations : pk (p_annotations u src).
Proof. unfold p_annotations. keep. Qed.
Hint Resolve keep_annotations : keep.
Lemma keep_stuck {A} : pk (fun _ => @Stuck A).
Proof. intros s Hs. exact Logic.I. Qed.
Hint Resolve keep_stuck : keep.
Lemma keep_type n : pk (p_type u src n).
Proof. induction n as [|n IH]; cbn [p_type]; unfold p_ident; keep. Qed.
Lemma keep_value n : pk (p_value u src n).
Proof.
  induction n as [|n IH]; cbn [p_value]; [keep|]. assert (L : pk (p_keyValuePair u src (p_value u src n))) by (unfold p_keyValuePair; keep).
  unfold p_ident, p_int, p_float, p_string. keep.
Qed.
Lemma keep_type_ : pk (p_type_ u src).
Proof. apply keep_type. Qed.
Lemma keep_value_ : pk (p_value_ u src).
Proof. apply keep_value. Qed.
Hint Resolve keep_type_ keep_value_ : keep.
Lemma keep_fieldName : pk (p_fieldName u src).
Proof.
  intros s Hs. unfold p_fieldName. destruct (_ || _).
  - assert (H : pk (p_next u src ;;; pret (s_lit src s))) by keep. apply H. exact Hs.
  - assert (H : pk (p_want u src K_IDENT ;;; pret (@nil byte))) by keep. apply H. exact Hs.
Qed.
Hint Resolve keep_fieldName : keep.
Lemma keep_field : pk (p_field u src).
Proof. unfold p_field, p_int. keep. Qed.
Hint Resolve keep_field : keep.
Lemma keep_fields a b : pk (p_fields u src a b).
Proof. unfold p_fields. keep. Qed.
Hint Resolve keep_fields : keep.
Lemma keep_enumValue : pk (p_enumValue u src).
Proof. unfold p_enumValue, p_ident, p_int. keep. Qed.
Lemma keep_method : pk (p_method u src).
Proof. unfold p_method, p_ident. keep. Qed.
Hint Resolve keep_enumValue keep_method : keep.
Lemma keep_def_switch : pk (p_def_switch u src).
Proof. unfold p_def_switch, p_const, p_typedef, p_enum, p_struct, p_service, p_ident. keep. Qed.
Lemma keep_recover n : pk (p_recover_n u src n).
Proof.
  induction n as [|n IH]; intros s Hs; cbn [p_recover_n]; (destruct (_ && _); [|exact Hs]); [exact Logic.I|].
  assert (H : pk (p_next u src ;;; p_recover_n u src n)) by keep. apply H. exact Hs.
Qed.
Lemma keep_def : pk (p_def u src).
Proof.
  intros s Hs. unfold p_def. pose proof (keep_def_switch s Hs) as H1. destruct (p_def_switch u src s) as [a s1|s1|]; auto.
  pose proof (keep_recover (fuel src) s1 H1) as H2. unfold pbind.
  destruct (p_recover_n u src (fuel src) s1) as [a s2|s2|]; auto.
Qed.
Hint Resolve keep_def : keep.
Lemma keep_header : pk (p_header u src).
Proof. unfold p_header, p_include, p_namespace, p_string, p_ident. keep. Qed.
Hint Resolve keep_header : keep.
Lemma keep_headers n : pk (p_headers u src n).
Proof. induction n as [|n IH]; cbn [p_headers]; keep. Qed.
Lemma keep_defs n : pk (p_defs u src n).
Proof.
  induction n as [|n IH]; intros s Hs; cbn [p_defs]; (destruct (negb _); [|exact Hs]); [exact Logic.I|].
  assert (H : pk (d <- p_def u src;; l <- p_defs u src n;; pret (d :: l))) by keep. apply H. exact Hs.
Qed.
Lemma keep_file : pk (p_file u src).
Proof. unfold p_file. keep; [apply keep_headers|apply keep_defs]. Qed.
Lemma keep_after_init : (forall s', s_next u src (s_init src) = Some s' -> I s') -> match p_run u src with Ret _ s => I s | Bad s => I s | Stuck => True end.
Proof.
  intros H. unfold p_run, p_next. assert (K : pk (p_file u src)) by apply keep_file. unfold pbind. destruct (fuel src) as [|n] eqn:Ef; [discriminate|].
  cbn [p_next_n]. destruct (s_next u src (s_init src)) as [s1|] eqn:E1; [|exact Logic.I]. specialize (H s1 eq_refl).
  assert (L : forall m s, I s -> match p_next_n u src m s with Ret _ s' => I s' | Bad s' => I s' | Stuck => True end).
  { induction m as [|m IH]; intros s Hs; cbn [p_next_n]; (destruct (s_next u src s) as [s2|] eqn:E; [|exact Logic.I]);
    pose proof (K_scan _ _ Hs E) as H1; (destruct (s_tok s2 =? K_COMMENT); [|exact H1]); [exact Logic.I|]. apply IH; auto. }
  destruct (s_tok s1 =? K_COMMENT); [|apply K; exact H]. specialize (L n s1 H).
  destruct (p_next_n u src n s1) as [[] s2| |]; auto. apply K. exact L.
Qed.
Lemma keep_run : I (s_init src) -> match p_run u src with Ret _ s => I s | Bad s => I s | Stuck => True end.
Proof. intros H. apply keep_after_init. intros s' E. exact (K_scan _ _ H E). Qed.
End KeepParser.

(** ** The line table *)
Section Lines.
Context (src : list byte).

(** The line starts up to [n], last first. *)
Fixpoint starts (n : nat) : list nat :=
  match n with
  | O => [O]
  | S m => if match nth_error src m with Some b => b2z b =? 10 | None => false end && (S m <? length src)%nat
           then S m :: starts m else starts m
  end.

Lemma starts_le n i : In i (starts n) -> (i <= n)%nat.
Proof.
  induction n as [|n IH]; cbn [starts]; [intros [<-|[]]; lia|].
  destruct (_ && _); [intros [<-|H]; [lia|]|intros H]; specialize (IH H); lia.
Qed.
Lemma starts_hd n : exists l r, starts n = l :: r /\ (l <= n)%nat.
Proof.
  assert (H : starts n <> []). { induction n as [|n IH]; cbn [starts]; [discriminate|]. destruct (_ && _); [discriminate|exact IH]. }
  destruct (starts n) as [|l r] eqn:E; [congruence|]. exists l, r. split; [reflexivity|]. apply starts_le. rewrite E. left. reflexivity.
Qed.
Lemma newline_byte b : (b2z b =? 10) = true <-> b = x0a.
Proof. split; [destruct b; vm_compute; congruence|intros ->; reflexivity]. Qed.
Lemma starts_in n i : In i (starts n) <-> line_start src i /\ (i <= n)%nat.
Proof.
  induction n as [|n IH]; cbn [starts].
  - split.
    + intros [<-|[]]. split; [left; reflexivity|lia].
    + intros [_ H]. left. lia.
  - destruct (nth_error src n) as [b|] eqn:En.
    + destruct ((b2z b =? 10) && (S n <? length src)%nat) eqn:E.
      * apply andb_prop in E. destruct E as [E1 E2]. apply newline_byte in E1. apply Nat.ltb_lt in E2. subst b.
        cbn [In]. rewrite IH. split.
        -- intros [<-|[H1 H2]]; [|split; [assumption|lia]]. split; [|lia]. right. exists n. auto.
        -- intros [H1 H2]. destruct (Nat.eq_dec (S n) i); [left; assumption|right; split; [assumption|lia]].
      * rewrite IH. split; [intros [H1 H2]; split; [assumption|lia]|]. intros [H1 H2]. split; [assumption|].
        destruct (Nat.eq_dec (S n) i) as [<-|]; [|lia]. exfalso. destruct H1 as [H1|(k & H1 & H3 & H4)]; [discriminate|].
        injection H1 as <-. rewrite En in H3. injection H3 as ->. apply Nat.ltb_lt in H4. rewrite H4 in E. discriminate.
    + cbn [andb]. rewrite IH. split; [intros [H1 H2]; split; [assumption|lia]|]. intros [H1 H2]. split; [assumption|].
      destruct (Nat.eq_dec (S n) i) as [<-|]; [|lia]. exfalso. destruct H1 as [H1|(k & H1 & H3 & H4)]; [discriminate|].
      injection H1 as <-. rewrite En in H3. discriminate.
Qed.
Lemma starts_nodup n : NoDup (starts n).
Proof.
  induction n as [|n IH]; cbn [starts]; [repeat constructor; intros []|]. destruct (_ && _); [|exact IH].
  constructor; [|exact IH]. intros H. apply starts_le in H. lia.
Qed.
Lemma starts_max n l r i : starts n = l :: r -> In i (starts n) -> (i <= l)%nat.
Proof.
  revert l r. induction n as [|n IH]; intros l r; cbn [starts].
  - intros E [<-|[]]. lia.
  - destruct (_ && _).
    + injection 1. intros _ <-. intros [<-|H1]; [lia|]. apply starts_le in H1. lia.
    + apply IH.
Qed.

Lemma position_starts n off : (off <= n)%nat -> exists l r,
  starts off = l :: r /\ position (starts n) off = (length (starts off), off - l + 1)%nat.
Proof.
  induction n as [|n IH]; intros H.
  - replace off with O by lia. exists O, []. split; reflexivity.
  - destruct (Nat.eq_dec off (S n)) as [->|Hn].
    + destruct (starts_hd (S n)) as (l & r & E & Hl). exists l, r. split; [exact E|]. rewrite E. cbn [position length].
      apply Nat.leb_le in Hl. rewrite Hl. f_equal. lia.
    + destruct (IH ltac:(lia)) as (l & r & E1 & E2). exists l, r. split; [exact E1|]. cbn [starts]. destruct (_ && _); [|exact E2].
      cbn [position]. destruct (Nat.leb_spec (S n) off); [lia|]. exact E2.
Qed.

Lemma position_place n off : (off <= n)%nat -> place src off (fst (position (starts n) off)) (snd (position (starts n) off)).
Proof.
  intros H. destruct (position_starts n off H) as (l & r & E1 & E2). rewrite E2. cbn [fst snd].
  exists (starts off), l. repeat split.
  - apply starts_in in H0. tauto.
  - apply starts_in in H0. tauto.
  - intros [H1 H2]. apply starts_in. auto.
  - apply starts_nodup.
  - rewrite E1. left. reflexivity.
  - intros i Hi. eapply starts_max; eauto.
Qed.

Lemma starts_same a b : (a <= b)%nat -> (forall i c, (a <= i < b)%nat -> nth_error src i = Some c -> b2z c <> 10) -> starts b = starts a.
Proof.
  induction b as [|b IH]; intros H1 H2; [f_equal; lia|].
  destruct (Nat.eq_dec a (S b)) as [->|Hn]; [reflexivity|]. cbn [starts].
  replace (match nth_error src b with Some b0 => b2z b0 =? 10 | None => false end) with false.
  { cbn [andb]. apply IH; [lia|]. intros i c Hi. apply H2. lia. }
  destruct (nth_error src b) as [c|] eqn:E; [|reflexivity]. symmetry. apply Z.eqb_neq. apply (H2 b c); [lia|exact E].
Qed.

(** ** The invariant *)
Definition placed (e : perr) : Prop := (pe_off e <= length src)%nat /\ place src (pe_off e) (pe_line e) (pe_col e).
Record inv (s : sstate) : Prop := mkInv {
  i_rd : (s_off s <= s_rd s <= length src)%nat;
  i_pos : (s_pos s <= s_off s)%nat;
  i_lines : s_lines s = starts (s_off s);
  i_next : starts (s_rd s) = if s_ch s =? 10 then add_line (length src) (s_rd s) (starts (s_off s)) else starts (s_off s);
  i_errs : Forall placed (s_errs s) }.

Lemma errs_error s o m n : s_lines s = starts n -> (o <= n)%nat -> (n <= length src)%nat -> Forall placed (s_errs s) ->
  Forall placed (s_errs (s_error o m s)).
Proof.
  intros H3 Ho Hn H5. unfold s_error. destruct (position (s_lines s) o) as [l c] eqn:E. cbn.
  apply Forall_app. split; [exact H5|]. constructor; [|constructor]. split; cbn; [lia|].
  pose proof (position_place n o Ho) as P. rewrite <- H3, E in P. exact P.
Qed.
Lemma error_same s o m : s_ch (s_error o m s) = s_ch s /\ s_off (s_error o m s) = s_off s /\ s_rd (s_error o m s) = s_rd s /\
  s_lines (s_error o m s) = s_lines s /\ s_pos (s_error o m s) = s_pos s.
Proof. unfold s_error. destruct (position (s_lines s) o). cbn. auto. Qed.
Lemma inv_error s o m : inv s -> (o <= s_off s)%nat -> inv (s_error o m s).
Proof.
  intros [H1 H2 H3 H4 H5] Ho. pose proof (errs_error s o m (s_off s) H3 Ho ltac:(lia) H5).
  destruct (error_same s o m) as (E1 & E2 & E3 & E4 & E5). constructor; rewrite ?E1, ?E2, ?E3, ?E4, ?E5; auto.
Qed.

(** A rune of several bytes, or an invalid byte: no byte of it is a newline. *)
Lemma decode_high l r w : decode_rune l = (r, w) -> (exists b t, l = b :: t /\ 0x80 <= b2z b) ->
  128 <= r /\ (1 <= w <= length l)%nat /\ forall i c, (i < w)%nat -> nth_error l i = Some c -> 128 <= b2z c.
Proof.
  intros E (b & t & -> & Hb). cbn [decode_rune] in E. destruct (Z.ltb_spec (b2z b) 0x80); [lia|].
  assert (One : (RuneError, 1%nat) = (r, w) -> 128 <= r /\ (1 <= w <= length (b :: t))%nat /\
    forall i c, (i < w)%nat -> nth_error (b :: t) i = Some c -> 128 <= b2z c).
  { injection 1; intros; subst. unfold RuneError. split; [lia|]. split; [cbn [length]; lia|].
    intros i c Hi. replace i with O by lia. cbn. injection 1; intros; subst. lia. }
  unfold cont_in in E.
  destruct ((0xC2 <=? b2z b) && (b2z b <=? 0xDF)) eqn:E2.
  { destruct t as [|b1 t]; [auto|]. destruct ((0x80 <=? b2z b1) && (b2z b1 <=? 0xBF)) eqn:E3; [|auto].
    apply andb_prop in E2, E3. injection E; intros; subst. cbn [length].
    split; [lia|]. split; [lia|]. intros [|[|i]] c Hi; cbn; [| |lia]; injection 1; intros; subst; lia. }
  destruct ((0xE0 <=? b2z b) && (b2z b <=? 0xEF)) eqn:E3.
  { destruct t as [|b1 [|b2 t]]; auto.
    match goal with E : (if ?x then _ else _) = _ |- _ => destruct x eqn:E4 end; [|auto].
    apply andb_prop in E4. destruct E4 as [E4 E5]. apply andb_prop in E3, E4, E5. injection E; intros; subst. cbn [length].
    assert (128 <= b2z b1) by (destruct (b2z b =? 0xE0); lia).
    split. { destruct (Z.eqb_spec (b2z b) 0xE0); lia. }
    split; [lia|]. intros [|[|[|i]]] c Hi; cbn; [| | |lia]; injection 1; intros; subst; lia. }
  destruct ((0xF0 <=? b2z b) && (b2z b <=? 0xF4)) eqn:E4; [|auto].
  destruct t as [|b1 [|b2 [|b3 t]]]; auto.
  match goal with E : (if ?x then _ else _) = _ |- _ => destruct x eqn:E5 end; [|auto].
  apply andb_prop in E5. destruct E5 as [E5 E6]. apply andb_prop in E5. destruct E5 as [E5 E7].
  apply andb_prop in E4, E5, E6, E7. injection E; intros; subst. cbn [length].
  assert (128 <= b2z b1) by (destruct (b2z b =? 0xF0); lia).
  split. { destruct (Z.eqb_spec (b2z b) 0xF0); lia. }
  split; [lia|]. intros [|[|[|[|i]]]] c Hi; cbn; [| | | |lia]; injection 1; intros; subst; lia.
Qed.

Lemma nth_skipn {A} n (l : list A) i : nth_error (skipn n l) i = nth_error l (n + i).
Proof. revert n. induction l as [|x l IH]; intros [|n]; cbn; auto. destruct i; reflexivity. Qed.

Lemma inv_nextch s : inv s -> inv (nextch src s).
Proof.
  intros H. pose proof H as [H1 H2 H3 H4 H5]. unfold nextch.
  destruct (skipn (s_rd s) src) as [|b t] eqn:E.
  - (* end of file *)
    assert (Hl : (s_rd s = length src)%nat).
    { apply (f_equal (@length byte)) in E. rewrite skipn_length in E. cbn in E. lia. }
    cbv zeta. constructor; cbn; try lia; auto.
    + rewrite H3. rewrite Hl in H4. symmetry. exact H4.
  - set (off := s_rd s) in *.
    assert (Hb : nth_error src off = Some b). { pose proof (nth_skipn off src 0) as N. rewrite E, Nat.add_0_r in N. symmetry. exact N. }
    assert (Hlt : (off < length src)%nat) by (apply nth_error_Some; congruence).
    cbv zeta.
    set (lines := if s_ch s =? 10 then add_line (length src) off (s_lines s) else s_lines s).
    assert (HL : lines = starts off) by (unfold lines; rewrite H3, H4; reflexivity). clearbody lines. subst lines.
    assert (Base : forall c rd' s1, s_off s1 = off -> s_pos s1 = s_pos s -> Forall placed (s_errs s1) ->
      (off <= rd' <= length src)%nat ->
      starts rd' = (if c =? 10 then add_line (length src) rd' (starts off) else starts off) ->
      inv (set_ch s1 c off rd' (starts off))).
    { intros c rd' s1 A1 A2 A3 A4 A5. constructor; cbn; auto. rewrite A2. lia. }
    (* errors raised here *)
    set (s0 := set_ch s (s_ch s) off off (starts off)).
    assert (Err : forall m, s_off (s_error off m s0) = off /\ s_pos (s_error off m s0) = s_pos s /\ Forall placed (s_errs (s_error off m s0))).
    { intros m. destruct (error_same s0 off m) as (E1 & E2 & E3 & E4 & E5). rewrite E2, E5. split; [reflexivity|]. split; [reflexivity|].
      apply (errs_error s0 off m off); [reflexivity|lia|lia|exact H5]. }
    destruct (Z.eqb_spec (b2z b) 0) as [Z0|Z0].
    + destruct (Err (lit "illegal character NUL")) as (A1 & A2 & A3). apply Base; auto; [lia|]. rewrite Z0. cbn.
      apply starts_same; [lia|]. intros i c Hi. replace i with off by lia. rewrite Hb. injection 1; intros; subst. lia.
    + destruct (Z.leb_spec 0x80 (b2z b)) as [Hh|Hh].
      * change (s_rd s0) with off. rewrite E. destruct (decode_rune (b :: t)) as [r w] eqn:Er.
        destruct (decode_high _ _ _ Er) as (R1 & R2 & R3); [exists b, t; split; [reflexivity|lia]|].
        apply (f_equal (@length byte)) in E as El. rewrite skipn_length in El.
        assert (T : starts (off + w) = (if r =? 10 then add_line (length src) (off + w) (starts off) else starts off)).
        { destruct (Z.eqb_spec r 10); [lia|]. apply starts_same; [lia|]. intros i c Hi Hc.
          specialize (R3 (i - off)%nat c ltac:(lia)). rewrite <- E, nth_skipn in R3.
          replace (off + (i - off))%nat with i in R3 by lia. specialize (R3 Hc). lia. }
        destruct ((r =? RuneError) && (w =? 1)%nat); [|destruct ((r =? bom) && (0 <? off)%nat)].
        -- destruct (Err (lit "illegal UTF-8 encoding")) as (A1 & A2 & A3). apply Base; auto. lia.
        -- destruct (Err (lit "illegal byte order mark")) as (A1 & A2 & A3). apply Base; auto. lia.
        -- apply Base; auto. lia.
      * apply Base; auto; [lia|]. replace (off + 1)%nat with (S off) by lia. cbn [starts]. rewrite Hb.
        destruct (Z.eqb_spec (b2z b) 10); [|reflexivity]. destruct (starts_hd off) as (l & r & El & Hl). rewrite El. cbn [add_line andb].
        destruct (Nat.ltb_spec l (S off)); [reflexivity|lia].
Qed.

Lemma inv_init : inv (s_init src).
Proof.
  assert (H : inv (mkS 32 0 0 [O] K_ILLEGAL 0 [])) by (constructor; cbn; auto; lia).
  unfold s_init. cbv zeta. apply inv_nextch in H. destruct (_ =? _); [apply inv_nextch|]; exact H.
Qed.

Theorem run_inv u : match p_run u src with Ret _ s => inv s | Bad s => inv s | Stuck => True end.
Proof.
  apply keep_run.
  - apply keep_s_next.
    + exact inv_nextch.
    + intros s m H. apply inv_error; [exact H|lia].
    + intros s k [H1 H2 H3 H4 H5]. constructor; auto.
    + intros s [H1 H2 H3 H4 H5]. constructor; auto; cbn; lia.
  - intros s m H. apply inv_error; [exact H|apply i_pos; exact H].
  - exact inv_init.
Qed.
End Lines.

(** ** Places are ordered as offsets are *)
Lemma place_fun src off l1 c1 l2 c2 : place src off l1 c1 -> place src off l2 c2 -> l1 = l2 /\ c1 = c2.
Proof.
  intros (s1 & a1 & A1 & B1 & C1 & D1 & E1 & F1) (s2 & a2 & A2 & B2 & C2 & D2 & E2 & F2).
  assert (a1 = a2). { apply Nat.le_antisymm; [apply E2, A2, A1|apply E1, A1, A2]; assumption. }
  subst. split; [|reflexivity]. apply Nat.le_antisymm; apply NoDup_incl_length; auto; intros i Hi; [apply A2, A1|apply A1, A2]; exact Hi.
Qed.
Lemma place_mono src o1 l1 c1 o2 l2 c2 : place src o1 l1 c1 -> place src o2 l2 c2 -> (o1 < o2)%nat -> (l1 < l2 \/ l1 = l2 /\ c1 < c2)%nat.
Proof.
  intros (s1 & a1 & A1 & B1 & C1 & D1 & E1 & F1) (s2 & a2 & A2 & B2 & C2 & D2 & E2 & F2) Ho.
  assert (Hi : incl s1 s2). { intros i Hi. apply A1 in Hi. apply A2. split; [tauto|lia]. }
  pose proof (NoDup_incl_length B1 Hi) as HL.
  destruct (Nat.eq_dec l1 l2) as [Heq|]; [right|left; lia]. split; [exact Heq|].
  assert (Hi' : incl s2 s1). { apply NoDup_length_incl; auto. lia. }
  assert (a1 = a2). { apply Nat.le_antisymm; [apply E2, Hi|apply E1, Hi']; assumption. }
  subst. apply A1 in D1. lia.
Qed.
