(** Parsing a text that stands further along in a file goes as parsing it alone,
    with all offsets moved. *)
From Coq Require Import Strings.String Permutation.
From Verif Require Import Base BaseLemmas GoType Utf8 Tokens Scan Parse PosSpec BadDefs.
Local Open Scope list_scope.

(** What of an error does not depend on the lines before it. *)
Definition key (e : perr) : nat * list byte := (pe_off e, pe_msg e).
Definition moved (k : nat) (x : nat * list byte) : nat * list byte := ((k + fst x)%nat, snd x).

Section Shift.
Context (u : unicode) (src1 src2 : list byte) (k : nat) (X : list (nat * list byte)).
Context (Hk : (k <= length src1)%nat) (Hsrc : src2 = skipn k src1).

Record sim (s1 s2 : sstate) : Prop := mkSim {
  m_ch : s_ch s1 = s_ch s2;
  m_off : s_off s1 = (k + s_off s2)%nat;
  m_rd : s_rd s1 = (k + s_rd s2)%nat;
  m_tok : s_tok s1 = s_tok s2;
  m_pos : s_pos s1 = (k + s_pos s2)%nat;
  m_bom : (0 < s_rd s2)%nat \/ src2 = [];
  m_errs : Permutation (map key (s_errs s1)) (X ++ map (moved k) (map key (s_errs s2))) }.

Lemma skip_moved n : skipn (k + n) src1 = skipn n src2.
Proof. rewrite Hsrc. clear. revert src1. induction k as [|m IH]; intros [|b l]; cbn; auto. now destruct n. Qed.

Lemma sim_error s1 s2 o1 o2 m : sim s1 s2 -> o1 = (k + o2)%nat -> sim (s_error o1 m s1) (s_error o2 m s2).
Proof.
  intros [H1 H2 H3 H4 H5 H6 H7] Ho. unfold s_error. destruct (position (s_lines s1) o1) as [l1 c1]. destruct (position (s_lines s2) o2) as [l2 c2].
  constructor; cbn; auto. rewrite !map_app. cbn. rewrite app_assoc, Ho. apply Permutation_app_tail. exact H7.
Qed.
Lemma sim_tok s1 s2 t : sim s1 s2 -> sim (set_tok t s1) (set_tok t s2).
Proof. intros [H1 H2 H3 H4 H5 H6 H7]. constructor; auto. Qed.
Lemma sim_pos s1 s2 : sim s1 s2 -> sim (set_pos (s_off s1) s1) (set_pos (s_off s2) s2).
Proof. intros [H1 H2 H3 H4 H5 H6 H7]. constructor; auto. Qed.
Lemma sim_set s1 s2 c o1 o2 r1 r2 l1 l2 : sim s1 s2 -> o1 = (k + o2)%nat -> r1 = (k + r2)%nat -> (0 < r2)%nat \/ src2 = [] ->
  sim (set_ch s1 c o1 r1 l1) (set_ch s2 c o2 r2 l2).
Proof. intros [H1 H2 H3 H4 H5 H6 H7] A B C. constructor; auto. Qed.

Lemma sim_next s1 s2 : sim s1 s2 -> sim (nextch src1 s1) (nextch src2 s2).
Proof.
  intros H. unfold nextch. rewrite (m_rd _ _ H), skip_moved.
  destruct (skipn (s_rd s2) src2) as [|b t] eqn:E.
  - apply sim_set; auto; [rewrite Hsrc, skipn_length; lia|exact (m_bom _ _ H)].
  - assert (B : (0 < s_rd s2)%nat).
    { destruct (m_bom _ _ H) as [?|X0]; [assumption|]. rewrite X0, skipn_nil in E. discriminate. }
    cbv zeta. set (l1 := if s_ch s1 =? 10 then _ else _). set (l2 := if s_ch s2 =? 10 then _ else _).
    assert (H0 : sim (set_ch s1 (s_ch s1) (k + s_rd s2) (k + s_rd s2) l1) (set_ch s2 (s_ch s2) (s_rd s2) (s_rd s2) l2)).
    { rewrite (m_ch _ _ H). apply sim_set; auto. }
    destruct (b2z b =? 0); [|destruct (0x80 <=? b2z b)].
    + apply sim_set; auto; [|lia|left; lia]. apply sim_error; auto.
    + cbn [s_rd set_ch] in *. rewrite skip_moved, E. destruct (decode_rune (b :: t)) as [r w].
      replace (0 <? k + s_rd s2)%nat with true by (symmetry; apply Nat.ltb_lt; lia).
      replace (0 <? s_rd s2)%nat with true by (symmetry; apply Nat.ltb_lt; lia).
      apply sim_set; auto; [|lia|left; lia].
      destruct (_ && _); [apply sim_error; auto|]. destruct (_ && _); [apply sim_error; auto|exact H0].
    + apply sim_set; auto; [lia|left; lia].
Qed.
Lemma sim_lit s1 s2 : sim s1 s2 -> s_lit src1 s1 = s_lit src2 s2.
Proof. intros H. unfold s_lit. rewrite (m_off _ _ H), (m_pos _ _ H), skip_moved. f_equal. lia. Qed.

(** ** The scanner *)
Definition so (f1 f2 : sstate -> option sstate) : Prop := forall s1 s2, sim s1 s2 ->
  match f1 s1, f2 s2 with Some s1', Some s2' => sim s1' s2' | _, _ => True end.

Lemma so_some f1 f2 : (forall s1 s2, sim s1 s2 -> sim (f1 s1) (f2 s2)) -> so (fun s => Some (f1 s)) (fun s => Some (f2 s)).
Proof. intros H s1 s2 Hs. now apply H. Qed.
Lemma so_while c : forall n1 n2, so (scan_while src1 n1 c) (scan_while src2 n2 c).
Proof.
  induction n1 as [|n1 IH]; intros [|n2] s1 s2 Hs; cbn [scan_while]; rewrite (m_ch _ _ Hs); destruct (c (s_ch s2)); auto;
    try (destruct (scan_while _ _ _ _); exact Logic.I).
  apply IH. now apply sim_next.
Qed.
Ltac two f := let H := fresh "H" in pose proof f as H;
  match type of H with match ?a with _ => _ end =>
    destruct a as [?|]; [|exact Logic.I];
    match type of H with match ?b with _ => _ end => destruct b as [?|]; [|try exact Logic.I] end end.
Lemma so_bind f1 f2 g1 g2 : so f1 f2 -> so g1 g2 ->
  so (fun s => match f1 s with Some s => g1 s | None => None end) (fun s => match f2 s with Some s => g2 s | None => None end).
Proof.
  intros Hf Hg s1 s2 Hs. specialize (Hf s1 s2 Hs). destruct (f1 s1) as [s1'|], (f2 s2) as [s2'|]; auto; [now apply Hg|].
  now destruct (g1 s1').
Qed.
Lemma so_map t f1 f2 : so f1 f2 -> so (fun s => option_map (set_tok t) (f1 s)) (fun s => option_map (set_tok t) (f2 s)).
Proof. intros Hf s1 s2 Hs. specialize (Hf s1 s2 Hs). destruct (f1 s1), (f2 s2); cbn; auto. now apply sim_tok. Qed.

Lemma so_exponent t : so (s_exponent src1 t) (s_exponent src2 t).
Proof.
  intros s1 s2 Hs. unfold s_exponent. rewrite (m_ch _ _ Hs). destruct (lower (s_ch s2) =? 101); [|now apply sim_tok].
  cbv zeta. apply (so_map K_FLOAT (scan_while src1 (fuel src1) isDecimal) (scan_while src2 (fuel src2) isDecimal) (so_while _ _ _)).
  pose proof (sim_next _ _ Hs) as H1. rewrite (m_ch _ _ H1). destruct (_ || _); auto using sim_next.
Qed.
Lemma so_decimal : so (s_decimal src1) (s_decimal src2).
Proof.
  unfold s_decimal. apply (so_bind (scan_while src1 (fuel src1) isDecimal) (scan_while src2 (fuel src2) isDecimal) _ _ (so_while _ _ _)).
  intros s1 s2 Hs. rewrite (m_ch _ _ Hs). destruct (s_ch s2 =? 46); [|now apply so_exponent].
  apply (so_bind (fun s => scan_while src1 (fuel src1) isDecimal (nextch src1 s)) (fun s => scan_while src2 (fuel src2) isDecimal (nextch src2 s)) _ _); auto using so_exponent.
  intros a b Hab. apply so_while. now apply sim_next.
Qed.
Lemma so_number : so (s_number src1) (s_number src2).
Proof.
  intros s1 s2 Hs. unfold s_number. rewrite (m_ch _ _ Hs). destruct (s_ch s2 =? 48); [|now apply so_decimal].
  cbv zeta. pose proof (sim_next _ _ Hs) as H1. rewrite (m_ch _ _ H1). destruct (_ =? 120); [|now apply so_decimal].
  apply (so_map K_INT (scan_while src1 (fuel src1) isHex) (scan_while src2 (fuel src2) isHex) (so_while _ _ _)). now apply sim_next.
Qed.
Lemma sim_off s1 s2 m : sim s1 s2 -> sim (s_error (s_off s1) m s1) (s_error (s_off s2) m s2).
Proof. intros H. apply sim_error; [exact H|apply m_off, H]. Qed.
Lemma so_escape q s1 s2 : sim s1 s2 -> fst (s_escape src1 q s1) = fst (s_escape src2 q s2) /\ sim (snd (s_escape src1 q s1)) (snd (s_escape src2 q s2)).
Proof.
  intros Hs. unfold s_escape. cbv zeta. rewrite (m_ch _ _ Hs).
  repeat match goal with |- context [if ?b then _ else _] => destruct b end; cbn [fst snd]; auto using sim_next, sim_off.
Qed.
Lemma so_string_loop q : forall n1 n2, so (s_string_loop src1 n1 q) (s_string_loop src2 n2 q).
Proof.
  induction n1 as [|n1 IH]; intros [|n2] s1 s2 Hs; cbn [s_string_loop]; [exact Logic.I|exact Logic.I|destruct (if _ =? q then _ else _); exact Logic.I|].
  rewrite (m_ch _ _ Hs). destruct (s_ch s2 =? q); [now apply sim_tok, sim_next|].
  destruct (s_ch s2 =? 92).
  - destruct (so_escape q _ _ (sim_next _ _ Hs)) as (A & B). destruct (s_escape src1 q (nextch src1 s1)) as [ok1 a1], (s_escape src2 q (nextch src2 s2)) as [ok2 a2].
    cbn [fst snd] in *. subst ok2. destruct ok1; [now apply IH|exact B].
  - destruct (s_ch s2 =? 10); [now apply sim_off|]. destruct (s_ch s2 <? 0); [now apply sim_tok, sim_off|]. apply IH. now apply sim_next.
Qed.
Lemma so_string : so (s_string src1) (s_string src2).
Proof. intros s1 s2 Hs. unfold s_string. cbv zeta. rewrite (m_ch _ _ Hs). apply so_string_loop. now apply sim_next. Qed.
Lemma so_line : so (s_line_comment src1) (s_line_comment src2).
Proof. intros s1 s2 Hs. apply so_while. now apply sim_tok. Qed.
Lemma so_stars : forall n1 n2 s1 s2, sim s1 s2 ->
  match s_stars src1 n1 s1, s_stars src2 n2 s2 with Some (b1, a1), Some (b2, a2) => b1 = b2 /\ sim a1 a2 | _, _ => True end.
Proof.
  induction n1 as [|n1 IH]; intros [|n2] s1 s2 Hs; cbn [s_stars]; rewrite (m_ch _ _ Hs); destruct (s_ch s2 =? 42); auto.
  - destruct (if _ =? 47 then _ else _) as [[? ?]|]; exact Logic.I.
  - pose proof (sim_next _ _ Hs) as H1. rewrite (m_ch _ _ H1). destruct (_ =? 47); [auto using sim_next|now apply IH].
Qed.
Lemma so_full_loop : forall n1 n2, so (s_full_loop src1 n1) (s_full_loop src2 n2).
Proof.
  induction n1 as [|n1 IH]; intros [|n2] s1 s2 Hs; cbn [s_full_loop]; rewrite (m_ch _ _ Hs); destruct (0 <=? s_ch s2); auto using sim_off.
  - destruct (s_stars _ _ _) as [[[] ?]|]; auto. now destruct (s_full_loop _ _ _).
  - pose proof (so_stars (fuel src1) (fuel src2) s1 s2 Hs) as H. destruct (s_stars src1 _ s1) as [[b1 a1]|]; [|exact Logic.I].
    destruct (s_stars src2 _ s2) as [[b2 a2]|]; [|destruct b1; [exact Logic.I|now destruct (s_full_loop _ _ _)]].
    destruct H as [-> H]. destruct b2; [exact H|]. apply IH. now apply sim_next.
Qed.
Lemma so_full : so (s_full_comment src1) (s_full_comment src2).
Proof. intros s1 s2 Hs. apply so_full_loop. now apply sim_tok. Qed.
Lemma so_ident : so (s_ident u src1) (s_ident u src2).
Proof.
  unfold s_ident. refine (so_bind (scan_while src1 (fuel src1) _) (scan_while src2 (fuel src2) _) _ _ (so_while _ _ _) _).
  refine (so_bind (fun s => if 0x80 <=? s_ch s then scan_while src1 (fuel src1) _ s else Some s) (fun s => if 0x80 <=? s_ch s then scan_while src2 (fuel src2) _ s else Some s) _ _ _ _).
  - intros s1 s2 Hs. rewrite (m_ch _ _ Hs). destruct (_ <=? _); [now apply so_while|exact Hs].
  - intros s1 s2 Hs. cbv zeta. rewrite (sim_lit _ _ Hs). now apply sim_tok.
Qed.
Lemma so_switch r1 r2 : so r1 r2 -> so (s_switch u src1 r1) (s_switch u src2 r2).
Proof.
  intros Hr s1 s2 Hs. unfold s_switch. cbv zeta. rewrite (m_ch _ _ Hs). pose proof (sim_next _ _ Hs) as H1. pose proof (sim_next _ _ H1) as H2. rewrite (m_ch _ _ H1).
  repeat match goal with |- match (if ?b then _ else _) with _ => _ end => destruct b end;
    auto using sim_tok, so_number, so_string, so_line, so_full.
  all: try (apply so_number; assumption). all: try (apply so_string; assumption). all: try (apply so_line; assumption). all: try (apply so_full; assumption).
  destruct (single (s_ch s2)); [now apply sim_tok|]. apply Hr. apply sim_next. now apply sim_off.
Qed.
Lemma so_next_n : forall n1 n2, so (s_next_n u src1 n1) (s_next_n u src2 n2).
Proof.
  induction n1 as [|n1 IH]; intros [|n2] s1 s2 Hs; [exact Logic.I|exact Logic.I|cbn; match goal with |- match ?x with _ => _ end => now destruct x end|].
  cbn [s_next_n]. revert s1 s2 Hs. apply (so_bind (scan_while src1 (fuel src1) is_white) (scan_while src2 (fuel src2) is_white) _ _ (so_while _ _ _)).
  intros s1 s2 Hs. cbv zeta. pose proof (sim_pos _ _ Hs) as H1. set (a1 := set_pos _ s1) in *. set (a2 := set_pos _ s2) in *. clearbody a1 a2.
  assert (H2 : let x1 := if isLetter (s_ch a1) then (true, a1) else if 0x80 <=? s_ch a1 then atIdent u true a1 else (false, a1) in
               let x2 := if isLetter (s_ch a2) then (true, a2) else if 0x80 <=? s_ch a2 then atIdent u true a2 else (false, a2) in
               fst x1 = fst x2 /\ sim (snd x1) (snd x2)).
  { cbv zeta. rewrite (m_ch _ _ H1). destruct (isLetter _); [auto|]. destruct (_ <=? _); [|auto]. unfold atIdent. cbv zeta. rewrite (m_ch _ _ H1).
    repeat match goal with |- context [if ?b then _ else _] => destruct b end; cbn [fst snd]; auto using sim_off. }
  cbv zeta in H2. destruct (if isLetter (s_ch a1) then _ else _) as [i1 b1], (if isLetter (s_ch a2) then _ else _) as [i2 b2]. cbn [fst snd] in H2. destruct H2 as [-> H2].
  destruct i2; [now apply so_ident, sim_next|]. apply so_switch; [apply IH|exact H2].
Qed.
Lemma so_next : so (s_next u src1) (s_next u src2).
Proof. apply so_next_n. Qed.

(** ** The parser *)
Definition sp {A B} (R : A -> B -> Prop) (m1 : parser A) (m2 : parser B) : Prop := forall s1 s2, sim s1 s2 ->
  match m1 s1, m2 s2 with
  | Ret a s1', Ret b s2' => R a b /\ sim s1' s2'
  | Bad s1', Bad s2' => sim s1' s2'
  | Stuck, _ | _, Stuck => True
  | _, _ => False
  end.
Lemma sp_bind {A B C D} (R : A -> B -> Prop) (Q : C -> D -> Prop) m1 m2 k1 k2 :
  sp R m1 m2 -> (forall a b, R a b -> sp Q (k1 a) (k2 b)) -> sp Q (pbind m1 k1) (pbind m2 k2).
Proof.
  intros Hm Hk0 s1 s2 Hs. unfold pbind. specialize (Hm s1 s2 Hs). destruct (m1 s1) as [a a1|a1|], (m2 s2) as [b b1|b1|]; try contradiction; auto.
  - destruct Hm as [Hr Hm]. now apply (Hk0 a b).
  - destruct (k1 a a1); exact Logic.I.
Qed.
Lemma sp_eq {A C D} (Q : C -> D -> Prop) (m1 m2 : parser A) k1 k2 :
  sp eq m1 m2 -> (forall a, sp Q (k1 a) (k2 a)) -> sp Q (pbind m1 k1) (pbind m2 k2).
Proof. intros Hm Hk0. apply (sp_bind eq); [exact Hm|]. intros a b ->. apply Hk0. Qed.
Lemma sp_ret {A} (a : A) : sp eq (pret a) (pret a).
Proof. intros s1 s2 Hs. now split. Qed.
Lemma sp_tok : sp eq p_tok p_tok.
Proof. intros s1 s2 Hs. split; [exact (m_tok _ _ Hs)|exact Hs]. Qed.
Lemma sp_panic {A} : sp eq (@p_panic A) (@p_panic A).
Proof. intros s1 s2 Hs. exact Hs. Qed.
Lemma sp_stuck {A B} (R : A -> B -> Prop) m : sp R (fun _ => Stuck) m.
Proof. intros s1 s2 Hs. exact Logic.I. Qed.
Lemma sp_stuck2 {A B} (R : A -> B -> Prop) m : sp R m (fun _ => Stuck).
Proof. intros s1 s2 Hs. now destruct (m s1). Qed.
Lemma sp_next_n : forall n1 n2, sp eq (p_next_n u src1 n1) (p_next_n u src2 n2).
Proof.
  induction n1 as [|n1 IH]; intros [|n2] s1 s2 Hs; cbn [p_next_n]; pose proof (so_next s1 s2 Hs) as H;
    (destruct (s_next u src1 s1) as [a1|]; [|exact Logic.I]);
    (destruct (s_next u src2 s2) as [a2|]; [|match goal with |- match ?x with _ => _ end => now destruct x end]);
    rewrite (m_tok _ _ H); (destruct (s_tok a2 =? K_COMMENT); [|now split]); try exact Logic.I.
  - match goal with |- match ?x with _ => _ end => now destruct x end.
  - now apply IH.
Qed.
Lemma sp_next : sp eq (p_next u src1) (p_next u src2).
Proof. apply sp_next_n. Qed.
Lemma sp_expected m : sp eq (p_expected src1 m) (p_expected src2 m).
Proof.
  intros s1 s2 Hs. unfold p_expected, p_errorExpected, p_error. cbv zeta. rewrite !Nat.eqb_refl, (m_tok _ _ Hs), (sim_lit _ _ Hs).
  split; [reflexivity|]. apply sim_error; [exact Hs|exact (m_pos _ _ Hs)].
Qed.
Hint Resolve sp_ret sp_tok sp_panic sp_next sp_expected sp_stuck sp_stuck2 : sp.
Ltac sp := repeat first
  [ progress auto with sp
  | match goal with |- sp _ (pbind _ _) (pbind _ _) => apply sp_eq; [|intros ?] end
  | match goal with |- sp _ (if ?b then _ else _) (if ?b then _ else _) => destruct b end
  | match goal with |- sp _ (match ?b with _ => _ end) (match ?b with _ => _ end) => destruct b end ].
Lemma sp_if {A B} (R : A -> B -> Prop) (c : sstate -> bool) m1 m2 n1 n2 : (forall s1 s2, sim s1 s2 -> c s1 = c s2) -> sp R m1 m2 -> sp R n1 n2 ->
  sp R (fun s => if c s then m1 s else n1 s) (fun s => if c s then m2 s else n2 s).
Proof. intros Hc Hm Hn s1 s2 Hs. rewrite (Hc _ _ Hs). destruct (c s2); [now apply Hm|now apply Hn]. Qed.

Lemma sp_got t : sp eq (p_got u src1 t) (p_got u src2 t).
Proof. refine (sp_if eq (fun s => s_tok s =? t) _ _ (pret false) (pret false) _ _ _); [intros s1 s2 Hs; now rewrite (m_tok _ _ Hs)|sp|sp]. Qed.
Hint Resolve sp_got : sp.
Lemma sp_want t : sp eq (p_want u src1 t) (p_want u src2 t).
Proof. unfold p_want. sp. Qed.
Hint Resolve sp_want : sp.
Lemma sp_gotAssign : sp eq (p_gotAssign u src1) (p_gotAssign u src2).
Proof. unfold p_gotAssign. sp. Qed.
Hint Resolve sp_gotAssign : sp.
Lemma sp_separator_n : forall n1 n2, sp eq (p_separator_n u src1 n1) (p_separator_n u src2 n2).
Proof.
  induction n1 as [|n1 IH]; intros n2; cbn [p_separator_n]; destruct n2 as [|n2]; cbn [p_separator_n];
    (refine (sp_if eq (fun s => (s_tok s =? K_COMMA) || (s_tok s =? K_SEMICOLON)) _ _ (pret tt) (pret tt) _ _ _);
      [intros s1 s2 Hs; now rewrite (m_tok _ _ Hs)| |sp]); sp.
Qed.
Lemma sp_separator : sp eq (p_separator u src1) (p_separator u src2).
Proof. apply sp_separator_n. Qed.
Hint Resolve sp_separator : sp.
Lemma sp_items {A} close (f1 f2 : parser A) : sp eq f1 f2 -> forall n1 n2, sp eq (p_items u src1 n1 close f1) (p_items u src2 n2 close f2).
Proof.
  intros Hf. induction n1 as [|n1 IH]; intros n2; cbn [p_items]; destruct n2 as [|n2]; cbn [p_items];
    (refine (sp_if eq (fun s => negb (s_tok s =? K_EOF) && negb (s_tok s =? close)) _ _ (pret []) (pret []) _ _ _);
      [intros s1 s2 Hs; now rewrite (m_tok _ _ Hs)| |sp]); sp.
Qed.
Lemma sp_list {A} open close (f1 f2 : parser A) : sp eq f1 f2 -> sp eq (p_list u src1 open close f1) (p_list u src2 open close f2).
Proof. intros Hf. unfold p_list. sp. now apply sp_items. Qed.
Lemma sp_taken (c : sstate -> bool) (m1 m2 : parser word) : (forall s1 s2, sim s1 s2 -> c s1 = c s2) -> sp eq m1 m2 ->
  sp eq (fun s => if c s then (p_next u src1 ;;; pret (s_lit src1 s)) s else m1 s) (fun s => if c s then (p_next u src2 ;;; pret (s_lit src2 s)) s else m2 s).
Proof.
  intros Hc Hm s1 s2 Hs. rewrite (Hc _ _ Hs), (sim_lit _ _ Hs). destruct (c s2); [|now apply Hm].
  assert (H : sp eq (p_next u src1 ;;; pret (s_lit src2 s2)) (p_next u src2 ;;; pret (s_lit src2 s2))) by sp. now apply H.
Qed.
Lemma sp_lit t : sp eq (p_lit u src1 t) (p_lit u src2 t).
Proof. apply (sp_taken (fun s => s_tok s =? t)); [intros s1 s2 Hs; now rewrite (m_tok _ _ Hs)|sp]. Qed.
Hint Resolve sp_list sp_lit : sp.
Lemma sp_annotation : sp eq (p_annotation u src1) (p_annotation u src2).
Proof. unfold p_annotation, p_ident, p_string. sp. Qed.
Hint Resolve sp_annotation : sp.
Lemma sp_annotations : sp eq (p_annotations u src1) (p_annotations u src2).
Proof. unfold p_annotations. sp. Qed.
Hint Resolve sp_annotations : sp.
Lemma sp_type : forall n1 n2, sp eq (p_type u src1 n1) (p_type u src2 n2).
Proof. induction n1 as [|n1 IH]; intros [|n2]; cbn [p_type]; unfold p_ident; sp. Qed.
Lemma sp_value : forall n1 n2, sp eq (p_value u src1 n1) (p_value u src2 n2).
Proof.
  induction n1 as [|n1 IH]; intros [|n2]; cbn [p_value]; [sp|sp|sp|].
  assert (L : sp eq (p_keyValuePair u src1 (p_value u src1 n1)) (p_keyValuePair u src2 (p_value u src2 n2))) by (unfold p_keyValuePair; sp).
  unfold p_ident, p_int, p_float, p_string. sp.
Qed.
Lemma sp_type_ : sp eq (p_type_ u src1) (p_type_ u src2).
Proof. apply sp_type. Qed.
Lemma sp_value_ : sp eq (p_value_ u src1) (p_value_ u src2).
Proof. apply sp_value. Qed.
Hint Resolve sp_type_ sp_value_ : sp.
Lemma sp_fieldName : sp eq (p_fieldName u src1) (p_fieldName u src2).
Proof. apply (sp_taken (fun s => (s_tok s =? K_IDENT) || isKeyword (s_tok s))); [intros s1 s2 Hs; now rewrite (m_tok _ _ Hs)|sp]. Qed.
Hint Resolve sp_fieldName : sp.
Lemma sp_field : sp eq (p_field u src1) (p_field u src2).
Proof. unfold p_field, p_int. sp. Qed.
Hint Resolve sp_field : sp.
Lemma sp_enumValue : sp eq (p_enumValue u src1) (p_enumValue u src2).
Proof. unfold p_enumValue, p_ident, p_int. sp. Qed.
Lemma sp_method : sp eq (p_method u src1) (p_method u src2).
Proof. unfold p_method, p_fields, p_ident. sp. Qed.
Hint Resolve sp_enumValue sp_method : sp.
Lemma sp_def_switch : sp eq (p_def_switch u src1) (p_def_switch u src2).
Proof. unfold p_def_switch, p_const, p_typedef, p_enum, p_struct, p_service, p_fields, p_ident. sp. Qed.
Lemma sp_recover : forall n1 n2, sp eq (p_recover_n u src1 n1) (p_recover_n u src2 n2).
Proof.
  induction n1 as [|n1 IH]; intros n2; cbn [p_recover_n]; destruct n2 as [|n2]; cbn [p_recover_n];
    (refine (sp_if eq (fun s => negb (s_tok s =? K_EOF) && negb (isDefinition (s_tok s))) _ _ (pret tt) (pret tt) _ _ _);
      [intros s1 s2 Hs; now rewrite (m_tok _ _ Hs)| |sp]); sp.
Qed.

Lemma sp_def : sp (def_moved k) (p_def u src1) (p_def u src2).
Proof.
  intros s1 s2 Hs. unfold p_def. pose proof (sp_def_switch s1 s2 Hs) as H. pose proof (def_switch_real u src2 s2) as R.
  destruct (p_def_switch u src1 s1) as [d1 a1|a1|], (p_def_switch u src2 s2) as [d2 a2|a2|]; try contradiction; auto.
  - destruct H as [-> H]. split; [|exact H]. specialize (R _ _ eq_refl). destruct d2; try reflexivity. contradiction.
  - unfold pbind. pose proof (sp_recover (fuel src1) (fuel src2) a1 a2 H) as H1.
    destruct (p_recover_n u src1 (fuel src1) a1) as [[] b1|b1|], (p_recover_n u src2 (fuel src2) a2) as [[] b2|b2|]; try contradiction; auto.
    destruct H1 as [_ H1]. split; [|exact H1]. cbn. now rewrite (m_pos _ _ Hs), (m_pos _ _ H1).
  - unfold pbind. now destruct (p_recover_n u src1 (fuel src1) a1).
Qed.
Lemma sp_defs : forall n1 n2, sp (Forall2 (def_moved k)) (p_defs u src1 n1) (p_defs u src2 n2).
Proof.
  induction n1 as [|n1 IH]; intros n2; cbn [p_defs]; destruct n2 as [|n2]; cbn [p_defs];
    (refine (sp_if _ (fun s => negb (s_tok s =? K_EOF)) _ _ (pret []) (pret []) _ _ _);
      [intros s1 s2 Hs; now rewrite (m_tok _ _ Hs)| |intros s1 s2 Hs; split; [constructor|exact Hs]]); auto with sp.
  apply (sp_bind (def_moved k)); [apply sp_def|]. intros d1 d2 Hd. apply (sp_bind (Forall2 (def_moved k))); [apply IH|].
  intros l1 l2 Hl s1 s2 Hs. split; [now constructor|exact Hs].
Qed.
Lemma sp_header : sp eq (p_header u src1) (p_header u src2).
Proof. unfold p_header, p_include, p_namespace, p_string, p_ident. sp. Qed.
Hint Resolve sp_header : sp.
Lemma sp_headers : forall n1 n2, sp eq (p_headers u src1 n1) (p_headers u src2 n2).
Proof. induction n1 as [|n1 IH]; intros [|n2]; cbn [p_headers]; sp. Qed.
Definition file_moved (f f' : file) : Prop := file_headers f = file_headers f' /\ Forall2 (def_moved k) (file_defs f) (file_defs f').
Lemma sp_file : sp file_moved (p_file u src1) (p_file u src2).
Proof.
  unfold p_file. apply sp_eq; [apply sp_headers|]. intros h. apply (sp_bind (Forall2 (def_moved k))); [apply sp_defs|].
  intros l1 l2 Hl s1 s2 Hs. split; [now split|exact Hs].
Qed.
End Shift.
