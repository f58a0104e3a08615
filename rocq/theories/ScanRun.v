(** Whole runs of the scanner, and what a call of next depends on. *)
From Coq Require Import Strings.String.
From Verif Require Import Base BaseLemmas GoType Utf8 Tokens Scan LexSpec LexProof ScanProof Parse GrammarSpec ParseProof.

Lemma decode_rune_high b r : 128 <= b2z b -> 128 <= fst (decode_rune (b :: r)).
Proof.
  intros Hb. unfold decode_rune, cont_in. rewrite (proj2 (Z.ltb_ge _ _) Hb). unfold RuneError.
  destruct (Z.leb_spec 0xC2 (b2z b)); cbn [andb].
  2:{ destruct (Z.leb_spec 0xE0 (b2z b)); [lia|]. destruct (Z.leb_spec 0xF0 (b2z b)); [lia|]. cbn. lia. }
  destruct (Z.leb_spec (b2z b) 0xDF).
  { destruct r as [|b1 r]; [cbn [fst andb]; lia|]. destruct (Z.leb_spec 0x80 (b2z b1)), (Z.leb_spec (b2z b1) 0xBF); cbn [fst andb]; lia. }
  destruct (Z.leb_spec 0xE0 (b2z b)); [|lia]. destruct (Z.leb_spec (b2z b) 0xEF); cbn [andb].
  { destruct r as [|b1 [|b2 r]]; [cbn [fst andb]; lia|cbn [fst andb]; lia|].
    destruct (Z.eqb_spec (b2z b) 0xE0), (Z.eqb_spec (b2z b) 0xED); try lia.
    - destruct (Z.leb_spec 0xA0 (b2z b1)), (Z.leb_spec (b2z b1) 0xBF); cbn [andb fst]; try lia.
      destruct (Z.leb_spec 0x80 (b2z b2)), (Z.leb_spec (b2z b2) 0xBF); cbn [andb fst]; lia.
    - destruct (Z.leb_spec 0x80 (b2z b1)), (Z.leb_spec (b2z b1) 0x9F); cbn [andb fst]; try lia.
      destruct (Z.leb_spec 0x80 (b2z b2)), (Z.leb_spec (b2z b2) 0xBF); cbn [andb fst]; lia.
    - destruct (Z.leb_spec 0x80 (b2z b1)), (Z.leb_spec (b2z b1) 0xBF); cbn [andb fst]; try lia.
      destruct (Z.leb_spec 0x80 (b2z b2)), (Z.leb_spec (b2z b2) 0xBF); cbn [andb fst]; lia. }
  destruct (Z.leb_spec 0xF0 (b2z b)); [|cbn [fst andb]; lia]. destruct (Z.leb_spec (b2z b) 0xF4); cbn [andb]; [|cbn [fst andb]; lia].
  destruct r as [|b1 [|b2 [|b3 r]]]; [cbn [fst andb]; lia|cbn [fst andb]; lia|cbn [fst andb]; lia|].
  destruct (Z.eqb_spec (b2z b) 0xF0), (Z.eqb_spec (b2z b) 0xF4); try lia.
  - destruct (Z.leb_spec 0x90 (b2z b1)), (Z.leb_spec (b2z b1) 0xBF); cbn [andb fst]; try lia.
    destruct (Z.leb_spec 0x80 (b2z b2)), (Z.leb_spec (b2z b2) 0xBF); cbn [andb fst]; try lia.
    destruct (Z.leb_spec 0x80 (b2z b3)), (Z.leb_spec (b2z b3) 0xBF); cbn [andb fst]; lia.
  - destruct (Z.leb_spec 0x80 (b2z b1)), (Z.leb_spec (b2z b1) 0x8F); cbn [andb fst]; try lia.
    destruct (Z.leb_spec 0x80 (b2z b2)), (Z.leb_spec (b2z b2) 0xBF); cbn [andb fst]; try lia.
    destruct (Z.leb_spec 0x80 (b2z b3)), (Z.leb_spec (b2z b3) 0xBF); cbn [andb fst]; lia.
  - destruct (Z.leb_spec 0x80 (b2z b1)), (Z.leb_spec (b2z b1) 0xBF); cbn [andb fst]; try lia.
    destruct (Z.leb_spec 0x80 (b2z b2)), (Z.leb_spec (b2z b2) 0xBF); cbn [andb fst]; try lia.
    destruct (Z.leb_spec 0x80 (b2z b3)), (Z.leb_spec (b2z b3) 0xBF); cbn [andb fst]; lia.
Qed.
Lemma decode_rune_low b r : fst (decode_rune (b :: r)) < 128 -> decode_rune (b :: r) = (b2z b, 1%nat).
Proof.
  intros H. assert (L : b2z b < 128) by (pose proof (decode_rune_high b r); lia). unfold decode_rune.
  now rewrite (proj2 (Z.ltb_lt (b2z b) 0x80) L).
Qed.

Lemma decode_rune_bom l : fst (decode_rune l) = byte_order_mark -> firstn 3 l = [xef; xbb; xbf] /\ snd (decode_rune l) = 3%nat.
Proof.
  destruct l as [|b r]; [discriminate|]. unfold decode_rune, cont_in, byte_order_mark, RuneError. pose proof (b2z_range b) as R0. unfold is_u8 in R0.
  destruct (Z.ltb_spec (b2z b) 0x80); [cbn [fst]; lia|]. destruct (Z.leb_spec 0xC2 (b2z b)); cbn [andb].
  2:{ destruct (Z.leb_spec 0xE0 (b2z b)); [lia|]. destruct (Z.leb_spec 0xF0 (b2z b)); [lia|]. discriminate. }
  destruct (Z.leb_spec (b2z b) 0xDF).
  { destruct r as [|b1 r]; [discriminate|]. destruct (Z.leb_spec 0x80 (b2z b1)), (Z.leb_spec (b2z b1) 0xBF); cbn [fst andb]; lia. }
  destruct (Z.leb_spec 0xE0 (b2z b)); [|lia]. destruct (Z.leb_spec (b2z b) 0xEF); cbn [andb].
  { destruct r as [|b1 [|b2 r]]; try discriminate.
    assert (G : 0x80 <= b2z b1 <= 0xBF -> 0x80 <= b2z b2 <= 0xBF -> (b2z b - 0xE0) * 4096 + (b2z b1 - 0x80) * 64 + (b2z b2 - 0x80) = 65279 -> b = xef /\ b1 = xbb /\ b2 = xbf).
    { intros X Y Z0. repeat split; apply b2z_inj; cbn; lia. }
    destruct (Z.eqb_spec (b2z b) 0xE0), (Z.eqb_spec (b2z b) 0xED); try lia;
      repeat (match goal with |- context [?x <=? ?y] => destruct (Z.leb_spec x y) end; cbn [andb fst snd]; try discriminate);
      intros Z0; destruct (G ltac:(lia) ltac:(lia) Z0) as (-> & -> & ->); split; reflexivity. }
  destruct (Z.leb_spec 0xF0 (b2z b)); [|discriminate]. destruct (Z.leb_spec (b2z b) 0xF4); cbn [andb]; [|discriminate].
  destruct r as [|b1 [|b2 [|b3 r]]]; try discriminate.
  destruct (Z.eqb_spec (b2z b) 0xF0), (Z.eqb_spec (b2z b) 0xF4); try lia;
    repeat (match goal with |- context [?x <=? ?y] => destruct (Z.leb_spec x y) end; cbn [andb fst snd]; try discriminate); lia.
Qed.

Section run.
Context (u : unicode) (src : list byte).

(** The states next may be called in: the first one, and any later one, also
    after the parser has reported something. *)
Inductive reached : sstate -> Prop :=
| rc_init : reached (s_init src)
| rc_next s s' : reached s -> s_next u src s = Some s' -> reached s'
| rc_report s off msg : reached s -> reached (s_error off msg s).

Lemma at_error s cs off msg : at_ src s cs -> at_ src (s_error off msg s) cs.
Proof. intros [? ? ? ?]. unfold s_error. destruct (position (s_lines s) off). now constructor. Qed.

Lemma reached_at s : reached s -> at_ src s (chars (skipn (s_off s) src)) /\ (s_tok s = K_EOF -> s_off s = length src).
Proof.
  induction 1 as [|s s' _ (A & R) Hn|s off msg _ (A & R)].
  - destruct (init_spec src) as (E & A & _ & _ & K & _). split; [rewrite (at_chars _ _ _ A); exact A|]. rewrite K. discriminate.
  - destruct (next_spec u src s _ A) as (s1 & gap & t & cs' & E & Hn' & N). rewrite Hn in Hn'. injection Hn' as <-.
    pose proof (next_ready u src s s' _ gap t cs' E A N R) as ((cs2 & A2) & R2). split; [rewrite (at_chars _ _ _ A2); exact A2|exact R2].
  - pose proof (at_error s _ off msg A) as A'. assert (O' : s_off (s_error off msg s) = s_off s) by (unfold s_error; now destruct (position (s_lines s) off)).
    rewrite O'. split; [exact A'|]. unfold s_error. destruct (position (s_lines s) off). exact R.
Qed.

(** The calls of next up to the end of the input: kind, offset and text of
    each token. *)
Inductive scan_run : sstate -> list (Z * nat * list byte) -> sstate -> Prop :=
| sr_end s s' : s_next u src s = Some s' -> s_tok s' = K_EOF -> scan_run s [] s'
| sr_token s s1 l s' : s_next u src s = Some s1 -> s_tok s1 <> K_EOF -> scan_run s1 l s' ->
    scan_run s ((s_tok s1, s_pos s1, s_lit src s1) :: l) s'.

Lemma scan_run_unique s l s' : scan_run s l s' -> forall l2 s2, scan_run s l2 s2 -> l = l2 /\ s' = s2.
Proof.
  induction 1 as [s s' Hn K|s s1 l s' Hn K _ IH]; intros l2 s2 H2; inversion H2 as [? ? Hn2 K2|? s1' ? ? Hn2 K2 H3]; subst.
  - rewrite Hn in Hn2. injection Hn2 as <-. auto.
  - rewrite Hn in Hn2. injection Hn2 as <-. contradiction.
  - rewrite Hn in Hn2. injection Hn2 as <-. contradiction.
  - rewrite Hn in Hn2. injection Hn2 as <-. destruct (IH _ _ H3) as (-> & ->). auto.
Qed.

(** In order, without overlap, each a piece of the source. *)
Fixpoint in_order (lo : nat) (l : list (Z * nat * list byte)) : Prop :=
  match l with
  | [] => True
  | (_, p, x) :: r => (lo <= p)%nat /\ x <> [] /\ (p + length x <= length src)%nat /\
      firstn (length x) (skipn p src) = x /\ in_order (p + length x) r
  end.

Definition in_token (l : list (Z * nat * list byte)) (i : nat) : Prop :=
  exists k p x, In (k, p, x) l /\ (p <= i < p + length x)%nat.
Definition white_byte (i : nat) : Prop := exists b, nth_error src i = Some b /\ white (b2z b).
(** An error is reported at the character the byte belongs to. *)
Definition reported (E : list perr) (i : nat) : Prop :=
  exists e, In e E /\ (pe_off e <= i < pe_off e + snd (decode_rune (skipn (pe_off e) src)))%nat.

Lemma skipn_nth {A} (l : list A) : forall n x r, skipn n l = x :: r -> nth_error l n = Some x.
Proof. induction l as [|y l IH]; intros [|n] x r H; cbn in *; try discriminate; [congruence|]. now apply IH with r. Qed.

Lemma chars_at_off s cs a c b : at_ src s cs -> cs = a ++ c :: b ->
  let off := (s_off s + length (text a))%nat in
  fst c = fst (decode_rune (skipn off src)) /\ length (snd c) = snd (decode_rune (skipn off src)) /\ skipn off src <> [].
Proof.
  intros A E off. pose proof (at_chars _ _ _ A) as C. rewrite E in C. pose proof (chars_suffix _ _ _ C) as C2. rewrite skipn_skipn' in C2. fold off in C2.
  assert (Ne : skipn off src <> []). { intros Z0. rewrite Z0 in C2. discriminate. }
  rewrite (chars_cons _ Ne) in C2. injection C2 as C2 _. subst c. cbn [fst snd]. pose proof (decode_rune_fits _ Ne). rewrite firstn_length. repeat split; auto. lia.
Qed.

(** Which character of a text a byte belongs to. *)
Lemma char_of_byte : forall cs i, (i < length (text cs))%nat -> exists a c b, cs = a ++ c :: b /\ (length (text a) <= i < length (text a) + length (snd c))%nat.
Proof.
  induction cs as [|c cs IH]; intros i L; [cbn in L; lia|]. unfold text in L. cbn [map concat] in L. fold (text cs) in L. rewrite app_length in L.
  destruct (Nat.lt_ge_cases i (length (snd c))) as [L'|L'].
  - exists [], c, cs. cbn. split; [reflexivity|lia].
  - destruct (IH (i - length (snd c))%nat ltac:(lia)) as (a & c' & b & -> & L2). exists (c :: a), c', b. split; [reflexivity|].
    unfold text. cbn [map concat]. fold (text a). rewrite app_length. lia.
Qed.

Lemma scan_all : forall n s, reached s -> (length src - s_off s < n)%nat ->
  exists l s' E, scan_run s l s' /\ s_errs s' = s_errs s ++ E /\ bounded src E /\ in_order (s_off s) l /\
    forall i, (s_off s <= i < length src)%nat -> in_token l i \/ white_byte i \/ reported E i.
Proof.
  induction n as [|n IH]; intros s H L; [lia|]. destruct (reached_at s H) as (A & R).
  destruct (next_spec u src s _ A) as (s1 & gap & t & cs' & E & Hn & N).
  assert (H1 : reached s1) by now apply rc_next with s.
  pose proof (eof_iff u src s s1 _ gap t cs' E A N R) as EI.
  pose proof (nx_pos _ _ _ _ _ _ _ _ _ N) as P1. pose proof (nx_off _ _ _ _ _ _ _ _ _ N) as O1.
  assert (GAP : forall i, (s_off s <= i < s_pos s1)%nat -> white_byte i \/ reported E i).
  { intros i Hi. destruct (char_of_byte gap (i - s_off s)%nat ltac:(lia)) as (a & c & b & Eg & Hb).
    assert (Ec : chars (skipn (s_off s) src) = a ++ c :: (b ++ t ++ cs')). { rewrite (nx_split _ _ _ _ _ _ _ _ _ N), Eg, <- !app_assoc. reflexivity. }
    destruct (chars_at_off s _ a c _ A Ec) as (F & W & Ne). set (off := (s_off s + length (text a))%nat) in *.
    destruct (nx_gap _ _ _ _ _ _ _ _ _ N a c b Eg) as [Wh|(e & He & Eo)].
    - left. destruct (skipn off src) as [|b0 r] eqn:Es; [congruence|]. rewrite F in Wh.
      assert (Lw : fst (decode_rune (b0 :: r)) < 128) by (unfold white in Wh; lia). rewrite (decode_rune_low _ _ Lw) in Wh, W. cbn [fst snd] in Wh, W.
      exists b0. split; [|exact Wh]. assert (i = off) as -> by (unfold off; lia). now apply skipn_nth with r.
    - right. exists e. split; [exact He|]. rewrite Eo. fold off. rewrite <- W. unfold off. lia. }
  assert (LT : (length (text t) = length (s_lit src s1))%nat) by now rewrite (next_lit u src _ _ _ _ _ _ _ N A).
  pose proof (at_off _ _ _ (nx_at _ _ _ _ _ _ _ _ _ N)) as B1.
  destruct (Z.eq_dec (s_tok s1) K_EOF) as [K|K].
  - exists [], s1, E. split; [now apply sr_end|]. split; [apply N|]. split; [apply N|]. split; [exact I|].
    intros i Hi. right. apply GAP. destruct (reached_at s1 H1) as (_ & R1). apply EI in K. rewrite K in O1. cbn in O1. specialize (R1 ltac:(now apply EI)). lia.
  - assert (Nt : t <> []) by (intros Z0; apply K, EI, Z0).
    assert (Lt : (0 < length (text t))%nat).
    { destruct t as [|c t']; [congruence|]. assert (Ec : chars (skipn (s_off s) src) = gap ++ c :: (t' ++ cs')) by apply (nx_split _ _ _ _ _ _ _ _ _ N).
      destruct (chars_at_off s _ gap c _ A Ec) as (_ & W & Ne). pose proof (decode_rune_fits _ Ne). unfold text. cbn [map concat]. rewrite app_length. lia. }
    destruct (IH s1 H1 ltac:(lia)) as (l & s' & E' & Hr & He & Hb & Ho & Hc).
    exists ((s_tok s1, s_pos s1, s_lit src s1) :: l), s', (E ++ E'). split; [now apply sr_token|].
    split; [rewrite He, (nx_errs _ _ _ _ _ _ _ _ _ N); now rewrite app_assoc|]. split; [apply Forall_app; split; [apply N|exact Hb]|].
    split.
    + cbn [in_order]. rewrite <- LT. split; [lia|]. split; [intros Z0; rewrite Z0 in LT; cbn in LT; lia|]. split; [lia|]. split.
      * rewrite LT. unfold s_lit at 2. replace (s_off s1 - s_pos s1)%nat with (length (s_lit src s1)) by lia. reflexivity.
      * replace (s_pos s1 + length (text t))%nat with (s_off s1) by lia. exact Ho.
    + intros i Hi. destruct (Nat.lt_ge_cases i (s_pos s1)) as [L1|L1].
      * right. destruct (GAP i ltac:(lia)) as [X|(e & X & Y)]; [now left|]. right. exists e. split; [apply in_or_app; now left|exact Y].
      * destruct (Nat.lt_ge_cases i (s_off s1)) as [L2|L2].
        -- left. eexists _, _, _. split; [now left|]. lia.
        -- destruct (Hc i ltac:(lia)) as [(k & p & x & X & Y)|[X|(e & X & Y)]].
           ++ left. exists k, p, x. split; [now right|exact Y].
           ++ right. now left.
           ++ right. right. exists e. split; [apply in_or_app; now right|exact Y].
Qed.

(** Where scanning begins: at 0, or after a byte order mark. *)
Lemma init_off : s_off (s_init src) = match chars src with c :: _ => if fst c =? byte_order_mark then length (snd c) else O | [] => O end.
Proof.
  destruct (init_spec src) as (E & A & _). pose proof (at_length _ _ _ A) as L. pose proof (at_off _ _ _ A) as O1. pose proof (text_chars src) as T.
  destruct (chars src) as [|c cs]; cbn [drop_bom] in L; [rewrite <- T in *; cbn in *; lia|]. unfold text in T. cbn [map concat] in T. fold (text cs) in T.
  assert (LT : (length (snd c) + length (text cs) = length src)%nat) by (rewrite <- T, app_length; reflexivity).
  destruct (fst c =? byte_order_mark); [lia|]. unfold text in L. cbn [map concat] in L. fold (text cs) in L. rewrite app_length in L. lia.
Qed.
End run.

(** ** What a call of next depends on *)
Section same.
Context (u : unicode) (src1 src2 : list byte) (d1 d2 : nat).
Hypotheses (L1 : (d1 <= length src1)%nat) (L2 : (d2 <= length src2)%nat) (EQ : skipn d1 src1 = skipn d2 src2).

(** The same place after [d1] in [src1] and after [d2] in [src2]. *)
Definition same_place (a b : nat) : Prop := exists k, a = (d1 + k)%nat /\ b = (d2 + k)%nat.
Record sim (s1 s2 : sstate) : Prop := mkSim {
  sm_ch : s_ch s1 = s_ch s2;
  sm_off : same_place (s_off s1) (s_off s2);
  sm_rd : same_place (s_rd s1) (s_rd s2) }.
Definition simp (s1 s2 : sstate) : Prop := sim s1 s2 /\ same_place (s_pos s1) (s_pos s2).

Lemma sp_skip a b : same_place a b -> skipn a src1 = skipn b src2.
Proof. intros (k & -> & ->). rewrite <- !skipn_skipn', EQ. reflexivity. Qed.
Lemma sp_len : same_place (length src1) (length src2).
Proof.
  exists (length src1 - d1)%nat. split; [lia|]. assert (length (skipn d1 src1) = length (skipn d2 src2)) by now rewrite EQ.
  rewrite !skipn_length in H. lia.
Qed.
Lemma sp_add a b n : same_place a b -> same_place (a + n) (b + n).
Proof. intros (k & -> & ->). exists (k + n)%nat. lia. Qed.

Lemma sim_error s1 s2 o1 o2 m1 m2 : sim s1 s2 -> sim (s_error o1 m1 s1) (s_error o2 m2 s2).
Proof. intros [A B C]. unfold s_error. destruct (position (s_lines s1) o1), (position (s_lines s2) o2). now constructor. Qed.
Lemma s_error_pos o m s : s_pos (s_error o m s) = s_pos s.
Proof. unfold s_error. now destruct (position (s_lines s) o). Qed.
Lemma s_error_tok o m s : s_tok (s_error o m s) = s_tok s.
Proof. unfold s_error. now destruct (position (s_lines s) o). Qed.
Lemma s_error_off o m s : s_off (s_error o m s) = s_off s.
Proof. unfold s_error. now destruct (position (s_lines s) o). Qed.
Lemma s_error_ch o m s : s_ch (s_error o m s) = s_ch s.
Proof. unfold s_error. now destruct (position (s_lines s) o). Qed.

Lemma sim_nextch s1 s2 : sim s1 s2 -> sim (nextch src1 s1) (nextch src2 s2).
Proof.
  intros [A B C]. unfold nextch. pose proof (sp_skip _ _ C) as S. rewrite <- S. destruct (skipn (s_rd s1) src1) as [|b r] eqn:Es.
  - constructor; cbn; auto using sp_len.
  - destruct (b2z b =? 0); [constructor; cbn; auto using sp_add|]. destruct (0x80 <=? b2z b); [|constructor; cbn; auto using sp_add].
    cbn [set_ch s_rd]. rewrite <- S, Es. destruct (decode_rune (b :: r)) as [c w]. constructor; cbn; auto using sp_add.
Qed.
Lemma nextch_pos src s : s_pos (nextch src s) = s_pos s.
Proof.
  unfold nextch. destruct (skipn (s_rd s) src) as [|b r]; [reflexivity|]. destruct (b2z b =? 0); [cbn; now rewrite s_error_pos|].
  destruct (0x80 <=? b2z b); [|reflexivity]. destruct (decode_rune _) as [c w]. destruct (_ && _); [cbn; now rewrite s_error_pos|]. destruct (_ && _); [cbn; now rewrite s_error_pos|reflexivity].
Qed.
Lemma nextch_tok src s : s_tok (nextch src s) = s_tok s.
Proof.
  unfold nextch. destruct (skipn (s_rd s) src) as [|b r]; [reflexivity|]. destruct (b2z b =? 0); [cbn; now rewrite s_error_tok|].
  destruct (0x80 <=? b2z b); [|reflexivity]. destruct (decode_rune _) as [c w]. destruct (_ && _); [cbn; now rewrite s_error_tok|]. destruct (_ && _); [cbn; now rewrite s_error_tok|reflexivity].
Qed.

(** The two runs, with token kinds [ka] and [kb] to start with, end alike. *)
Definition alike (a b : sstate) : Prop := simp a b /\ s_tok a = s_tok b.

Lemma simp_nextch s1 s2 : simp s1 s2 -> simp (nextch src1 s1) (nextch src2 s2).
Proof. intros (A & B). split; [now apply sim_nextch|]. now rewrite !nextch_pos. Qed.
Lemma simp_error s1 s2 o1 o2 m1 m2 : simp s1 s2 -> simp (s_error o1 m1 s1) (s_error o2 m2 s2).
Proof. intros (A & B). split; [now apply sim_error|]. now rewrite !s_error_pos. Qed.
Lemma simp_tok s1 s2 k1 k2 : simp s1 s2 -> simp (set_tok k1 s1) (set_tok k2 s2).
Proof. intros ([A B C] & P). split; [now constructor|exact P]. Qed.
Lemma alike_tok s1 s2 k : simp s1 s2 -> alike (set_tok k s1) (set_tok k s2).
Proof. intros H. split; [now apply simp_tok|reflexivity]. Qed.

Lemma simp_while cond : forall n1 n2 s1 s2 r1 r2, sim s1 s2 -> scan_while src1 n1 cond s1 = Some r1 -> scan_while src2 n2 cond s2 = Some r2 ->
  sim r1 r2 /\ s_pos r1 = s_pos s1 /\ s_pos r2 = s_pos s2 /\ s_tok r1 = s_tok s1 /\ s_tok r2 = s_tok s2.
Proof.
  induction n1 as [|n1 IH]; intros n2 s1 s2 r1 r2 S H1 H2.
  - cbn [scan_while] in H1. destruct (cond (s_ch s1)) eqn:C; [discriminate|]. injection H1 as <-.
    destruct n2; cbn [scan_while] in H2; rewrite <- (sm_ch _ _ S), C in H2; injection H2 as <-; auto.
  - cbn [scan_while] in H1. destruct (cond (s_ch s1)) eqn:C.
    + destruct n2 as [|n2]; cbn [scan_while] in H2; rewrite <- (sm_ch _ _ S), C in H2; [discriminate|].
      destruct (IH _ _ _ _ _ (sim_nextch _ _ S) H1 H2) as (A & B1 & B2 & B3 & B4). rewrite nextch_pos in B1, B2. rewrite nextch_tok in B3, B4. auto.
    + injection H1 as <-. destruct n2; cbn [scan_while] in H2; rewrite <- (sm_ch _ _ S), C in H2; injection H2 as <-; auto.
Qed.
Lemma simp_while' cond n1 n2 s1 s2 r1 r2 : simp s1 s2 -> scan_while src1 n1 cond s1 = Some r1 -> scan_while src2 n2 cond s2 = Some r2 -> simp r1 r2.
Proof. intros (A & B) H1 H2. destruct (simp_while cond _ _ _ _ _ _ A H1 H2) as (S & P1 & P2 & _). split; [exact S|]. now rewrite P1, P2. Qed.

Lemma simp_lit s1 s2 : simp s1 s2 -> s_lit src1 s1 = s_lit src2 s2.
Proof.
  intros ([_ (k & A & B) _] & P). unfold s_lit. rewrite <- (sp_skip _ _ P). destruct P as (j & -> & ->). rewrite A, B. f_equal. lia.
Qed.

Lemma sim_ident s1 s2 r1 r2 : simp s1 s2 -> s_ident u src1 s1 = Some r1 -> s_ident u src2 s2 = Some r2 -> alike r1 r2.
Proof.
  intros S H1 H2. unfold s_ident in H1, H2. destruct (scan_while src1 _ _ s1) as [t1|] eqn:W1; [|discriminate]. destruct (scan_while src2 _ _ s2) as [t2|] eqn:W2; [|discriminate].
  pose proof (simp_while' _ _ _ _ _ _ _ S W1 W2) as S'. pose proof (sm_ch _ _ (proj1 S')) as Ec. rewrite <- Ec in H2.
  assert (G : forall v1 v2, (if 0x80 <=? s_ch t1 then scan_while src1 (fuel src1) (fun c => is_letter u c || (c =? 95) || (is_digit u c || (c =? 46))) t1 else Some t1) = Some v1 ->
     (if 0x80 <=? s_ch t1 then scan_while src2 (fuel src2) (fun c => is_letter u c || (c =? 95) || (is_digit u c || (c =? 46))) t2 else Some t2) = Some v2 -> simp v1 v2).
  { intros v1 v2 V1 V2. destruct (0x80 <=? s_ch t1); [now apply (simp_while' _ _ _ _ _ _ _ S' V1 V2)|]. injection V1 as <-. now injection V2 as <-. }
  destruct (if 0x80 <=? s_ch t1 then scan_while src1 _ _ t1 else Some t1) as [v1|]; [|discriminate].
  destruct (if 0x80 <=? s_ch t1 then scan_while src2 _ _ t2 else Some t2) as [v2|]; [|discriminate].
  specialize (G _ _ eq_refl eq_refl). injection H1 as <-. injection H2 as <-. rewrite (simp_lit _ _ G). now apply alike_tok.
Qed.

Lemma sim_exponent k s1 s2 r1 r2 : simp s1 s2 -> s_exponent src1 k s1 = Some r1 -> s_exponent src2 k s2 = Some r2 -> alike r1 r2.
Proof.
  intros S H1 H2. unfold s_exponent in H1, H2. rewrite <- (sm_ch _ _ (proj1 S)) in H2. destruct (lower (s_ch s1) =? 101).
  - pose proof (simp_nextch _ _ S) as S1. rewrite <- (sm_ch _ _ (proj1 S1)) in H2.
    set (v1 := if (s_ch (nextch src1 s1) =? 43) || (s_ch (nextch src1 s1) =? 45) then nextch src1 (nextch src1 s1) else nextch src1 s1) in *.
    set (v2 := if (s_ch (nextch src1 s1) =? 43) || (s_ch (nextch src1 s1) =? 45) then nextch src2 (nextch src2 s2) else nextch src2 s2) in *.
    assert (S2 : simp v1 v2). { unfold v1, v2. destruct (_ || _); [now apply simp_nextch|exact S1]. }
    destruct (scan_while src1 _ _ v1) as [t1|] eqn:W1; [|discriminate]. destruct (scan_while src2 _ _ v2) as [t2|] eqn:W2; [|discriminate].
    injection H1 as <-. injection H2 as <-. apply alike_tok. now apply (simp_while' _ _ _ _ _ _ _ S2 W1 W2).
  - injection H1 as <-. injection H2 as <-. now apply alike_tok.
Qed.
Lemma sim_decimal s1 s2 r1 r2 : simp s1 s2 -> s_decimal src1 s1 = Some r1 -> s_decimal src2 s2 = Some r2 -> alike r1 r2.
Proof.
  intros S H1 H2. unfold s_decimal in H1, H2. destruct (scan_while src1 _ _ s1) as [t1|] eqn:W1; [|discriminate]. destruct (scan_while src2 _ _ s2) as [t2|] eqn:W2; [|discriminate].
  pose proof (simp_while' _ _ _ _ _ _ _ S W1 W2) as S'. rewrite <- (sm_ch _ _ (proj1 S')) in H2. destruct (s_ch t1 =? 46).
  - destruct (scan_while src1 _ _ (nextch src1 t1)) as [v1|] eqn:V1; [|discriminate]. destruct (scan_while src2 _ _ (nextch src2 t2)) as [v2|] eqn:V2; [|discriminate].
    eapply sim_exponent; [|exact H1|exact H2]. now apply (simp_while' _ _ _ _ _ _ _ (simp_nextch _ _ S') V1 V2).
  - eapply sim_exponent; eauto.
Qed.
Lemma sim_number s1 s2 r1 r2 : simp s1 s2 -> s_number src1 s1 = Some r1 -> s_number src2 s2 = Some r2 -> alike r1 r2.
Proof.
  intros S H1 H2. unfold s_number in H1, H2. rewrite <- (sm_ch _ _ (proj1 S)) in H2. destruct (s_ch s1 =? 48); [|eapply sim_decimal; eauto].
  pose proof (simp_nextch _ _ S) as S1. rewrite <- (sm_ch _ _ (proj1 S1)) in H2. destruct (lower (s_ch (nextch src1 s1)) =? 120); [|eapply sim_decimal; eauto].
  destruct (scan_while src1 _ _ _) as [t1|] eqn:W1; [|discriminate]. destruct (scan_while src2 _ _ _) as [t2|] eqn:W2; [|discriminate].
  injection H1 as <-. injection H2 as <-. apply alike_tok. now apply (simp_while' _ _ _ _ _ _ _ (simp_nextch _ _ S1) W1 W2).
Qed.

(** A string broken off by a newline or an unknown escape: the kind is left
    from before. *)
Definition broken_string (s s' : sstate) : Prop :=
  s_tok s' = s_tok s /\ exists E e, s_errs s' = E ++ [e] /\ (pe_msg e = lit "newline in string" \/ pe_msg e = lit "unknown escape").
Definition alike_or_broken (s1 s2 r1 r2 : sstate) : Prop :=
  simp r1 r2 /\ (s_tok r1 = s_tok r2 \/ broken_string s1 r1 /\ broken_string s2 r2).

Lemma s_error_last o m s : exists E e, s_errs (s_error o m s) = E ++ [e] /\ pe_msg e = m.
Proof. unfold s_error. destruct (position (s_lines s) o) as [l c]. exists (s_errs s), (mkPErr o l c m). auto. Qed.
Lemma alike_ab s1 s2 t1 t2 r1 r2 : s_tok t1 = s_tok s1 -> s_tok t2 = s_tok s2 -> alike_or_broken t1 t2 r1 r2 -> alike_or_broken s1 s2 r1 r2.
Proof. intros K1 K2 (S & H). split; [exact S|]. unfold broken_string in *. now rewrite <- K1, <- K2. Qed.

Lemma sim_string_loop q : forall n1 n2 s1 s2 r1 r2, simp s1 s2 -> s_string_loop src1 n1 q s1 = Some r1 -> s_string_loop src2 n2 q s2 = Some r2 -> alike_or_broken s1 s2 r1 r2.
Proof.
  induction n1 as [|n1 IH]; intros n2 s1 s2 r1 r2 S H1 H2; [discriminate|]. destruct n2 as [|n2]; [discriminate|]. cbn [s_string_loop] in H1, H2.
  rewrite <- (sm_ch _ _ (proj1 S)) in H2. destruct (s_ch s1 =? q).
  { injection H1 as <-. injection H2 as <-. destruct (alike_tok (nextch src1 s1) (nextch src2 s2) K_STRING (simp_nextch _ _ S)). split; auto. }
  destruct (s_ch s1 =? 92).
  { pose proof (simp_nextch _ _ S) as S1. unfold s_escape in H1, H2. rewrite <- (sm_ch _ _ (proj1 S1)) in H2.
    set (c := s_ch (nextch src1 s1)) in *. destruct ((c =? q) || (c =? 92) || (c =? 110) || (c =? 114) || (c =? 116)).
    - eapply alike_ab; [| |eapply (IH n2 _ _ _ _ (simp_nextch _ _ S1) H1 H2)]; now rewrite !nextch_tok.
    - destruct (c <? 0).
      + eapply alike_ab; [| |eapply (IH n2 _ _ _ _ S1 H1 H2)]; now rewrite nextch_tok.
      + injection H1 as <-. injection H2 as <-. split; [now apply simp_error|]. right. unfold broken_string. rewrite !s_error_tok, !nextch_tok. split; (split; [reflexivity|]);
          (match goal with |- context [s_error ?o ?m ?s] => destruct (s_error_last o m s) as (E & e & H & M) end; exists E, e; auto). }
  destruct (s_ch s1 =? 10).
  { injection H1 as <-. injection H2 as <-. split; [now apply simp_error|]. right. unfold broken_string. rewrite !s_error_tok. split; (split; [reflexivity|]);
      (match goal with |- context [s_error ?o ?m ?s] => destruct (s_error_last o m s) as (E & e & H & M) end; exists E, e; auto). }
  destruct (s_ch s1 <? 0).
  { injection H1 as <-. injection H2 as <-. split; [apply simp_tok; now apply simp_error|]. now left. }
  eapply alike_ab; [| |eapply (IH n2 _ _ _ _ (simp_nextch _ _ S) H1 H2)]; now rewrite nextch_tok.
Qed.
Lemma sim_stars : forall n1 n2 s1 s2 b1 b2 r1 r2, simp s1 s2 -> s_stars src1 n1 s1 = Some (b1, r1) -> s_stars src2 n2 s2 = Some (b2, r2) ->
  b1 = b2 /\ simp r1 r2 /\ s_tok r1 = s_tok s1 /\ s_tok r2 = s_tok s2.
Proof.
  induction n1 as [|n1 IH]; intros n2 s1 s2 b1 b2 r1 r2 S H1 H2.
  - cbn [s_stars] in H1. destruct (s_ch s1 =? 42) eqn:C; [discriminate|]. injection H1 as <- <-.
    destruct n2; cbn [s_stars] in H2; rewrite <- (sm_ch _ _ (proj1 S)), C in H2; injection H2 as <- <-; auto.
  - cbn [s_stars] in H1. destruct (s_ch s1 =? 42) eqn:C.
    + destruct n2 as [|n2]; cbn [s_stars] in H2; rewrite <- (sm_ch _ _ (proj1 S)), C in H2; [discriminate|].
      pose proof (simp_nextch _ _ S) as S1. rewrite <- (sm_ch _ _ (proj1 S1)) in H2. destruct (s_ch (nextch src1 s1) =? 47).
      * injection H1 as <- <-. injection H2 as <- <-. rewrite !nextch_tok. auto using simp_nextch.
      * destruct (IH _ _ _ _ _ _ _ S1 H1 H2) as (A & B & K1 & K2). rewrite nextch_tok in K1, K2. auto.
    + injection H1 as <- <-. destruct n2; cbn [s_stars] in H2; rewrite <- (sm_ch _ _ (proj1 S)), C in H2; injection H2 as <- <-; auto.
Qed.
Lemma sim_full : forall n1 n2 s1 s2 r1 r2, simp s1 s2 -> s_full_loop src1 n1 s1 = Some r1 -> s_full_loop src2 n2 s2 = Some r2 ->
  simp r1 r2 /\ s_tok r1 = s_tok s1 /\ s_tok r2 = s_tok s2.
Proof.
  induction n1 as [|n1 IH]; intros n2 s1 s2 r1 r2 S H1 H2; destruct n2 as [|n2]; cbn [s_full_loop] in H1, H2; rewrite <- (sm_ch _ _ (proj1 S)) in H2; destruct (0 <=? s_ch s1); try discriminate;
    try (injection H1 as <-; injection H2 as <-; rewrite !s_error_tok; auto using simp_error).
  destruct (s_stars src1 _ s1) as [[b1 v1]|] eqn:V1; [|discriminate]. destruct (s_stars src2 _ s2) as [[b2 v2]|] eqn:V2; [|discriminate].
  destruct (sim_stars _ _ _ _ _ _ _ _ S V1 V2) as (<- & S' & K1 & K2). destruct b1.
  - injection H1 as <-. injection H2 as <-. auto.
  - destruct (IH _ _ _ _ _ (simp_nextch _ _ S') H1 H2) as (A & B & C). rewrite nextch_tok in B, C. split; [exact A|]. split; congruence.
Qed.
Lemma sim_line s1 s2 r1 r2 : simp s1 s2 -> s_line_comment src1 s1 = Some r1 -> s_line_comment src2 s2 = Some r2 -> alike r1 r2.
Proof.
  intros S H1 H2. unfold s_line_comment in H1, H2. pose proof (simp_tok _ _ K_COMMENT K_COMMENT S) as S'.
  destruct (simp_while _ _ _ _ _ _ _ (proj1 S') H1 H2) as (A & _ & _ & K1 & K2). split; [now apply (simp_while' _ _ _ _ _ _ _ S' H1 H2)|]. cbn in K1, K2. congruence.
Qed.

Lemma ab s1 s2 r1 r2 : alike r1 r2 -> alike_or_broken s1 s2 r1 r2.
Proof. intros (A & B). split; auto. Qed.

Lemma sim_next_n : forall n1 n2 s1 s2 r1 r2, sim s1 s2 -> s_next_n u src1 n1 s1 = Some r1 -> s_next_n u src2 n2 s2 = Some r2 -> alike_or_broken s1 s2 r1 r2.
Proof.
  induction n1 as [|n1 IH]; intros n2 s1 s2 r1 r2 S H1 H2; [discriminate|]. destruct n2 as [|n2]; [discriminate|]. cbn [s_next_n] in H1, H2.
  destruct (scan_while src1 _ _ s1) as [t1|] eqn:W1; [|discriminate]. destruct (scan_while src2 _ _ s2) as [t2|] eqn:W2; [|discriminate].
  destruct (simp_while _ _ _ _ _ _ _ S W1 W2) as (S1 & _ & _ & K1 & K2).
  assert (S2 : simp (set_pos (s_off t1) t1) (set_pos (s_off t2) t2)). { split; [destruct S1; now constructor|]. exact (sm_off _ _ S1). }
  set (v1 := set_pos (s_off t1) t1) in *. set (v2 := set_pos (s_off t2) t2) in *.
  assert (Kv1 : s_tok v1 = s_tok s1) by exact K1. assert (Kv2 : s_tok v2 = s_tok s2) by exact K2. clearbody v1 v2. clear t1 t2 W1 W2 S1 K1 K2.
  eapply alike_ab; [exact Kv1|exact Kv2|]. clear Kv1 Kv2.
  assert (SW : s_switch u src1 (s_next_n u src1 n1) v1 = Some r1 -> s_switch u src2 (s_next_n u src2 n2) v2 = Some r2 -> alike_or_broken v1 v2 r1 r2).
  { clear H1 H2. intros H1 H2. unfold s_switch in H1, H2. pose proof (sm_ch _ _ (proj1 S2)) as Ec. rewrite <- Ec in H2. pose proof (simp_nextch _ _ S2) as S3. pose proof (sm_ch _ _ (proj1 S3)) as Ec3.
    set (c := s_ch v1) in *. destruct (c =? eof). { injection H1 as <-. injection H2 as <-. now apply ab, alike_tok. }
    destruct (isDecimal c). { apply ab. eapply sim_number; [exact S2|exact H1|exact H2]. }
    destruct ((c =? 34) || (c =? 39)).
    { unfold s_string in H1, H2. rewrite <- Ec in H2. eapply alike_ab; [| |eapply sim_string_loop; [exact S3|exact H1|exact H2]]; now rewrite nextch_tok. }
    rewrite <- Ec3 in H2.
    destruct (c =? 43). { destruct (isDecimal _); [apply ab; eapply sim_number; [exact S3|exact H1|exact H2]|]. injection H1 as <-. injection H2 as <-. now apply ab, alike_tok. }
    destruct (c =? 45). { destruct (isDecimal _); [apply ab; eapply sim_number; [exact S3|exact H1|exact H2]|]. injection H1 as <-. injection H2 as <-. now apply ab, alike_tok. }
    destruct (c =? 47).
    { destruct (_ =? 47); [apply ab; eapply sim_line; [apply simp_nextch, S3|exact H1|exact H2]|]. destruct (_ =? 42).
      - unfold s_full_comment in H1, H2. destruct (sim_full _ _ _ _ _ _ (simp_tok _ _ K_COMMENT K_COMMENT (simp_nextch _ _ S3)) H1 H2) as (A & B & C). split; [exact A|]. left. cbn in B, C. congruence.
      - injection H1 as <-. injection H2 as <-. now apply ab, alike_tok. }
    destruct (c =? 61). { destruct (_ =? 61); injection H1 as <-; injection H2 as <-; apply ab, alike_tok; auto using simp_nextch. }
    destruct (c =? 35). { apply ab. eapply sim_line; [exact S3|exact H1|exact H2]. }
    destruct (single c). { injection H1 as <-. injection H2 as <-. now apply ab, alike_tok. }
    eapply alike_ab; [| |eapply (IH n2)]; [| | |exact H1|exact H2]; [now rewrite nextch_tok, s_error_tok|now rewrite nextch_tok, s_error_tok|].
    apply sim_nextch, sim_error, S2. }
  pose proof (sm_ch _ _ (proj1 S2)) as Ec. rewrite <- Ec in H2. destruct (isLetter (s_ch v1)).
  { apply ab. eapply sim_ident; [|exact H1|exact H2]. now apply simp_nextch. }
  destruct (0x80 <=? s_ch v1); [|now apply SW].
  unfold atIdent in H1, H2. rewrite <- Ec in H2. destruct (is_letter u (s_ch v1) || (s_ch v1 =? 95)).
  { apply ab. eapply sim_ident; [|exact H1|exact H2]. now apply simp_nextch. }
  destruct (is_digit u (s_ch v1) || (s_ch v1 =? 46)); [|now apply SW].
  apply ab. eapply sim_ident; [|exact H1|exact H2]. now apply simp_nextch, simp_error.
Qed.
End same.

(** A call of next sees only what is left of the source. *)
Theorem next_same u src1 src2 s1 s2 r1 r2 : reached u src1 s1 -> reached u src2 s2 ->
  skipn (s_off s1) src1 = skipn (s_off s2) src2 -> s_next u src1 s1 = Some r1 -> s_next u src2 s2 = Some r2 ->
  s_lit src1 r1 = s_lit src2 r2 /\ (s_pos r1 - s_off s1 = s_pos r2 - s_off s2)%nat /\
  (s_tok r1 = s_tok r2 \/ broken_string s1 r1 /\ broken_string s2 r2).
Proof.
  intros H1 H2 EQ N1 N2. destruct (reached_at u src1 s1 H1) as (A1 & _). destruct (reached_at u src2 s2 H2) as (A2 & _).
  pose proof (at_off _ _ _ A1) as L1. pose proof (at_off _ _ _ A2) as L2.
  assert (S : sim (s_off s1) (s_off s2) s1 s2).
  { constructor.
    - rewrite (at_ch _ _ _ A1), (at_ch _ _ _ A2), EQ. reflexivity.
    - exists O. lia.
    - rewrite (at_rd _ _ _ A1), (at_rd _ _ _ A2), EQ. exists (hd_width (chars (skipn (s_off s2) src2))). auto. }
  destruct (sim_next_n u src1 src2 _ _ L1 L2 EQ _ _ _ _ _ _ S N1 N2) as (R & K). split; [now apply (simp_lit src1 src2 _ _ L1 L2 EQ)|]. split; [|exact K].
  destruct R as (_ & (k & -> & ->)). lia.
Qed.

(** ** A run without errors is the token sequence of the grammar *)
Definition strip (l : list (Z * nat * list byte)) : list tok := map (fun x => (fst (fst x), snd x)) l.

Lemma run_clean u src s l s' : scan_run u src s l s' -> reached u src s ->
  (s_errs s' = s_errs s -> clean_from u src s (strip l)) /\
  (forall toks, clean_from u src s toks -> s_errs s' = s_errs s /\ toks = strip l).
Proof.
  induction 1 as [s s' Hn K|s s1 l s' Hn K Hr IH]; intros H; destruct (reached_at u src s H) as (A & R);
    destruct (next_spec u src s _ A) as (s1' & gap & t & cs' & E & Hn' & N); rewrite Hn in Hn'; injection Hn' as <-; pose proof (nx_errs _ _ _ _ _ _ _ _ _ N) as HE.
  - split.
    + intros X. rewrite X in HE. rewrite <- (app_nil_r (s_errs s)) in HE at 1. apply app_inv_head in HE. apply (clean_end u src s s' _ gap t cs' E A N R); auto.
    + intros [|x toks] C.
      * destruct (clean_end_inv u src s s' _ gap t cs' E A N R C) as (-> & _). rewrite app_nil_r in HE. auto.
      * destruct (clean_cons_inv u src s s' _ gap t cs' E A N R x toks C) as (_ & X & _). contradiction.
  - destruct (IH (rc_next u src s s1 H Hn)) as (IH1 & IH2).
    assert (G : exists E', s_errs s' = s_errs s1 ++ E').
    { clear - Hr H Hn. assert (H1 : reached u src s1) by now apply rc_next with s. destruct (scan_all u src (S (length src)) s1 H1 ltac:(lia)) as (l2 & s2 & E2 & Hr2 & He & _).
      destruct (scan_run_unique u src _ _ _ Hr _ _ Hr2) as (-> & ->). eauto. }
    destruct G as (E' & HE'). split.
    + intros X. rewrite HE', HE, <- app_assoc in X. rewrite <- (app_nil_r (s_errs s)) in X at 2. apply app_inv_head, app_eq_nil in X. destruct X as (-> & ->).
      rewrite app_nil_r in HE'. cbn [strip map fst snd]. apply (clean_cons u src s s1 _ gap t cs' [] A N R); auto.
    + intros [|x toks] C.
      * destruct (clean_end_inv u src s s1 _ gap t cs' E A N R C) as (_ & X). contradiction.
      * destruct (clean_cons_inv u src s s1 _ gap t cs' E A N R x toks C) as (-> & _ & -> & C'). destruct (IH2 _ C') as (X & ->).
        rewrite app_nil_r in HE. split; [congruence|reflexivity].
Qed.

(** The run, computed. *)
Fixpoint scan_fun (u : unicode) (src : list byte) (n : nat) (s : sstate) : option (list (Z * nat * list byte) * sstate) :=
  match s_next u src s with
  | None => None
  | Some s1 =>
      if s_tok s1 =? K_EOF then Some ([], s1)
      else match n with
           | O => None
           | S m =>
               match scan_fun u src m s1 with
               | Some (l, s') => Some ((s_tok s1, s_pos s1, s_lit src s1) :: l, s')
               | None => None
               end
           end
  end.
Lemma scan_fun_run u src : forall n s l s', scan_fun u src n s = Some (l, s') -> scan_run u src s l s'.
Proof.
  induction n as [|n IH]; intros s l s' H; cbn [scan_fun] in H; destruct (s_next u src s) as [s1|] eqn:N; try discriminate; destruct (Z.eqb_spec (s_tok s1) K_EOF) as [K|K]; try discriminate.
  - injection H as <- <-. now apply sr_end.
  - injection H as <- <-. now apply sr_end.
  - destruct (scan_fun u src n s1) as [[l1 s2]|] eqn:F; [|discriminate]. injection H as <- <-. apply sr_token; auto.
Qed.
