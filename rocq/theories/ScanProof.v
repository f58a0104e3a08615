(** The scanner against the lexical grammar: one call of next. *)
From Coq Require Import Strings.String.
From Verif Require Import Base BaseLemmas GoType Utf8 Tokens Scan LexSpec LexProof.

Definition hd_code (cs : list char) : Z := match cs with [] => eof | c :: _ => fst c end.
Definition hd_width (cs : list char) : nat := match cs with [] => O | c :: _ => length (snd c) end.

(** The characters that become visible (as lookahead) while [t] is consumed
    and [rest] is left. *)
Definition news (t rest : list char) : list char := tl (t ++ firstn 1 rest).

Lemma news_app t1 t2 r : Forall ok_char (news (t1 ++ t2) r) <->
  Forall ok_char (news t1 (t2 ++ r)) /\ Forall ok_char (news t2 r).
Proof.
  unfold news. destruct t1 as [|c t1].
  - cbn [app]. destruct (t2 ++ r) as [|x y]; cbn; [|]; (split; [intros H; split; [constructor|exact H]|tauto]).
  - cbn [app tl]. destruct t2 as [|d t2]; cbn [app tl].
    + rewrite app_nil_r. destruct r as [|x r]; cbn [firstn tl]; (split; [intros H; split; [exact H|constructor]|intros H; exact (proj1 H)]).
    + cbn [firstn]. rewrite <- app_assoc. cbn [app]. generalize (t2 ++ firstn 1 r). intros x. split.
      * intros H. apply Forall_app in H. destruct H as (H1 & H2). inversion_clear H2 as [|? ? H3 H4]. split; [|exact H4].
        apply Forall_app. split; [exact H1|]. constructor; [exact H3|constructor].
      * intros (H & H3). apply Forall_app in H. destruct H as (H1 & H2). inversion_clear H2. apply Forall_app. split; [exact H1|]. now constructor.
Qed.
Lemma news_nil r : news [] r = [].
Proof. destruct r; reflexivity. Qed.

(** ** ASCII classes *)
Lemma lower_range lo hi c : 97 <= lo -> hi <= 122 -> in_range lo hi (lower c) = in_range lo hi c || in_range (lo - 32) (hi - 32) c.
Proof.
  intros Hlo Hhi.
  destruct (Z.lt_ge_cases c 0) as [N|N].
  { assert (lower c < 0) by (unfold lower; apply Z.lor_neg; now right). unfold in_range.
    rewrite (proj2 (Z.leb_gt lo (lower c))), (proj2 (Z.leb_gt lo c)), (proj2 (Z.leb_gt (lo - 32) c)) by lia. reflexivity. }
  destruct (Z.lt_ge_cases c 128) as [L|L].
  2:{ assert (c <= lower c).
      { unfold lower. rewrite <- (Z.lor_0_l c) at 1. apply Z.ldiff_le; [apply Z.lor_nonneg; lia|].
        apply Z.bits_inj'. intros n Hn. rewrite Z.ldiff_spec, !Z.lor_spec, Z.bits_0. cbn. now destruct (Z.testbit c n), (Z.testbit 32 n). }
      unfold in_range. rewrite (proj2 (Z.leb_gt (lower c) hi)), (proj2 (Z.leb_gt c hi)), (proj2 (Z.leb_gt c (hi - 32))) by lia. now rewrite !andb_false_r. }
  assert (E : lower c = if (64 <=? c) && (c <=? 95) || (c <? 32) then c + 32 else c).
  { assert (G : forallb (fun n => lower (Z.of_nat n) =? (if (64 <=? Z.of_nat n) && (Z.of_nat n <=? 95) || (Z.of_nat n <? 32) then Z.of_nat n + 32 else Z.of_nat n)) (seq 0 128) = true) by reflexivity.
    rewrite forallb_forall in G. specialize (G (Z.to_nat c)). rewrite Z2Nat.id in G by lia. apply Z.eqb_eq, G. apply in_seq. lia. }
  rewrite E. unfold in_range.
  destruct (Z.leb_spec 64 c), (Z.leb_spec c 95), (Z.ltb_spec c 32); cbn [andb orb];
    repeat match goal with |- context [?a <=? ?b] => destruct (Z.leb_spec a b); try lia end; reflexivity.
Qed.
Lemma isLetter_spec c : isLetter c = true <-> 65 <= c <= 90 \/ 97 <= c <= 122 \/ c = 95.
Proof.
  unfold isLetter. rewrite lower_range by lia. unfold in_range. rewrite !orb_true_iff, !andb_true_iff, !Z.leb_le, Z.eqb_eq. lia.
Qed.
Lemma isDecimal_dec c : isDecimal c = dec c.
Proof. reflexivity. Qed.
Lemma isHex_hexb c : isHex c = hexb c.
Proof.
  unfold isHex, hexb. rewrite lower_range by lia. rewrite isDecimal_dec. unfold in_range. cbn [Z.sub Z.add Z.opp Pos.sub].
  change (97 - 32) with 65. change (102 - 32) with 70. rewrite <- orb_assoc. f_equal. apply orb_comm.
Qed.
Lemma eq_iff (a b : bool) : a = b -> (a = true <-> b = true).
Proof. intros ->. tauto. Qed.
Lemma lower_x c : (lower c =? 120) = ((c =? 120) || (c =? 88)).
Proof.
  pose proof (lower_range 120 120 c ltac:(lia) ltac:(lia)) as H. unfold in_range in H. change (120 - 32) with 88 in H.
  apply eq_true_iff_eq. rewrite orb_true_iff, !Z.eqb_eq. apply eq_iff in H. rewrite orb_true_iff, !andb_true_iff, !Z.leb_le in H. lia.
Qed.
Lemma lower_e c : (lower c =? 101) = eE c.
Proof.
  pose proof (lower_range 101 101 c ltac:(lia) ltac:(lia)) as H. unfold in_range in H. change (101 - 32) with 69 in H. unfold eE.
  apply eq_true_iff_eq. rewrite orb_true_iff, !Z.eqb_eq. apply eq_iff in H. rewrite orb_true_iff, !andb_true_iff, !Z.leb_le in H. lia.
Qed.

Section scanner.
Context (u : unicode) (src : list byte).

(** The scanner stands before the characters [cs]. *)
Record at_ (s : sstate) (cs : list char) : Prop := mkAt {
  at_off : (s_off s <= length src)%nat;
  at_chars : chars (skipn (s_off s) src) = cs;
  at_ch : s_ch s = hd_code cs;
  at_rd : s_rd s = (s_off s + hd_width cs)%nat }.

Definition bounded (E : list perr) : Prop := Forall (fun e => (pe_off e <= length src)%nat) E.

(** From [s] to [s'] consuming [t] and reporting [E]. *)
Record travels (s s' : sstate) (t cs' : list char) (E : list perr) : Prop := mkTravels {
  tr_from : at_ s (t ++ cs');
  tr_to : at_ s' cs';
  tr_off : s_off s' = (s_off s + length (text t))%nat;
  tr_pos : s_pos s' = s_pos s;
  tr_errs : s_errs s' = s_errs s ++ E;
  tr_bound : bounded E }.

(** The same, reporting nothing but bad characters. *)
Definition moves (s s' : sstate) (t cs' : list char) : Prop :=
  exists E, travels s s' t cs' E /\ (E = [] <-> Forall ok_char (news t cs')).

Lemma at_length s cs : at_ s cs -> length (text cs) = (length src - s_off s)%nat.
Proof. intros H. rewrite <- (at_chars _ _ H), text_chars, skipn_length. reflexivity. Qed.

Lemma chars_length l : (length (chars l) <= length l)%nat.
Proof.
  induction l as [|l Hl IH] using chars_ind; [cbn; lia|]. rewrite (chars_cons l Hl). cbn [length]. rewrite skipn_length in IH.
  pose proof (decode_rune_fits l Hl). lia.
Qed.
Lemma at_fuel s cs : at_ s cs -> (length cs < fuel src)%nat.
Proof.
  intros H. rewrite <- (at_chars _ _ H). pose proof (chars_length (skipn (s_off s) src)) as L. rewrite skipn_length in L. unfold fuel. lia.
Qed.

Lemma at_eof s cs : at_ s cs -> (cs = [] <-> s_off s = length src).
Proof.
  intros H. pose proof (at_length s cs H) as L. pose proof (at_off _ _ H). split.
  - intros ->. cbn in L. lia.
  - intros E. rewrite <- (at_chars _ _ H), E, skipn_all. reflexivity.
Qed.
Lemma at_nonneg s c cs : at_ s (c :: cs) -> 0 <= fst c /\ snd c <> [].
Proof.
  intros H. pose proof (chars_nonneg (skipn (s_off s) src)) as N. pose proof (chars_nonempty (skipn (s_off s) src)) as M.
  rewrite (at_chars _ _ H) in N, M. inversion_clear N. inversion_clear M. auto.
Qed.
Lemma hd_eof s cs : at_ s cs -> (hd_code cs < 0 <-> cs = []).
Proof.
  intros H. destruct cs as [|c cs]; cbn; [unfold eof; split; [auto|lia]|]. apply at_nonneg in H. split; [lia|discriminate].
Qed.

Lemma travels_tok s s' t cs' E k : travels s s' t cs' E -> travels s (set_tok k s') t cs' E.
Proof. intros [? [? ? ? ?] ? ? ? ?]. constructor; auto. now constructor. Qed.
Lemma moves_tok s s' t cs' k : moves s s' t cs' -> moves s (set_tok k s') t cs'.
Proof. intros (E & H & I). exists E. split; [now apply travels_tok|exact I]. Qed.
Lemma moves_tok_l s s' t cs' k : moves (set_tok k s) s' t cs' -> moves s s' t cs'.
Proof. intros (E & [[? ? ? ?] ? ? ? ? ?] & I). exists E. split; [|exact I]. constructor; auto. now constructor. Qed.
Lemma at_tok s cs k : at_ s cs -> at_ (set_tok k s) cs.
Proof. intros [? ? ? ?]. now constructor. Qed.
Lemma at_pos s cs p : at_ s cs -> at_ (set_pos p s) cs.
Proof. intros [? ? ? ?]. now constructor. Qed.
Lemma s_error_fields o m s : s_ch (s_error o m s) = s_ch s /\ s_off (s_error o m s) = s_off s /\ s_rd (s_error o m s) = s_rd s /\
  s_tok (s_error o m s) = s_tok s /\ s_pos (s_error o m s) = s_pos s /\ s_lines (s_error o m s) = s_lines s /\
  exists e, s_errs (s_error o m s) = s_errs s ++ [e] /\ pe_off e = o.
Proof. unfold s_error. destruct (position (s_lines s) o). cbn. repeat (split; [reflexivity|]). eexists. split; reflexivity. Qed.
Lemma at_error s cs o m : at_ s cs -> at_ (s_error o m s) cs.
Proof. intros [? ? ? ?]. destruct (s_error_fields o m s) as (E1 & E2 & E3 & _). constructor; congruence. Qed.

Lemma travels_error s cs m : at_ s cs -> exists e, travels s (s_error (s_off s) m s) [] cs [e] /\ pe_off e = s_off s.
Proof.
  intros H. destruct (s_error_fields (s_off s) m s) as (_ & F2 & _ & F4 & F5 & _ & e & F6 & F7). exists e. split; [|exact F7]. constructor.
  - exact H.
  - now apply at_error.
  - cbn. lia.
  - exact F5.
  - exact F6.
  - constructor; [rewrite F7; apply H|constructor].
Qed.

Lemma travels_refl s cs : at_ s cs -> travels s s [] cs [].
Proof. intros H. constructor; [exact H|exact H|cbn; lia|reflexivity|now rewrite app_nil_r|constructor]. Qed.
Lemma moves_refl s cs : at_ s cs -> moves s s [] cs.
Proof. intros H. exists []. split; [now apply travels_refl|]. rewrite news_nil. split; [constructor|reflexivity]. Qed.
Lemma travels_trans s s1 s2 t1 t2 cs E1 E2 : travels s s1 t1 (t2 ++ cs) E1 -> travels s1 s2 t2 cs E2 -> travels s s2 (t1 ++ t2) cs (E1 ++ E2).
Proof.
  intros H1 H2. constructor.
  - rewrite <- app_assoc. apply H1.
  - apply H2.
  - rewrite (tr_off _ _ _ _ _ H2), (tr_off _ _ _ _ _ H1), text_app, app_length. lia.
  - rewrite (tr_pos _ _ _ _ _ H2). apply H1.
  - rewrite (tr_errs _ _ _ _ _ H2), (tr_errs _ _ _ _ _ H1). now rewrite app_assoc.
  - apply Forall_app. split; [apply H1|apply H2].
Qed.
Lemma moves_trans s s1 s2 t1 t2 cs : moves s s1 t1 (t2 ++ cs) -> moves s1 s2 t2 cs -> moves s s2 (t1 ++ t2) cs.
Proof.
  intros (E1 & H1 & I1) (E2 & H2 & I2). exists (E1 ++ E2). split; [eapply travels_trans; eauto|].
  rewrite news_app, <- I1, <- I2. split; [apply app_eq_nil|]. intros (-> & ->). reflexivity.
Qed.
Lemma moves_to s s' t cs : moves s s' t cs -> at_ s' cs.
Proof. intros (E & H & _). apply H. Qed.
Lemma moves_from s s' t cs : moves s s' t cs -> at_ s (t ++ cs).
Proof. intros (E & H & _). apply H. Qed.

(** ** nextch *)
Lemma nextch_tok s : s_tok (nextch src s) = s_tok s.
Proof.
  unfold nextch. destruct (skipn (s_rd s) src) as [|b r]; [reflexivity|].
  destruct (b2z b =? 0).
  { match goal with |- context [s_error ?o ?m ?x] => destruct (s_error_fields o m x) as (_ & _ & _ & E & _) end. cbn [s_tok set_ch]. now rewrite E. }
  destruct (0x80 <=? b2z b); [|reflexivity]. destruct (decode_rune _) as [c w]. cbn [s_tok set_ch].
  destruct ((c =? RuneError) && (w =? 1)%nat).
  { match goal with |- context [s_error ?o ?m ?x] => destruct (s_error_fields o m x) as (_ & _ & _ & E & _) end. now rewrite E. }
  destruct ((c =? bom) && (0 <? s_rd s)%nat); [|reflexivity].
  match goal with |- context [s_error ?o ?m ?x] => destruct (s_error_fields o m x) as (_ & _ & _ & E & _) end. now rewrite E.
Qed.

Ltac bad := let E := fresh in intros E; cbn [andb] in E; cbv beta iota zeta in E; discriminate E.

(** nextch from any state whose rdOffset is in place. *)
Lemma nextch_gen s o : s_rd s = o -> (o <= length src)%nat -> let s' := nextch src s in
  let cs := chars (skipn o src) in
  at_ s' cs /\ s_off s' = o /\ s_pos s' = s_pos s /\
  exists E, s_errs s' = s_errs s ++ E /\ bounded E /\
    (E = [] <-> match cs with [] => True | c :: _ => fst c <> 0 /\ ~ (fst c = RuneError /\ length (snd c) = 1%nat) /\ (fst c <> bom \/ o = O) end).
Proof.
  intros Hrd Ho s' cs. subst cs. assert (Es' : s' = nextch src s) by reflexivity. clearbody s'. unfold nextch in Es'. rewrite Hrd in Es'.
  destruct (skipn o src) as [|b r] eqn:Es.
  - assert (Hl : length src = o). { apply (f_equal (@length byte)) in Es. rewrite skipn_length in Es. cbn in Es. lia. }
    subst s'. split; [|split; [cbn; lia|split; [reflexivity|]]].
    + constructor; cbn; [lia|rewrite Hl, Es; reflexivity|reflexivity|lia].
    + exists []. cbn. rewrite app_nil_r. split; [reflexivity|]. split; [constructor|tauto].
  - assert (Hne : skipn o src <> []) by (rewrite Es; discriminate).
    pose proof (decode_rune_fits _ Hne) as W.
    assert (Hw : length (firstn (snd (decode_rune (skipn o src))) (skipn o src)) = snd (decode_rune (skipn o src))) by (rewrite firstn_length; lia).
    assert (Hcs : chars (skipn o src) = (fst (decode_rune (skipn o src)), firstn (snd (decode_rune (skipn o src))) (skipn o src)) :: chars (skipn (snd (decode_rune (skipn o src))) (skipn o src))) by now apply chars_cons.
    rewrite <- Es. rewrite Hcs. cbn [fst snd]. rewrite Hw. clear W.
    set (lines := if s_ch s =? 10 then add_line (length src) o (s_lines s) else s_lines s) in Es'.
    set (s1 := set_ch s (s_ch s) o o lines) in Es'.
    assert (HAT : forall x r w, s_off x = o -> decode_rune (skipn o src) = (r, w) -> s_ch x = r -> s_rd x = (o + w)%nat ->
      at_ x ((fst (decode_rune (skipn o src)), firstn (snd (decode_rune (skipn o src))) (skipn o src)) :: chars (skipn (snd (decode_rune (skipn o src))) (skipn o src)))).
    { intros x r0 w E1 E2 E3 E4. rewrite <- Hcs. constructor; rewrite ?E1; auto; rewrite Hcs; cbn [hd_code hd_width fst snd].
      - now rewrite E2.
      - rewrite Hw, E2. exact E4. }
    assert (HF : forall x m, set_ch x m o = set_ch x m o) by reflexivity. clear HF.
    destruct (Z.eqb_spec (b2z b) 0) as [E0|N0].
    + assert (ED : decode_rune (skipn o src) = (0, 1%nat)). { rewrite Es. cbn. rewrite E0. reflexivity. }
      destruct (s_error_fields o (lit "illegal character NUL") s1) as (_ & _ & _ & _ & F5 & _ & e & F6 & F7).
      subst s'. split; [apply (HAT _ 0 1%nat); cbn; auto|]. split; [reflexivity|]. split; [exact F5|].
      exists [e]. split; [exact F6|]. split; [constructor; [lia|constructor]|]. rewrite ED. cbn. split; [discriminate|tauto].
    + destruct (Z.leb_spec 0x80 (b2z b)) as [L|L].
      * subst s'. change (s_rd s1) with o. rewrite Es. rewrite <- Es. destruct (decode_rune (skipn o src)) as [c w] eqn:ED. cbn [fst snd] in *.
        assert (Hc0 : c <> 0).
        { rewrite Es in ED. unfold decode_rune in ED. rewrite (proj2 (Z.ltb_ge _ _) L) in ED. pose proof (b2z_range b) as R. unfold is_u8 in R.
          intros ->. revert ED. clear - L R. unfold cont_in, RuneError.
          destruct (Z.leb_spec 0xC2 (b2z b)); cbn [andb].
          2:{ destruct (Z.leb_spec 0xE0 (b2z b)); [lia|]. destruct (Z.leb_spec 0xF0 (b2z b)); [lia|]. cbn. bad. }
          destruct (Z.leb_spec (b2z b) 0xDF).
          { destruct r as [|b1 r]; [bad|]. destruct (Z.leb_spec 0x80 (b2z b1)), (Z.leb_spec (b2z b1) 0xBF); cbn [andb]; intros E; injection E; intros; lia. }
          destruct (Z.leb_spec 0xE0 (b2z b)); [|lia]. destruct (Z.leb_spec (b2z b) 0xEF); cbn [andb].
          { destruct r as [|b1 [|b2 r]]; [bad|bad|].
            destruct (Z.eqb_spec (b2z b) 0xE0), (Z.eqb_spec (b2z b) 0xED); try lia;
            match goal with |- context [?a <=? b2z b1] => destruct (Z.leb_spec a (b2z b1)) end; cbn [andb]; try bad;
            match goal with |- context [b2z b1 <=? ?a] => destruct (Z.leb_spec (b2z b1) a) end; cbn [andb]; try bad;
            destruct (Z.leb_spec 0x80 (b2z b2)), (Z.leb_spec (b2z b2) 0xBF); cbn [andb]; intros E; injection E; intros; lia. }
          destruct (Z.leb_spec 0xF0 (b2z b)); [|bad]. destruct (Z.leb_spec (b2z b) 0xF4); cbn [andb]; [|bad].
          destruct r as [|b1 [|b2 [|b3 r]]]; [bad|bad|bad|].
          destruct (Z.eqb_spec (b2z b) 0xF0), (Z.eqb_spec (b2z b) 0xF4); try lia;
          match goal with |- context [?a <=? b2z b1] => destruct (Z.leb_spec a (b2z b1)) end; cbn [andb]; try bad;
          match goal with |- context [b2z b1 <=? ?a] => destruct (Z.leb_spec (b2z b1) a) end; cbn [andb]; try bad;
          destruct (Z.leb_spec 0x80 (b2z b2)), (Z.leb_spec (b2z b2) 0xBF); cbn [andb]; try bad;
          destruct (Z.leb_spec 0x80 (b2z b3)), (Z.leb_spec (b2z b3) 0xBF); cbn [andb]; intros E; injection E; intros; lia. }
        split; [apply (HAT _ c w); cbn; auto|]. split; [reflexivity|].
        destruct ((c =? RuneError) && (w =? 1)%nat) eqn:EB.
        { apply andb_true_iff in EB. destruct EB as (EB1 & EB2). apply Z.eqb_eq in EB1. apply Nat.eqb_eq in EB2.
          destruct (s_error_fields o (lit "illegal UTF-8 encoding") s1) as (_ & _ & _ & _ & F5 & _ & e & F6 & F7).
          split; [exact F5|]. exists [e]. split; [exact F6|]. split; [constructor; [lia|constructor]|]. split; [discriminate|tauto]. }
        assert (NB : ~ (c = RuneError /\ w = 1%nat)).
        { intros (X1 & X2). subst. now rewrite Z.eqb_refl in EB. }
        destruct ((c =? bom) && (0 <? o)%nat) eqn:EC.
        { apply andb_true_iff in EC. destruct EC as (EB1 & EB2). apply Z.eqb_eq in EB1. apply Nat.ltb_lt in EB2.
          destruct (s_error_fields o (lit "illegal byte order mark") s1) as (_ & _ & _ & _ & F5 & _ & e & F6 & F7).
          split; [exact F5|]. exists [e]. split; [exact F6|]. split; [constructor; [lia|constructor]|]. split; [discriminate|]. intros (_ & _ & [X|X]); [tauto|lia]. }
        split; [reflexivity|]. exists []. cbn [s_errs set_ch s1]. rewrite app_nil_r. split; [reflexivity|]. split; [constructor|]. split; [intros _|reflexivity].
        split; [exact Hc0|]. split; [exact NB|]. apply andb_false_iff in EC. destruct EC as [EC|EC]; [left; now apply Z.eqb_neq|right; apply Nat.ltb_ge in EC; lia].
      * assert (ED : decode_rune (skipn o src) = (b2z b, 1%nat)). { rewrite Es. cbn. rewrite (proj2 (Z.ltb_lt _ _) L). reflexivity. }
        subst s'. split; [apply (HAT _ (b2z b) 1%nat); cbn; auto|]. split; [reflexivity|]. split; [reflexivity|].
        exists []. cbn [s_errs set_ch s1]. rewrite app_nil_r. split; [reflexivity|]. split; [constructor|]. split; [intros _|reflexivity]. rewrite ED. cbn [fst snd].
        pose proof (b2z_range b) as R. unfold is_u8 in R. unfold RuneError, bom. repeat split; lia.
Qed.

Lemma moves_nextch s c cs : at_ s (c :: cs) -> moves s (nextch src s) [c] cs.
Proof.
  intros H. destruct (at_nonneg _ _ _ H) as (Hc & Hb). pose proof (at_length _ _ H) as L. pose proof (at_off _ _ H) as Ho.
  change (text (c :: cs)) with (snd c ++ text cs) in L. rewrite app_length in L.
  pose proof (at_rd _ _ H) as Hrd. cbn [hd_width] in Hrd.
  destruct (nextch_gen s (s_off s + length (snd c))%nat Hrd ltac:(lia)) as (A & O & P & E & HE & HB & HI).
  assert (HC : chars (skipn (s_off s + length (snd c)) src) = cs).
  { rewrite <- skipn_skipn'. pose proof (chars_suffix (skipn (s_off s) src) [c] cs (at_chars _ _ H)) as X. cbn [text map concat] in X. unfold text in X. cbn in X. now rewrite app_nil_r in X. }
  rewrite HC in *. exists E. split.
  - constructor; auto. rewrite O. f_equal. unfold text. cbn. now rewrite app_nil_r.
  - rewrite HI. unfold news. cbn [app tl]. destruct cs as [|d cs]; cbn [firstn]; [split; [constructor|auto]|].
    assert (length (snd c) <> 0)%nat by (destruct (snd c); [congruence|discriminate]).
    unfold ok_char. change byte_order_mark with bom. split.
    + intros (X1 & X2 & [X3|X3]); [|lia]. constructor; [auto|constructor].
    + intros X. inversion_clear X as [|? ? Y _]. destruct Y as (Y1 & Y2 & Y3). auto.
Qed.
Lemma travels_nextch s c cs : at_ s (c :: cs) -> exists E, travels s (nextch src s) [c] cs E.
Proof. intros H. destruct (moves_nextch s c cs H) as (E & T & _). eauto. Qed.
Lemma nextch_eof s : at_ s [] -> travels s (nextch src s) [] [] [].
Proof.
  intros H. pose proof (proj1 (at_eof _ _ H) eq_refl) as E. pose proof (at_rd _ _ H) as Hrd. cbn in Hrd. rewrite Nat.add_0_r in Hrd.
  destruct (nextch_gen s (s_off s) Hrd ltac:(lia)) as (A & O & P & E' & HE & HB & HI).
  rewrite (at_chars _ _ H) in *. rewrite (proj2 HI I) in *. constructor; auto. cbn. lia.
Qed.

(** ** Loops *)
Lemma scan_while_spec cond : cond eof = false -> forall n s cs, at_ s cs -> (length cs < n)%nat ->
  exists s' t cs', scan_while src n cond s = Some s' /\ cs = t ++ cs' /\ moves s s' t cs' /\
    Forall (fun c => cond (fst c) = true) t /\ cond (hd_code cs') = false /\ s_tok s' = s_tok s.
Proof.
  intros He. induction n as [|n IH]; intros s cs H L; [lia|]. cbn [scan_while]. rewrite (at_ch _ _ H).
  destruct (cond (hd_code cs)) eqn:E.
  - destruct cs as [|c cs]; [cbn in E; congruence|]. cbn [hd_code] in E.
    pose proof (moves_nextch _ _ _ H) as M. destruct (IH _ cs (moves_to _ _ _ _ M) ltac:(cbn in L; lia)) as (s' & t & cs' & R & -> & M' & F & C & T).
    exists s', (c :: t), cs'. split; [exact R|]. split; [reflexivity|]. split; [exact (moves_trans _ _ _ [c] t cs' M M')|]. split; [now constructor|]. split; [exact C|].
    rewrite T. apply nextch_tok.
  - exists s, [], cs. split; [reflexivity|]. split; [reflexivity|]. split; [now apply moves_refl|]. split; [constructor|auto].
Qed.

(** ** What one token function achieves *)
Definition no_token (cs : list char) : Prop :=
  forall k t r, cs = t ++ r -> lexeme u k t -> stops u t r -> False.

Definition result (s s' : sstate) (cs : list char) : Prop :=
  exists t cs' E, cs = t ++ cs' /\ t <> [] /\ travels s s' t cs' E /\
    ((lexeme u (s_tok s') t /\ stops u t cs' /\ (E = [] <-> Forall ok_char (news t cs'))) \/ (E <> [] /\ no_token cs)) /\
    (s_tok s' = K_EOF -> s_tok s = K_EOF).

Lemma lexeme_not_eof k t : lexeme u k t -> k <> K_EOF.
Proof.
  intros H. destruct H as [k c r ? ? W|k t N|t ?|t ?|t ?|k t I].
  - destruct W as [(x & I & _)|(_ & ->)]; [|discriminate]. cbn in I. intros ->. repeat destruct I as [I|I]; try discriminate I; contradiction.
  - destruct N; discriminate.
  - discriminate.
  - discriminate.
  - discriminate.
  - cbn in I. intros ->. repeat destruct I as [I|I]; try discriminate I; contradiction.
Qed.
Lemma result_ok s s' t cs' : t <> [] -> moves s s' t cs' -> lexeme u (s_tok s') t -> stops u t cs' -> result s s' (t ++ cs').
Proof.
  intros Hn (E & T & I) L S. exists t, cs', E. split; [reflexivity|]. split; [exact Hn|]. split; [exact T|]. split; [left; auto|].
  intros K. exfalso. now apply (lexeme_not_eof _ _ L).
Qed.

(** *** Words *)
Definition word_start_spec c : Prop := isLetter c = true \/ 0x80 <= c /\ (is_letter u c = true \/ c = 95).

Lemma is_letter_ascii c : c < 128 -> is_letter u c = (in_range 65 90 c || in_range 97 122 c).
Proof. intros H. unfold is_letter. now rewrite (proj2 (Z.ltb_lt _ _) H). Qed.
Lemma is_digit_ascii c : c < 128 -> is_digit u c = in_range 48 57 c.
Proof. intros H. unfold is_digit. now rewrite (proj2 (Z.ltb_lt _ _) H). Qed.
Lemma isLetter_starts c : isLetter c = true -> starts_word u c.
Proof.
  rewrite isLetter_spec. intros H. unfold starts_word. destruct H as [H|[H|H]]; [left|left|now right]; rewrite is_letter_ascii by lia; unfold in_range.
  - rewrite (proj2 (Z.leb_le 65 c)), (proj2 (Z.leb_le c 90)) by lia. reflexivity.
  - rewrite (proj2 (Z.leb_le 97 c)), (proj2 (Z.leb_le c 122)) by lia. apply orb_true_r.
Qed.
Lemma starts_isLetter c : starts_word u c -> c < 128 -> isLetter c = true.
Proof. intros H L. apply isLetter_spec. apply starts_word_ascii in H; [lia|exact L]. Qed.
Definition cond1 (c : Z) : bool := isLetter c || isDecimal c || (c =? 46).
Definition cond2 (c : Z) : bool := is_letter u c || (c =? 95) || (is_digit u c || (c =? 46)).
Lemma cond2_spec c : cond2 c = true <-> in_word u c.
Proof. unfold cond2, in_word. rewrite !orb_true_iff, !Z.eqb_eq. tauto. Qed.
Lemma cond1_spec c : c < 128 -> cond1 c = cond2 c.
Proof.
  intros L. apply eq_true_iff_eq. rewrite cond2_spec. unfold cond1, in_word. rewrite !orb_true_iff, Z.eqb_eq. rewrite is_digit_ascii by exact L.
  change (in_range 48 57 c) with (isDecimal c).
  split.
  - intros [[H|H]|H]; [|tauto|tauto]. apply isLetter_starts in H. destruct H; tauto.
  - intros [H|[H|[H|H]]]; [| |tauto|tauto]; left; left; (apply starts_isLetter; [|exact L]); [now left|now right].
Qed.
Lemma cond1_word c : cond1 c = true -> in_word u c.
Proof.
  intros H. destruct (Z.lt_ge_cases c 128) as [L|L]; [apply cond2_spec; now rewrite <- cond1_spec|].
  unfold cond1 in H. rewrite !orb_true_iff, Z.eqb_eq, isLetter_spec, isDecimal_dec, dec_spec in H. unfold decimal in H. lia.
Qed.

Lemma bytes_eqb_true a b : bytes_eqb a b = true <-> a = b.
Proof.
  revert b. induction a as [|x a IH]; intros [|y b]; cbn; try (split; [discriminate|discriminate]); [tauto|].
  rewrite andb_true_iff, Z.eqb_eq, IH. split.
  - intros (E & ->). f_equal. apply (f_equal z2b) in E. now rewrite !z2b_b2z in E.
  - intros E. injection E as -> ->. auto.
Qed.

Lemma keywords_some w k : keywords w = Some k -> exists x, In (x, k) reserved /\ w = lit x.
Proof.
  intros H. unfold keywords in H. apply find_some in H. destruct H as (I & E). apply bytes_eqb_true in E. subst w.
  assert (G : forallb (fun k => existsb (fun '(x, k') => (k =? k') && bytes_eqb (token_string k) (lit x)) reserved) keyword_kinds = true) by (vm_compute; reflexivity).
  rewrite forallb_forall in G. specialize (G k I). rewrite existsb_exists in G. destruct G as ([x k'] & Ix & Ex).
  apply andb_true_iff in Ex. destruct Ex as (E1 & E2). apply Z.eqb_eq in E1. apply bytes_eqb_true in E2. subst k'. eauto.
Qed.
Lemma keywords_none w : keywords w = None -> forall x k, In (x, k) reserved -> w <> lit x.
Proof.
  intros H x k I ->. unfold keywords in H.
  assert (G : forallb (fun '(x, k) => existsb (fun k' => bytes_eqb (token_string k') (lit x)) keyword_kinds) reserved = true) by (vm_compute; reflexivity).
  rewrite forallb_forall in G. specialize (G (x, k) I). cbn beta iota in G. rewrite existsb_exists in G. destruct G as (k' & I' & E).
  pose proof (find_none _ _ H k' I') as N. cbn beta in N. congruence.
Qed.
Lemma reserved_long x k : In (x, k) reserved -> (2 < length (lit x))%nat.
Proof.
  assert (G : forallb (fun '(x, k) => (2 <? length (lit x))%nat) reserved = true) by (vm_compute; reflexivity).
  rewrite forallb_forall in G. intros I. specialize (G (x, k) I). cbn beta iota in G. now apply Nat.ltb_lt.
Qed.
Lemma word_kind_scan w : word_kind w (if (2 <? length w)%nat then match keywords w with Some k => k | None => K_IDENT end else K_IDENT).
Proof.
  destruct (Nat.ltb_spec 2 (length w)) as [L|L].
  - destruct (keywords w) as [k|] eqn:E; [left; now apply keywords_some|right]. split; [now apply keywords_none|reflexivity].
  - right. split; [|reflexivity]. intros x k I ->. apply reserved_long in I. lia.
Qed.

(** The token text is what lit returns. *)
Lemma lit_text s0 s' t cs' E : travels s0 s' t cs' E -> s_pos s0 = s_off s0 -> s_lit src s' = text t.
Proof.
  intros T Hp. unfold s_lit. rewrite (tr_pos _ _ _ _ _ T), (tr_off _ _ _ _ _ T), Hp.
  replace (s_off s0 + length (text t) - s_off s0)%nat with (length (text t)) by lia.
  assert (X : skipn (s_off s0) src = text t ++ text cs').
  { rewrite <- text_app, <- (at_chars _ _ (tr_from _ _ _ _ _ T)). symmetry. apply text_chars. }
  rewrite X. rewrite firstn_app, firstn_all, Nat.sub_diag. apply app_nil_r.
Qed.

Lemma lexeme_head k c r : lexeme u k (c :: r) -> exists cl, in_class u k (c :: r) cl /\ first_of u cl (fst c).
Proof.
  intros H. apply lexeme_class in H. destruct H as (cl & H). destruct (class_first _ _ _ _ H) as (c' & r' & E & F). injection E as <- <-. eauto.
Qed.

Lemma word_stops c t cs' : starts_word u (fst c) -> cond2 (hd_code cs') = false -> stops u (c :: t) cs'.
Proof.
  intros Hc Hn d r ->. cbn [hd_code] in Hn. split.
  - intros k' L. cbn [app] in L. destruct (lexeme_head _ _ _ L) as (cl & H & F).
    destruct (class_overlap u (fst c) CWord cl Hc F) as [<-|[(_ & I & _)|(_ & I & _)]]; [|cbn in I; intuition discriminate|cbn in I; intuition discriminate].
    destruct H as (c0 & r0 & E & _ & HF & _). injection E as <- <-. rewrite codes_app in HF. apply Forall_app in HF. destruct HF as (_ & HF).
    inversion_clear HF as [|? ? H1 _]. apply cond2_spec in H1. congruence.
  - intros (E & _). cbn in E. injection E as E _. apply starts_word_codes in Hc. lia.
Qed.

(** The word scanned after a first character. *)
Lemma ident_run s0 c cs : at_ s0 (c :: cs) -> s_pos s0 = s_off s0 ->
  exists s' t cs', s_ident u src (nextch src s0) = Some s' /\ cs = t ++ cs' /\ moves s0 s' (c :: t) cs' /\
    Forall (in_word u) (codes t) /\ cond2 (hd_code cs') = false /\ word_kind (text (c :: t)) (s_tok s').
Proof.
  intros H Hp. pose proof (moves_nextch _ _ _ H) as M0. pose proof (moves_to _ _ _ _ M0) as A0. unfold s_ident.
  destruct (scan_while_spec cond1 eq_refl (fuel src) _ cs A0 (at_fuel _ _ A0)) as (s1 & t1 & cs1 & R1 & -> & M1 & F1 & C1 & _).
  fold cond1. rewrite R1. pose proof (moves_to _ _ _ _ M1) as A1. rewrite (at_ch _ _ A1).
  assert (exists s2 t2 cs2, (if 0x80 <=? hd_code cs1 then scan_while src (fuel src) cond2 s1 else Some s1) = Some s2 /\ cs1 = t2 ++ cs2 /\
    moves s1 s2 t2 cs2 /\ Forall (fun c => cond2 (fst c) = true) t2 /\ cond2 (hd_code cs2) = false) as (s2 & t2 & cs2 & R2 & -> & M2 & F2 & C2).
  { destruct (Z.leb_spec 0x80 (hd_code cs1)) as [L|L].
    - destruct (scan_while_spec cond2 eq_refl (fuel src) _ cs1 A1 (at_fuel _ _ A1)) as (s2 & t2 & cs2 & R2 & E2 & M2 & F2 & C2 & _).
      exists s2, t2, cs2. auto.
    - exists s1, [], cs1. split; [reflexivity|]. split; [reflexivity|]. split; [now apply moves_refl|]. split; [constructor|]. rewrite <- cond1_spec; [exact C1|lia]. }
  fold cond2. rewrite R2. eexists _, (t1 ++ t2), cs2. split; [reflexivity|]. split; [now rewrite <- app_assoc|].
  assert (M : moves s0 s2 (c :: t1 ++ t2) cs2).
  { pose proof (moves_trans _ _ _ _ _ _ M1 M2) as M'. change (c :: t1 ++ t2) with ([c] ++ (t1 ++ t2)). eapply moves_trans; [|exact M']. now rewrite <- app_assoc. }
  split; [now apply moves_tok|]. split.
  { unfold codes. rewrite map_app. apply Forall_app. split; apply Forall_map.
    + eapply Forall_impl; [|exact F1]. intros a Ha. now apply cond1_word.
    + eapply Forall_impl; [|exact F2]. intros a Ha. now apply cond2_spec. }
  split; [exact C2|]. destruct M as (E & T & _). cbn [s_tok set_tok]. rewrite (lit_text _ _ _ _ _ T Hp). apply word_kind_scan.
Qed.

Lemma word_result s0 c cs : at_ s0 (c :: cs) -> s_pos s0 = s_off s0 -> starts_word u (fst c) ->
  exists s', s_ident u src (nextch src s0) = Some s' /\ result s0 s' (c :: cs).
Proof.
  intros H Hp Hc. destruct (ident_run s0 c cs H Hp) as (s' & t & cs' & R & -> & M & F & C & W). exists s'. split; [exact R|].
  apply (result_ok s0 s' (c :: t) cs'); [discriminate|exact M|now apply lx_word|now apply word_stops].
Qed.

(** A digit outside ASCII: reported, then scanned as a word. *)
Lemma digit_result s0 c cs m : at_ s0 (c :: cs) -> s_pos s0 = s_off s0 -> no_token (c :: cs) ->
  exists s', s_ident u src (nextch src (s_error (s_off s0) m s0)) = Some s' /\ result s0 s' (c :: cs).
Proof.
  intros H Hp N. destruct (travels_error s0 _ m H) as (e & TE & _). destruct (s_error_fields (s_off s0) m s0) as (_ & F2 & _ & _ & F5 & _).
  destruct (ident_run (s_error (s_off s0) m s0) c cs (tr_to _ _ _ _ _ TE) ltac:(congruence)) as (s' & t & cs' & R & -> & (E & T & _) & F & C & W).
  exists s'. split; [exact R|]. exists (c :: t), cs', ([e] ++ E). split; [reflexivity|]. split; [discriminate|].
  split; [exact (travels_trans _ _ _ [] (c :: t) cs' _ _ TE T)|]. split; [right; split; [discriminate|exact N]|].
  intros K. exfalso. destruct W as [(x & I & _)|(_ & W)]; [|rewrite K in W; discriminate W]. rewrite K in I. cbn in I. repeat destruct I as [I|I]; try discriminate I; contradiction.
Qed.

(** *** Numbers *)
Lemma nrun_dec_loop st t : In st [NInt; NPoint; NExpDigits] -> Forall (fun c : char => isDecimal (fst c) = true) t -> nrun st (codes t) = Some st.
Proof. intros Hst F. apply nrun_digits; [|exact Hst]. apply Forall_map. eapply Forall_impl; [|exact F]. intros a Ha. now apply dec_spec. Qed.

Lemma exponent_spec k s cs st : at_ s cs -> In (k, st) [(K_INT, NZero); (K_INT, NInt); (K_FLOAT, NPoint)] ->
  isDecimal (hd_code cs) = false -> (k = K_INT -> hd_code cs <> 46) -> (st = NZero -> (lower (hd_code cs) =? 120) = false) ->
  exists s' t cs' st', s_exponent src k s = Some s' /\ cs = t ++ cs' /\ moves s s' t cs' /\
    nrun st (codes t) = Some st' /\ nkind st' = Some (s_tok s') /\ nstep st' (hd_code cs') = None.
Proof.
  intros A Hk Hd Hp Hx. unfold s_exponent. rewrite (at_ch _ _ A), lower_e. destruct (eE (hd_code cs)) eqn:Ee.
  - destruct cs as [|c cs]; [discriminate|]. cbn [hd_code] in *.
    assert (S0 : nstep st (fst c) = Some NExp).
    { rewrite isDecimal_dec in Hd. assert (fst c <> 46) by (intros X; rewrite X in Ee; discriminate).
      cbn in Hk. destruct Hk as [E|[E|[E|[]]]]; injection E as <- <-; cbn [nstep]; rewrite Hd, Ee; rewrite ?(proj2 (Z.eqb_neq _ 46)) by assumption; try reflexivity.
      specialize (Hx eq_refl). rewrite lower_x in Hx. now rewrite Hx. }
    pose proof (moves_nextch _ _ _ A) as M0. pose proof (moves_to _ _ _ _ M0) as A0. rewrite (at_ch _ _ A0).
    assert (exists s1 t1 cs1 st1, (if (hd_code cs =? 43) || (hd_code cs =? 45) then nextch src (nextch src s) else nextch src s) = s1 /\ cs = t1 ++ cs1 /\
      moves (nextch src s) s1 t1 cs1 /\ nrun NExp (codes t1) = Some st1 /\ (st1 = NExpSign \/ st1 = NExp /\ sgn (hd_code cs1) = false))
      as (s1 & t1 & cs1 & st1 & -> & -> & M1 & R1 & Hst1).
    { destruct ((hd_code cs =? 43) || (hd_code cs =? 45)) eqn:Es.
      - destruct cs as [|d cs]; [discriminate|]. exists (nextch src (nextch src s)), [d], cs, NExpSign. split; [reflexivity|]. split; [reflexivity|].
        split; [now apply moves_nextch|]. split; [|auto]. cbn [codes map nrun nstep]. unfold sgn. cbn [hd_code] in Es. now rewrite Es.
      - exists (nextch src s), [], cs, NExp. split; [reflexivity|]. split; [reflexivity|]. split; [now apply moves_refl|]. split; [reflexivity|]. right. auto. }
    pose proof (moves_to _ _ _ _ M1) as A1.
    destruct (scan_while_spec isDecimal eq_refl (fuel src) _ cs1 A1 (at_fuel _ _ A1)) as (s2 & t2 & cs2 & R2 & -> & M2 & F2 & C2 & _).
    rewrite R2. cbn [option_map].
    assert (exists st2, nrun st1 (codes t2) = Some st2 /\ nkind st2 = Some K_FLOAT /\ nstep st2 (hd_code cs2) = None) as (st2 & N1 & N2 & N3).
    { destruct t2 as [|d t2].
      - exists st1. split; [reflexivity|]. cbn [app] in Hst1. destruct Hst1 as [->|[-> Hs]]; (split; [reflexivity|]); cbn [nstep]; rewrite ?Hs; rewrite isDecimal_dec in C2; now rewrite C2.
      - exists NExpDigits. inversion_clear F2 as [|? ? D1 D2]. rewrite isDecimal_dec in D1, C2. split; [|split; [reflexivity|cbn [nstep]; now rewrite C2]].
        cbn [codes map nrun]. assert (nstep st1 (fst d) = Some NExpDigits) as ->; [|now apply nrun_dec_loop; [cbn; auto|]].
        assert (sgn (fst d) = false). { destruct (sgn (fst d)) eqn:Y; [|reflexivity]. apply sgn_spec in Y. apply dec_spec in D1. unfold decimal in D1. lia. }
        destruct Hst1 as [->|[-> Hs]]; cbn [nstep]; rewrite ?H; now rewrite D1. }
    exists (set_tok K_FLOAT s2), (c :: t1 ++ t2), cs2, st2. split; [reflexivity|]. split; [cbn; now rewrite <- app_assoc|]. split.
    + apply moves_tok. pose proof (moves_trans _ _ _ _ _ _ M1 M2) as M'. change (c :: t1 ++ t2) with ([c] ++ (t1 ++ t2)). eapply moves_trans; [|exact M']. now rewrite <- app_assoc.
    + split; [|split; [exact N2|exact N3]]. cbn [codes map nrun]. rewrite S0. fold (codes (t1 ++ t2)). rewrite codes_app, nrun_app, R1. exact N1.
  - exists (set_tok k s), [], cs, st. split; [reflexivity|]. split; [reflexivity|]. split; [now apply moves_tok, moves_refl|]. split; [reflexivity|].
    rewrite isDecimal_dec in Hd. cbn [s_tok set_tok].
    cbn in Hk. destruct Hk as [E|[E|[E|[]]]]; injection E as <- <-; (split; [reflexivity|]); cbn [nstep]; rewrite Hd, Ee; try reflexivity.
    + specialize (Hx eq_refl). rewrite lower_x in Hx. rewrite Hx, (proj2 (Z.eqb_neq _ 46)); auto.
    + rewrite (proj2 (Z.eqb_neq _ 46)); auto.
Qed.

Lemma decimal_spec s cs st : at_ s cs -> In st [NZero; NInt] -> (st = NZero -> (lower (hd_code cs) =? 120) = false) ->
  exists s' t cs' st', s_decimal src s = Some s' /\ cs = t ++ cs' /\ moves s s' t cs' /\
    nrun st (codes t) = Some st' /\ nkind st' = Some (s_tok s') /\ nstep st' (hd_code cs') = None.
Proof.
  intros A Hst Hx. unfold s_decimal.
  destruct (scan_while_spec isDecimal eq_refl (fuel src) _ cs A (at_fuel _ _ A)) as (s1 & t1 & cs1 & R1 & -> & M1 & F1 & C1 & _). rewrite R1.
  pose proof (moves_to _ _ _ _ M1) as A1. rewrite (at_ch _ _ A1).
  assert (exists st1, nrun st (codes t1) = Some st1 /\ (st1 = NInt \/ st1 = NZero /\ (lower (hd_code cs1) =? 120) = false)) as (st1 & N1 & Hst1).
  { destruct t1 as [|d t1].
    - exists st. split; [reflexivity|]. cbn in Hst. destruct Hst as [<-|[<-|[]]]; [right|left]; auto.
    - exists NInt. split; [|auto]. inversion_clear F1 as [|? ? D1 D2]. rewrite isDecimal_dec in D1. cbn [codes map nrun].
      assert (nstep st (fst d) = Some NInt) as -> by (cbn in Hst; destruct Hst as [<-|[<-|[]]]; cbn [nstep]; now rewrite D1).
      apply nrun_dec_loop; [cbn; auto|exact D2]. }
  destruct (Z.eqb_spec (hd_code cs1) 46) as [E|E].
  - destruct cs1 as [|p cs1]; [discriminate|]. cbn [hd_code] in E. pose proof (moves_nextch _ _ _ A1) as M2. pose proof (moves_to _ _ _ _ M2) as A2.
    destruct (scan_while_spec isDecimal eq_refl (fuel src) _ cs1 A2 (at_fuel _ _ A2)) as (s3 & t3 & cs3 & R3 & -> & M3 & F3 & C3 & _). rewrite R3.
    pose proof (moves_to _ _ _ _ M3) as A3.
    destruct (exponent_spec K_FLOAT s3 cs3 NPoint A3 ltac:(cbn; auto) C3 ltac:(discriminate) ltac:(discriminate)) as (s4 & t4 & cs4 & st4 & R4 & -> & M4 & N4 & K4 & S4).
    exists s4, (t1 ++ p :: t3 ++ t4), cs4, st4. split; [exact R4|]. split; [rewrite <- app_assoc; cbn; now rewrite <- app_assoc|]. split.
    + eapply moves_trans; [|change (p :: t3 ++ t4) with ([p] ++ t3 ++ t4); eapply moves_trans; [|eapply moves_trans; [exact M3|exact M4]]].
      * cbn [app]. rewrite <- app_assoc. exact M1.
      * rewrite <- app_assoc. exact M2.
    + split; [|split; [exact K4|exact S4]]. rewrite codes_app, nrun_app, N1. cbn [codes map nrun]. rewrite E.
      assert (nstep st1 46 = Some NPoint) as -> by (destruct Hst1 as [->|[-> _]]; reflexivity).
      fold (codes (t3 ++ t4)). rewrite codes_app, nrun_app, (nrun_dec_loop NPoint) by (cbn; auto). exact N4.
  - destruct (exponent_spec K_INT s1 cs1 st1 A1) as (s4 & t4 & cs4 & st4 & R4 & -> & M4 & N4 & K4 & S4); auto.
    + cbn. destruct Hst1 as [->|[-> _]]; auto.
    + intros ->. destruct Hst1 as [X|[_ X]]; [discriminate|exact X].
    + exists s4, (t1 ++ t4), cs4, st4. split; [exact R4|]. split; [now rewrite <- app_assoc|]. split; [eapply moves_trans; eauto|].
      split; [|auto]. now rewrite codes_app, nrun_app, N1.
Qed.

Lemma number_spec s cs : at_ s cs -> isDecimal (hd_code cs) = true ->
  exists s' c t cs' st', s_number src s = Some s' /\ cs = (c :: t) ++ cs' /\ moves s s' (c :: t) cs' /\
    nrun NStart (codes (c :: t)) = Some st' /\ nrun NSigned (codes (c :: t)) = Some st' /\ nkind st' = Some (s_tok s') /\ nstep st' (hd_code cs') = None.
Proof.
  intros A Hd. destruct cs as [|c cs]; [discriminate|]. cbn [hd_code] in Hd. unfold s_number. rewrite (at_ch _ _ A). cbn [hd_code].
  assert (Hs : sgn (fst c) = false). { destruct (sgn (fst c)) eqn:Y; [|reflexivity]. apply sgn_spec in Y. rewrite isDecimal_dec in Hd. apply dec_spec in Hd. unfold decimal in Hd. lia. }
  rewrite isDecimal_dec in Hd.
  destruct (Z.eqb_spec (fst c) 48) as [E|E].
  - pose proof (moves_nextch _ _ _ A) as M0. pose proof (moves_to _ _ _ _ M0) as A0. rewrite (at_ch _ _ A0).
    destruct (lower (hd_code cs) =? 120) eqn:Ex.
    + destruct cs as [|x cs]; [discriminate|]. pose proof (moves_nextch _ _ _ A0) as M1. pose proof (moves_to _ _ _ _ M1) as A1.
      destruct (scan_while_spec isHex eq_refl (fuel src) _ cs A1 (at_fuel _ _ A1)) as (s2 & t2 & cs2 & R2 & -> & M2 & F2 & C2 & _). rewrite R2.
      exists (set_tok K_INT s2), c, (x :: t2), cs2, NHex. split; [reflexivity|]. split; [reflexivity|]. split.
      * apply moves_tok. change (c :: x :: t2) with ([c] ++ [x] ++ t2). eapply moves_trans; [exact M0|]. eapply moves_trans; [exact M1|exact M2].
      * cbn [hd_code] in Ex. rewrite lower_x in Ex.
        assert (X : nrun NZero (codes (x :: t2)) = Some NHex).
        { cbn [codes map nrun nstep]. assert (dec (fst x) = false) as ->.
          { destruct (dec (fst x)) eqn:Y; [|reflexivity]. apply dec_spec in Y. unfold decimal in Y. apply orb_true_iff in Ex. rewrite !Z.eqb_eq in Ex. lia. }
          rewrite Ex. clear - F2. induction F2 as [|h l Hh _ IH]; [reflexivity|]. cbn [map nrun nstep]. rewrite isHex_hexb in Hh. now rewrite Hh. }
        cbn [codes map] in X |- *. cbn [nrun nstep] in X |- *. rewrite E. cbn [sgn Z.eqb Pos.eqb orb]. split; [exact X|]. split; [exact X|]. split; [reflexivity|].
        rewrite isHex_hexb in C2. now rewrite C2.
    + destruct (decimal_spec _ cs NZero A0 ltac:(cbn; auto) (fun _ => Ex)) as (s' & t & cs' & st & R & -> & M & N & K & S).
      exists s', c, t, cs', st. split; [exact R|]. split; [reflexivity|]. split; [exact (moves_trans _ _ _ [c] t cs' M0 M)|].
      cbn [codes map nrun nstep] in *. rewrite E. cbn [sgn Z.eqb Pos.eqb orb]. auto.
  - (* the digit loop consumes the first digit too *)
    unfold s_decimal.
    destruct (decimal_spec s (c :: cs) NInt A ltac:(cbn; auto) ltac:(discriminate)) as (s' & t & cs' & st & R & Et & M & N & K & S).
    unfold s_decimal in R. rewrite R.
    destruct t as [|c' t].
    { exfalso. cbn [app] in Et. subst cs'. cbn [codes map nrun] in N. injection N as <-. cbn [nstep hd_code] in S. rewrite Hd in S. discriminate. }
    injection Et as <- ->. exists s', c, t, cs', st. split; [reflexivity|]. split; [reflexivity|]. split; [exact M|].
    cbn [codes map nrun nstep] in *. rewrite Hs, (proj2 (Z.eqb_neq _ _) E), Hd in *. auto.
Qed.

Lemma number_stops t cs' st : nrun NStart (codes t) = Some st -> nkind st <> None -> nstep st (hd_code cs') = None -> stops u t cs'.
Proof.
  intros R K S d r ->. cbn [hd_code] in S. destruct (nkind st) as [k|] eqn:Ek; [|congruence]. pose proof (run_number _ _ _ R Ek) as N.
  assert (L : lexeme u k t) by now apply lx_number.
  destruct (number_head _ _ N) as (x & y & Ex & Hx). destruct t as [|c t]; [discriminate|]. cbn [codes map] in Ex. injection Ex as Ex Ey.
  split.
  - intros k' L'. cbn [app] in L'. destruct (lexeme_head _ _ _ L') as (cl & H & F).
    assert (FN : first_of u CNumber (fst c)) by (cbn; rewrite Ex; tauto).
    assert (NN : forall k', number k' (codes (c :: t ++ [d])) -> False).
    { intros k2 N2. apply number_run in N2. destruct N2 as (st2 & R2 & _). change (c :: t ++ [d]) with ((c :: t) ++ [d]) in R2.
      rewrite codes_app, nrun_app, R in R2. cbn [codes map nrun] in R2. rewrite S in R2. discriminate. }
    destruct (class_overlap u (fst c) CNumber cl FN F) as [<-|[(_ & _ & I)|(_ & I & _)]]; [now apply (NN k')| |cbn in I; intuition discriminate].
    cbn in I. destruct I as [<-|[<-|[]]]; [now apply (NN k')|]. cbn [in_class] in H.
    destruct (punctuation_codes u _ _ H) as [(p & E & _)|E]; cbn in E; injection E as E1 E2.
    + apply (f_equal (@length Z)) in E2. rewrite map_length, app_length in E2. cbn in E2. lia.
    + unfold decimal in Hx. lia.
  - intros (E & _). cbn in E. injection E as E _. unfold decimal in Hx. lia.
Qed.

Lemma number_result s0 cs : at_ s0 cs -> isDecimal (hd_code cs) = true ->
  exists s', s_number src s0 = Some s' /\ result s0 s' cs.
Proof.
  intros A Hd. destruct (number_spec s0 cs A Hd) as (s' & c & t & cs' & st & R & -> & M & N & _ & K & S). exists s'. split; [exact R|].
  apply result_ok; [discriminate|exact M|apply lx_number; eapply run_number; eauto|]. eapply number_stops; eauto. congruence.
Qed.

Lemma signed_result s0 c cs k : at_ s0 (c :: cs) -> (fst c = 43 /\ k = K_ADD \/ fst c = 45 /\ k = K_SUB) ->
  exists s', (if isDecimal (s_ch (nextch src s0)) then s_number src (nextch src s0) else Some (set_tok k (nextch src s0))) = Some s' /\ result s0 s' (c :: cs).
Proof.
  intros A Hc. pose proof (moves_nextch _ _ _ A) as M0. pose proof (moves_to _ _ _ _ M0) as A0. rewrite (at_ch _ _ A0).
  destruct (isDecimal (hd_code cs)) eqn:Hd.
  - destruct (number_spec _ cs A0 Hd) as (s' & d & t & cs' & st & R & -> & M & _ & N & K & S). exists s'. split; [exact R|].
    change (c :: (d :: t) ++ cs') with ((c :: d :: t) ++ cs').
    assert (N' : nrun NStart (codes (c :: d :: t)) = Some st).
    { cbn [codes map] in N |- *. cbn [nrun] in N |- *. assert (nstep NStart (fst c) = Some NSigned) as ->; [|exact N]. cbn [nstep]. destruct Hc as [(-> & _)|(-> & _)]; reflexivity. }
    apply result_ok; [discriminate|exact (moves_trans _ _ _ [c] (d :: t) cs' M0 M)|apply lx_number; eapply run_number; eauto|]. eapply number_stops; eauto. congruence.
  - eexists. split; [reflexivity|]. apply (result_ok s0 _ [c] cs); [discriminate|now apply moves_tok| |].
    + apply lx_punct. cbn. destruct Hc as [(-> & ->)|(-> & ->)]; auto.
    + intros d r ->. cbn [hd_code] in Hd. split.
      * intros k' L'. cbn [app] in L'. destruct (lexeme_head _ _ _ L') as (cl & H & F).
        assert (FN : first_of u CNumber (fst c)) by (cbn; tauto).
        destruct (class_overlap u (fst c) CNumber cl FN F) as [<-|[(_ & _ & I)|(_ & I & _)]]; [| |cbn in I; intuition discriminate].
        { cbn [in_class codes map] in H. destruct (number_head _ _ H) as (x & y & Ex & [D|(_ & d' & y' & -> & D)]); injection Ex as <- E2; [unfold decimal in D; lia|].
          subst d'. apply dec_spec in D. rewrite isDecimal_dec in Hd. congruence. }
        cbn in I. destruct I as [<-|[<-|[]]]; cbn [in_class codes map] in H.
        { destruct (number_head _ _ H) as (x & y & Ex & [D|(_ & d' & y' & -> & D)]); injection Ex as <- E2; [unfold decimal in D; lia|].
          subst d'. apply dec_spec in D. rewrite isDecimal_dec in Hd. congruence. }
        destruct (punctuation_codes u _ _ H) as [(p & E & _)|E]; [discriminate|]. injection E as E1 E2. lia.
      * intros (E & _). cbn in E. injection E as E. lia.
Qed.

(** *** Strings *)
Lemma string_loop_spec q : q = 34 \/ q = 39 -> forall n s cs, at_ s cs -> (length cs < n)%nat ->
  exists s' t cs', s_string_loop src n q s = Some s' /\ cs = t ++ cs' /\
    ((exists b, moves s s' t cs' /\ string_body q b /\ codes t = b ++ [q] /\ s_tok s' = K_STRING) \/
     (exists E, travels s s' t cs' E /\ E <> [] /\ (forall b r, string_body q b -> codes cs <> b ++ q :: r) /\ (s_tok s' = K_STRING \/ s_tok s' = s_tok s))).
Proof.
  intros Hq. induction n as [|n IH]; intros s cs A L; [lia|]. cbn [s_string_loop]. rewrite (at_ch _ _ A).
  destruct (Z.eqb_spec (hd_code cs) q) as [E|E].
  { destruct cs as [|c cs]; [cbn in E; unfold eof in E; lia|]. cbn [hd_code] in E.
    exists (set_tok K_STRING (nextch src s)), [c], cs. split; [reflexivity|]. split; [reflexivity|]. left. exists []. split; [now apply moves_tok, moves_nextch|].
    split; [constructor|]. split; [cbn; congruence|reflexivity]. }
  destruct (Z.eqb_spec (hd_code cs) 92) as [E1|E1].
  { destruct cs as [|c cs]; [discriminate|]. cbn [hd_code] in E1. pose proof (moves_nextch _ _ _ A) as M0. pose proof (moves_to _ _ _ _ M0) as A0.
    unfold s_escape. rewrite (at_ch _ _ A0).
    destruct ((hd_code cs =? q) || (hd_code cs =? 92) || (hd_code cs =? 110) || (hd_code cs =? 114) || (hd_code cs =? 116)) eqn:Ee.
    - rewrite !orb_true_iff, !Z.eqb_eq in Ee. destruct cs as [|e cs]; [cbn in Ee; unfold eof in Ee; lia|]. cbn [hd_code] in Ee.
      pose proof (moves_nextch _ _ _ A0) as M1. pose proof (moves_to _ _ _ _ M1) as A1.
      destruct (IH _ cs A1 ltac:(cbn in L; lia)) as (s' & t & cs' & R & -> & X). exists s', (c :: e :: t), cs'. split; [exact R|]. split; [reflexivity|].
      pose proof (moves_trans _ _ _ [c] [e] (t ++ cs') M0 M1) as M01.
      assert (He : In (fst e) [q; 92; 110; 114; 116]) by (cbn; intuition congruence).
      destruct X as [(b & M & B & C & T)|(Er & Tr & Ne & Nb & T)].
      + left. exists (92 :: fst e :: b). split; [exact (moves_trans _ _ _ ([c] ++ [e]) t cs' M01 M)|]. split; [now apply sb_escape|].
        split; [cbn [codes map app]; change (map fst t) with (codes t); congruence|exact T].
      + right. destruct M01 as (E01 & T01 & _). exists (E01 ++ Er). split; [exact (travels_trans _ _ _ ([c] ++ [e]) t cs' _ _ T01 Tr)|].
        split; [intros Z0; apply app_eq_nil in Z0; tauto|]. split.
        * intros b r B Eb. cbn [codes map] in Eb. destruct B as [|x l X1 X2 X3 X4|x l X1 X2]; cbn [app] in Eb; [injection Eb; intros; lia|injection Eb; intros; lia|].
          injection Eb as Eb1 Eb2 Eb. now apply (Nb l r).
        * rewrite !nextch_tok in T. exact T.
    - assert (Hb : forall b r, string_body q b -> codes (c :: cs) <> b ++ q :: r).
      { intros b r B Eb. cbn [codes map] in Eb. destruct B as [|x l X1 X2 X3 X4|x l X1 X2]; cbn [app] in Eb; [injection Eb; intros; lia|injection Eb; intros; lia|].
        destruct cs as [|e cs]; [discriminate|]. cbn in Eb. injection Eb as Eb1 Eb2 Eb. cbn [hd_code] in Ee. rewrite !orb_false_iff, !Z.eqb_neq in Ee.
        cbn in X1. intuition congruence. }
      destruct (Z.ltb_spec (hd_code cs) 0) as [Ln|Ln].
      + apply (hd_eof _ _ A0) in Ln. subst cs. destruct n as [|n]; [cbn in L; lia|].
        cbn [s_string_loop]. rewrite (at_ch _ _ A0). cbn [hd_code]. unfold eof at 1. rewrite (proj2 (Z.eqb_neq _ q)) by lia. cbn [Z.eqb eof Z.ltb Z.compare].
        destruct (travels_error _ _ (lit "string not terminated") A0) as (e & TE & _).
        eexists _, [c], []. split; [reflexivity|]. split; [reflexivity|]. right. destruct M0 as (E0 & T0 & _). exists (E0 ++ [e]).
        split; [|split; [intros Z0; apply app_eq_nil in Z0; destruct Z0; discriminate|split; [exact Hb|now left]]].
        apply travels_tok. exact (travels_trans _ _ _ [c] [] [] _ _ T0 TE).
      + destruct (s_error_fields (s_off (nextch src s)) (lit "unknown escape") (nextch src s)) as (_ & _ & _ & F4 & _).
        destruct (travels_error _ _ (lit "unknown escape") A0) as (e & TE & _).
        eexists _, [c], cs. split; [reflexivity|]. split; [reflexivity|]. right. destruct M0 as (E0 & T0 & _). exists (E0 ++ [e]).
        split; [|split; [intros Z0; apply app_eq_nil in Z0; destruct Z0; discriminate|split; [exact Hb|right; rewrite F4; apply nextch_tok]]].
        exact (travels_trans _ _ _ [c] [] cs _ _ T0 TE). }
  destruct (Z.eqb_spec (hd_code cs) 10) as [E2|E2].
  { destruct (s_error_fields (s_off s) (lit "newline in string") s) as (_ & _ & _ & F4 & _).
    destruct (travels_error s cs (lit "newline in string") A) as (e & TE & _).
    eexists _, [], cs. split; [reflexivity|]. split; [reflexivity|]. right. exists [e]. split; [exact TE|split; [discriminate|split; [|now right]]].
    - intros b r B Eb. destruct cs as [|c cs]; [discriminate|]. cbn [hd_code] in *. cbn [codes map] in Eb.
      destruct B as [|x l X1 X2 X3 X4|x l X1 X2]; cbn [app] in Eb; injection Eb; intros; lia. }
  destruct (Z.ltb_spec (hd_code cs) 0) as [Ln|Ln].
  { apply (hd_eof _ _ A) in Ln. subst cs.
    destruct (travels_error s [] (lit "string not terminated") A) as (e & TE & _).
    eexists _, [], []. split; [reflexivity|]. split; [reflexivity|]. right. exists [e]. split; [now apply travels_tok|split; [discriminate|split; [|now left]]].
    - intros b r B Eb. destruct b; discriminate. }
  destruct cs as [|c cs]; [cbn in Ln; unfold eof in Ln; lia|]. cbn [hd_code] in *.
  pose proof (moves_nextch _ _ _ A) as M0. pose proof (moves_to _ _ _ _ M0) as A0.
  destruct (IH _ cs A0 ltac:(cbn in L; lia)) as (s' & t & cs' & R & -> & X). exists s', (c :: t), cs'. split; [exact R|]. split; [reflexivity|].
  destruct X as [(b & M & B & C & T)|(Er & Tr & Ne & Nb & T)].
  - left. exists (fst c :: b). split; [exact (moves_trans _ _ _ [c] t cs' M0 M)|]. split; [now apply sb_char|]. split; [cbn [codes map app]; f_equal; exact C|exact T].
  - right. destruct M0 as (E0 & T0 & _). exists (E0 ++ Er). split; [exact (travels_trans _ _ _ [c] t cs' _ _ T0 Tr)|].
    split; [intros Z0; apply app_eq_nil in Z0; tauto|]. split.
    + intros b r B Eb. cbn [codes map] in Eb. destruct B as [|x l X1 X2 X3 X4|x l X1 X2]; cbn [app] in Eb; [injection Eb; intros; lia| |injection Eb; intros; lia]. injection Eb as Eb1 Eb. now apply (Nb l r).
    + rewrite nextch_tok in T. exact T.
Qed.

Lemma string_result s0 c cs : at_ s0 (c :: cs) -> fst c = 34 \/ fst c = 39 ->
  exists s', s_string src s0 = Some s' /\ result s0 s' (c :: cs).
Proof.
  intros A Hc. unfold s_string. rewrite (at_ch _ _ A). cbn [hd_code]. pose proof (moves_nextch _ _ _ A) as M0. pose proof (moves_to _ _ _ _ M0) as A0.
  destruct (string_loop_spec (fst c) Hc (S (fuel src)) _ cs A0 ltac:(pose proof (at_fuel _ _ A0); lia)) as (s' & t & cs' & R & -> & X).
  exists s'. split; [exact R|].
  assert (FS : first_of u CString (fst c)) by exact Hc.
  assert (OV : forall k r cl, in_class u k (c :: r) cl -> first_of u cl (fst c) -> cl = CString).
  { intros k r cl _ F. destruct (class_overlap u (fst c) CString cl FS F) as [E|[(_ & I & _)|(_ & I & _)]]; [auto|cbn in I; intuition discriminate|cbn in I; intuition discriminate]. }
  destruct X as [(b & M & B & C & T)|(Er & Tr & Ne & Nb & T)].
  - assert (ST : string_text (codes (c :: t))). { exists (fst c), b. split; [exact Hc|]. split; [exact B|]. cbn [codes map]. f_equal. exact C. }
    change (c :: t ++ cs') with ((c :: t) ++ cs'). apply result_ok.
    + discriminate.
    + exact (moves_trans _ _ _ [c] t cs' M0 M).
    + rewrite T. now apply lx_string.
    + intros d r ->. split.
      * intros k' L'. cbn [app] in L'. destruct (lexeme_head _ _ _ L') as (cl & H & F). rewrite (OV _ _ _ H F) in H. destruct H as (_ & H).
        change (c :: t ++ [d]) with ((c :: t) ++ [d]) in H. rewrite codes_app in H. exact (string_no_longer _ _ _ ST H).
      * intros (E & _). cbn in E. injection E as E _. lia.
  - destruct M0 as (E0 & T0 & _). exists (c :: t), cs', (E0 ++ Er). split; [reflexivity|]. split; [discriminate|].
    split; [exact (travels_trans _ _ _ [c] t cs' _ _ T0 Tr)|]. split.
    + right. split; [intros Z0; apply app_eq_nil in Z0; tauto|]. intros k t' r E L' _.
      destruct t' as [|c' t']; [now apply (lexeme_nonempty u _ _ L')|]. cbn [app] in E. injection E as <- E.
      destruct (lexeme_head _ _ _ L') as (cl & H & F). rewrite (OV _ _ _ H F) in H. destruct H as (_ & q & b & Hq & B & E'). cbn [codes map] in E'. injection E' as <- E'.
      apply (Nb b (codes r) B). rewrite E, codes_app. change (map fst t') with (codes t') in E'. rewrite E', <- app_assoc. reflexivity.
    + rewrite nextch_tok in T. destruct T as [T|T]; rewrite T; [discriminate|auto].
Qed.

(** *** Comments *)
Lemma line_result s0 pre cs s1 : moves s0 s1 pre cs -> (codes pre = [35] \/ codes pre = [47; 47]) ->
  exists s', s_line_comment src s1 = Some s' /\ result s0 s' (pre ++ cs).
Proof.
  intros M Hp. pose proof (moves_to _ _ _ _ M) as A. unfold s_line_comment.
  destruct (scan_while_spec (fun c => (0 <=? c) && negb (c =? 10)) eq_refl (fuel src) _ cs (at_tok _ _ K_COMMENT A) (at_fuel _ _ A)) as (s2 & t & cs' & R & -> & M2 & F & C & T).
  rewrite R. exists s2. split; [reflexivity|]. rewrite app_assoc.
  assert (M3 : moves s0 s2 (pre ++ t) cs'). { eapply moves_trans; [exact M|]. now apply moves_tok_l in M2. }
  assert (LC : forall l, line_comment (codes pre ++ l) <-> ~ In 10 l).
  { intros l. split.
    - intros (l' & N & E). destruct Hp as [Hp|Hp]; rewrite Hp in E; destruct E as [E|E]; try discriminate E; injection E as <-; exact N.
    - intros N. exists l. split; [exact N|]. destruct Hp as [->| ->]; auto. }
  apply result_ok.
  - destruct pre; [destruct Hp; discriminate|discriminate].
  - exact M3.
  - rewrite T. apply lx_line. rewrite codes_app. apply LC. intros I. apply in_map_iff in I. destruct I as (c & E & I).
    rewrite Forall_forall in F. apply F in I. rewrite E in I. discriminate.
  - intros d r ->. cbn [hd_code] in C.
    assert (fst d = 10) as Hd.
    { destruct (at_nonneg _ _ _ (moves_to _ _ _ _ M3)) as (N & _). rewrite (proj2 (Z.leb_le _ _) N) in C. cbn in C. apply negb_false_iff in C. now apply Z.eqb_eq. }
    destruct pre as [|c pre]; [destruct Hp; discriminate|].
    assert (Hc : fst c = 35 \/ fst c = 47) by (destruct Hp as [E|E]; cbn in E; injection E as E _; auto).
    split.
    + intros k' L'. destruct (lexeme_head _ _ _ L') as (cl & H0 & F').
      assert (H : in_class u k' ((c :: pre) ++ t ++ [d]) cl) by (rewrite app_assoc; exact H0). clear H0.
      assert (FL : first_of u CLine (fst c)) by exact Hc.
      assert (X : cl = CLine -> False).
      { intros ->. destruct H as (_ & H). rewrite codes_app in H. apply LC in H. apply H. rewrite codes_app. apply in_or_app. right. left. exact Hd. }
      destruct (class_overlap u (fst c) CLine cl FL F') as [E|[(_ & I & _)|(E & _ & I)]]; [auto|cbn in I; intuition discriminate|].
      assert (Hp' : codes (c :: pre) = [47; 47]). { destruct Hp as [E'|E']; [|exact E']. cbn in E'. injection E' as E' _. lia. }
      cbn in I. destruct I as [I|[<-|[<-|[]]]]; [auto| |]; cbn [in_class] in H.
      * destruct H as (_ & b & H & _). rewrite codes_app, Hp' in H. discriminate.
      * destruct (punctuation_codes u _ _ H) as [(p & E' & _)|E']; rewrite codes_app, Hp' in E'; discriminate.
    + intros (E & E'). lia.
Qed.

(** The first */ *)
Definition first_end (l b r : list Z) : Prop :=
  l = b ++ 42 :: 47 :: r /\ forall x y, b ++ [42; 47] = x ++ 42 :: 47 :: y -> y = [].
Definition no_end (l : list Z) : Prop := forall x y, l <> x ++ 42 :: 47 :: y.

Lemma first_end_cons c l b r : first_end l b r -> (c <> 42 \/ hd eof l <> 47) -> first_end (c :: l) (c :: b) r.
Proof.
  intros (-> & F) H. split; [reflexivity|]. intros x y E. destruct x as [|x0 x]; cbn [app] in E.
  - injection E as -> E. destruct H as [H|H]; [congruence|]. destruct b as [|b0 b]; cbn [app hd] in *; [discriminate|]. injection E as -> E. congruence.
  - injection E as -> E. eapply F; eauto.
Qed.
Lemma no_end_cons c l : no_end l -> (c <> 42 \/ hd eof l <> 47) -> no_end (c :: l).
Proof.
  intros N H x y E. destruct x as [|x0 x]; cbn [app] in E; [|injection E as _ E; now apply N in E].
  injection E as -> ->. cbn in H. destruct H; congruence.
Qed.
Lemma hd_codes cs : hd eof (codes cs) = hd_code cs.
Proof. destruct cs; reflexivity. Qed.

Lemma stars_spec : forall n s cs, at_ s cs -> (length cs < n)%nat ->
  exists bo s' t cs', s_stars src n s = Some (bo, s') /\ cs = t ++ cs' /\ moves s s' t cs' /\ s_tok s' = s_tok s /\
    (if bo then exists b, codes t = b ++ [42; 47] /\ first_end (codes cs) b (codes cs')
     else hd_code cs' <> 42 /\ (forall b r, first_end (codes cs') b r -> first_end (codes cs) (codes t ++ b) r) /\ (no_end (codes cs') -> no_end (codes cs)) /\
          (t <> [] -> hd_code cs' <> 47)).
Proof.
  induction n as [|n IH]; intros s cs A L; [lia|]. cbn [s_stars]. rewrite (at_ch _ _ A). destruct (Z.eqb_spec (hd_code cs) 42) as [E|E].
  - destruct cs as [|c cs]; [discriminate|]. cbn [hd_code] in E. pose proof (moves_nextch _ _ _ A) as M0. pose proof (moves_to _ _ _ _ M0) as A0.
    rewrite (at_ch _ _ A0). destruct (Z.eqb_spec (hd_code cs) 47) as [E1|E1].
    + destruct cs as [|d cs]; [discriminate|]. cbn [hd_code] in E1. pose proof (moves_nextch _ _ _ A0) as M1.
      exists true, (nextch src (nextch src s)), [c; d], cs. split; [reflexivity|]. split; [reflexivity|]. split; [exact (moves_trans _ _ _ [c] [d] cs M0 M1)|].
      split; [now rewrite !nextch_tok|]. exists []. split; [cbn; congruence|]. split; [cbn [codes map app]; rewrite E, E1; reflexivity|].
      intros x y Ex. destruct x as [|x0 [|x1 x]]; cbn [app] in Ex; [now injection Ex as <-|injection Ex; intros; discriminate|]. injection Ex as _ _ Ex. now destruct x.
    + destruct (IH _ cs A0 ltac:(cbn in L; lia)) as (bo & s' & t & cs' & R & -> & M & T & X). exists bo, s', (c :: t), cs'. split; [exact R|]. split; [reflexivity|].
      split; [exact (moves_trans _ _ _ [c] t cs' M0 M)|]. split; [rewrite T; apply nextch_tok|]. rewrite <- hd_codes in E1.
      destruct bo.
      * destruct X as (b & C & F). exists (fst c :: b). split; [cbn [codes map app]; f_equal; exact C|]. cbn [codes map app]. apply first_end_cons; [exact F|now right].
      * destruct X as (X1 & X2 & X3 & X4). split; [exact X1|]. split; [|split].
        { intros b r F. cbn [codes map app]. apply first_end_cons; [now apply X2|now right]. }
        { intros N. cbn [codes map]. apply no_end_cons; [now apply X3|now right]. }
        { intros _. destruct t as [|d t]; [cbn [app] in E1; now rewrite hd_codes in E1|]. apply X4. discriminate. }
  - exists false, s, [], cs. split; [reflexivity|]. split; [reflexivity|]. split; [now apply moves_refl|]. split; [reflexivity|]. split; [exact E|].
    split; [auto|]. split; [auto|]. congruence.
Qed.

Lemma full_loop_spec : forall n s cs, at_ s cs -> (length cs < n)%nat ->
  exists s' t cs', s_full_loop src n s = Some s' /\ cs = t ++ cs' /\ s_tok s' = s_tok s /\
    ((exists b, moves s s' t cs' /\ codes t = b ++ [42; 47] /\ first_end (codes cs) b (codes cs')) \/
     (exists E, travels s s' t cs' E /\ E <> [] /\ no_end (codes cs))).
Proof.
  induction n as [|n IH]; intros s cs A L; [lia|]. cbn [s_full_loop]. rewrite (at_ch _ _ A). destruct (Z.leb_spec 0 (hd_code cs)) as [L0|L0].
  - destruct (stars_spec (fuel src) s cs A (at_fuel _ _ A)) as (bo & s1 & t1 & cs1 & R1 & -> & M1 & T1 & X). rewrite R1. destruct bo.
    + destruct X as (b & C & F). exists s1, t1, cs1. split; [reflexivity|]. split; [reflexivity|]. split; [exact T1|]. left. eauto.
    + destruct X as (X1 & X2 & X3 & X4). pose proof (moves_to _ _ _ _ M1) as A1. destruct cs1 as [|c cs1].
      * (* end of input *)
        pose proof (nextch_eof _ A1) as T2. pose proof (tr_to _ _ _ _ _ T2) as A2.
        assert (NE : no_end []) by (intros x y E; destruct x; discriminate).
        assert (exists s', s_full_loop src n (nextch src s1) = Some s' /\ s' = s_error (s_off (nextch src s1)) (lit "comment not terminated") (nextch src s1)) as (s' & R & Es').
        { destruct n as [|n]; cbn [s_full_loop]; rewrite (at_ch _ _ A2); cbn [hd_code]; (eexists; split; reflexivity). }
        rewrite R. destruct (s_error_fields (s_off (nextch src s1)) (lit "comment not terminated") (nextch src s1)) as (_ & _ & _ & F4 & _).
        destruct (travels_error _ _ (lit "comment not terminated") A2) as (e & TE & _).
        exists s', t1, []. split; [reflexivity|]. split; [reflexivity|]. split; [rewrite Es', F4, nextch_tok; exact T1|]. right.
        destruct M1 as (E1 & Tr1 & _). exists (E1 ++ [e]). split; [|split; [intros Z0; apply app_eq_nil in Z0; destruct Z0; discriminate|now apply X3]].
        subst s'. replace t1 with (t1 ++ []) by apply app_nil_r. eapply travels_trans; [rewrite app_nil_r; exact Tr1|].
        exact (travels_trans _ _ _ [] [] [] _ _ T2 TE).
      * pose proof (moves_nextch _ _ _ A1) as M2. pose proof (moves_to _ _ _ _ M2) as A2. cbn [hd_code] in X1.
        assert (Ln : (length cs1 < n)%nat). { rewrite app_length in L. cbn in L. lia. }
        destruct (IH _ cs1 A2 Ln) as (s' & t & cs' & R & -> & T & Y). rewrite R. exists s', (t1 ++ c :: t), cs'. split; [reflexivity|].
        split; [now rewrite <- app_assoc|]. split; [rewrite T, nextch_tok; exact T1|].
        pose proof (moves_trans _ _ _ t1 [c] (t ++ cs') M1 M2) as M12. replace (t1 ++ c :: t) with ((t1 ++ [c]) ++ t) by now rewrite <- app_assoc.
        destruct Y as [(b & M & C & F)|(E & Tr & Ne & Nn)].
        { left. exists (codes t1 ++ fst c :: b). split; [eapply moves_trans; eauto|]. split.
          - rewrite !codes_app, C, <- !app_assoc. reflexivity.
          - apply X2. cbn [codes map app]. apply first_end_cons; [exact F|now left]. }
        { right. destruct M12 as (E12 & T12 & _). exists (E12 ++ E). split; [eapply travels_trans; eauto|]. split; [intros Z0; apply app_eq_nil in Z0; tauto|].
          apply X3. cbn [codes map]. apply no_end_cons; [exact Nn|now left]. }
  - apply (hd_eof _ _ A) in L0. subst cs.
    destruct (s_error_fields (s_off s) (lit "comment not terminated") s) as (_ & _ & _ & F4 & _).
    destruct (travels_error _ _ (lit "comment not terminated") A) as (e & TE & _).
    eexists _, [], []. split; [reflexivity|]. split; [reflexivity|]. split; [exact F4|]. right. exists [e]. split; [exact TE|split; [discriminate|]].
    + intros x y E. destruct x; discriminate.
Qed.

Lemma full_result s0 a d cs s1 : moves s0 s1 [a; d] cs -> fst a = 47 -> fst d = 42 ->
  exists s', s_full_comment src s1 = Some s' /\ result s0 s' (a :: d :: cs).
Proof.
  intros M Ha Hd. pose proof (moves_to _ _ _ _ M) as A. unfold s_full_comment.
  destruct (full_loop_spec (fuel src) _ cs (at_tok _ _ K_COMMENT A) (at_fuel _ _ A)) as (s2 & t & cs' & R & -> & T & X).
  rewrite R. exists s2. split; [reflexivity|]. cbn [s_tok set_tok] in T.
  assert (OV : forall k r, lexeme u k (a :: d :: r) -> full_comment (codes (a :: d :: r))).
  { intros k r L'. destruct (lexeme_head _ _ _ L') as (cl & H & F).
    assert (FF : first_of u CFull (fst a)) by exact Ha.
    destruct (class_overlap u (fst a) CFull cl FF F) as [E|[(_ & I & _)|(_ & _ & I)]]; [|cbn in I; intuition discriminate|].
    - subst cl. apply H.
    - cbn in I. destruct I as [<-|[<-|[<-|[]]]]; cbn [in_class] in H.
      + destruct H as (_ & l & _ & [E|E]); cbn in E; injection E as E1 E2; lia.
      + apply H.
      + destruct (punctuation_codes u _ _ H) as [(p & E & _)|E]; cbn in E; [discriminate|]. injection E as E1 E2. lia. }
  destruct X as [(b & M2 & C & F)|(E & Tr & Ne & Nn)].
  - change (a :: d :: t ++ cs') with ((a :: d :: t) ++ cs').
    assert (FC : full_comment (codes (a :: d :: t))).
    { exists b. split; [cbn [codes map]; rewrite Ha, Hd; do 2 f_equal; exact C|apply F]. }
    apply result_ok.
    + discriminate.
    + apply moves_tok_l in M2. exact (moves_trans _ _ _ [a; d] t cs' M M2).
    + rewrite T. now apply lx_full.
    + intros x r ->. split.
      * intros k' L'. cbn [app] in L'. apply OV in L'. change (a :: d :: t ++ [x]) with ((a :: d :: t) ++ [x]) in L'. rewrite codes_app in L'.
        exact (full_no_longer _ _ _ FC L').
      * intros (E & _). discriminate.
  - destruct M as (E0 & T0 & _). exists (a :: d :: t), cs', (E0 ++ E). split; [reflexivity|]. split; [discriminate|].
    split; [|split].
    + apply (travels_trans _ s1 _ [a; d] t cs'); [exact T0|]. destruct Tr as [[? ? ? ?] ? ? ? ? ?]. constructor; auto.
    + right. split; [intros Z0; apply app_eq_nil in Z0; tauto|]. intros k t' r Et L' St.
      destruct t' as [|c' t']; [now apply (lexeme_nonempty u _ _ L')|]. cbn [app] in Et. injection Et as <- Et.
      destruct t' as [|d' t'].
      * (* a slash alone *) cbn [app] in Et. subst r. destruct (St d (t ++ cs') eq_refl) as (_ & S2). apply S2. cbn. split; [now rewrite Ha|exact Hd].
      * cbn [app] in Et. injection Et as <- Et. apply OV in L'. destruct L' as (b & E' & _). cbn [codes map] in E'. injection E' as _ _ E'.
        apply (Nn b (codes r)). rewrite Et, codes_app. change (map fst t') with (codes t') in E'. rewrite E', <- app_assoc. reflexivity.
    + rewrite T. discriminate.
Qed.

(** *** Punctuation *)
Lemma single_punct c k : single c = Some k -> In (k, [c]) punctuation /\ c <> 43 /\ c <> 45 /\ c <> 47 /\ c <> 61.
Proof.
  unfold single. intros H.
  repeat match type of H with (if ?a =? ?b then _ else _) = _ => destruct (Z.eqb_spec a b) as [->|]; [injection H as <-; cbn; split; [tauto|lia]|] end.
  discriminate.
Qed.

Lemma single_result s0 c cs k : at_ s0 (c :: cs) -> single (fst c) = Some k -> result s0 (set_tok k (nextch src s0)) (c :: cs).
Proof.
  intros A H. apply single_punct in H. destruct H as (I & N). apply (result_ok s0 _ [c] cs); [discriminate|now apply moves_tok, moves_nextch|now apply lx_punct|].
  intros d r ->. split; [|intros (E & _); cbn in E; injection E as E; lia].
  intros k' L'. cbn [app] in L'. destruct (lexeme_head _ _ _ L') as (cl & H & F).
  assert (FP : first_of u CPunct (fst c)).
  { destruct (class_first u k [c] CPunct I) as (c' & r' & E & F'). injection E as <- <-. exact F'. }
  destruct (class_overlap u (fst c) CPunct cl FP F) as [<-|[(E & _)|(E & _)]]; [|lia|lia].
  cbn [in_class] in H. destruct (punctuation_codes u _ _ H) as [(p & E & _)|E]; cbn in E; [discriminate|]. injection E as E1 E2. lia.
Qed.

Lemma equal_result s0 c cs : at_ s0 (c :: cs) -> fst c = 61 ->
  result s0 (if s_ch (nextch src s0) =? 61 then set_tok K_EQL (nextch src (nextch src s0)) else set_tok K_ASSIGN (nextch src s0)) (c :: cs).
Proof.
  intros A Hc. pose proof (moves_nextch _ _ _ A) as M0. pose proof (moves_to _ _ _ _ M0) as A0. rewrite (at_ch _ _ A0).
  assert (FP : first_of u CPunct (fst c)).
  { rewrite Hc. cbn. split; [lia|]. split; [intros W; apply starts_word_ascii in W; lia|]. unfold decimal. lia. }
  assert (OV : forall k r, lexeme u k (c :: r) -> r = [] \/ codes (c :: r) = [61; 61]).
  { intros k r L'. destruct (lexeme_head _ _ _ L') as (cl & H & F).
    destruct (class_overlap u (fst c) CPunct cl FP F) as [<-|[(E & _)|(E & _)]]; [|lia|lia].
    cbn [in_class] in H. destruct (punctuation_codes u _ _ H) as [(p & E & _)|E]; [left|right; exact E]. cbn in E. injection E as _ E. now destruct r. }
  destruct (Z.eqb_spec (hd_code cs) 61) as [E|E].
  - destruct cs as [|d cs]; [discriminate|]. cbn [hd_code] in E. pose proof (moves_nextch _ _ _ A0) as M1.
    apply (result_ok s0 _ [c; d] cs); [discriminate|apply moves_tok; exact (moves_trans _ _ _ [c] [d] cs M0 M1)| |].
    + apply lx_punct. cbn [codes map]. rewrite Hc, E. cbn. tauto.
    + intros x r ->. split; [|intros (X & _); discriminate]. intros k' L'. cbn [app] in L'. apply OV in L'. destruct L' as [L'|L']; discriminate.
  - apply (result_ok s0 _ [c] cs); [discriminate|now apply moves_tok| |].
    + apply lx_punct. cbn [codes map]. rewrite Hc. cbn. tauto.
    + intros x r ->. cbn [hd_code] in E. split; [|intros (X & _); cbn in X; injection X as X; lia]. intros k' L'. cbn [app] in L'. apply OV in L'.
      destruct L' as [L'|L']; [discriminate|]. cbn in L'. injection L' as _ L'. lia.
Qed.

Lemma slash_result s0 c cs : at_ s0 (c :: cs) -> fst c = 47 ->
  exists s', (if s_ch (nextch src s0) =? 47 then s_line_comment src (nextch src (nextch src s0))
              else if s_ch (nextch src s0) =? 42 then s_full_comment src (nextch src (nextch src s0))
              else Some (set_tok K_QUO (nextch src s0))) = Some s' /\ result s0 s' (c :: cs).
Proof.
  intros A Hc. pose proof (moves_nextch _ _ _ A) as M0. pose proof (moves_to _ _ _ _ M0) as A0. rewrite (at_ch _ _ A0).
  destruct (Z.eqb_spec (hd_code cs) 47) as [E|E].
  { destruct cs as [|d cs]; [discriminate|]. cbn [hd_code] in E. pose proof (moves_nextch _ _ _ A0) as M1.
    apply (line_result s0 [c; d] cs); [exact (moves_trans _ _ _ [c] [d] cs M0 M1)|]. right. cbn. congruence. }
  destruct (Z.eqb_spec (hd_code cs) 42) as [E1|E1].
  { destruct cs as [|d cs]; [discriminate|]. cbn [hd_code] in E1. pose proof (moves_nextch _ _ _ A0) as M1.
    apply (full_result s0 c d cs); [exact (moves_trans _ _ _ [c] [d] cs M0 M1)|exact Hc|exact E1]. }
  eexists. split; [reflexivity|]. apply (result_ok s0 _ [c] cs); [discriminate|now apply moves_tok| |].
  - apply lx_punct. cbn [codes map]. rewrite Hc. cbn. tauto.
  - intros x r ->. cbn [hd_code] in E, E1. split; [|tauto]. intros k' L'. cbn [app] in L'. destruct (lexeme_head _ _ _ L') as (cl & H & F).
    assert (FF : first_of u CFull (fst c)) by exact Hc.
    assert (X : cl = CFull -> False). { intros ->. destruct H as (_ & b & H & _). cbn in H. injection H as _ H. lia. }
    destruct (class_overlap u (fst c) CFull cl FF F) as [EE|[(_ & I & _)|(_ & _ & I)]]; [auto|cbn in I; intuition discriminate|].
    cbn in I. destruct I as [<-|[I|[<-|[]]]]; [| auto |]; cbn [in_class] in H.
    + destruct H as (_ & l & _ & [H|H]); cbn in H; injection H; intros; lia.
    + destruct (punctuation_codes u _ _ H) as [(p & EE & _)|EE]; cbn in EE; [discriminate|]. injection EE as X1 X2. lia.
Qed.

(** *** One call of next *)
Definition whites : list char -> Prop := Forall (fun c => white (fst c)).

Record next_ok (s s' : sstate) (cs gap t cs' : list char) (E : list perr) : Prop := mkNext {
  nx_split : cs = gap ++ t ++ cs';
  nx_at : at_ s' cs';
  nx_pos : s_pos s' = (s_off s + length (text gap))%nat;
  nx_off : s_off s' = (s_pos s' + length (text t))%nat;
  nx_errs : s_errs s' = s_errs s ++ E;
  nx_bound : bounded E;
  (** what is skipped is white or reported *)
  nx_gap : forall a c b, gap = a ++ c :: b -> white (fst c) \/ exists e, In e E /\ pe_off e = (s_off s + length (text a))%nat;
  (** the end of the input *)
  nx_end : t = [] -> cs' = [] /\ s_tok s' = K_EOF;
  nx_not_end : t <> [] -> s_tok s' = K_EOF -> s_tok s = K_EOF;
  (** what the token is *)
  nx_token :
    (whites gap /\ lexeme u (s_tok s') t /\ stops u t cs' /\ (E = [] <-> Forall ok_char (news (gap ++ t) cs'))) \/
    (whites gap /\ t = [] /\ (E = [] <-> Forall ok_char (news gap []))) \/
    (E <> [] /\ ~ whites cs /\ forall k t r, ~ lexes u cs k t r) }.

Lemma no_lexes ws c cs : whites ws -> ~ white (fst c) -> no_token (c :: cs) -> forall k t r, ~ lexes u (ws ++ c :: cs) k t r.
Proof.
  intros W Hc N k t r (ws' & E & W' & L & S).
  assert (c :: cs = t ++ r); [|now apply (N k t r)].
  revert ws' E W'. induction W as [|w ws Hw _ IH]; intros ws' E W'.
  - destruct ws' as [|w' ws']; [exact E|]. cbn in E. injection E as <- _. inversion_clear W'. contradiction.
  - destruct ws' as [|w' ws']; cbn in E.
    + destruct t as [|c' t]; [exfalso; now apply (lexeme_nonempty u _ _ L)|]. cbn in E. injection E as <- _. exfalso. now apply (lexeme_not_white u _ _ _ L).
    + injection E as <- E. inversion_clear W' as [|? ? _ W'']. now apply (IH ws').
Qed.

Lemma white_spec c : is_white c = true <-> white c.
Proof. unfold is_white, white. rewrite !orb_true_iff, !Z.eqb_eq. tauto. Qed.

Lemma next_n_spec : forall n s cs, at_ s cs -> (length cs < n)%nat ->
  exists s' gap t cs' E, s_next_n u src n s = Some s' /\ next_ok s s' cs gap t cs' E.
Proof.
  induction n as [|n IH]; intros s cs A L; [lia|]. cbn [s_next_n].
  destruct (scan_while_spec is_white eq_refl (fuel src) _ cs A (at_fuel _ _ A)) as (s1 & ws & cs1 & R1 & -> & M1 & F1 & C1 & T1). rewrite R1.
  assert (W : whites ws) by (eapply Forall_impl; [|exact F1]; intros a Ha; now apply white_spec).
  destruct M1 as (E1 & Tr1 & I1). pose proof (tr_to _ _ _ _ _ Tr1) as A1.
  set (s2 := set_pos (s_off s1) s1). assert (A2 : at_ s2 cs1) by now apply at_pos. assert (P2 : s_pos s2 = s_off s2) by reflexivity.
  assert (C2 : ~ white (hd_code cs1)) by (rewrite <- white_spec, C1; discriminate).
  assert (DONE : forall s', result s2 s' cs1 -> exists gap t cs' E, next_ok s s' (ws ++ cs1) gap t cs' E).
  { intros s' (t & cs' & E & -> & Hn & T & Hcase & K). exists ws, t, cs', (E1 ++ E).
    assert (T2 : travels s1 s' t cs' E \/ True) by auto. clear T2.
    constructor.
    - reflexivity.
    - apply T.
    - rewrite (tr_pos _ _ _ _ _ T). cbn [s2 s_pos set_pos]. apply Tr1.
    - rewrite (tr_off _ _ _ _ _ T), (tr_pos _ _ _ _ _ T). reflexivity.
    - rewrite (tr_errs _ _ _ _ _ T). cbn [s2 s_errs set_pos]. rewrite (tr_errs _ _ _ _ _ Tr1). now rewrite app_assoc.
    - apply Forall_app. split; [apply Tr1|apply T].
    - intros a c b E'. left. apply (proj1 (Forall_forall _ _) W). rewrite E'. apply in_or_app. right. now left.
    - contradiction.
    - intros _ Kx. apply K in Kx. cbn [s2 s_tok set_pos] in Kx. congruence.
    - destruct Hcase as [(Lx & St & I)|(Ne & N)].
      + left. split; [exact W|]. split; [exact Lx|]. split; [exact St|]. rewrite news_app, <- I1, <- I. split; [apply app_eq_nil|]. intros (-> & ->). reflexivity.
      + right. right. split; [intros Z0; apply app_eq_nil in Z0; tauto|]. destruct t as [|c t]; [congruence|]. cbn [app hd_code] in *.
        split; [|now apply no_lexes]. intros X. apply Forall_app in X. destruct X as (_ & X). inversion_clear X. contradiction. }
  destruct cs1 as [|c cs1].
  - (* end of input *)
    rewrite (at_ch _ _ A2). cbn [hd_code]. change (isLetter eof) with false. cbv iota. change (0x80 <=? eof) with false. cbv iota.
    unfold s_switch. rewrite (at_ch _ _ A2). cbn [hd_code]. rewrite Z.eqb_refl.
    exists (set_tok K_EOF s2), ws, [], [], E1. split; [reflexivity|]. constructor.
    + reflexivity.
    + now apply at_tok.
    + cbn. apply Tr1.
    + cbn. lia.
    + cbn. apply Tr1.
    + apply Tr1.
    + intros a c b E'. left. apply (proj1 (Forall_forall _ _) W). rewrite E'. apply in_or_app. right. now left.
    + auto.
    + congruence.
    + right. left. split; [exact W|]. split; [reflexivity|exact I1].
  - rewrite (at_ch _ _ A2). cbn [hd_code] in *. destruct (at_nonneg _ _ _ A2) as (Hc0 & _).
    destruct (isLetter (fst c)) eqn:EL.
    { destruct (word_result s2 c cs1 A2 P2 (isLetter_starts _ EL)) as (s' & R & Q). rewrite R. exists s'. destruct (DONE s' Q) as (g & t & cs' & E & X). exists g, t, cs', E. auto. }
    (* the switch, when the character does not start a word *)
    assert (SW : ~ starts_word u (fst c) -> exists s' gap t cs' E, s_switch u src (s_next_n u src n) s2 = Some s' /\ next_ok s s' (ws ++ c :: cs1) gap t cs' E).
    { intros NW. unfold s_switch. rewrite (at_ch _ _ A2). cbn [hd_code].
      assert (D1 : forall r, (exists s', r = Some s' /\ result s2 s' (c :: cs1)) -> exists s' gap t cs' E, r = Some s' /\ next_ok s s' (ws ++ c :: cs1) gap t cs' E).
      { intros r (s' & -> & Q). destruct (DONE s' Q) as (g & t & cs' & E & X). exists s', g, t, cs', E. auto. }
      destruct (Z.eqb_spec (fst c) eof) as [X|_]; [unfold eof in X; lia|].
      destruct (isDecimal (fst c)) eqn:ED; [now apply D1, number_result|].
      destruct ((fst c =? 34) || (fst c =? 39)) eqn:EQ. { apply orb_true_iff in EQ. rewrite !Z.eqb_eq in EQ. now apply D1, string_result. }
      destruct (Z.eqb_spec (fst c) 43) as [X1|X1]. { apply D1. apply signed_result; [exact A2|auto]. }
      destruct (Z.eqb_spec (fst c) 45) as [X2|X2]. { apply D1. apply signed_result; [exact A2|auto]. }
      destruct (Z.eqb_spec (fst c) 47) as [X3|X3]. { apply D1. now apply slash_result. }
      destruct (Z.eqb_spec (fst c) 61) as [X4|X4].
      { apply D1. pose proof (equal_result s2 c cs1 A2 X4) as Q. destruct (s_ch (nextch src s2) =? 61); eexists; (split; [reflexivity|exact Q]). }
      destruct (Z.eqb_spec (fst c) 35) as [X5|X5]. { apply D1. apply (line_result s2 [c] cs1); [now apply moves_nextch|]. left. cbn. congruence. }
      destruct (single (fst c)) as [k|] eqn:ES. { apply D1. eexists. split; [reflexivity|]. now apply single_result. }
      (* an invalid character *)
      assert (NT : no_token (c :: cs1)).
      { intros k t r E' Lx _. destruct t as [|c' t]; [now apply (lexeme_nonempty u _ _ Lx)|]. cbn in E'. injection E' as <- E'.
        destruct (lexeme_head _ _ _ Lx) as (cl & H & F). apply orb_false_iff in EQ. rewrite !Z.eqb_neq in EQ.
        destruct cl; cbn [first_of] in F; try lia; try contradiction.
        - destruct F as [F|F]; [|lia]. apply dec_spec in F. rewrite isDecimal_dec in ED. congruence.
        - cbn [in_class codes map] in H. revert H ES X1 X2 X3 X4. generalize (fst c). intros x H ES. cbn in H. unfold single in ES.
          repeat match type of ES with (if ?a =? ?b then _ else _) = _ => destruct (Z.eqb_spec a b); [discriminate|] end.
          intros. repeat destruct H as [H|H]; try contradiction; injection H; intros; lia. }
      destruct (travels_error s2 _ (lit "invalid character " ++ fmt_U u (fst c)) A2) as (e & TE & Pe).
      destruct (moves_nextch _ _ _ (tr_to _ _ _ _ _ TE)) as (E2 & T2 & _).
      pose proof (travels_trans _ _ _ [] [c] cs1 _ _ TE T2) as T3. cbn [app] in T3.
      pose proof (tr_to _ _ _ _ _ T3) as A3.
      destruct (IH _ cs1 A3) as (s' & gap & t & cs' & E & R & X). { rewrite app_length in L. cbn in L. lia. }
      destruct X as [Y1 Y2 Y3 Y4 Y5 Y6 Y7 Y8 Y9 Y10].
      assert (Off : s_off (nextch src (s_error (s_off s2) (lit "invalid character " ++ fmt_U u (fst c)) s2)) = (s_off s + length (text (ws ++ [c])))%nat).
      { rewrite (tr_off _ _ _ _ _ T3). cbn [s2 s_off set_pos]. rewrite (tr_off _ _ _ _ _ Tr1), text_app, app_length. lia. }
      exists s', (ws ++ c :: gap), t, cs', (E1 ++ ((e :: E2) ++ E)). split; [exact R|]. constructor.
      + rewrite Y1, <- app_assoc. reflexivity.
      + exact Y2.
      + rewrite Y3, Off. replace (ws ++ c :: gap) with ((ws ++ [c]) ++ gap) by now rewrite <- app_assoc. rewrite (text_app (ws ++ [c])), app_length. lia.
      + exact Y4.
      + rewrite Y5, (tr_errs _ _ _ _ _ T3). cbn [s2 s_errs set_pos]. rewrite (tr_errs _ _ _ _ _ Tr1). now rewrite <- !app_assoc.
      + apply Forall_app. split; [apply Tr1|]. apply Forall_app. split; [apply T3|exact Y6].
      + intros a x b E'.
        assert (CASE : (exists m, ws = a ++ x :: m) \/ (a = ws /\ x = c /\ b = gap) \/ (exists a', a = ws ++ c :: a' /\ gap = a' ++ x :: b)).
        { clear - E'. revert a E'. induction ws as [|w ws IH]; intros a E'.
          - destruct a as [|y a]; cbn in E'; injection E' as -> ->; right; [left; auto|right; exists a; auto].
          - destruct a as [|y a]; cbn in E'; injection E' as -> E'; [left; exists ws; reflexivity|].
            destruct (IH a E') as [(m & ->)|[(-> & -> & ->)|(a' & -> & ->)]]; [left; exists m; reflexivity|right; left; auto|right; right; exists a'; auto]. }
        destruct CASE as [(m & Em)|[(-> & -> & ->)|(a' & -> & Eg)]].
        * left. apply (proj1 (Forall_forall _ _) W). rewrite Em. apply in_or_app. right. now left.
        * right. exists e. split; [apply in_or_app; right; now left|]. rewrite Pe. cbn [s2 s_off set_pos]. apply Tr1.
        * destruct (Y7 a' x b Eg) as [Y|(e' & I' & P')]; [now left|right]. exists e'. split; [apply in_or_app; right; apply in_or_app; now right|].
          rewrite P', Off. replace (ws ++ c :: a') with ((ws ++ [c]) ++ a') by now rewrite <- app_assoc. rewrite (text_app (ws ++ [c])), app_length. lia.
      + exact Y8.
      + intros Hn K. specialize (Y9 Hn K). rewrite nextch_tok in Y9.
        destruct (s_error_fields (s_off s2) (lit "invalid character " ++ fmt_U u (fst c)) s2) as (_ & _ & _ & F4 & _). rewrite F4 in Y9. cbn in Y9. congruence.
      + right. right. split; [intros Z0; apply app_eq_nil in Z0; destruct Z0; discriminate|].
        split; [|now apply no_lexes]. intros X. apply Forall_app in X. destruct X as (_ & X). inversion_clear X. contradiction. }
    destruct (Z.leb_spec 0x80 (fst c)) as [HA|HA].
    + unfold atIdent. rewrite (at_ch _ _ A2). cbn [hd_code].
      destruct (is_letter u (fst c) || (fst c =? 95)) eqn:E3.
      { assert (ST : starts_word u (fst c)). { apply orb_true_iff in E3. rewrite Z.eqb_eq in E3. exact E3. }
        destruct (word_result s2 c cs1 A2 P2 ST) as (s' & R & Q). rewrite R. exists s'. destruct (DONE s' Q) as (g & t & cs' & E & X). exists g, t, cs', E. auto. }
      assert (NW : ~ starts_word u (fst c)).
      { intros [X|X]; apply orb_false_iff in E3; destruct E3 as (E3 & E4); [congruence|apply Z.eqb_neq in E4; contradiction]. }
      destruct (is_digit u (fst c) || (fst c =? 46)) eqn:E4.
      { assert (NT : no_token (c :: cs1)).
        { intros k t r E' Lx _. destruct t as [|c' t]; [now apply (lexeme_nonempty u _ _ Lx)|]. cbn in E'. injection E' as <- E'.
          destruct (lexeme_head _ _ _ Lx) as (cl & H & F). destruct cl; cbn [first_of] in F; unfold decimal in *; try lia; contradiction. }
        destruct (digit_result s2 c cs1 (lit "identifier cannot begin with " ++ fmt_U u (fst c)) A2 P2 NT) as (s' & R & Q). rewrite R. exists s'.
        destruct (DONE s' Q) as (g & t & cs' & E & X). exists g, t, cs', E. auto. }
      now apply SW.
    + apply SW. intros X. apply starts_isLetter in X; [congruence|lia].
Qed.

Theorem next_spec s cs : at_ s cs -> exists s' gap t cs' E, s_next u src s = Some s' /\ next_ok s s' cs gap t cs' E.
Proof. intros A. apply next_n_spec; [exact A|now apply (at_fuel s)]. Qed.

(** *** The initial state *)
Theorem init_spec : exists E, at_ (s_init src) (drop_bom (chars src)) /\ s_errs (s_init src) = E /\ bounded E /\ s_tok (s_init src) = K_ILLEGAL /\
  (E = [] <-> Forall ok_char (firstn 1 (drop_bom (chars src)))).
Proof.
  unfold s_init. set (s0 := mkS 32 0 0 [O] K_ILLEGAL 0 []).
  destruct (nextch_gen s0 O eq_refl ltac:(lia)) as (A & O0 & P0 & E & HE & HB & HI). cbn [skipn] in A, HI. cbn [s0 s_errs app] in HE.
  rewrite (at_ch _ _ A). unfold drop_bom. destruct (chars src) as [|c cs] eqn:EC.
  - exists E. cbn [hd_code]. split; [exact A|]. split; [exact HE|]. split; [exact HB|]. split; [apply nextch_tok|]. rewrite HI. cbn. split; [constructor|auto].
  - cbn [hd_code]. change byte_order_mark with bom. destruct (Z.eqb_spec (fst c) bom) as [X|X].
    + destruct (moves_nextch _ _ _ A) as (E2 & T2 & I2). 
      assert (E = []) as ->. { apply HI. rewrite X. unfold bom, RuneError. repeat split; [lia|lia|now right]. }
      exists E2. split; [apply T2|]. split; [rewrite (tr_errs _ _ _ _ _ T2), HE; reflexivity|]. split; [apply T2|]. split; [now rewrite !nextch_tok|].
      rewrite I2. reflexivity.
    + exists E. split; [exact A|]. split; [exact HE|]. split; [exact HB|]. split; [apply nextch_tok|]. rewrite HI. cbn [firstn]. unfold ok_char. change byte_order_mark with bom.
      split.
      * intros (X1 & X2 & _). constructor; [auto|constructor].
      * intros Y. inversion_clear Y as [|? ? Y1 _]. destruct Y1 as (Y1 & Y2 & Y3). auto.
Qed.
End scanner.
