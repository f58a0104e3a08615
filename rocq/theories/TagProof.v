(** The grammar of thrift struct tags, and parseFieldOptions against it. *)
From Coq Require Import Strings.String.
From Verif Require Import Base BaseLemmas Prog Wire GoFloat Utf8 GoType Fields GoTypeProof.

(** ** Specification *)
Definition dec_digit (b : byte) : Prop := 48 <= b2z b <= 57.
Definition dec_value (ds : list byte) : Z := fold_left (fun acc b => 10 * acc + (b2z b - 48)) ds 0.

(** [s] is the decimal numeral, with an optional sign, of [z]. *)
Definition decimal (s : list byte) (z : Z) : Prop :=
  exists ds, ds <> [] /\ Forall dec_digit ds /\
    ((s = ds /\ z = dec_value ds) \/ (s = lit "+" ++ ds /\ z = dec_value ds) \/ (s = lit "-" ++ ds /\ z = - dec_value ds)).

(** A Go identifier: it starts with a letter or '_' and goes on with letters,
    numbers and '_'. *)
Definition identifier (u : unicode) (o : list byte) : Prop :=
  exists r rs, runes o = r :: rs /\ (r = 95 \/ is_letter u r = true) /\
    Forall (fun r => r = 95 \/ is_letter u r = true \/ is_number u r = true) rs.

(** [o] is "required" up to case and underscores. *)
Definition resembles_required (u : unicode) (o : list byte) : Prop :=
  filter (fun r => negb (r =? 95)) (map (to_lower u) (runes o)) = map b2z (lit "required").

Definition well_formed_tag (u : unicode) (tag : list byte) (id : Z) (opts : list (list byte)) : Prop :=
  exists idt, tag = idt ++ flat_map (fun o => lit "," ++ o) opts /\ decimal idt id /\ is_i16 id /\
    Forall (identifier u) opts /\ NoDup opts /\
    (forall o, In o opts -> resembles_required u o -> o = lit "required").

(** ** Integers *)
Lemma parse_digits_spec ds : forall acc, 
  (Forall dec_digit ds -> parse_digits acc ds = Some (fold_left (fun acc b => 10 * acc + (b2z b - 48)) ds acc)) /\
  (forall z, parse_digits acc ds = Some z -> Forall dec_digit ds).
Proof.
  induction ds as [|b r IH]; intros acc; cbn [parse_digits fold_left]; [split; [auto|constructor]|].
  unfold digit_val, in_range. destruct (Z.leb_spec 48 (b2z b)), (Z.leb_spec (b2z b) 57); cbn [andb].
  - split.
    + intros H1. inversion_clear H1. now apply IH.
    + intros z Hz. constructor; [split; assumption|]. eapply IH; eauto.
  - split; [|discriminate]. intros H1. inversion_clear H1 as [|? ? Hd _]. destruct Hd; lia.
  - split; [|discriminate]. intros H1. inversion_clear H1 as [|? ? Hd _]. destruct Hd; lia.
  - split; [|discriminate]. intros H1. inversion_clear H1 as [|? ? Hd _]. destruct Hd; lia.
Qed.

Lemma dec_value_nonneg ds : Forall dec_digit ds -> 0 <= dec_value ds.
Proof.
  unfold dec_value. enough (G : forall acc, 0 <= acc -> Forall dec_digit ds -> 0 <= fold_left (fun acc b => 10 * acc + (b2z b - 48)) ds acc) by (apply G; lia).
  induction ds as [|b r IH]; intros acc Ha H; cbn [fold_left]; [lia|].
  inversion_clear H as [|? ? Hb Hr]. unfold dec_digit in Hb. apply IH; [lia|auto].
Qed.

(** Splitting off the sign. *)
Definition sign_split (s : list byte) : bool * list byte :=
  match s with x2d :: r => (true, r) | x2b :: r => (false, r) | _ => (false, s) end.

Lemma sign_split_cases s : (exists r, s = x2d :: r /\ sign_split s = (true, r)) \/ (exists r, s = x2b :: r /\ sign_split s = (false, r)) \/
  (sign_split s = (false, s) /\ (forall b r, s = b :: r -> b <> x2d /\ b <> x2b)).
Proof.
  destruct s as [|b r]; [right; right; split; [reflexivity|discriminate]|].
  destruct (Byte.byte_eq_dec b x2d) as [->|H1]; [left; eauto|].
  destruct (Byte.byte_eq_dec b x2b) as [->|H2]; [right; left; eauto|].
  right. right. split; [|intros b' r' E; injection E as -> ->; auto].
  destruct b; try reflexivity; congruence.
Qed.

Lemma parse_int16_spec s z : parse_int16 s = Some z <-> decimal s z /\ is_i16 z.
Proof.
  set (body := fun (neg : bool) (ds : list byte) => match ds with [] => None | _ => match parse_digits 0 ds with
      | Some n => if neg then (if n <=? 2 ^ 15 then Some (- n) else None) else (if n <? 2 ^ 15 then Some n else None)
      | None => None end end).
  assert (EB : parse_int16 s = body (fst (sign_split s)) (snd (sign_split s))).
  { unfold parse_int16, sign_split. destruct s as [|b r]; [reflexivity|]. destruct b; reflexivity. }
  rewrite EB. clear EB.
  assert (K : forall (neg : bool) ds, body neg ds = Some z <->
      ds <> [] /\ Forall dec_digit ds /\ z = (if neg then - dec_value ds else dec_value ds) /\ is_i16 z).
  { intros neg ds. unfold body. destruct ds as [|d ds]; [split; [discriminate|intros (H & _); now elim H]|].
    assert (Hne : d :: ds <> []) by discriminate. revert Hne. generalize (d :: ds). clear d ds. intros ds Hne. destruct (parse_digits_spec ds 0) as [D1 D2].
    split.
    - intros H. destruct (parse_digits 0 ds) as [n|] eqn:E; [|discriminate].
      assert (Hd : Forall dec_digit ds) by (eapply D2; eauto). 
      assert (n = dec_value ds) by (specialize (D1 Hd); unfold dec_value; congruence). subst n. clear E. pose proof (dec_value_nonneg ds Hd). conj; auto.
      + destruct neg; [destruct (_ <=? _)|destruct (_ <? _)]; congruence.
      + unfold is_i16. destruct neg.
        * destruct (Z.leb_spec (dec_value ds) (2 ^ 15)); [injection H as <-; lia|discriminate].
        * destruct (Z.ltb_spec (dec_value ds) (2 ^ 15)); [injection H as <-; lia|discriminate].
    - intros (_ & Hd & -> & Hz). rewrite (D1 Hd). change (fold_left _ ds 0) with (dec_value ds). unfold is_i16 in Hz. destruct neg.
      + destruct (Z.leb_spec (dec_value ds) (2 ^ 15)); [reflexivity|lia].
      + destruct (Z.ltb_spec (dec_value ds) (2 ^ 15)); [reflexivity|lia]. }
  assert (NS : forall ds, Forall dec_digit ds -> ds <> [] -> forall b r, ds = b :: r -> b <> x2d /\ b <> x2b).
  { intros ds Hd _ b r ->. inversion_clear Hd as [|? ? Hb _]. unfold dec_digit in Hb.
    split; intros ->; cbn in Hb; lia. }
  destruct (sign_split_cases s) as [(r & -> & ->)|[(r & -> & ->)|[-> Hs]]]; cbn [fst snd]; rewrite K.
  - split.
    + intros (H1 & H2 & H3 & H4). split; [|exact H4]. exists r. conj; auto.
    + intros ((ds & H1 & H2 & [[E Hz]|[[E Hz]|[E Hz]]]) & H4).
      * exfalso. destruct (NS ds H2 H1 x2d r (eq_sym E)) as [N _]. now elim N.
      * discriminate.
      * injection E as <-. conj; auto.
  - split.
    + intros (H1 & H2 & H3 & H4). split; [|exact H4]. exists r. conj; auto.
    + intros ((ds & H1 & H2 & [[E Hz]|[[E Hz]|[E Hz]]]) & H4).
      * exfalso. destruct (NS ds H2 H1 x2b r (eq_sym E)) as [_ N]. now elim N.
      * injection E as <-. conj; auto.
      * discriminate.
  - split.
    + intros (H1 & H2 & H3 & H4). split; [|exact H4]. exists s. conj; auto.
    + intros ((ds & H1 & H2 & [[E Hz]|[[E Hz]|[E Hz]]]) & H4).
      * subst s. conj; auto.
      * exfalso. destruct (Hs x2b ds E) as [_ N]. now elim N.
      * exfalso. destruct (Hs x2d ds E) as [N _]. now elim N.
Qed.

Lemma decimal_no_comma s z : decimal s z -> Forall (fun b => b2z b <> 44) s.
Proof.
  intros (ds & _ & Hd & H).
  assert (G : Forall (fun b => b2z b <> 44) ds) by (eapply Forall_impl; [|exact Hd]; unfold dec_digit; cbn; intros; lia).
  destruct H as [[-> _]|[[-> _]|[-> _]]]; auto; constructor; auto; cbn; lia.
Qed.

(** ** Runes *)
Definition stops (r : list byte) : Prop := r = [] \/ exists r', r = x2c :: r'.

Lemma decode_rune_width s : s <> [] -> (1 <= snd (decode_rune s) <= length s)%nat.
Proof.
  destruct s as [|b0 r]; [congruence|]. intros _. unfold decode_rune.
  destruct (b2z b0 <? 0x80); [cbn; lia|].
  destruct ((0xC2 <=? b2z b0) && (b2z b0 <=? 0xDF)).
  { destruct r as [|b1 r]; [cbn; lia|]. destruct (cont_in _ _ b1); cbn; lia. }
  destruct ((0xE0 <=? b2z b0) && (b2z b0 <=? 0xEF)).
  { destruct r as [|b1 [|b2 r]]; try (cbn; lia). cbv zeta. destruct (_ && _); cbn; lia. }
  destruct ((0xF0 <=? b2z b0) && (b2z b0 <=? 0xF4)); [|cbn; lia].
  destruct r as [|b1 [|b2 [|b3 r]]]; try (cbn; lia). cbv zeta. destruct (_ && _); cbn; lia.
Qed.

Lemma cont_comma lo hi : 44 < lo -> cont_in lo hi x2c = false.
Proof. intros H. unfold cont_in. change (b2z x2c) with 44. destruct (Z.leb_spec lo 44); [lia|reflexivity]. Qed.

Lemma decode_rune_app s r : s <> [] -> stops r -> decode_rune (s ++ r) = decode_rune s.
Proof.
  intros Hs Hr. destruct s as [|b0 s]; [congruence|]. clear Hs. cbn [app]. unfold decode_rune.
  destruct (b2z b0 <? 0x80); [reflexivity|].
  assert (C1 : forall hi, cont_in 0x80 hi x2c = false) by (intros; apply cont_comma; lia).
  destruct ((0xC2 <=? b2z b0) && (b2z b0 <=? 0xDF)).
  { destruct s as [|b1 s]; [|reflexivity]. destruct Hr as [->|(r' & ->)]; [reflexivity|]. cbn [app]. now rewrite C1. }
  destruct ((0xE0 <=? b2z b0) && (b2z b0 <=? 0xEF)).
  { assert (C2 : forall hi, cont_in (if b2z b0 =? 0xE0 then 0xA0 else 0x80) hi x2c = false)
      by (intros; apply cont_comma; destruct (_ =? _); lia).
    destruct s as [|b1 [|b2 s]]; [| |reflexivity]; destruct Hr as [->|(r' & ->)]; try reflexivity; cbn [app]; cbv zeta.
    - destruct r'; [reflexivity|]. rewrite C2. reflexivity.
    - rewrite C1, andb_false_r. reflexivity. }
  destruct ((0xF0 <=? b2z b0) && (b2z b0 <=? 0xF4)); [|reflexivity].
  assert (C2 : forall hi, cont_in (if b2z b0 =? 0xF0 then 0x90 else 0x80) hi x2c = false)
    by (intros; apply cont_comma; destruct (_ =? _); lia).
  destruct s as [|b1 [|b2 [|b3 s]]]; [| | |reflexivity]; destruct Hr as [->|(r' & ->)]; try reflexivity; cbn [app]; cbv zeta.
  - destruct r' as [|? [|? ?]]; try reflexivity. rewrite C2. reflexivity.
  - destruct r' as [|? ?]; try reflexivity. rewrite C1, andb_false_r. reflexivity.
  - rewrite C1, andb_false_r. reflexivity.
Qed.

Lemma runes_n_more n : forall m s, (length s <= n)%nat -> (n <= m)%nat -> runes_n m s = runes_n n s.
Proof.
  induction n as [|n IH]; intros m s Hs Hm; [destruct s; [destruct m; reflexivity|cbn in Hs; lia]|].
  destruct m as [|m]; [lia|]. cbn [runes_n]. destruct s as [|b s]; [reflexivity|].
  pose proof (decode_rune_width (b :: s) ltac:(discriminate)) as W. destruct (decode_rune (b :: s)) as [r w]. cbn [snd] in W. f_equal.
  apply IH; [|lia]. rewrite skipn_length. cbn [length] in *. lia.
Qed.

Lemma runes_step s : s <> [] -> runes s = fst (decode_rune s) :: runes (skipn (snd (decode_rune s)) s).
Proof.
  intros Hs. unfold runes at 1. pose proof (decode_rune_width s Hs) as W. destruct s as [|b s]; [congruence|].
  cbn [length runes_n]. destruct (decode_rune (b :: s)) as [r w]. cbn [fst snd] in *. f_equal.
  unfold runes. apply runes_n_more; [lia|]. rewrite skipn_length. cbn [length] in *. lia.
Qed.

Section U.
Context (u : unicode).
Notation lod := (letter_or_digit u).

Lemma ident_len_n_more n : forall m s, (length s <= n)%nat -> (n <= m)%nat -> ident_len_n u m s = ident_len_n u n s.
Proof.
  induction n as [|n IH]; intros m s Hs Hm; [destruct s; [destruct m; reflexivity|cbn in Hs; lia]|].
  destruct m as [|m]; [lia|]. cbn [ident_len_n]. destruct s as [|b s]; [reflexivity|].
  pose proof (decode_rune_width (b :: s) ltac:(discriminate)) as W. destruct (decode_rune (b :: s)) as [r w]. cbn [snd] in W.
  destruct (lod r); [|reflexivity]. f_equal. apply IH; [|lia]. rewrite skipn_length. cbn [length] in *. lia.
Qed.

Lemma ident_step s : s <> [] -> ident_len u s =
  if lod (fst (decode_rune s)) then (snd (decode_rune s) + ident_len u (skipn (snd (decode_rune s)) s))%nat else O.
Proof.
  intros Hs. unfold ident_len at 1. pose proof (decode_rune_width s Hs) as W. destruct s as [|b s]; [congruence|].
  cbn [length ident_len_n]. destruct (decode_rune (b :: s)) as [r w]. cbn [fst snd] in *. destruct (lod r); [|reflexivity].
  f_equal. unfold ident_len. apply ident_len_n_more; [lia|]. rewrite skipn_length. cbn [length] in *. lia.
Qed.

Lemma lod_comma : lod 44 = false.
Proof. reflexivity. Qed.

Lemma ident_len_stop r : stops r -> ident_len u r = O.
Proof.
  intros [->|(r' & ->)]; [reflexivity|]. rewrite ident_step by discriminate.
  change (fst (decode_rune (x2c :: r'))) with 44. now rewrite lod_comma.
Qed.

Lemma ident_len_app o r : stops r -> Forall (fun c => lod c = true) (runes o) -> ident_len u (o ++ r) = length o.
Proof.
  intros Hr. remember (length o) as n eqn:Hn. revert o Hn. induction n as [n IH] using lt_wf_ind; intros o Hn Ho.
  destruct o as [|b o]; [subst n; now apply ident_len_stop|].
  assert (Hne : b :: o <> []) by discriminate. revert Hne Hn Ho. generalize (b :: o) as s. clear b o. intros s Hne Hn Ho.
  rewrite ident_step by (destruct s; [congruence|discriminate]). rewrite decode_rune_app by auto.
  rewrite runes_step in Ho by auto. inversion_clear Ho as [|? ? H0 H1]. rewrite H0.
  pose proof (decode_rune_width s Hne) as W. set (w := snd (decode_rune s)) in *.
  replace (skipn w (s ++ r)) with (skipn w s ++ r) by (rewrite skipn_app; replace (w - length s)%nat with O by lia; reflexivity).
  rewrite (IH (length (skipn w s))) with (o := skipn w s); auto; rewrite skipn_length; lia.
Qed.

Lemma ident_len_runes s : (ident_len u s <= length s)%nat /\
  (stops (skipn (ident_len u s) s) -> Forall (fun c => lod c = true) (runes (firstn (ident_len u s) s))).
Proof.
  remember (length s) as n eqn:Hn. revert s Hn. induction n as [n IH] using lt_wf_ind; intros s Hn.
  destruct s as [|b s']; [subst n; split; [apply le_n|constructor]|].
  assert (Hne : b :: s' <> []) by discriminate. revert Hne Hn. generalize (b :: s') as s. clear b s'. intros s Hne Hn.
  rewrite ident_step by auto. pose proof (decode_rune_width s Hne) as W.
  destruct (lod (fst (decode_rune s))) eqn:L; [|split; [lia|constructor]].
  set (w := snd (decode_rune s)) in *. set (k := ident_len u (skipn w s)).
  destruct (IH (length (skipn w s)) ltac:(rewrite skipn_length; lia) (skipn w s) eq_refl) as [K1 K2]. fold k in K1, K2.
  rewrite skipn_length in K1. split; [lia|]. intros Hst.
  assert (Hst' : stops (skipn k (skipn w s))) by (rewrite skipn_skipn'; exact Hst).
  assert (Hw : firstn (w + k) s = firstn w s ++ firstn k (skipn w s)).
  { rewrite <- (firstn_skipn w s) at 1. rewrite firstn_app, firstn_length, firstn_firstn.
    replace (Nat.min (w + k) w) with w by lia. replace (w + k - Nat.min w (length s))%nat with k by lia. reflexivity. }
  assert (Hne' : firstn (w + k) s <> []).
  { intros E. apply (f_equal (@length byte)) in E. rewrite firstn_length in E. cbn [length] in E. lia. }
  assert (Hd : decode_rune (firstn (w + k) s) = decode_rune s).
  { rewrite <- (firstn_skipn (w + k) s) at 2. symmetry. now apply decode_rune_app. }
  rewrite runes_step by auto. rewrite Hd. fold w. constructor; [exact L|].
  rewrite Hw, skipn_app, firstn_length. replace (w - Nat.min w (length s))%nat with O by lia.
  rewrite skipn_all2 by (rewrite firstn_length; lia). cbn [app skipn]. now apply K2.
Qed.

(** ** One option *)
Lemma lod_spec r : lod r = true <-> (r = 95 \/ is_letter u r = true \/ is_number u r = true).
Proof. unfold letter_or_digit. rewrite !orb_true_iff, Z.eqb_eq. tauto. Qed.

Lemma identifier_ne o : identifier u o -> o <> [].
Proof. intros (r & rs & E & _) ->. discriminate. Qed.

Lemma identifier_all o : identifier u o -> Forall (fun c => lod c = true) (runes o).
Proof.
  intros (r & rs & -> & H1 & H2). constructor; [apply lod_spec; tauto|]. eapply Forall_impl; [|exact H2]. intros c. apply lod_spec.
Qed.

Lemma identifier_first o : identifier u o -> ((fst (decode_rune o) =? 95) || is_letter u (fst (decode_rune o))) = true.
Proof.
  intros H. pose proof (identifier_ne o H) as Hne. destruct H as (r & rs & E & H1 & _). rewrite runes_step in E by auto.
  injection E as E _. rewrite E. rewrite orb_true_iff, Z.eqb_eq. exact H1.
Qed.

Lemma identifier_intro o : o <> [] -> ((fst (decode_rune o) =? 95) || is_letter u (fst (decode_rune o))) = true ->
  Forall (fun c => lod c = true) (runes o) -> identifier u o.
Proof.
  intros Hne H1 H2. rewrite runes_step in H2 by auto. exists (fst (decode_rune o)), (runes (skipn (snd (decode_rune o)) o)).
  split; [now apply runes_step|]. rewrite orb_true_iff, Z.eqb_eq in H1. split; [exact H1|]. inversion_clear H2 as [|? ? _ H3].
  eapply Forall_impl; [|exact H3]. intros c. apply lod_spec.
Qed.

Lemma consume_app o r : identifier u o -> stops r -> consume_option u (o ++ r) = (o, length o, None).
Proof.
  intros H Hr. pose proof (identifier_ne o H) as Hne. unfold consume_option.
  pose proof (identifier_first o H) as F. rewrite <- (decode_rune_app o r Hne Hr) in F.
  cbv zeta. rewrite F. rewrite ident_len_app by (auto using identifier_all). f_equal. f_equal.
  rewrite firstn_app, firstn_all, Nat.sub_diag. cbn [firstn]. apply app_nil_r.
Qed.

Lemma consume_ok s o n : s <> [] -> consume_option u s = (o, n, None) -> stops (skipn n s) ->
  s = o ++ skipn n s /\ n = length o /\ identifier u o.
Proof.
  intros Hne. unfold consume_option. cbv zeta.
  destruct ((fst (decode_rune s) =? 95) || is_letter u (fst (decode_rune s))) eqn:F; [|destruct s; discriminate].
  intros H Hst. injection H as <- <-. destruct (ident_len_runes s) as [K1 K2]. specialize (K2 Hst).
  set (k := ident_len u s) in *.
  assert (Hk : k <> O).
  { unfold k. rewrite ident_step by auto.
    replace (lod (fst (decode_rune s))) with true; [pose proof (decode_rune_width s Hne); lia|].
    symmetry. apply lod_spec. rewrite orb_true_iff, Z.eqb_eq in F. tauto. }
  assert (Hne' : firstn k s <> []).
  { intros E. apply (f_equal (@length byte)) in E. rewrite firstn_length in E. cbn [length] in E. destruct s; [congruence|cbn in *; lia]. }
  split; [symmetry; apply firstn_skipn|]. split; [rewrite firstn_length; lia|].
  apply identifier_intro; auto.
  replace (decode_rune (firstn k s)) with (decode_rune s); [exact F|].
  rewrite <- (firstn_skipn k s) at 1. now apply decode_rune_app.
Qed.

(** ** The options after the id *)
Lemma first_error_some e b : exists e', first_error (Some e) b = Some e'.
Proof. cbn. eauto. Qed.

Lemma parse_options_err n : forall tag req e seen, snd (parse_options u n tag req (Some e) seen) = Some e.
Proof.
  induction n as [|n IH]; intros tag req e seen; destruct tag as [|b r]; cbn [parse_options snd]; auto.
  assert (K : forall tag : list byte, snd (let '(opt, k, e2) := consume_option u tag in
      let e0 := match e2 with Some _ => first_error (Some e) (Some (ETag "malformed option")) | None => Some e end in
      let tag0 := skipn k tag in let is_req := bytes_eqb opt (lit "required") in let req0 := if is_req then true else req in
      let e1 := if negb is_req && looks_required u opt then first_error e0 (Some (ETag "invalid appearance")) else e0 in
      let e3 := if seen_opt seen opt then first_error e1 (Some (ETag "duplicate appearance")) else e1 in
      parse_options u n tag0 req0 e3 (opt :: seen)) = Some e).
  { intros tag. destruct (consume_option u tag) as [[opt k] e2]. cbn [first_error].
    destruct e2, (negb _ && _), (seen_opt seen opt); apply IH. }
  cbv zeta. cbn [first_error]. destruct (negb (b2z b =? 44)); [apply K|]. destruct r; [reflexivity|apply K].
Qed.

Lemma parse_options_none n tag req e seen r : parse_options u n tag req e seen = (r, None) -> e = None.
Proof.
  destruct e as [e|]; [|reflexivity]. intros H. pose proof (parse_options_err n tag req e seen) as G. rewrite H in G. discriminate.
Qed.

Definition joined (opts : list (list byte)) : list byte := flat_map (fun o => lit "," ++ o) opts.

Lemma joined_stops opts : stops (joined opts).
Proof. destruct opts as [|o opts]; [left; reflexivity|right; eexists; reflexivity]. Qed.

Lemma seen_spec opt seen : seen_opt seen opt = true <-> In opt seen.
Proof.
  unfold seen_opt. rewrite existsb_exists. split.
  - intros (x & Hx & E). apply bytes_eqb_eq in E. now subst.
  - intros H. exists opt. split; [auto|now apply bytes_eqb_eq].
Qed.

Lemma looks_spec o : looks_required u o = true <-> resembles_required u o.
Proof. unfold looks_required, resembles_required. cbv zeta. destruct (list_eq_dec _ _ _); split; try congruence; auto. Qed.

Definition good_options (opts seen : list (list byte)) : Prop :=
  Forall (identifier u) opts /\ NoDup opts /\ (forall o, In o opts -> ~ In o seen) /\
  (forall o, In o opts -> resembles_required u o -> o = lit "required").

Lemma parse_options_spec n : forall tag req seen req', (length tag <= n)%nat ->
  parse_options u n tag req None seen = (req', None) <->
  exists opts, tag = joined opts /\ good_options opts seen /\ (req' = true <-> req = true \/ In (lit "required") opts).
Proof.
  induction n as [|n IH]; intros tag req seen req' Hn.
  { destruct tag; [|cbn in Hn; lia]. cbn [parse_options]. split.
    - intros H. injection H as <-. exists []. unfold good_options. conj; try tauto; try constructor; cbn; tauto.
    - intros ([|o opts] & E & _ & H); [|discriminate]. f_equal. destruct req, req'; cbn in H; intuition congruence. }
  destruct tag as [|b r].
  { cbn [parse_options]. split.
    - intros H. injection H as <-. exists []. unfold good_options. conj; try tauto; try constructor; cbn; tauto.
    - intros ([|o opts] & E & _ & H); [|discriminate]. f_equal. destruct req, req'; cbn in H; intuition congruence. }
  cbn [parse_options]. cbv zeta. cbn [first_error].
  destruct (Z.eqb_spec (b2z b) 44) as [Hb|Hb]; cbn [negb].
  2:{ split.
      - intros H. exfalso. destruct (consume_option u (b :: r)) as [[opt k] e2].
        apply parse_options_none in H. destruct e2, (negb _ && _), (seen_opt seen opt); discriminate.
      - intros ([|o opts] & E & _); [discriminate|]. exfalso. injection E as E _. subst b. now elim Hb. }
  assert (b = x2c) by (apply b2z_inj; exact Hb). subst b. clear Hb.
  destruct r as [|c r'].
  { split; [discriminate|]. intros ([|o opts] & E & (Hi & _) & _); [discriminate|]. injection E as E.
    inversion_clear Hi as [|? ? Ho _]. apply identifier_ne in Ho. destruct o; [congruence|discriminate]. }
  assert (Hne : c :: r' <> []) by discriminate. cbn [length] in Hn. change (S (length r')) with (length (c :: r')) in Hn.
  revert Hne Hn. generalize (c :: r') as s. clear c r'. intros s Hne Hn. split.
  - intros H. destruct (consume_option u s) as [[opt k] e2] eqn:C. pose proof (parse_options_none _ _ _ _ _ _ H) as HE.
    destruct e2 as [e2|]; [exfalso; destruct (negb _ && _), (seen_opt seen opt); discriminate|].
    destruct (negb (bytes_eqb opt (lit "required")) && looks_required u opt) eqn:L; [exfalso; destruct (seen_opt seen opt); discriminate|].
    destruct (seen_opt seen opt) eqn:SO; [discriminate|]. clear HE.
    assert (Hk : (length (skipn k s) <= n)%nat) by (rewrite skipn_length; lia).
    apply IH in H; [|exact Hk]. destruct H as (opts & E & (G1 & G2 & G3 & G4) & Hr).
    destruct (consume_ok s opt k Hne C) as (E' & -> & Ho); [rewrite E; apply joined_stops|].
    exists (opt :: opts). split; [cbn; rewrite E' at 1; rewrite E; reflexivity|].
    assert (Hns : ~ In opt seen) by (rewrite <- seen_spec, SO; discriminate).
    split.
    + unfold good_options. conj.
      * now constructor.
      * constructor; [|exact G2]. intros Hin. apply (G3 _ Hin). now left.
      * intros o [<-|Hin]; [exact Hns|]. intros Hs. apply (G3 _ Hin). now right.
      * intros o [<-|Hin]; [|now apply G4]. intros R. apply looks_spec in R. rewrite R, andb_true_r in L.
        apply bytes_eqb_eq. now destruct (bytes_eqb _ _).
    + rewrite Hr. destruct (bytes_eqb opt (lit "required")) eqn:B.
      * apply bytes_eqb_eq in B. cbn [In]. intuition.
      * assert (opt <> lit "required") by (intros X; apply bytes_eqb_eq in X; congruence). cbn [In]. intuition.
  - intros ([|o opts] & E & (G1 & G2 & G3 & G4) & Hr); [discriminate|]. 
    assert (Es : s = o ++ joined opts) by (cbn in E; injection E as E; exact E). clear E. subst s.
    inversion_clear G1 as [|? ? Ho Hos]. inversion_clear G2 as [|? ? Hno Hd].
    rewrite (consume_app o (joined opts) Ho (joined_stops opts)).
    replace (negb (bytes_eqb o (lit "required")) && looks_required u o) with false.
    2:{ destruct (looks_required u o) eqn:L; [|now rewrite andb_false_r]. apply looks_spec in L. apply (G4 o) in L; [|now left].
        apply bytes_eqb_eq in L. now rewrite L. }
    replace (seen_opt seen o) with false.
    2:{ destruct (seen_opt seen o) eqn:SO; [|reflexivity]. apply seen_spec in SO. exfalso. apply (G3 o); [now left|exact SO]. }
    rewrite skipn_app, skipn_all, Nat.sub_diag. cbn [app skipn].
    apply IH; [rewrite app_length in Hn; lia|]. exists opts. split; [reflexivity|]. split.
    + unfold good_options. conj; auto.
      * intros o' Hin [<-|Hs]; [auto|]. apply (G3 o'); [now right|exact Hs].
      * intros o' Hin. apply G4. now right.
    + rewrite Hr. destruct (bytes_eqb o (lit "required")) eqn:B.
      * apply bytes_eqb_eq in B. cbn [In]. intuition.
      * assert (o <> lit "required") by (intros X; apply bytes_eqb_eq in X; congruence). cbn [In]. intuition.
Qed.

Lemma comma_index_split s : let i := comma_index s in Forall (fun b => b2z b <> 44) (firstn i s) /\ stops (skipn i s).
Proof.
  cbv zeta. induction s as [|b r IH]; [split; [constructor|left; reflexivity]|]. cbn [comma_index].
  destruct (Z.eqb_spec (b2z b) 44) as [Hb|Hb].
  - split; [constructor|]. right. exists r. cbn. f_equal. apply b2z_inj. exact Hb.
  - destruct IH. split; [constructor; auto|auto].
Qed.

Lemma comma_index_app a r : Forall (fun b => b2z b <> 44) a -> stops r -> comma_index (a ++ r) = length a.
Proof.
  intros Ha Hr. induction Ha as [|b a Hb _ IH]; cbn [app comma_index length].
  - destruct Hr as [->|(r' & ->)]; reflexivity.
  - destruct (Z.eqb_spec (b2z b) 44); [contradiction|]. now rewrite IH.
Qed.

Lemma tag_spec tag id req : 
  (parse_int16 (firstn (comma_index tag) tag) = Some id /\
   parse_options u (length (skipn (comma_index tag) tag)) (skipn (comma_index tag) tag) false None [] = (req, None)) <->
  exists opts, well_formed_tag u tag id opts /\ (req = true <-> In (lit "required") opts).
Proof.
  rewrite parse_int16_spec, parse_options_spec by apply le_n. split.
  - intros ([D I] & opts & E & (G1 & G2 & _ & G4) & Hr). exists opts. split.
    + exists (firstn (comma_index tag) tag). conj; auto. change (flat_map _ opts) with (joined opts). rewrite <- E.
      symmetry. apply firstn_skipn.
    + rewrite Hr. intuition discriminate.
  - intros (opts & (idt & E & D & I & G1 & G2 & G4) & Hr). change (flat_map _ opts) with (joined opts) in E. subst tag.
    rewrite comma_index_app by (eauto using decimal_no_comma, joined_stops).
    rewrite firstn_app, skipn_app, firstn_all, skipn_all, Nat.sub_diag. cbn [firstn skipn app]. rewrite app_nil_r.
    split; [auto|]. exists opts. split; [reflexivity|]. split; [unfold good_options; conj; auto|]. rewrite Hr. intuition discriminate.
Qed.

(** ** parseFieldOptions *)
Definition tag_text (sf : sfield) : list byte := match sf_tag sf with Some t => t | None => [] end.

Theorem field_accepted sf id req name :
  parse_field_options u sf = (mkFO id name req, false, None) <->
  sf_exported sf = true /\ name = sf_name sf /\
  exists opts, well_formed_tag u (tag_text sf) id opts /\ (req = true <-> In (lit "required") opts).
Proof.
  unfold parse_field_options. cbv zeta. fold (tag_text sf). rewrite <- tag_spec.
  destruct (bytes_eqb (tag_text sf) (lit "-")) eqn:B.
  { split; [discriminate|]. intros (_ & _ & P & _). apply bytes_eqb_eq in B. rewrite B in P. discriminate. }
  destruct (sf_exported sf); cbn [negb]; [|split; [discriminate|intros (H & _); discriminate]].
  destruct (parse_int16 _) as [id'|]; [|split; [discriminate|intros (_ & _ & P & _); discriminate]].
  destruct (parse_options _ _ _ _ _ _) as [r e]. split.
  - intros H. injection H as -> <- -> ->. auto.
  - intros (_ & -> & H & H'). injection H as ->. injection H' as -> ->. reflexivity.
Qed.

Theorem field_ignored sf : (exists o, parse_field_options u sf = (o, true, None)) <->
  tag_text sf = lit "-" \/ (sf_exported sf = false /\ sf_tag sf = None).
Proof.
  unfold parse_field_options. cbv zeta. fold (tag_text sf).
  destruct (bytes_eqb (tag_text sf) (lit "-")) eqn:B.
  { apply bytes_eqb_eq in B. split; [now left|eauto]. }
  assert (tag_text sf <> lit "-") by (intros X; apply bytes_eqb_eq in X; congruence).
  destruct (sf_exported sf); cbn [negb].
  - destruct (parse_int16 _) as [id'|]; [|split; [intros (? & ?); discriminate|intuition discriminate]].
    destruct (parse_options _ _ _ _ _ _) as [r e]. split; [intros (? & ?); discriminate|intuition discriminate].
  - destruct (sf_tag sf); split; try (intros (? & ?); discriminate); try (intuition discriminate). eauto.
Qed.

Theorem field_rejected sf :
  ((exists id opts, well_formed_tag u (tag_text sf) id opts) -> sf_exported sf = false) ->
  tag_text sf <> lit "-" -> ~ (sf_exported sf = false /\ sf_tag sf = None) ->
  exists o ig e, parse_field_options u sf = (o, ig, Some e).
Proof.
  intros H1 H2 H3. destruct (parse_field_options u sf) as [[o ig] [e|]] eqn:E; [eauto|]. exfalso. destruct ig.
  - assert (K : exists o, parse_field_options u sf = (o, true, None)) by eauto. apply field_ignored in K. tauto.
  - destruct o as [id name req]. apply field_accepted in E. destruct E as (X & _ & opts & W & _).
    rewrite H1 in X; [discriminate|eauto].
Qed.
End U.
