(** Property C62: what the error of a parse says. *)
From Coq Require Import Strings.String Permutation Sorted.
From Verif Require Import Base BaseLemmas GoType Utf8 Tokens Scan Parse ParseText PosSpec PosProof BadDefs Properties_File Properties_Places.
Local Open Scope list_scope.

(** ** C62 *)
(** The decimal form of a number: digits, the first of them not 0 unless it is the only one. *)
Definition decimal_form (n : nat) (ds : list byte) : Prop :=
  ds <> [] /\ Forall (fun c => 48 <= b2z c <= 57) ds /\
  Z.of_nat n = fold_left (fun acc c => 10 * acc + (b2z c - 48)) ds 0 /\
  (forall c r, ds = c :: r -> b2z c = 48 -> r = []).

Lemma dec_text_form fuel : forall n, (n < fuel)%nat -> decimal_form n (dec_text fuel n).
Proof.
  unfold decimal_form. induction fuel as [|m IH]; intros n Hn; [lia|]. cbn [dec_text].
  assert (Hd : (n mod 10 < 10)%nat) by (apply Nat.mod_upper_bound; lia).
  assert (Hb : b2z (z2b (48 + Z.of_nat (n mod 10))) = 48 + Z.of_nat (n mod 10)) by (rewrite b2z_z2b; apply Z.mod_small; lia).
  set (d := (n mod 10)%nat) in *. assert (En : (n = 10 * (n / 10) + d)%nat) by (unfold d; apply Nat.div_mod; lia).
  destruct (Nat.ltb_spec n 10) as [Hs|Hs].
  - rewrite Nat.div_small in En by exact Hs. conj.
    + cbn [app]. discriminate.
    + constructor; [rewrite Hb; lia|constructor].
    + cbn [app fold_left]. rewrite Hb. lia.
    + intros c r E _. injection E as _ <-. reflexivity.
  - assert (Hq : (0 < n / 10)%nat) by (apply Nat.div_str_pos; lia).
    destruct (IH (n / 10)%nat) as (I1 & I2 & I3 & I4); [pose proof (Nat.div_lt n 10); lia|].
    conj.
    + intros E. now apply app_eq_nil in E as [_ E].
    + apply Forall_app. split; [exact I2|]. constructor; [rewrite Hb; lia|constructor].
    + rewrite fold_left_app, <- I3. cbn [fold_left]. rewrite Hb. lia.
    + intros c r E E0. destruct (dec_text m (n / 10)) as [|c' r'] eqn:D; [now elim I1|]. injection E as -> E.
      rewrite (I4 c r' eq_refl E0) in I3. cbn [fold_left] in I3. lia.
Qed.
Lemma itoa_form n : decimal_form n (itoa n).
Proof. apply dec_text_form. lia. Qed.

Lemma digits_split c l l' r r' : Forall (fun c => 48 <= b2z c <= 57) l -> Forall (fun c => 48 <= b2z c <= 57) l' -> ~ 48 <= b2z c <= 57 ->
  l ++ c :: r = l' ++ c :: r' -> l = l' /\ r = r'.
Proof.
  intros H. revert l'. induction H as [|x l Hx _ IH]; intros l' H' Hc E.
  - destruct H' as [|y l' Hy _]; cbn in E; [now injection E as ->|]. injection E as E1 _. subst. contradiction.
  - destruct H' as [|y l' Hy H']; cbn in E; injection E as E1 E2; [subst; contradiction|]. subst y.
    destruct (IH l' H' Hc E2) as [-> ->]. auto.
Qed.

Lemma decimal_form_inj n m ds : decimal_form n ds -> decimal_form m ds -> n = m.
Proof. intros (_ & _ & H & _) (_ & _ & H' & _). lia. Qed.

(** Two ways to sort distinct things give the same list. *)
Lemma sorted_unique {A} (R : A -> A -> Prop) l : forall l', (forall a b, In a l -> In b l -> R a b -> R b a -> a = b) ->
  Permutation l l' -> StronglySorted R l -> StronglySorted R l' -> l = l'.
Proof.
  induction l as [|x l IH]; intros l' Ha Hp Hs Hs'; [apply Permutation_nil in Hp; now subst|].
  destruct l' as [|y l']; [symmetry in Hp; now apply Permutation_nil in Hp|].
  apply StronglySorted_inv in Hs as [Hs Hx]. apply StronglySorted_inv in Hs' as [Hs' Hy].
  assert (E : x = y).
  { assert (In x (y :: l')) by (eapply Permutation_in; [exact Hp|now left]).
    assert (In y (x :: l)) by (eapply Permutation_in; [symmetry; exact Hp|now left]).
    destruct H as [->|H]; [reflexivity|]. destruct H0 as [->|H0]; [reflexivity|].
    apply Ha; [now left|now right|..]; [exact (proj1 (Forall_forall _ _) Hx _ H0)|exact (proj1 (Forall_forall _ _) Hy _ H)]. }
  subst y. f_equal. apply IH; auto; [|now apply Permutation_cons_inv in Hp]. intros a b Ia Ib. apply Ha; now right.
Qed.

Lemma bytes_lt_total a : forall b, bytes_lt a b = false -> bytes_lt b a = false -> a = b.
Proof.
  induction a as [|x a IH]; intros [|y b] H H'; try discriminate; [reflexivity|]. cbn in H, H'. apply orb_false_iff in H, H'.
  destruct H as [H1 H2], H' as [H3 H4]. apply Z.ltb_ge in H1, H3. assert (E : b2z x = b2z y) by lia.
  rewrite E, Z.eqb_refl in H2. rewrite E, Z.eqb_refl in H4. cbn in H2, H4. f_equal; [now apply b2z_inj|now apply IH].
Qed.

(** Which errors Parse returns, and in which order, does not depend on the algorithm of sort.Sort, which is free to exchange
    elements neither of which is less than the other. *)
Theorem C62_order sort sort' u src : sorts sort -> sorts sort' -> parse sort u src = parse sort' u src.
Proof.
  intros Hs Hs'. unfold parse. pose proof (run_inv src u) as R. destruct (p_run u src) as [f s|s|]; try reflexivity.
  f_equal. f_equal. pose proof (i_errs _ _ R) as F. destruct (Hs (s_errs s)) as [P1 S1]. destruct (Hs' (s_errs s)) as [P2 S2].
  apply (sorted_unique (fun a b => perr_less b a = false)); auto; [|now rewrite <- P1].
  intros a b Ia Ib L1 L2. apply (Permutation_Forall P1) in F. rewrite Forall_forall in F.
  destruct (F a Ia) as [_ Pa], (F b Ib) as [_ Pb].
  assert (E : pe_line a = pe_line b /\ pe_col a = pe_col b /\ pe_msg a = pe_msg b).
  { unfold perr_less in L1, L2. destruct (Nat.eqb_spec (pe_line b) (pe_line a)) as [E1|E1], (Nat.eqb_spec (pe_line a) (pe_line b)) as [E2|E2];
      try congruence; cbn [negb] in L1, L2; [|apply Nat.ltb_ge in L1, L2; lia].
    destruct (Nat.eqb_spec (pe_col b) (pe_col a)) as [E3|E3], (Nat.eqb_spec (pe_col a) (pe_col b)) as [E4|E4];
      try congruence; cbn [negb] in L1, L2; [|apply Nat.ltb_ge in L1, L2; lia].
    conj; auto. now apply bytes_lt_total. }
  destruct E as (E1 & E2 & E3). assert (Eo : pe_off a = pe_off b).
  { destruct (Nat.lt_trichotomy (pe_off a) (pe_off b)) as [H|[H|H]]; [|exact H|].
    - destruct (place_mono src _ _ _ _ _ _ Pa Pb H); lia.
    - destruct (place_mono src _ _ _ _ _ _ Pb Pa H); lia. }
  destruct a, b; cbn in *; congruence.
Qed.
Print Assumptions C62_order.

Lemma place_pos src off l c : place src off l c -> (0 < l)%nat /\ (0 < c)%nat.
Proof. intros (starts & s & _ & _ & -> & Hi & _ & ->). split; [destruct starts; [destruct Hi|cbn; lia]|lia]. Qed.

(** The text of the error: the file, line and column of the error that is furthest to the left in the file, what it is, and how
    many there are besides.  No error, no text. *)
Theorem C62_text sort u src f errs filename : sorts sort -> parse sort u src = Some (f, errs) ->
  match parse_error_text filename errs with
  | None => errs = []
  | Some text => exists e rest dl dc more, errs = e :: rest /\
      (forall e', In e' errs -> (pe_off e <= pe_off e')%nat) /\
      place src (pe_off e) (pe_line e) (pe_col e) /\
      decimal_form (pe_line e) dl /\ decimal_form (pe_col e) dc /\
      text = (match filename with [] => [] | _ => filename ++ lit ":" end) ++ dl ++ lit ":" ++ dc ++ lit ": " ++ pe_msg e ++ more /\
      (rest = [] -> more = []) /\
      (rest <> [] -> exists dn, decimal_form (length rest) dn /\ more = lit " (and " ++ dn ++ lit " more errors)")
  end.
Proof.
  intros Hs P. destruct (C48_places sort u src f errs Hs P) as [F So]. destruct errs as [|e rest]; [reflexivity|].
  cbn [parse_error_text]. inversion F as [|? ? [_ Pe] _]; subst. apply StronglySorted_inv in So as [_ Hl].
  destruct (place_pos _ _ _ _ Pe) as [Pl Pc].
  assert (T : error_text filename e = (match filename with [] => [] | _ => filename ++ lit ":" end) ++ itoa (pe_line e) ++ lit ":" ++ itoa (pe_col e) ++ lit ": " ++ pe_msg e).
  { unfold error_text, position_text. replace (0 <? pe_line e)%nat with true by (symmetry; now apply Nat.ltb_lt).
    replace (pe_col e =? 0)%nat with false by (symmetry; apply Nat.eqb_neq; lia).
    destruct (itoa_form (pe_line e)) as (N & _). destruct filename as [|c r]; cbn [app].
    - destruct (itoa (pe_line e)) as [|d ds]; [now elim N|]. cbn [app]. now rewrite <- !app_assoc.
    - rewrite <- !app_assoc. reflexivity. }
  exists e, rest, (itoa (pe_line e)), (itoa (pe_col e)),
    (match rest with [] => [] | _ => lit " (and " ++ itoa (length rest) ++ lit " more errors)" end).
  conj; auto using itoa_form.
  - intros e' [<-|Hi]; [lia|]. exact (proj1 (Forall_forall _ _) Hl _ Hi).
  - unfold errors_text. destruct rest as [|e2 r2]; [rewrite app_nil_r; exact T|].
    replace (length (e :: e2 :: r2) - 1)%nat with (length (e2 :: r2)) by (cbn; lia). rewrite T, <- !app_assoc. reflexivity.
  - now intros ->.
  - intros Hr. destruct rest; [now elim Hr|]. eexists. split; [apply itoa_form|reflexivity].
Qed.
Print Assumptions C62_text.

(** The place can be read off the text. *)
Theorem C62_recover filename e rest e' rest' :
  (0 < pe_line e)%nat -> (0 < pe_col e)%nat -> (0 < pe_line e')%nat -> (0 < pe_col e')%nat ->
  parse_error_text filename (e :: rest) = parse_error_text filename (e' :: rest') ->
  pe_line e = pe_line e' /\ pe_col e = pe_col e'.
Proof.
  intros L C L' C' H.
  assert (T : forall e rest, (0 < pe_line e)%nat -> (0 < pe_col e)%nat -> exists tl,
    errors_text filename (e :: rest) = (match filename with [] => [] | _ => filename ++ lit ":" end) ++ itoa (pe_line e) ++ x3a :: itoa (pe_col e) ++ x3a :: tl).
  { clear. intros e rest L C.
    assert (T : error_text filename e = (match filename with [] => [] | _ => filename ++ lit ":" end) ++ itoa (pe_line e) ++ x3a :: itoa (pe_col e) ++ x3a :: x20 :: pe_msg e).
    { unfold error_text, position_text. replace (0 <? pe_line e)%nat with true by (symmetry; now apply Nat.ltb_lt).
      replace (pe_col e =? 0)%nat with false by (symmetry; apply Nat.eqb_neq; lia).
      destruct (itoa_form (pe_line e)) as (N & _). destruct filename as [|c r]; cbn [app].
      - destruct (itoa (pe_line e)) as [|d ds]; [now elim N|]. cbn [app]. rewrite <- !app_assoc. reflexivity.
      - rewrite <- !app_assoc. reflexivity. }
    unfold errors_text. destruct rest; rewrite T; eexists; rewrite <- ?app_assoc; cbn [app]; rewrite <- ?app_assoc; reflexivity. }
  destruct (T e rest L C) as (tl & E). destruct (T e' rest' L' C') as (tl' & E'). cbn [parse_error_text] in H.
  assert (Hq : errors_text filename (e :: rest) = errors_text filename (e' :: rest')) by congruence. rewrite E, E' in Hq. apply app_inv_head in Hq.
  assert (X : ~ 48 <= b2z x3a <= 57) by (vm_compute; intuition congruence).
  apply digits_split in Hq as [Q1 Q2]; [|apply itoa_form|apply itoa_form|exact X].
  apply digits_split in Q2 as [Q2 _]; [|apply itoa_form|apply itoa_form|exact X].
  split; (eapply decimal_form_inj; [apply itoa_form|]); [rewrite Q1|rewrite Q2]; apply itoa_form.
Qed.
Print Assumptions C62_recover.

Example C62_sample : match parse insertion_sort ascii broken_lines with
  | Some (f, errs) => parse_error_text (lit "a.thrift") errs
  | None => None
  end = Some (lit "a.thrift:2:3: expected definition, found 7 (and 3 more errors)").
Proof. vm_compute. reflexivity. Qed.

(** How an illegal character is named: U+, its number in at least four hexadecimal digits, and the character itself in quotes if
    it can be printed. *)
Definition hex_value (c : byte) : Z := if b2z c <? 58 then b2z c - 48 else b2z c - 55.
Definition hex_form (n : Z) (ds : list byte) : Prop :=
  Forall (fun c => 48 <= b2z c <= 57 \/ 65 <= b2z c <= 70) ds /\
  n = fold_left (fun acc c => 16 * acc + hex_value c) ds 0 /\ (4 <= length ds)%nat /\
  (forall c r, ds = c :: r -> b2z c = 48 -> (length ds <= 4)%nat).

Lemma hex_digit_ok d : 0 <= d < 16 -> (48 <= b2z (hex_digit d) <= 57 \/ 65 <= b2z (hex_digit d) <= 70) /\ hex_value (hex_digit d) = d /\
  (b2z (hex_digit d) = 48 -> d = 0).
Proof.
  intros Hd. unfold hex_value, hex_digit. destruct (Z.ltb_spec d 10); (rewrite b2z_z2b, Z.mod_small by lia).
  - replace (48 + d <? 58) with true by lia. lia.
  - replace (55 + d <? 58) with false by lia. lia.
Qed.

Lemma hex_digits_ok fuel : forall n, 0 <= n < 16 ^ Z.of_nat fuel -> (0 < fuel)%nat ->
  Forall (fun c => 48 <= b2z c <= 57 \/ 65 <= b2z c <= 70) (hex_digits fuel n) /\
  n = fold_left (fun acc c => 16 * acc + hex_value c) (hex_digits fuel n) 0 /\
  (exists c r, hex_digits fuel n = c :: r /\ (b2z c = 48 -> r = [])).
Proof.
  induction fuel as [|m IH]; intros n Hn Hf; [lia|]. cbn [hex_digits]. rewrite Nat2Z.inj_succ, Z.pow_succ_r in Hn by lia.
  pose proof (Z.div_mod n 16 ltac:(lia)) as En. pose proof (Z.mod_pos_bound n 16 ltac:(lia)) as Hd.
  destruct (hex_digit_ok _ Hd) as (D1 & D2 & D3). destruct (Z.ltb_spec n 16) as [Hs|Hs].
  - rewrite (Z.mod_small n 16) in * by lia. conj; [now constructor|cbn [app fold_left]; lia|].
    eexists. eexists. split; reflexivity.
  - assert (Hm : (0 < m)%nat) by (destruct m; [cbn in Hn; lia|lia]).
    destruct (IH (n / 16)) as (I1 & I2 & c & r & I3 & I4); [|exact Hm|].
    { split; [apply Z.div_pos; lia|]. apply Z.div_lt_upper_bound; lia. }
    conj.
    + apply Forall_app. split; [exact I1|]. now constructor.
    + rewrite fold_left_app, <- I2. cbn [fold_left]. lia.
    + exists c, (r ++ [hex_digit (n mod 16)]). split; [now rewrite I3|]. intros E. exfalso. rewrite I3, (I4 E) in I2. cbn [fold_left] in I2.
      assert (1 <= n / 16) by (apply Z.div_le_lower_bound; lia). unfold hex_value in I2. rewrite E in I2. cbn in I2. lia.
Qed.

Theorem C62_code_point u r : 0 <= r < 2 ^ 21 ->
  exists ds, hex_form r ds /\
    fmt_U u r = lit "U+" ++ ds ++ (if is_print u r then lit " '" ++ encode_rune r ++ lit "'" else []).
Proof.
  intros Hr. destruct (hex_digits_ok 8 r) as (H1 & H2 & c & l & H3 & H4); [cbn; lia|lia|].
  exists (pad_left 4 (z2b 48) (hex_digits 8 r)). split; [|reflexivity].
  unfold pad_left. set (k := (4 - length (hex_digits 8 r))%nat).
  assert (Z0 : forall k, fold_left (fun acc c => 16 * acc + hex_value c) (repeat (z2b 48) k) 0 = 0).
  { induction k0 as [|j IH]; [reflexivity|]. cbn [repeat fold_left]. exact IH. }
  unfold hex_form. conj.
  - apply Forall_app. split; [|exact H1]. apply Forall_forall. intros x Hx. apply repeat_spec in Hx. subst x. left. vm_compute. intuition discriminate.
  - rewrite fold_left_app, Z0. exact H2.
  - rewrite app_length, repeat_length. unfold k. lia.
  - intros c' l' E E0. rewrite app_length, repeat_length. destruct k as [|j] eqn:Ek.
    + cbn [repeat app] in E. rewrite H3 in E. injection E as <- <-. rewrite H3, (H4 E0). cbn. lia.
    + unfold k in Ek. lia.
Qed.
Print Assumptions C62_code_point.
Example C62_sample_code_points : fmt_U ascii 0x7f = lit "U+007F" /\ fmt_U ascii 64 = lit "U+0040 '@'".
Proof. vm_compute. auto. Qed.

(** The character is shown as it stands in the source. *)
Theorem C62_as_written s r w : decode_rune s = (r, w) -> (1 < w)%nat \/ 0 <= r < 128 -> s <> [] -> encode_rune r = firstn w s.
Proof.
  assert (B : forall q x k, 0 <= k < 64 -> x = q * 64 + k -> x / 64 = q /\ x mod 64 = k).
  { intros q x k Hk E. pose proof (Z.div_mod x 64 ltac:(lia)). pose proof (Z.mod_pos_bound x 64 ltac:(lia)). lia. }
  assert (K : forall b lo hi, cont_in lo hi b = true -> lo <= b2z b <= hi) by (unfold cont_in; intros; lia).
  assert (Y : forall b x, x = b2z b -> z2b x = b) by (intros b x ->; apply z2b_b2z).
  destruct s as [|b0 t]; intros H Hw Hs; [now elim Hs|]. cbn [decode_rune] in H. pose proof (b2z_range b0) as R0.
  destruct (Z.ltb_spec (b2z b0) 0x80).
  { injection H as <- <-. unfold encode_rune. replace (b2z b0 <? 0x80) with true by lia. cbn [firstn]. now rewrite z2b_b2z. }
  assert (Bad : (RuneError, 1%nat) = (r, w) -> encode_rune r = firstn w (b0 :: t)).
  { intros E. injection E as <- <-. unfold RuneError in Hw. lia. }
  destruct ((0xC2 <=? b2z b0) && (b2z b0 <=? 0xDF)) eqn:E1.
  { destruct t as [|b1 t]; [exact (Bad H)|]. destruct (cont_in 0x80 0xBF b1) eqn:C1; [|exact (Bad H)]. apply K in C1.
    injection H as <- <-. destruct (B (b2z b0 - 0xC0) ((b2z b0 - 0xC0) * 64 + (b2z b1 - 0x80)) (b2z b1 - 0x80)) as [Q1 Q2]; [lia|lia|].
    unfold encode_rune. rewrite Q1, Q2. replace (_ <? 0x80) with false by lia. replace (_ <? 0x800) with true by lia.
    cbn [firstn]. f_equal; [apply Y; lia|]. f_equal. apply Y. lia. }
  destruct ((0xE0 <=? b2z b0) && (b2z b0 <=? 0xEF)) eqn:E2.
  { destruct t as [|b1 [|b2 t]]; try exact (Bad H).
    destruct (cont_in _ _ b1) eqn:C1; [|exact (Bad H)]. destruct (cont_in 0x80 0xBF b2) eqn:C2; [|exact (Bad H)]. apply K in C1, C2. cbn [andb] in H.
    injection H as <- <-. set (x := (b2z b0 - 0xE0) * 4096 + (b2z b1 - 0x80) * 64 + (b2z b2 - 0x80)).
    assert (L1 : 0x80 <= b2z b1 <= 0xBF) by (destruct (b2z b0 =? 0xE0), (b2z b0 =? 0xED); lia).
    assert (L2 : b2z b0 = 0xE0 -> 0xA0 <= b2z b1) by (intros E; rewrite E in C1; cbn in C1; lia).
    destruct (B ((b2z b0 - 0xE0) * 64 + (b2z b1 - 0x80)) x (b2z b2 - 0x80)) as [Q1 Q2]; [lia|unfold x; lia|].
    destruct (B (b2z b0 - 0xE0) ((b2z b0 - 0xE0) * 64 + (b2z b1 - 0x80)) (b2z b1 - 0x80)) as [Q3 Q4]; [lia|lia|].
    assert (Q5 : x / 4096 = b2z b0 - 0xE0) by (replace 4096 with (64 * 64) by lia; rewrite <- Z.div_div, Q1 by lia; exact Q3).
    unfold encode_rune. rewrite Q5, Q2, Q1, Q4. unfold x. replace (_ <? 0x80) with false by lia. replace (_ <? 0x800) with false by lia. replace (_ <? 0x10000) with true by lia.
    cbn [firstn]. f_equal; [apply Y; lia|]. f_equal; [apply Y; lia|]. f_equal. apply Y. lia. }
  destruct ((0xF0 <=? b2z b0) && (b2z b0 <=? 0xF4)) eqn:E3; [|exact (Bad H)].
  destruct t as [|b1 [|b2 [|b3 t]]]; try exact (Bad H).
  destruct (cont_in _ _ b1) eqn:C1; [|exact (Bad H)]. destruct (cont_in 0x80 0xBF b2) eqn:C2; [|exact (Bad H)]. destruct (cont_in 0x80 0xBF b3) eqn:C3; [|exact (Bad H)].
  apply K in C1, C2, C3. cbn [andb] in H.
  injection H as <- <-. set (x := (b2z b0 - 0xF0) * 262144 + (b2z b1 - 0x80) * 4096 + (b2z b2 - 0x80) * 64 + (b2z b3 - 0x80)).
  assert (L1 : 0x80 <= b2z b1 <= 0xBF) by (destruct (b2z b0 =? 0xF0), (b2z b0 =? 0xF4); lia).
  assert (L2 : b2z b0 = 0xF0 -> 0x90 <= b2z b1) by (intros E; rewrite E in C1; cbn in C1; lia).
  destruct (B ((b2z b0 - 0xF0) * 4096 + (b2z b1 - 0x80) * 64 + (b2z b2 - 0x80)) x (b2z b3 - 0x80)) as [Q1 Q2]; [lia|unfold x; lia|].
  destruct (B ((b2z b0 - 0xF0) * 64 + (b2z b1 - 0x80)) ((b2z b0 - 0xF0) * 4096 + (b2z b1 - 0x80) * 64 + (b2z b2 - 0x80)) (b2z b2 - 0x80)) as [Q3 Q4]; [lia|lia|].
  destruct (B (b2z b0 - 0xF0) ((b2z b0 - 0xF0) * 64 + (b2z b1 - 0x80)) (b2z b1 - 0x80)) as [Q5 Q6]; [lia|lia|].
  assert (Q7 : x / 4096 = (b2z b0 - 0xF0) * 64 + (b2z b1 - 0x80)) by (replace 4096 with (64 * 64) by lia; rewrite <- Z.div_div, Q1 by lia; exact Q3).
  assert (Q8 : x / 262144 = b2z b0 - 0xF0) by (replace 262144 with (4096 * 64) by lia; rewrite <- Z.div_div, Q7 by lia; exact Q5).
  unfold encode_rune. rewrite Q8, Q7, Q6, Q2, Q1, Q4. unfold x. replace (_ <? 0x80) with false by lia. replace (_ <? 0x800) with false by lia. replace (_ <? 0x10000) with false by lia.
  cbn [firstn]. f_equal; [apply Y; lia|]. f_equal; [apply Y; lia|]. f_equal; [apply Y; lia|]. f_equal. apply Y. lia.
Qed.
Print Assumptions C62_as_written.
