(** reflect.StructTag.Lookup against the grammar of struct tags. *)
From Coq Require Import Strings.String.
From Verif Require Import Base BaseLemmas Prog Wire GoFloat Utf8 GoType GoTypeProof LexProof StructTag StructTagSpec Properties_ParseText.
Local Open Scope list_scope.

(** ** UTF-8 *)
Lemma byte_z b z : b2z b = z -> 0 <= z < 256 -> b = z2b z.
Proof. intros <- _. now rewrite z2b_b2z. Qed.

Lemma decode_encode r s : scalar_value r -> decode_rune (encode_rune r ++ s) = (r, length (encode_rune r)).
Proof.
  intros Hr. unfold scalar_value in Hr. unfold encode_rune.
  destruct (Z.ltb_spec r 0x80).
  { cbn [app decode_rune length]. rewrite b2z_z2b_small by lia. destruct (Z.ltb_spec r 0x80); [reflexivity|lia]. }
  assert (D : forall x, 0 <= x -> x = 64 * (x / 64) + x mod 64 /\ 0 <= x mod 64 < 64 /\ 0 <= x / 64).
  { intros x Hx. pose proof (Z.div_mod x 64 ltac:(lia)). pose proof (Z.mod_pos_bound x 64 ltac:(lia)).
    pose proof (Z.div_pos x 64). lia. }
  destruct (D r ltac:(lia)) as (D1 & D2 & D3).
  destruct (Z.ltb_spec r 0x800).
  { cbn [app decode_rune length]. rewrite (b2z_z2b_small (0xC0 + r / 64)) by lia.
    destruct (Z.ltb_spec (0xC0 + r / 64) 0x80); [lia|].
    destruct (Z.leb_spec 0xC2 (0xC0 + r / 64)); [|lia]. destruct (Z.leb_spec (0xC0 + r / 64) 0xDF); [|lia]. cbn [andb].
    unfold cont_in. rewrite b2z_z2b_small by lia.
    destruct (Z.leb_spec 0x80 (0x80 + r mod 64)); [|lia]. destruct (Z.leb_spec (0x80 + r mod 64) 0xBF); [|lia]. cbn [andb].
    f_equal. lia. }
  replace (r / 4096) with (r / 64 / 64) by (rewrite Z.div_div by lia; reflexivity).
  destruct (D (r / 64) ltac:(lia)) as (E1 & E2 & E3).
  destruct (Z.ltb_spec r 0x10000).
  { cbn [app decode_rune length]. rewrite (b2z_z2b_small (0xE0 + r / 64 / 64)) by lia.
    destruct (Z.ltb_spec (0xE0 + r / 64 / 64) 0x80); [lia|].
    destruct (Z.leb_spec (0xE0 + r / 64 / 64) 0xDF); [lia|]. rewrite andb_false_r.
    destruct (Z.leb_spec 0xE0 (0xE0 + r / 64 / 64)); [|lia]. destruct (Z.leb_spec (0xE0 + r / 64 / 64) 0xEF); [|lia]. cbn [andb].
    cbv zeta. unfold cont_in. rewrite !b2z_z2b_small by lia.
    replace (_ && _ && _) with true.
    - f_equal. lia.
    - symmetry. repeat (apply andb_true_intro; split); try (apply Z.leb_le; lia).
      + apply Z.leb_le. destruct (Z.eqb_spec (0xE0 + r / 64 / 64) 0xE0); lia.
      + apply Z.leb_le. destruct (Z.eqb_spec (0xE0 + r / 64 / 64) 0xED); lia. }
  replace (r / 262144) with (r / 64 / 64 / 64) by (rewrite !Z.div_div by lia; reflexivity).
  destruct (D (r / 64 / 64) ltac:(lia)) as (F1 & F2 & F3).
  cbn [app decode_rune length]. rewrite (b2z_z2b_small (0xF0 + r / 64 / 64 / 64)) by lia.
  destruct (Z.ltb_spec (0xF0 + r / 64 / 64 / 64) 0x80); [lia|].
  destruct (Z.leb_spec (0xF0 + r / 64 / 64 / 64) 0xDF); [lia|]. rewrite andb_false_r.
  destruct (Z.leb_spec (0xF0 + r / 64 / 64 / 64) 0xEF); [lia|]. rewrite andb_false_r.
  destruct (Z.leb_spec 0xF0 (0xF0 + r / 64 / 64 / 64)); [|lia]. destruct (Z.leb_spec (0xF0 + r / 64 / 64 / 64) 0xF4); [|lia]. cbn [andb].
  cbv zeta. unfold cont_in. rewrite !b2z_z2b_small by lia.
  match goal with |- context [if ?c then _ else _] => lazymatch c with _ && _ => replace c with true end end.
  - f_equal. lia.
  - symmetry. repeat (apply andb_true_intro; split); try (apply Z.leb_le; lia).
    + apply Z.leb_le. destruct (Z.eqb_spec (0xF0 + r / 64 / 64 / 64) 0xF0); lia.
    + apply Z.leb_le. destruct (Z.eqb_spec (0xF0 + r / 64 / 64 / 64) 0xF4); lia.
Qed.

(** What decoding a byte from 0x80 on can give. *)
Lemma decode_cases b s : 0x80 <= b2z b ->
  decode_rune (b :: s) = (RuneError, 1%nat) \/
  exists r w, decode_rune (b :: s) = (r, w) /\ (1 < w)%nat /\ scalar_value r /\ 0x80 <= r.
Proof.
  intros Hb. pose proof (b2z_range b). unfold scalar_value. cbn [decode_rune].
  assert (K : forall b lo hi, cont_in lo hi b = true -> lo <= b2z b <= hi) by (unfold cont_in; intros; lia).
  destruct (Z.ltb_spec (b2z b) 0x80); [lia|].
  destruct ((0xC2 <=? b2z b) && (b2z b <=? 0xDF)) eqn:E1.
  { destruct s as [|b1 s]; [now left|]. destruct (cont_in 0x80 0xBF b1) eqn:C1; [|now left]. apply K in C1. right.
    do 2 eexists. split; [reflexivity|]. lia. }
  destruct ((0xE0 <=? b2z b) && (b2z b <=? 0xEF)) eqn:E2.
  { destruct s as [|b1 [|b2 s]]; [now left|now left|]. cbv zeta.
    destruct (cont_in _ _ b1 && cont_in 0x80 0xBF b2) eqn:C; [|now left]. apply andb_prop in C. destruct C as [C1 C2].
    apply K in C1. apply K in C2. right. do 2 eexists. split; [reflexivity|].
    destruct (Z.eqb_spec (b2z b) 0xE0); destruct (Z.eqb_spec (b2z b) 0xED); lia. }
  destruct ((0xF0 <=? b2z b) && (b2z b <=? 0xF4)) eqn:E3; [|now left].
  destruct s as [|b1 [|b2 [|b3 s]]]; [now left|now left|now left|]. cbv zeta.
  destruct (cont_in _ _ b1 && cont_in 0x80 0xBF b2 && cont_in 0x80 0xBF b3) eqn:C; [|now left].
  apply andb_prop in C. destruct C as [C C3]. apply andb_prop in C. destruct C as [C1 C2].
  apply K in C1. apply K in C2. apply K in C3. right. do 2 eexists. split; [reflexivity|].
  destruct (Z.eqb_spec (b2z b) 0xF0); destruct (Z.eqb_spec (b2z b) 0xF4); lia.
Qed.

Lemma encode_high r : scalar_value r -> 0x80 <= r -> Forall (fun b => 0x80 <= b2z b) (encode_rune r).
Proof.
  intros Hr H. unfold scalar_value in Hr. unfold encode_rune.
  assert (M : forall x, 0 <= x mod 64 < 64) by (intros; apply Z.mod_pos_bound; lia).
  assert (Q : forall k, 0 < k -> 0 <= r / k) by (intros; apply Z.div_pos; lia).
  destruct (Z.ltb_spec r 0x80); [lia|].
  destruct (Z.ltb_spec r 0x800).
  { assert (r / 64 < 64) by (apply Z.div_lt_upper_bound; lia). specialize (Q 64 ltac:(lia)). pose proof (M r).
    repeat constructor; rewrite b2z_z2b_small; lia. }
  destruct (Z.ltb_spec r 0x10000).
  { assert (r / 4096 < 16) by (apply Z.div_lt_upper_bound; lia). specialize (Q 4096 ltac:(lia)). pose proof (M r). pose proof (M (r / 64)).
    repeat constructor; rewrite b2z_z2b_small; lia. }
  assert (r / 262144 < 8) by (apply Z.div_lt_upper_bound; lia). specialize (Q 262144 ltac:(lia)).
  pose proof (M r). pose proof (M (r / 64)). pose proof (M (r / 4096)).
  repeat constructor; rewrite b2z_z2b_small; lia.
Qed.

Lemma encode_low r : 0 <= r < 0x80 -> encode_rune r = [z2b r].
Proof. intros H. unfold encode_rune. destruct (Z.ltb_spec r 0x80); [reflexivity|lia]. Qed.
Lemma encode_long r : scalar_value r -> 0x80 <= r -> (1 < length (encode_rune r))%nat.
Proof.
  intros _ H. unfold encode_rune. destruct (Z.ltb_spec r 0x80); [lia|].
  destruct (r <? 0x800); [cbn; lia|]. destruct (r <? 0x10000); cbn; lia.
Qed.
Lemma encode_nonempty r : encode_rune r <> [].
Proof. unfold encode_rune. destruct (r <? 0x80); [discriminate|]. destruct (r <? 0x800); [discriminate|]. destruct (r <? 0x10000); discriminate. Qed.

(** A byte that begins no character. *)
Lemma bad_byte b s : (forall r s', scalar_value r -> b :: s <> encode_rune r ++ s') <->
  0x80 <= b2z b /\ decode_rune (b :: s) = (RuneError, 1%nat).
Proof.
  pose proof (b2z_range b) as Rb. split.
  - intros H. assert (Hb : 0x80 <= b2z b).
    { destruct (Z.le_gt_cases 0x80 (b2z b)); [assumption|]. exfalso.
      apply (H (b2z b) s); [left; lia|]. rewrite encode_low by lia. now rewrite z2b_b2z. }
    split; [exact Hb|]. destruct (decode_cases b s Hb) as [D|(r & w & D & Hw & Hs & Hr)]; [exact D|]. exfalso.
    apply (H r (skipn w (b :: s)) Hs). rewrite (C62_as_written (b :: s) r w D); [now rewrite firstn_skipn|auto|discriminate].
  - intros [Hb D] r s' Hs E. rewrite E, (decode_encode r s' Hs) in D. injection D as -> L.
    revert L. unfold RuneError. vm_compute. discriminate.
Qed.

(** A closing quote after it changes nothing. *)
Lemma bad_quote b s q : (forall r s', scalar_value r -> b :: s <> encode_rune r ++ s') ->
  forall r s', scalar_value r -> (b :: s) ++ x22 :: q <> encode_rune r ++ s'.
Proof.
  intros H r s' Hs E. destruct (Z.le_gt_cases 0x80 r) as [Hr|Hr].
  - pose proof (encode_high r Hs Hr) as F.
    destruct (Nat.le_gt_cases (length (encode_rune r)) (length (b :: s))) as [L|L].
    + apply (H r (skipn (length (encode_rune r)) (b :: s)) Hs).
      pose proof (f_equal (firstn (length (encode_rune r))) E) as E1. rewrite !firstn_app in E1.
      replace (length (encode_rune r) - length (b :: s))%nat with O in E1 by lia.
      rewrite Nat.sub_diag, firstn_all in E1. cbn [firstn] in E1. rewrite !app_nil_r in E1.
      rewrite <- E1 at 1. now rewrite firstn_skipn.
    + assert (G : nth_error (encode_rune r) (length (b :: s)) = Some x22).
      { rewrite <- (nth_error_app1 _ s') by lia. rewrite <- E. rewrite nth_error_app2 by lia. now rewrite Nat.sub_diag. }
      apply nth_error_In in G. rewrite Forall_forall in F. apply F in G. vm_compute in G. now elim G.
  - unfold scalar_value in Hs. rewrite encode_low in E by lia. injection E as E0 E1.
    apply (H r s); [left; lia|]. rewrite encode_low by lia. cbn [app]. now f_equal.
Qed.

(** ** Numerals *)
Lemma digit_cases ds b v : digit_in ds b v -> exists k, (k < length ds)%nat /\ v = Z.of_nat k /\ nth_error ds k = Some b.
Proof.
  intros [H N]. exists (Z.to_nat v). split; [|split; [lia|exact N]]. apply nth_error_Some. congruence.
Qed.
Lemma unhex_spec b v : unhex b = Some v <-> hex_digit_of b v.
Proof.
  split.
  - intros H. destruct b; vm_compute in H; try discriminate; injection H as <-; unfold hex_digit_of, digit_in;
      first [left; split; [lia|reflexivity] | right; split; [lia|reflexivity]].
  - intros [H|H]; destruct (digit_cases _ _ _ H) as (k & L & -> & N); cbn [length lit list_byte_of_string] in L;
    do 16 (destruct k as [|k]; [vm_compute in N; injection N as <-; reflexivity|]); destruct k; discriminate N.
Qed.
Lemma oct_spec b v : oct_digit b = Some v <-> oct_digit_of b v.
Proof.
  split.
  - intros H. destruct b; vm_compute in H; try discriminate; injection H as <-; (split; [lia|reflexivity]).
  - intros H; destruct (digit_cases _ _ _ H) as (k & L & -> & N).
    do 8 (destruct k as [|k]; [vm_compute in N; injection N as <-; reflexivity|]); destruct k; discriminate N.
Qed.

Lemma hex_run_sound n : forall v s x rest pre, hex_run n v s = Some (x, rest) -> numeral 16 hex_digit_of pre v ->
  exists ds, length ds = n /\ s = ds ++ rest /\ numeral 16 hex_digit_of (pre ++ ds) x.
Proof.
  induction n as [|n IH]; intros v s x rest pre E N; cbn [hex_run] in E.
  - injection E as <- <-. exists []. rewrite app_nil_r. auto.
  - destruct s as [|b r]; [discriminate|]. destruct (unhex b) as [y|] eqn:U; [|discriminate]. apply unhex_spec in U.
    destruct (IH _ _ _ _ (pre ++ [b]) E) as (ds & L & -> & N').
    + replace (v * 16 + y) with (16 * v + y) by lia. now constructor.
    + exists (b :: ds). cbn [length]. rewrite <- app_assoc in N'. auto.
Qed.
Lemma hex_run_plus n m : forall v s, hex_run (n + m) v s = match hex_run n v s with Some (x, r) => hex_run m x r | None => None end.
Proof.
  induction n as [|n IH]; intros v s; cbn [hex_run Nat.add]; [reflexivity|].
  destruct s as [|b r]; [reflexivity|]. destruct (unhex b); [apply IH|reflexivity].
Qed.
Lemma hex_run_complete ds x : numeral 16 hex_digit_of ds x -> forall rest, hex_run (length ds) 0 (ds ++ rest) = Some (x, rest).
Proof.
  induction 1 as [|ds v b y N IH D]; intros rest; [reflexivity|].
  rewrite app_length. cbn [length]. rewrite hex_run_plus, <- app_assoc, IH. cbn [app hex_run].
  apply unhex_spec in D. rewrite D. do 2 f_equal. lia.
Qed.
Lemma oct_numeral a b c x y z : oct_digit_of a x -> oct_digit_of b y -> oct_digit_of c z ->
  numeral 8 oct_digit_of [a; b; c] ((x * 8 + y) * 8 + z).
Proof.
  intros A B C. replace ((x * 8 + y) * 8 + z) with (8 * (8 * (8 * 0 + x) + y) + z) by lia.
  apply (num_snoc _ _ [a; b]); [|exact C]. apply (num_snoc _ _ [a]); [|exact B]. apply (num_snoc _ _ []); [constructor|exact A].
Qed.
Lemma numeral_snoc base D ds b x : numeral base D (ds ++ [b]) x -> exists v y, numeral base D ds v /\ D b y /\ x = base * v + y.
Proof.
  intros H. inversion H as [E|ds' v b' y N Db E]; [destruct ds; discriminate|]. apply app_inj_tail in E. destruct E as [-> ->]. eauto.
Qed.
Lemma oct_numeral_inv ds v : length ds = 3%nat -> numeral 8 oct_digit_of ds v -> exists a b c x y z, ds = [a; b; c] /\
  oct_digit_of a x /\ oct_digit_of b y /\ oct_digit_of c z /\ v = (x * 8 + y) * 8 + z.
Proof.
  intros L H. destruct ds as [|a [|b [|c [|]]]]; try discriminate.
  apply (numeral_snoc _ _ [a; b] c) in H. destruct H as (v1 & z & H & C & ->).
  apply (numeral_snoc _ _ [a] b) in H. destruct H as (v2 & y & H & B & ->).
  apply (numeral_snoc _ _ [] a) in H. destruct H as (v3 & x & H & A & ->).
  assert (V : v3 = 0) by (inversion H as [E|ds' ? ? ? ? ? E]; [reflexivity|destruct ds'; discriminate]). subst v3.
  exists a, b, c, x, y, z. split; [reflexivity|]. split; [exact A|]. split; [exact B|]. split; [exact C|]. lia.
Qed.

Lemma valid_rune_spec r : valid_rune r = true <-> scalar_value r.
Proof. unfold valid_rune, scalar_value. lia. Qed.

(** ** One character *)
Definition chr (v : Z) (multi : bool) : list byte := if (v <? 0x80) || negb multi then [z2b v] else encode_rune v.

Lemma chr_true v : scalar_value v -> chr v true = encode_rune v.
Proof.
  intros H. unfold chr. destruct (Z.ltb_spec v 0x80); cbn [orb negb]; [|reflexivity].
  unfold scalar_value in H. rewrite encode_low by lia. reflexivity.
Qed.
Lemma chr_false v : chr v false = [z2b v].
Proof. unfold chr. rewrite orb_true_r. reflexivity. Qed.

Lemma b_eq b z : b2z b = z -> b = z2b z.
Proof. intros <-. now rewrite z2b_b2z. Qed.

Lemma char_sound b s v m rem : unquote_char (b :: s) = Some (v, m, rem) -> b2z b <> 10 ->
  exists p, p <> [] /\ b :: s = p ++ rem /\
  forall body q w, rem = body ++ x22 :: q -> literal body w -> literal (p ++ body) (chr v m ++ w).
Proof.
  intros E Hn. unfold unquote_char in E. pose proof (b2z_range b) as Rb.
  destruct (Z.eqb_spec (b2z b) 34) as [|N34]; [discriminate|].
  destruct (Z.leb_spec 0x80 (b2z b)) as [Hb|Hb].
  { destruct (decode_rune (b :: s)) as [r w] eqn:D. injection E as <- <- <-.
    destruct (decode_cases b s Hb) as [D'|(r' & w' & D' & Hw & Hs & Hr)]; rewrite D in D'; injection D' as -> ->.
    - exists [b]. split; [discriminate|]. split; [reflexivity|]. intros body q w E L.
      rewrite chr_true by (right; unfold RuneError; lia). cbn [app]. apply lit_bad; [|exact L].
      intros r s' Hs E'. cbn [skipn] in E.
      assert (F : b :: s = encode_rune r ++ (s' ++ x22 :: q)) by (rewrite app_assoc, <- E', E; reflexivity).
      destruct (proj2 (bad_byte b s) (conj Hb D) r _ Hs F).
    - assert (W : encode_rune r' = firstn w' (b :: s)) by (apply (C62_as_written _ _ _ D); [auto|discriminate]).
      exists (encode_rune r'). split; [apply encode_nonempty|]. split; [rewrite W; symmetry; apply firstn_skipn|].
      intros body q w E L. rewrite chr_true by exact Hs. apply lit_char; auto; lia. }
  destruct (Z.eqb_spec (b2z b) 92) as [E92|N92]; cbn [negb] in E.
  2:{ injection E as <- <- <-. exists [b]. split; [discriminate|]. split; [reflexivity|]. intros body q w _ L.
      rewrite chr_false, z2b_b2z.
      pose proof (lit_char (b2z b) body w ltac:(left; lia) N34 N92 Hn L) as G. rewrite encode_low, z2b_b2z in G by lia. exact G. }
  apply b_eq in E92. change (z2b 92) with x5c in E92. subst b.
  destruct s as [|e t]; [discriminate|].
  assert (Simple : forall c x, b2z e = c -> In (z2b c, z2b x) simple_escapes -> Some (x, false, t) = Some (v, m, rem) ->
    exists p, p <> [] /\ x5c :: e :: t = p ++ rem /\
      forall body q w, rem = body ++ x22 :: q -> literal body w -> literal (p ++ body) (chr v m ++ w)).
  { intros c x Ec I E'. injection E' as <- <- <-. apply b_eq in Ec. subst e. exists [x5c; z2b c]. split; [discriminate|].
    split; [reflexivity|]. intros body q w _ L. rewrite chr_false. cbn [app]. now apply lit_simple. }
  repeat match type of E with
  | (if ?c =? ?k then Some (?x, false, ?t) else _) = _ =>
      destruct (Z.eqb_spec c k) as [Q|_]; [apply (Simple k x Q); [cbn; tauto|exact E]|]
  end.
  destruct (Z.eqb_spec (b2z e) 120) as [Q|_].
  { apply b_eq in Q. change (z2b 120) with x78 in Q. subst e. destruct (hex_run 2 0 t) as [[y t']|] eqn:R; [|discriminate].
    injection E as <- <- <-. destruct (hex_run_sound _ _ _ _ _ [] R (num_nil _ _)) as (ds & Ld & -> & N).
    exists (lit "\x" ++ ds). split; [discriminate|]. split; [reflexivity|]. intros body q w _ L. rewrite chr_false, <- app_assoc. cbn [app].
    now apply lit_x. }
  destruct (Z.eqb_spec (b2z e) 117) as [Q|_].
  { apply b_eq in Q. change (z2b 117) with x75 in Q. subst e. destruct (hex_run 4 0 t) as [[y t']|] eqn:R; [|discriminate].
    destruct (valid_rune y) eqn:V; [|discriminate]. apply valid_rune_spec in V.
    injection E as <- <- <-. destruct (hex_run_sound _ _ _ _ _ [] R (num_nil _ _)) as (ds & Ld & -> & N).
    exists (lit "\u" ++ ds). split; [discriminate|]. split; [reflexivity|]. intros body q w _ L. rewrite chr_true, <- app_assoc by exact V.
    now apply lit_u. }
  destruct (Z.eqb_spec (b2z e) 85) as [Q|_].
  { apply b_eq in Q. change (z2b 85) with x55 in Q. subst e. destruct (hex_run 8 0 t) as [[y t']|] eqn:R; [|discriminate].
    destruct (valid_rune y) eqn:V; [|discriminate]. apply valid_rune_spec in V.
    injection E as <- <- <-. destruct (hex_run_sound _ _ _ _ _ [] R (num_nil _ _)) as (ds & Ld & -> & N).
    exists (lit "\U" ++ ds). split; [discriminate|]. split; [reflexivity|]. intros body q w _ L. rewrite chr_true, <- app_assoc by exact V.
    now apply lit_U. }
  destruct (oct_digit e) as [v0|] eqn:O.
  { destruct t as [|a [|c t]]; try discriminate.
    destruct (oct_digit a) as [x|] eqn:A; [|discriminate]. destruct (oct_digit c) as [y|] eqn:C; [|discriminate].
    destruct (Z.ltb_spec 255 ((v0 * 8 + x) * 8 + y)); [discriminate|]. injection E as <- <- <-.
    apply oct_spec in O. apply oct_spec in A. apply oct_spec in C.
    exists [x5c; e; a; c]. split; [discriminate|]. split; [reflexivity|]. intros body q w _ L. rewrite chr_false.
    apply (lit_oct [e; a; c]); auto. now apply oct_numeral. }
  destruct (Z.eqb_spec (b2z e) 92) as [Q|_]; [apply (Simple 92 92 Q); [cbn; tauto|exact E]|].
  destruct (Z.eqb_spec (b2z e) 34) as [Q|_]; [apply (Simple 34 34 Q); [cbn; tauto|exact E]|].
  discriminate.
Qed.

(** ** Unquote *)
Lemma loop_sound n : forall s buf out r, unquote_loop n s buf = Some (out, r) ->
  exists body v, s = body ++ x22 :: r /\ literal body v /\ out = buf ++ v.
Proof.
  induction n as [|n IH]; intros s buf out r E; destruct s as [|b s]; cbn [unquote_loop] in E; try discriminate.
  - destruct (Z.eqb_spec (b2z b) 34) as [Q|]; [|discriminate]. injection E as <- <-. apply b_eq in Q. subst b.
    exists [], []. rewrite app_nil_r. repeat split. constructor.
  - destruct (Z.eqb_spec (b2z b) 34) as [Q|].
    { injection E as <- <-. apply b_eq in Q. subst b. exists [], []. rewrite app_nil_r. repeat split. constructor. }
    destruct (unquote_char (b :: s)) as [[[v m] rem]|] eqn:U; [|discriminate].
    destruct (Z.eqb_spec (b2z b) 10) as [|Hn]; [discriminate|].
    destruct (char_sound b s v m rem U Hn) as (p & _ & Es & L). apply IH in E. destruct E as (body & w & -> & Lw & ->).
    exists (p ++ body), (chr v m ++ w). rewrite Es, <- !app_assoc. repeat split. exact (L body r w eq_refl Lw).
Qed.

Lemma loop_step n b s buf v m rem : b2z b <> 34 -> b2z b <> 10 -> unquote_char (b :: s) = Some (v, m, rem) ->
  unquote_loop (S n) (b :: s) buf = unquote_loop n rem (buf ++ chr v m).
Proof.
  intros H1 H2 U. cbn [unquote_loop]. destruct (Z.eqb_spec (b2z b) 34); [contradiction|]. rewrite U.
  destruct (Z.eqb_spec (b2z b) 10); [contradiction|]. reflexivity.
Qed.

Lemma char_high b s r w : 0x80 <= b2z b -> decode_rune (b :: s) = (r, w) -> unquote_char (b :: s) = Some (r, true, skipn w (b :: s)).
Proof.
  intros H D. unfold unquote_char. destruct (Z.eqb_spec (b2z b) 34); [lia|]. destruct (Z.leb_spec 0x80 (b2z b)); [|lia].
  rewrite D. reflexivity.
Qed.

Lemma loop_complete body v : literal body v -> forall n buf q, (length body <= n)%nat ->
  unquote_loop n (body ++ x22 :: q) buf = Some (buf ++ v, q).
Proof.
  induction 1 as [|r s v Hr H1 H2 H3 L IH|b s v Hb L IH|c x s v I L IH|ds x s v Hd N L IH|ds x s v Hd N Hx L IH|ds x s v Hd N Hx L IH|ds x s v Hd N Hx L IH];
    intros n buf q Hn.
  - cbn [app]. rewrite app_nil_r. destruct n; reflexivity.
  - rewrite app_length in Hn. rewrite <- app_assoc.
    assert (K : exists m, n = S m /\ unquote_loop n (encode_rune r ++ s ++ x22 :: q) buf = unquote_loop m (s ++ x22 :: q) (buf ++ encode_rune r) /\ (length s <= m)%nat).
    { pose proof (decode_encode r (s ++ x22 :: q) Hr) as D. pose proof (encode_nonempty r) as Ne.
      destruct (encode_rune r) as [|b t] eqn:Er; [congruence|]. cbn [length] in Hn. destruct n as [|m]; [lia|].
      exists m. split; [reflexivity|]. split; [|lia].
      destruct (Z.le_gt_cases 0x80 r) as [Hh|Hl].
      - pose proof (encode_high r Hr Hh) as F. rewrite Er in F. inversion F as [|? ? Fb _]; subst.
        cbn [app] in *. rewrite (loop_step m b (t ++ s ++ x22 :: q) buf r true (s ++ x22 :: q)).
        + rewrite chr_true, Er by exact Hr. reflexivity.
        + lia.
        + lia.
        + rewrite (char_high _ _ _ _ Fb D). do 2 f_equal.
          change (skipn (length (b :: t)) ((b :: t) ++ s ++ x22 :: q) = s ++ x22 :: q).
          rewrite skipn_app, skipn_all, Nat.sub_diag. reflexivity.
      - unfold scalar_value in Hr. rewrite encode_low in Er by lia. injection Er as <- <-.
        cbn [app] in *. assert (Z : b2z (z2b r) = r) by (apply b2z_z2b_small; lia).
        rewrite (loop_step m (z2b r) (s ++ x22 :: q) buf r false (s ++ x22 :: q)).
        + now rewrite chr_false.
        + lia.
        + lia.
        + unfold unquote_char. rewrite Z. destruct (Z.eqb_spec r 34); [lia|]. destruct (Z.leb_spec 0x80 r); [lia|].
          destruct (Z.eqb_spec r 92); [lia|]. reflexivity. }
    destruct K as (m & _ & -> & Hm). rewrite IH by exact Hm. now rewrite <- app_assoc.
  - cbn [length] in Hn. destruct n as [|n]; [lia|].
    pose proof (proj1 (bad_byte b s) Hb) as [Hh _].
    pose proof (proj1 (bad_byte b (s ++ x22 :: q)) (fun r s' => bad_quote b s q Hb r s')) as [_ D].
    cbn [app]. rewrite (loop_step n b (s ++ x22 :: q) buf RuneError true (s ++ x22 :: q)); [|lia|lia|exact (char_high _ _ _ _ Hh D)].
    rewrite chr_true by (right; unfold RuneError; lia). rewrite IH by lia. now rewrite <- app_assoc.
  - cbn [length] in Hn. destruct n as [|n]; [lia|]. cbn [app].
    rewrite (loop_step n x5c (c :: s ++ x22 :: q) buf (b2z x) false (s ++ x22 :: q)); [|vm_compute; discriminate|vm_compute; discriminate|].
    + rewrite chr_false, z2b_b2z, IH by lia. now rewrite <- app_assoc.
    + cbn in I. repeat (destruct I as [I|I]; [injection I as <- <-; reflexivity|]). destruct I.
  - change (lit "\x") with [x5c; x78] in *. cbn [app length] in *. rewrite app_length in Hn. destruct n as [|n]; [lia|]. rewrite <- app_assoc.
    rewrite (loop_step n x5c (x78 :: ds ++ s ++ x22 :: q) buf x false (s ++ x22 :: q)); [|vm_compute; discriminate|vm_compute; discriminate|].
    + rewrite chr_false, IH by lia. now rewrite <- app_assoc.
    + pose proof (hex_run_complete _ _ N (s ++ x22 :: q)) as R. rewrite Hd in R.
      change (unquote_char (x5c :: x78 :: ds ++ s ++ x22 :: q)) with
        (match hex_run 2 0 (ds ++ s ++ x22 :: q) with Some (v, t) => Some (v, false, t) | None => None end). now rewrite R.
  - change (lit "\") with [x5c] in *. cbn [app length] in *. rewrite app_length in Hn. destruct n as [|n]; [lia|]. rewrite <- app_assoc.
    rewrite (loop_step n x5c (ds ++ s ++ x22 :: q) buf x false (s ++ x22 :: q)); [|vm_compute; discriminate|vm_compute; discriminate|].
    + rewrite chr_false, IH by lia. now rewrite <- app_assoc.
    + destruct (oct_numeral_inv ds x Hd N) as (a & b & c & y1 & y2 & y3 & -> & A & B & C & Ex).
      apply oct_spec in A. apply oct_spec in B. apply oct_spec in C. cbn [app].
      assert (Sm : unquote_char (x5c :: a :: b :: c :: s ++ x22 :: q) =
        match oct_digit a with
        | Some v0 => match oct_digit b, oct_digit c with
            | Some x, Some y => let v := (v0 * 8 + x) * 8 + y in if 255 <? v then None else Some (v, false, s ++ x22 :: q)
            | _, _ => None end
        | None => None end).
      { destruct a; try discriminate A; reflexivity. }
      rewrite Sm, A, B, C, <- Ex. cbv zeta. destruct (Z.ltb_spec 255 x); [lia|reflexivity].
  - change (lit "\u") with [x5c; x75] in *. cbn [app length] in *. rewrite app_length in Hn. destruct n as [|n]; [lia|]. rewrite <- app_assoc.
    rewrite (loop_step n x5c (x75 :: ds ++ s ++ x22 :: q) buf x true (s ++ x22 :: q)); [|vm_compute; discriminate|vm_compute; discriminate|].
    + rewrite chr_true, IH by (exact Hx || lia). now rewrite <- app_assoc.
    + pose proof (hex_run_complete _ _ N (s ++ x22 :: q)) as R. rewrite Hd in R. apply valid_rune_spec in Hx.
      change (unquote_char (x5c :: x75 :: ds ++ s ++ x22 :: q)) with
        (match hex_run 4 0 (ds ++ s ++ x22 :: q) with Some (v, t) => if valid_rune v then Some (v, true, t) else None | None => None end).
      now rewrite R, Hx.
  - change (lit "\U") with [x5c; x55] in *. cbn [app length] in *. rewrite app_length in Hn. destruct n as [|n]; [lia|]. rewrite <- app_assoc.
    rewrite (loop_step n x5c (x55 :: ds ++ s ++ x22 :: q) buf x true (s ++ x22 :: q)); [|vm_compute; discriminate|vm_compute; discriminate|].
    + rewrite chr_true, IH by (exact Hx || lia). now rewrite <- app_assoc.
    + pose proof (hex_run_complete _ _ N (s ++ x22 :: q)) as R. rewrite Hd in R. apply valid_rune_spec in Hx.
      change (unquote_char (x5c :: x55 :: ds ++ s ++ x22 :: q)) with
        (match hex_run 8 0 (ds ++ s ++ x22 :: q) with Some (v, t) => if valid_rune v then Some (v, true, t) else None | None => None end).
      now rewrite R, Hx.
Qed.

Lemma plain_literal n : forall s, (length s <= n)%nat -> contains 92 s = false -> contains 10 s = false -> contains 34 s = false ->
  valid_utf8_n n s = true -> literal s s.
Proof.
  induction n as [|n IH]; intros s Hl C1 C2 C3 V; [destruct s; [constructor|cbn in Hl; lia]|].
  destruct s as [|b s]; [constructor|]. cbn [valid_utf8_n] in V.
  assert (App : forall c p q, contains c (p ++ q) = false -> contains c q = false).
  { intros c p q H. unfold contains in *. rewrite existsb_app in H. now apply orb_false_elim in H. }
  assert (Step : forall r, scalar_value r -> decode_rune (b :: s) = (r, length (encode_rune r)) ->
    b :: s = encode_rune r ++ skipn (length (encode_rune r)) (b :: s) -> r <> 34 -> r <> 92 -> r <> 10 ->
    valid_utf8_n n (skipn (length (encode_rune r)) (b :: s)) = true -> literal (b :: s) (b :: s)).
  { intros r Hr D E N1 N2 N3 V'. rewrite E. apply lit_char; auto. pose proof (encode_nonempty r) as Ne.
    apply IH; [|rewrite E in C1|rewrite E in C2|rewrite E in C3|exact V']; try (eapply App; eassumption).
    rewrite skipn_length. cbn [length] in *. destruct (encode_rune r); [congruence|]. cbn [length]. lia. }
  cbn [contains existsb] in C1, C2, C3. apply orb_false_elim in C1, C2, C3.
  pose proof (b2z_range b) as Rb. destruct (Z.le_gt_cases 0x80 (b2z b)) as [Hb|Hb].
  - destruct (decode_cases b s Hb) as [D|(r & w & D & Hw & Hs & Hr)]; rewrite D in V; [discriminate|].
    assert (W : encode_rune r = firstn w (b :: s)) by (apply (C62_as_written _ _ _ D); [auto|discriminate]).
    assert (Lw : length (encode_rune r) = w).
    { rewrite W, firstn_length. pose proof (decode_rune_fits (b :: s) ltac:(discriminate)) as F. rewrite D in F. cbn [snd] in F. lia. }
    rewrite <- Lw in D, V. destruct (Nat.eqb_spec (length (encode_rune r)) 1); [lia|]. rewrite andb_false_r in V.
    apply (Step r); auto; try lia. rewrite Lw, W at 1. symmetry. apply firstn_skipn.
  - assert (Er : encode_rune (b2z b) = [b]) by (rewrite encode_low by lia; now rewrite z2b_b2z).
    assert (D : decode_rune (b :: s) = (b2z b, 1%nat)).
    { cbn [decode_rune]. destruct (Z.ltb_spec (b2z b) 0x80); [reflexivity|lia]. }
    rewrite D in V. destruct (Z.eqb_spec (b2z b) RuneError) as [X|_]; [unfold RuneError in X; lia|]. cbn [andb] in V.
    apply (Step (b2z b)); rewrite ?Er; auto; [left; lia|lia|lia|lia].
Qed.

Lemma upto_spec s body : upto_quote s = Some body -> exists q, s = body ++ x22 :: q /\ contains 34 body = false.
Proof.
  revert body. induction s as [|b s IH]; intros body E; cbn [upto_quote] in E; [discriminate|].
  destruct (Z.eqb_spec (b2z b) 34) as [Q|N].
  - injection E as <-. apply b_eq in Q. subst b. exists s. split; reflexivity.
  - destruct (upto_quote s) as [t|] eqn:U; [|discriminate]. cbn in E. injection E as <-. destruct (IH t eq_refl) as (q & -> & C).
    exists q. split; [reflexivity|]. cbn [contains existsb]. destruct (Z.eqb_spec (b2z b) 34); [contradiction|exact C].
Qed.
Lemma upto_some s q : exists body, upto_quote (s ++ x22 :: q) = Some body.
Proof.
  induction s as [|b s (t & E)]; [exists []; reflexivity|]. cbn [app upto_quote]. destruct (b2z b =? 34); [eauto|]. rewrite E. cbn. eauto.
Qed.

Lemma unquote_spec body v : unquote (body ++ [x22]) = Some v <-> literal body v.
Proof.
  assert (Cmp : forall w, literal body w -> unquote_loop (length (body ++ [x22])) (body ++ [x22]) [] = Some (w, [])).
  { intros w L. apply (loop_complete body w L _ [] []). rewrite app_length. lia. }
  unfold unquote. destruct (upto_some body []) as (b0 & U). rewrite U.
  destruct (upto_spec _ _ U) as (q & E & C3).
  destruct (negb (contains 92 b0) && negb (contains 10 b0) && valid_utf8 b0) eqn:F.
  - apply andb_prop in F. destruct F as [F V]. apply andb_prop in F. destruct F as [C1 C2].
    apply negb_true_iff in C1, C2. pose proof (plain_literal _ b0 (le_n _) C1 C2 C3 V) as L0.
    assert (R : skipn (S (length b0)) (body ++ [x22]) = q).
    { rewrite E. change (x22 :: q) with ([x22] ++ q). rewrite app_assoc, skipn_app, app_length. cbn [length].
      rewrite skipn_all2 by (rewrite app_length; cbn; lia). replace (S (length b0) - (length b0 + 1))%nat with O by lia. reflexivity. }
    rewrite R. pose proof (loop_complete b0 b0 L0 (length (body ++ [x22])) [] q) as L1. cbn [app] in L1. rewrite <- E in L1.
    specialize (L1 ltac:(rewrite E, app_length; lia)). split.
    + destruct q as [|z q]; [|discriminate]. intros X. injection X as <-.
      apply app_inj_tail in E. destruct E as [-> _]. exact L0.
    + intros L. rewrite (Cmp v L) in L1. injection L1 as -> <-. reflexivity.
  - split.
    + destruct (unquote_loop _ _ []) as [[w rem]|] eqn:R; [|discriminate]. destruct rem; [|discriminate]. intros X. injection X as ->.
      destruct (loop_sound _ _ _ _ _ R) as (b1 & v1 & E1 & L & ->). apply app_inj_tail in E1. destruct E1 as [-> _]. exact L.
    + intros L. rewrite (Cmp v L). reflexivity.
Qed.

(** ** The scanner of tags *)
Lemma scan_quoted_spec t : forall q rest, scan_quoted t = Some (q, rest) <->
  exists s, q = s ++ [x22] /\ t = s ++ x22 :: rest /\ quoted_text s.
Proof.
  intros q rest. split.
  - revert q rest. remember (length t) as n eqn:Hn. assert (Hl : (length t <= n)%nat) by lia. clear Hn. revert t Hl.
    induction n as [|n IH]; intros t Hl q rest E; (destruct t as [|b t]; [discriminate|]); cbn [length] in Hl; [lia|].
    cbn [scan_quoted] in E. destruct (Z.eqb_spec (b2z b) 34) as [Q|N1].
    { injection E as <- <-. apply b_eq in Q. subst b. exists []. repeat split. constructor. }
    destruct (Z.eqb_spec (b2z b) 92) as [Q|N2].
    + apply b_eq in Q. subst b. destruct t as [|c t]; [discriminate|]. destruct (scan_quoted t) as [[q' t']|] eqn:R; [|discriminate].
      injection E as <- <-. apply IH in R; [|cbn [length] in Hl; lia]. destruct R as (s & -> & -> & Qs).
      exists (x5c :: c :: s). repeat split. now constructor.
    + destruct (scan_quoted t) as [[q' t']|] eqn:R; [|discriminate]. injection E as <- <-. apply IH in R; [|lia].
      destruct R as (s & -> & -> & Qs). exists (b :: s). repeat split. constructor; auto; intros ->; [now apply N1|now apply N2].
  - intros (s & -> & -> & Qs). induction Qs as [|b s N1 N2 Qs IH|c s Qs IH]; cbn [app scan_quoted].
    + reflexivity.
    + destruct (Z.eqb_spec (b2z b) 34) as [Q|_]; [apply b_eq in Q; now elim N1|].
      destruct (Z.eqb_spec (b2z b) 92) as [Q|_]; [apply b_eq in Q; now elim N2|]. now rewrite IH.
    + change (b2z x5c =? 34) with false. change (b2z x5c =? 92) with true. cbv iota. now rewrite IH.
Qed.

Lemma quoted_high l s : Forall (fun b => 0x80 <= b2z b) l -> quoted_text s -> quoted_text (l ++ s).
Proof.
  induction 1 as [|b l Hb F IH]; intros Q; [exact Q|]. cbn [app]. constructor; auto; intros ->; vm_compute in Hb; now elim Hb.
Qed.
Lemma quoted_digits base (D : byte -> Z -> Prop) ds x s : (forall b y, D b y -> b <> x22 /\ b <> x5c) -> numeral base D ds x -> quoted_text s -> quoted_text (ds ++ s).
Proof.
  intros HD N. revert s. induction N as [|ds v b y N IH Db]; intros s Q; [exact Q|]. rewrite <- app_assoc. apply IH. cbn [app].
  destruct (HD b y Db). now constructor.
Qed.
Lemma hex_plain b y : hex_digit_of b y -> b <> x22 /\ b <> x5c.
Proof. intros H. apply unhex_spec in H. split; intros ->; discriminate. Qed.
Lemma oct_plain b y : oct_digit_of b y -> b <> x22 /\ b <> x5c.
Proof. intros H. apply oct_spec in H. split; intros ->; discriminate. Qed.

Lemma literal_quoted s v : literal s v -> quoted_text s.
Proof.
  induction 1 as [|r s v Hr H1 H2 H3 L IH|b s v Hb L IH|c x s v I L IH|ds x s v Hd N L IH|ds x s v Hd N Hx L IH|ds x s v Hd N Hx L IH|ds x s v Hd N Hx L IH].
  - constructor.
  - destruct (Z.le_gt_cases 0x80 r) as [Hh|Hl]; [now apply quoted_high; [apply encode_high|]|].
    unfold scalar_value in Hr. rewrite encode_low by lia. cbn [app].
    assert (Zr : b2z (z2b r) = r) by (apply b2z_z2b_small; lia).
    constructor; [intros X; rewrite X in Zr|intros X; rewrite X in Zr|exact IH]; vm_compute in Zr; congruence.
  - apply bad_byte in Hb. destruct Hb as [Hb _]. apply (quoted_high [b]); auto.
  - apply qt_escape. exact IH.
  - apply (qt_escape x78). exact (quoted_digits _ _ _ _ _ hex_plain N IH).
  - change (lit "\") with [x5c]. cbn [app]. destruct (oct_numeral_inv ds x Hd N) as (a & b & c & y1 & y2 & y3 & -> & A & B & C & Ex).
    cbn [app]. apply oct_plain in B, C. apply qt_escape. apply qt_plain; [tauto|tauto|]. apply qt_plain; tauto.
  - apply (qt_escape x75). exact (quoted_digits _ _ _ _ _ hex_plain N IH).
  - apply (qt_escape x55). exact (quoted_digits _ _ _ _ _ hex_plain N IH).
Qed.

Lemma name_byte_spec b : name_byte b = true <-> 32 < b2z b /\ b <> x3a /\ b <> x22 /\ b <> x7f.
Proof.
  unfold name_byte. rewrite !andb_true_iff, !negb_true_iff, Z.ltb_lt, !Z.eqb_neq.
  assert (N : forall c, b2z b <> b2z c <-> b <> c).
  { intros c. split; [intros H ->; now apply H|]. intros H E. apply H. now rewrite <- (z2b_b2z b), E, z2b_b2z. }
  change 58 with (b2z x3a). change 34 with (b2z x22). change 127 with (b2z x7f). rewrite !N. tauto.
Qed.
Lemma scan_name_spec s : forall n t, scan_name s = (n, t) -> s = n ++ t /\ Forall (fun b => name_byte b = true) n.
Proof.
  induction s as [|b s IH]; intros n t E; cbn [scan_name] in E; [injection E as <- <-; auto|].
  destruct (name_byte b) eqn:B; [|injection E as <- <-; auto].
  destruct (scan_name s) as [n' t'] eqn:R. injection E as <- <-. destruct (IH _ _ eq_refl) as [-> F]. auto.
Qed.
Lemma scan_name_app n t : Forall (fun b => name_byte b = true) n -> scan_name (n ++ x3a :: t) = (n, x3a :: t).
Proof. induction 1 as [|b n B F IH]; [reflexivity|]. cbn [app scan_name]. now rewrite B, IH. Qed.
Lemma name_forall n : tag_name n <-> n <> [] /\ Forall (fun b => name_byte b = true) n.
Proof.
  unfold tag_name. split; intros [H F]; (split; [exact H|]); (eapply Forall_impl; [|exact F]); intros b; apply name_byte_spec.
Qed.
Lemma skip_spaces_spec s : exists sp, spaces sp /\ s = sp ++ skip_spaces s.
Proof.
  induction s as [|b s (sp & H & E)]; [exists []; split; [constructor|reflexivity]|]. cbn [skip_spaces].
  destruct (Z.eqb_spec (b2z b) 32) as [Q|_]; [|exists []; split; [constructor|reflexivity]].
  apply b_eq in Q. subst b. exists (x20 :: sp). split; [constructor; auto|]. cbn [app]. now f_equal.
Qed.
Lemma skip_spaces_app sp n t : spaces sp -> tag_name n -> skip_spaces (sp ++ n ++ t) = n ++ t.
Proof.
  intros H [Hn F]. induction H as [|b sp -> H IH]; [|exact IH]. destruct n as [|c n]; [congruence|]. cbn [app skip_spaces].
  inversion F as [|? ? (A & _) _]; subst. destruct (Z.eqb_spec (b2z c) 32); [lia|reflexivity].
Qed.

(** ** Lookup *)
Lemma lookup_sound key n : forall tag v, lookup_loop n tag key = Some v -> tag_value key tag v.
Proof.
  induction n as [|n IH]; intros tag v E; cbn [lookup_loop] in E; [discriminate|].
  destruct (skip_spaces_spec tag) as (sp & Hsp & Et).
  destruct (skip_spaces tag) as [|c0 t0]; [discriminate|]. remember (c0 :: t0) as tag' eqn:X. clear X c0 t0.
  destruct (scan_name tag') as [name t] eqn:S. apply scan_name_spec in S. destruct S as [-> F].
  destruct name as [|b name]; [discriminate|]. destruct t as [|c1 t]; [discriminate|].
  destruct (Byte.eqb c1 x3a) eqn:K1; [apply byte_dec_bl in K1; subst c1|destruct c1; try discriminate E; discriminate K1].
  destruct t as [|c2 t]; [discriminate|].
  destruct (Byte.eqb c2 x22) eqn:K2; [apply byte_dec_bl in K2; subst c2|destruct c2; try discriminate E; discriminate K2].
  destruct (scan_quoted t) as [[q rest]|] eqn:Q; [|discriminate]. apply scan_quoted_spec in Q. destruct Q as (s & -> & -> & Qs).
  subst tag. destruct (bytes_eqb key (b :: name)) eqn:B.
  - apply bytes_eqb_eq in B. subst key. apply unquote_spec in E.
    exact (tv_here (b :: name) sp s v rest Hsp E).
  - apply IH in E. apply (tv_later key sp (b :: name) s rest v Hsp); auto.
    + apply name_forall. split; [discriminate|exact F].
    + intros X. subst key. assert (bytes_eqb (b :: name) (b :: name) = true) by now apply bytes_eqb_eq. congruence.
Qed.

Lemma lookup_step n sp name s rest key : spaces sp -> tag_name name -> quoted_text s ->
  lookup_loop (S n) (sp ++ name ++ [x3a; x22] ++ s ++ [x22] ++ rest) key =
  if bytes_eqb key name then unquote (s ++ [x22]) else lookup_loop n rest key.
Proof.
  intros Hsp Hn Qs. cbn [lookup_loop]. rewrite skip_spaces_app by assumption.
  pose proof Hn as Hn'. apply name_forall in Hn'. destruct Hn' as [Ne F]. cbn [app].
  pose proof (scan_name_app name (x22 :: s ++ x22 :: rest) F) as S.
  assert (Q : scan_quoted (s ++ x22 :: rest) = Some (s ++ [x22], rest)) by (apply scan_quoted_spec; eauto).
  destruct name as [|b name]; [congruence|]. cbn [app] in *. rewrite S, Q. reflexivity.
Qed.

Lemma lookup_complete key : tag_name key -> forall tag v, tag_value key tag v -> forall n, (length tag < n)%nat -> lookup_loop n tag key = Some v.
Proof.
  intros Hk tag v H. induction H as [sp s v rest Hsp L|sp name s rest v Hsp Hn Ne Qs H IH]; intros n Hl; (destruct n as [|n]; [lia|]).
  - rewrite lookup_step; [|assumption|assumption|eapply literal_quoted; exact L].
    replace (bytes_eqb key key) with true by (symmetry; now apply bytes_eqb_eq). now apply unquote_spec.
  - rewrite lookup_step by assumption. destruct (bytes_eqb key name) eqn:B; [apply bytes_eqb_eq in B; congruence|].
    apply IH. rewrite !app_length in Hl. cbn [length] in Hl. lia.
Qed.

Theorem lookup_spec key tag v : tag_name key -> (tag_lookup tag key = Some v <-> tag_value key tag v).
Proof.
  intros Hk. unfold tag_lookup. split; [apply lookup_sound|]. intros H. apply lookup_complete; auto.
Qed.
