(** Facts about the lexical grammar of LexSpec: a token is the longest one
    possible, and the tokens of a text are unique. *)
From Coq Require Import Strings.String.
From Verif Require Import Base BaseLemmas GoType Utf8 Tokens LexSpec.

(** ** Characters *)
Lemma decode_rune_fits s : s <> [] -> (1 <= snd (decode_rune s) <= length s)%nat.
Proof.
  destruct s as [|b0 r]; [congruence|]. intros _. unfold decode_rune.
  destruct (b2z b0 <? 0x80); [cbn; lia|].
  destruct ((0xC2 <=? b2z b0) && (b2z b0 <=? 0xDF)).
  { destruct r as [|b1 r]; [cbn; lia|]. destruct (cont_in _ _ b1); cbn; lia. }
  destruct ((0xE0 <=? b2z b0) && (b2z b0 <=? 0xEF)).
  { destruct r as [|b1 [|b2 r]]; [cbn; lia|cbn; lia|]. destruct (cont_in _ _ b1 && cont_in _ _ b2); cbn; lia. }
  destruct ((0xF0 <=? b2z b0) && (b2z b0 <=? 0xF4)); [|cbn; lia].
  destruct r as [|b1 [|b2 [|b3 r]]]; [cbn; lia|cbn; lia|cbn; lia|].
  destruct (cont_in _ _ b1 && cont_in _ _ b2 && cont_in _ _ b3); cbn; lia.
Qed.

Lemma decode_rune_nonneg s : 0 <= fst (decode_rune s).
Proof.
  assert (RE : 0 <= RuneError) by (unfold RuneError; lia).
  destruct s as [|b0 r]; [exact RE|]. unfold decode_rune, cont_in.
  pose proof (b2z_range b0) as R0. unfold is_u8 in *.
  destruct (Z.ltb_spec (b2z b0) 0x80); [cbn [fst andb]; lia|].
  destruct (Z.leb_spec 0xC2 (b2z b0)); cbn [andb].
  2:{ destruct (Z.leb_spec 0xE0 (b2z b0)); [lia|]. destruct (Z.leb_spec 0xF0 (b2z b0)); [lia|]. cbn. lia. }
  destruct (Z.leb_spec (b2z b0) 0xDF).
  { destruct r as [|b1 r]; [cbn [fst andb]; lia|]. destruct (Z.leb_spec 0x80 (b2z b1)), (Z.leb_spec (b2z b1) 0xBF); cbn [fst andb]; lia. }
  destruct (Z.leb_spec 0xE0 (b2z b0)); [|lia]. destruct (Z.leb_spec (b2z b0) 0xEF); cbn [andb].
  { destruct r as [|b1 [|b2 r]]; [cbn [fst andb]; lia|cbn [fst andb]; lia|].
    destruct (Z.leb_spec (if b2z b0 =? 0xE0 then 0xA0 else 0x80) (b2z b1)); [|cbn [fst andb]; lia].
    destruct (Z.leb_spec (b2z b1) (if b2z b0 =? 0xED then 0x9F else 0xBF)); [|cbn [fst andb]; lia].
    destruct (Z.leb_spec 0x80 (b2z b2)), (Z.leb_spec (b2z b2) 0xBF); cbn [andb fst]; try (cbn [fst andb]; lia).
    destruct (b2z b0 =? 0xE0); lia. }
  destruct (Z.leb_spec 0xF0 (b2z b0)); [|cbn [fst andb]; lia]. destruct (Z.leb_spec (b2z b0) 0xF4); cbn [andb]; [|cbn [fst andb]; lia].
  destruct r as [|b1 [|b2 [|b3 r]]]; [cbn [fst andb]; lia|cbn [fst andb]; lia|cbn [fst andb]; lia|].
  destruct (Z.leb_spec (if b2z b0 =? 0xF0 then 0x90 else 0x80) (b2z b1)); [|cbn [fst andb]; lia].
  destruct (Z.leb_spec (b2z b1) (if b2z b0 =? 0xF4 then 0x8F else 0xBF)); [|cbn [fst andb]; lia].
  destruct (Z.leb_spec 0x80 (b2z b2)), (Z.leb_spec (b2z b2) 0xBF); cbn [andb fst]; try (cbn [fst andb]; lia).
  destruct (Z.leb_spec 0x80 (b2z b3)), (Z.leb_spec (b2z b3) 0xBF); cbn [andb fst]; try (cbn [fst andb]; lia).
  destruct (b2z b0 =? 0xF0); lia.
Qed.

Lemma chars_n_more s : forall n, (length s <= n)%nat -> chars_n n s = chars s.
Proof.
  unfold chars. enough (G : forall k n m s, (length s <= k)%nat -> (length s <= n)%nat -> (length s <= m)%nat -> chars_n n s = chars_n m s)
    by (intros n Hn; apply (G (length s)); lia).
  induction k as [|k IH]; intros n m s' Hk Hn Hm.
  { destruct s'; cbn in Hk; [|lia]. destruct n, m; reflexivity. }
  destruct s' as [|b r]; [destruct n, m; reflexivity|]. cbn [length] in *.
  destruct n as [|n], m as [|m]; try lia. cbn [chars_n].
  pose proof (decode_rune_fits (b :: r) ltac:(discriminate)) as W. destruct (decode_rune (b :: r)) as [c w]. cbn [snd length] in W.
  f_equal. apply IH; rewrite skipn_length; cbn [length]; lia.
Qed.

Lemma chars_nil : chars [] = [].
Proof. reflexivity. Qed.
Lemma chars_cons s : s <> [] ->
  chars s = (fst (decode_rune s), firstn (snd (decode_rune s)) s) :: chars (skipn (snd (decode_rune s)) s).
Proof.
  intros Hs. unfold chars at 1. pose proof (decode_rune_fits s Hs) as W. destruct s as [|b r]; [congruence|]. cbn [length chars_n].
  destruct (decode_rune (b :: r)) as [c w]. cbn [fst snd length] in *. f_equal.
  apply chars_n_more. rewrite skipn_length. cbn [length]. lia.
Qed.

Lemma chars_ind (P : list byte -> Prop) :
  P [] -> (forall s, s <> [] -> P (skipn (snd (decode_rune s)) s) -> P s) -> forall s, P s.
Proof.
  intros H0 H1 s. induction s as [s IH] using (well_founded_induction (Wf_nat.well_founded_ltof _ (@length byte))).
  destruct s as [|b r]; [exact H0|]. apply H1; [discriminate|]. apply IH. unfold Wf_nat.ltof.
  pose proof (decode_rune_fits (b :: r) ltac:(discriminate)). rewrite skipn_length. lia.
Qed.

Lemma text_chars s : text (chars s) = s.
Proof.
  induction s as [|s Hs IH] using chars_ind; [reflexivity|]. rewrite (chars_cons s Hs). unfold text in *. cbn [map concat snd].
  rewrite IH. apply firstn_skipn.
Qed.
Lemma text_app a b : text (a ++ b) = text a ++ text b.
Proof. unfold text. now rewrite map_app, concat_app. Qed.
Lemma codes_app a b : codes (a ++ b) = codes a ++ codes b.
Proof. apply map_app. Qed.
Lemma codes_eq_app cs a b : codes cs = a ++ b -> exists ca cb, cs = ca ++ cb /\ codes ca = a /\ codes cb = b.
Proof.
  revert a. induction cs as [|c cs IH]; intros a H.
  - destruct a; [|discriminate]. exists [], []. now repeat split.
  - destruct a as [|x a]; cbn in H.
    + exists [], (c :: cs). now repeat split.
    + injection H as H0 H. destruct (IH a H) as (ca & cb & -> & <- & <-). exists (c :: ca), cb. subst x. now repeat split.
Qed.

(** Cutting the text between two characters cuts the characters. *)
Lemma chars_nonneg s : Forall (fun c => 0 <= fst c) (chars s).
Proof.
  induction s as [|s Hs IH] using chars_ind; [constructor|]. rewrite (chars_cons s Hs). constructor; [apply decode_rune_nonneg|exact IH].
Qed.
Lemma chars_nonempty s : Forall (fun c => snd c <> []) (chars s).
Proof.
  induction s as [|s Hs IH] using chars_ind; [constructor|]. rewrite (chars_cons s Hs). constructor; [|exact IH].
  pose proof (decode_rune_fits s Hs). cbn [snd]. intros E. apply (f_equal (@length byte)) in E. rewrite firstn_length in E. cbn in E. lia.
Qed.
Lemma chars_suffix s a b : chars s = a ++ b -> chars (skipn (length (text a)) s) = b.
Proof.
  revert a. induction s as [|s Hs IH] using chars_ind; intros a H.
  - rewrite chars_nil in H. destruct a; [|discriminate]. cbn in *. subst. reflexivity.
  - destruct a as [|c a]; [exact H|]. rewrite (chars_cons s Hs) in H. cbn [app] in H. injection H as <- H.
    apply IH in H. change (text ((fst (decode_rune s), firstn (snd (decode_rune s)) s) :: a)) with (firstn (snd (decode_rune s)) s ++ text a).
    rewrite app_length, firstn_length, Nat.min_l by (pose proof (decode_rune_fits s Hs); lia).
    rewrite <- skipn_skipn'. exact H.
Qed.

(** ** Numbers as an automaton *)
Inductive nst := NStart | NSigned | NZero | NInt | NHex | NPoint | NExp | NExpSign | NExpDigits.
Definition dec (c : Z) : bool := (48 <=? c) && (c <=? 57).
Definition hexb (c : Z) : bool := dec c || (65 <=? c) && (c <=? 70) || (97 <=? c) && (c <=? 102).
Definition sgn (c : Z) : bool := (c =? 43) || (c =? 45).
Definition eE (c : Z) : bool := (c =? 101) || (c =? 69).
Definition nstep (st : nst) (c : Z) : option nst :=
  match st with
  | NStart => if sgn c then Some NSigned else if c =? 48 then Some NZero else if dec c then Some NInt else None
  | NSigned => if c =? 48 then Some NZero else if dec c then Some NInt else None
  | NZero => if dec c then Some NInt else if (c =? 120) || (c =? 88) then Some NHex
             else if c =? 46 then Some NPoint else if eE c then Some NExp else None
  | NInt => if dec c then Some NInt else if c =? 46 then Some NPoint else if eE c then Some NExp else None
  | NHex => if hexb c then Some NHex else None
  | NPoint => if dec c then Some NPoint else if eE c then Some NExp else None
  | NExp => if sgn c then Some NExpSign else if dec c then Some NExpDigits else None
  | NExpSign => if dec c then Some NExpDigits else None
  | NExpDigits => if dec c then Some NExpDigits else None
  end.
Fixpoint nrun (st : nst) (l : list Z) : option nst :=
  match l with
  | [] => Some st
  | c :: r => match nstep st c with Some st' => nrun st' r | None => None end
  end.
Definition nkind (st : nst) : option Z :=
  match st with
  | NStart | NSigned => None
  | NZero | NInt | NHex => Some K_INT
  | NPoint | NExp | NExpSign | NExpDigits => Some K_FLOAT
  end.

Lemma nrun_app st a b : nrun st (a ++ b) = match nrun st a with Some st' => nrun st' b | None => None end.
Proof. revert st. induction a as [|c a IH]; intros st; cbn [nrun app]; [reflexivity|]. destruct (nstep st c); auto. Qed.

Lemma dec_spec c : dec c = true <-> decimal c.
Proof. unfold dec, decimal. rewrite andb_true_iff, !Z.leb_le. tauto. Qed.
Lemma hexb_spec c : hexb c = true <-> hexadecimal c.
Proof. unfold hexb, hexadecimal. rewrite !orb_true_iff, dec_spec, !andb_true_iff, !Z.leb_le. tauto. Qed.
Lemma sgn_spec c : sgn c = true <-> c = 43 \/ c = 45.
Proof. unfold sgn. rewrite orb_true_iff, !Z.eqb_eq. tauto. Qed.
Lemma eE_spec c : eE c = true <-> c = 101 \/ c = 69.
Proof. unfold eE. rewrite orb_true_iff, !Z.eqb_eq. tauto. Qed.

(** What the automaton has read in each state. *)
Definition nform (st : nst) (l : list Z) : Prop :=
  match st with
  | NStart => l = []
  | NSigned => l <> [] /\ sign l
  | NZero => exists sg, sign sg /\ l = sg ++ [48]
  | NInt => exists sg d r, sign sg /\ digits (d :: r) /\ l = sg ++ d :: r
  | NHex => exists sg x r, sign sg /\ (x = 120 \/ x = 88) /\ Forall hexadecimal r /\ l = sg ++ 48 :: x :: r
  | NPoint => exists sg d r m, sign sg /\ digits (d :: r) /\ digits m /\ l = sg ++ d :: r ++ 46 :: m
  | NExp => exists sg d r p e, sign sg /\ digits (d :: r) /\ (p = [] \/ exists q, p = 46 :: q /\ digits q) /\ (e = 101 \/ e = 69) /\
              l = sg ++ d :: r ++ p ++ [e]
  | NExpSign => exists sg d r p e g, sign sg /\ digits (d :: r) /\ (p = [] \/ exists q, p = 46 :: q /\ digits q) /\ (e = 101 \/ e = 69) /\
              sign g /\ l = sg ++ d :: r ++ p ++ e :: g
  | NExpDigits => exists sg d r p e g m, sign sg /\ digits (d :: r) /\ (p = [] \/ exists q, p = 46 :: q /\ digits q) /\ (e = 101 \/ e = 69) /\
              sign g /\ digits m /\ l = sg ++ d :: r ++ p ++ e :: g ++ m
  end.

Lemma snoc_digits l d : digits l -> decimal d -> digits (l ++ [d]).
Proof. intros. apply Forall_app. split; [assumption|now constructor]. Qed.

Lemma nform_step st l c st' : nform st l -> nstep st c = Some st' -> nform st' (l ++ [c]).
Proof.
  intros F H. destruct st; cbn [nform nstep] in *.
  - subst l. destruct (sgn c) eqn:E1. { injection H as <-. apply sgn_spec in E1. cbn. split; [discriminate|]. unfold sign. destruct E1 as [->| ->]; auto. }
    destruct (Z.eqb_spec c 48) as [->|]. { injection H as <-. exists []. split; [now left|reflexivity]. }
    destruct (dec c) eqn:E2; [|discriminate]. injection H as <-. apply dec_spec in E2. exists [], c, []. split; [now left|split; [constructor; [assumption|constructor]|reflexivity]].
  - destruct F as (Hn & F). destruct (Z.eqb_spec c 48) as [->|]. { injection H as <-. exists l. now split. }
    destruct (dec c) eqn:E2; [|discriminate]. injection H as <-. apply dec_spec in E2. exists l, c, []. split; [assumption|split; [constructor; [assumption|constructor]|reflexivity]].
  - destruct F as (sg & Hs & ->). destruct (dec c) eqn:E1.
    { injection H as <-. apply dec_spec in E1. exists sg, 48, [c]. split; [assumption|split; [|now rewrite <- app_assoc]].
      constructor; [split; lia|now constructor]. }
    destruct ((c =? 120) || (c =? 88)) eqn:E2.
    { injection H as <-. apply orb_true_iff in E2. rewrite !Z.eqb_eq in E2. exists sg, c, []. split; [assumption|split; [assumption|split; [constructor|now rewrite <- app_assoc]]]. }
    assert (D : digits [48]) by (constructor; [split; lia|constructor]).
    destruct (Z.eqb_spec c 46) as [->|]. { injection H as <-. exists sg, 48, [], []. split; [assumption|split; [assumption|split; [constructor|now rewrite <- app_assoc]]]. }
    destruct (eE c) eqn:E3; [|discriminate]. injection H as <-. apply eE_spec in E3.
    exists sg, 48, [], [], c. split; [assumption|split; [assumption|split; [now left|split; [assumption|now rewrite <- app_assoc]]]].
  - destruct F as (sg & d & r & Hs & Hd & ->). destruct (dec c) eqn:E1.
    { injection H as <-. apply dec_spec in E1. exists sg, d, (r ++ [c]). split; [assumption|split; [|now rewrite <- app_assoc]].
      change (d :: r ++ [c]) with ((d :: r) ++ [c]). now apply snoc_digits. }
    destruct (Z.eqb_spec c 46) as [->|]. { injection H as <-. exists sg, d, r, []. split; [assumption|split; [assumption|split; [constructor|now rewrite <- app_assoc]]]. }
    destruct (eE c) eqn:E3; [|discriminate]. injection H as <-. apply eE_spec in E3.
    exists sg, d, r, [], c. split; [assumption|split; [assumption|split; [now left|split; [assumption|now rewrite <- app_assoc]]]].
  - destruct F as (sg & x & r & Hs & Hx & Hr & ->). destruct (hexb c) eqn:E1; [|discriminate]. injection H as <-. apply hexb_spec in E1.
    exists sg, x, (r ++ [c]). split; [assumption|split; [assumption|split; [|now rewrite <- app_assoc]]]. apply Forall_app. split; [assumption|now constructor].
  - destruct F as (sg & d & r & m & Hs & Hd & Hm & ->). destruct (dec c) eqn:E1.
    { injection H as <-. apply dec_spec in E1. exists sg, d, r, (m ++ [c]). split; [assumption|split; [assumption|split; [now apply snoc_digits|]]].
      rewrite <- app_assoc. cbn [app]. now rewrite <- app_assoc. }
    destruct (eE c) eqn:E3; [|discriminate]. injection H as <-. apply eE_spec in E3.
    exists sg, d, r, (46 :: m), c. split; [assumption|split; [assumption|split; [right; eauto|split; [assumption|]]]].
    rewrite <- app_assoc. cbn [app]. now rewrite <- app_assoc.
  - destruct F as (sg & d & r & p & e & Hs & Hd & Hp & He & ->). destruct (sgn c) eqn:E1.
    { injection H as <-. apply sgn_spec in E1. exists sg, d, r, p, e, [c]. split; [assumption|split; [assumption|split; [assumption|split; [assumption|split]]]].
      - unfold sign. destruct E1 as [->| ->]; auto.
      - rewrite <- app_assoc. cbn [app]. now rewrite <- !app_assoc. }
    destruct (dec c) eqn:E3; [|discriminate]. injection H as <-. apply dec_spec in E3.
    exists sg, d, r, p, e, [], [c]. split; [assumption|split; [assumption|split; [assumption|split; [assumption|split; [now left|split; [constructor; [assumption|constructor]|]]]]]].
    rewrite <- app_assoc. cbn [app]. now rewrite <- !app_assoc.
  - destruct F as (sg & d & r & p & e & g & Hs & Hd & Hp & He & Hg & ->). destruct (dec c) eqn:E3; [|discriminate]. injection H as <-. apply dec_spec in E3.
    exists sg, d, r, p, e, g, [c]. split; [assumption|split; [assumption|split; [assumption|split; [assumption|split; [assumption|split; [constructor; [assumption|constructor]|]]]]]].
    rewrite <- app_assoc. cbn [app]. now rewrite <- !app_assoc.
  - destruct F as (sg & d & r & p & e & g & m & Hs & Hd & Hp & He & Hg & Hm & ->). destruct (dec c) eqn:E3; [|discriminate]. injection H as <-. apply dec_spec in E3.
    exists sg, d, r, p, e, g, (m ++ [c]). split; [assumption|split; [assumption|split; [assumption|split; [assumption|split; [assumption|split; [now apply snoc_digits|]]]]]].
    rewrite <- app_assoc. cbn [app]. rewrite <- !app_assoc. cbn [app]. now rewrite <- !app_assoc.
Qed.

Lemma nform_run l : forall st l0 st', nform st l0 -> nrun st l = Some st' -> nform st' (l0 ++ l).
Proof.
  induction l as [|c l IH]; intros st l0 st' F H; cbn [nrun] in H.
  - injection H as <-. now rewrite app_nil_r.
  - destruct (nstep st c) as [st1|] eqn:E; [|discriminate].
    change (l0 ++ c :: l) with (l0 ++ [c] ++ l). rewrite app_assoc. eapply IH; [|exact H]. eapply nform_step; eauto.
Qed.

Lemma nkind_number st l k : nform st l -> nkind st = Some k -> number k l.
Proof.
  intros F H. destruct st; cbn in F, H; try discriminate; injection H as <-.
  - destruct F as (sg & Hs & ->). apply num_dec; [assumption|]. constructor; [split; lia|constructor].
  - destruct F as (sg & d & r & Hs & Hd & ->). now apply num_dec.
  - destruct F as (sg & x & r & Hs & Hx & Hr & ->). now apply num_hex.
  - destruct F as (sg & d & r & m & Hs & Hd & Hm & ->). now apply num_point.
  - destruct F as (sg & d & r & p & e & Hs & Hd & Hp & He & ->).
    replace (p ++ [e]) with (p ++ e :: [] ++ []) by reflexivity. apply num_exp; auto; [now left|constructor].
  - destruct F as (sg & d & r & p & e & g & Hs & Hd & Hp & He & Hg & ->).
    replace g with (g ++ []) at 1 by apply app_nil_r. apply num_exp; auto. constructor.
  - destruct F as (sg & d & r & p & e & g & m & Hs & Hd & Hp & He & Hg & Hm & ->). now apply num_exp.
Qed.

Lemma nrun_digits l : digits l -> forall st, In st [NInt; NPoint; NExpDigits] -> nrun st l = Some st.
Proof.
  induction 1 as [|d l Hd _ IH]; intros st Hst; [reflexivity|]. cbn [nrun]. apply dec_spec in Hd.
  assert (nstep st d = Some st) as ->; [|now apply IH].
  cbn in Hst. destruct Hst as [<-|[<-|[<-|[]]]]; cbn; now rewrite Hd.
Qed.
Lemma nrun_first sg d l : sign sg -> digits (d :: l) ->
  exists st, nrun NStart (sg ++ d :: l) = Some st /\ (st = NInt \/ st = NZero /\ d = 48 /\ l = []).
Proof.
  intros Hs Hd. inversion_clear Hd as [|? ? Hd1 Hl].
  assert (Hg : sgn d = false). { destruct (sgn d) eqn:E; [|reflexivity]. apply sgn_spec in E. unfold decimal in Hd1. lia. }
  assert (G : forall st, st = NStart \/ st = NSigned -> exists st', nrun st (d :: l) = Some st' /\ (st' = NInt \/ st' = NZero /\ d = 48 /\ l = [])).
  { intros st Hst. cbn [nrun].
    assert (E : nstep st d = if d =? 48 then Some NZero else Some NInt).
    { apply dec_spec in Hd1. destruct Hst as [->| ->]; cbn; rewrite ?Hg, Hd1; reflexivity. }
    rewrite E. destruct (Z.eqb_spec d 48) as [->|].
    - destruct l as [|e l]; [exists NZero; auto|]. cbn [nrun]. inversion_clear Hl as [|? ? He Hl']. apply dec_spec in He. cbn [nstep]. rewrite He.
      exists NInt. rewrite (nrun_digits l Hl') by (cbn; auto). auto.
    - exists NInt. rewrite (nrun_digits l Hl) by (cbn; auto). auto. }
  destruct Hs as [->|[->| ->]]; cbn [app]; [now apply G; left| |]; exact (G NSigned (or_intror eq_refl)).
Qed.

Lemma number_run k l : number k l -> exists st, nrun NStart l = Some st /\ nkind st = Some k.
Proof.
  intros H. destruct H as [sg x l Hs Hx Hl|sg d l Hs Hd|sg d l m Hs Hd Hm|sg d l p e g m Hs Hd Hp He Hg Hm].
  - exists NHex. split; [|reflexivity].
    assert (G : nrun NHex l = Some NHex).
    { clear - Hl. induction Hl as [|h l Hh _ IH]; [reflexivity|]. cbn [nrun nstep]. apply hexb_spec in Hh. now rewrite Hh. }
    assert (G1 : nrun NZero (x :: l) = Some NHex). { destruct Hx as [->| ->]; cbn; exact G. }
    destruct Hs as [->|[->| ->]]; exact G1.
  - destruct (nrun_first sg d l Hs Hd) as (st & E & Hst). exists st. split; [exact E|]. destruct Hst as [->|[-> _]]; reflexivity.
  - destruct (nrun_first sg d l Hs Hd) as (st & E & Hst). exists NPoint. split; [|reflexivity].
    change (sg ++ d :: l ++ 46 :: m) with (sg ++ (d :: l) ++ 46 :: m). rewrite app_assoc, nrun_app, E.
    destruct Hst as [->|[-> _]]; cbn; apply nrun_digits; cbn; auto.
  - destruct (nrun_first sg d l Hs Hd) as (st & E & Hst).
    assert (G : forall st0, In st0 [NInt; NZero; NPoint] -> exists st', nrun st0 (e :: g ++ m) = Some st' /\ nkind st' = Some K_FLOAT).
    { intros st0 Hst0. cbn [nrun].
      assert (nstep st0 e = Some NExp) as -> by (cbn in Hst0; destruct He as [->| ->]; destruct Hst0 as [<-|[<-|[<-|[]]]]; reflexivity).
      assert (D : forall st1, st1 = NExp \/ st1 = NExpSign -> exists st', nrun st1 m = Some st' /\ nkind st' = Some K_FLOAT).
      { intros st1 Hst1. destruct m as [|d1 m]; [exists st1; split; [reflexivity|now destruct Hst1 as [->| ->]]|].
        inversion_clear Hm as [|? ? H1 H2]. cbn [nrun].
        assert (nstep st1 d1 = Some NExpDigits) as ->.
        { assert (sgn d1 = false) by (destruct (sgn d1) eqn:E1; [apply sgn_spec in E1; unfold decimal in H1; lia|reflexivity]).
          apply dec_spec in H1. destruct Hst1 as [->| ->]; cbn; [rewrite H|]; now rewrite H1. }
        exists NExpDigits. split; [apply nrun_digits; cbn; auto|reflexivity]. }
      destruct Hg as [->|[->| ->]]; cbn [app nrun nstep sgn Z.eqb Pos.eqb orb]; apply D; auto. }
    assert (K : exists st1, nrun NStart (sg ++ d :: l ++ p) = Some st1 /\ In st1 [NInt; NZero; NPoint]).
    { change (sg ++ d :: l ++ p) with (sg ++ (d :: l) ++ p). rewrite app_assoc, nrun_app, E. destruct Hp as [->|(q & -> & Hq)].
      - exists st. split; [reflexivity|]. destruct Hst as [->|[-> _]]; cbn; auto.
      - exists NPoint. split; [|cbn; auto]. destruct Hst as [->|[-> _]]; cbn; apply nrun_digits; cbn; auto. }
    destruct K as (st1 & E1 & Hst1). destruct (G st1 Hst1) as (st2 & E2 & K2). exists st2. split; [|exact K2].
    replace (sg ++ d :: l ++ p ++ e :: g ++ m) with ((sg ++ d :: l ++ p) ++ e :: g ++ m)
      by (rewrite <- app_assoc; cbn [app]; rewrite <- !app_assoc; reflexivity).
    now rewrite nrun_app, E1.
Qed.

Lemma run_number l st k : nrun NStart l = Some st -> nkind st = Some k -> number k l.
Proof. intros H K. eapply nkind_number; [|exact K]. apply (nform_run l NStart [] st); [reflexivity|exact H]. Qed.

(** The state after something has been read does not become one of the first two. *)
Lemma nstep_kind st c st' : nkind st <> None -> nstep st c = Some st' -> nkind st' <> None.
Proof.
  destruct st; cbn; intros N H; try congruence;
  repeat match type of H with (if ?b then _ else _) = _ => destruct b end; try discriminate H; injection H as <-; discriminate.
Qed.
Lemma number_extend k t k' c r : number k t -> number k' (t ++ c :: r) -> exists k'', number k'' (t ++ [c]).
Proof.
  intros H1 H2. apply number_run in H1, H2. destruct H1 as (st1 & E1 & K1), H2 as (st2 & E2 & K2).
  rewrite nrun_app, E1 in E2. cbn [nrun] in E2. destruct (nstep st1 c) as [st3|] eqn:E3; [|discriminate].
  destruct (nkind st3) as [k3|] eqn:K3; [|exfalso; eapply nstep_kind; [|exact E3|exact K3]; congruence].
  exists k3. eapply run_number; [|exact K3]. rewrite nrun_app, E1. cbn [nrun]. now rewrite E3.
Qed.
Lemma number_kind k k' t : number k t -> number k' t -> k = k'.
Proof. intros H1 H2. apply number_run in H1, H2. destruct H1 as (? & E1 & K1), H2 as (? & E2 & K2). congruence. Qed.
Lemma number_head k t : number k t -> exists c r, t = c :: r /\ (decimal c \/ (c = 43 \/ c = 45) /\ exists d r', r = d :: r' /\ decimal d).
Proof.
  intros H. apply number_run in H. destruct H as (st & E & K). destruct t as [|c r]; [injection E as <-; discriminate|].
  exists c, r. split; [reflexivity|]. cbn [nrun nstep] in E. destruct (sgn c) eqn:E1.
  - right. apply sgn_spec in E1. split; [assumption|]. destruct r as [|d r]; [injection E as <-; discriminate|]. exists d, r. split; [reflexivity|].
    cbn [nrun nstep] in E. destruct (Z.eqb_spec d 48) as [->|]; [split; lia|]. destruct (dec d) eqn:E2; [|discriminate]. now apply dec_spec.
  - left. destruct (Z.eqb_spec c 48) as [->|]; [split; lia|]. destruct (dec c) eqn:E2; [|discriminate]. now apply dec_spec.
Qed.

(** ** Strings and comments end at one place *)
Lemma string_body_unique q b : string_body q b -> forall b' r r', string_body q b' -> q <> 92 -> b ++ q :: r = b' ++ q :: r' -> b = b' /\ r = r'.
Proof.
  induction 1 as [|c l Hc1 Hc2 Hc3 _ IH|e l He _ IH]; intros b' r r' H' Hq E.
  - destruct H' as [|c l' ? ? ? ?|e l' ? ?]; cbn in E; [split; congruence|injection E as -> E; congruence|injection E as -> E; congruence].
  - destruct H' as [|c' l' ? ? ? H'|e l' ? H']; cbn in E; injection E as E1 E; [congruence| |congruence].
    subst c'. destruct (IH l' r r' H' Hq E) as (-> & ->). auto.
  - destruct H' as [|c' l' ? ? ? H'|e' l' ? H']; cbn in E; [injection E as E1 E; congruence|injection E as E1 E; congruence|].
    injection E as -> E. destruct (IH l' r r' H' Hq E) as (-> & ->). auto.
Qed.

Lemma string_no_longer t c r : string_text t -> ~ string_text (t ++ c :: r).
Proof.
  intros (q & b & Hq & Hb & ->) (q' & b' & Hq' & Hb' & E). cbn in E. injection E as <- E.
  rewrite <- app_assoc in E. cbn in E. destruct (string_body_unique q b Hb b' (c :: r) [] Hb') as (_ & N); [lia| |discriminate]. exact E.
Qed.
Lemma full_no_longer t c r : full_comment t -> ~ full_comment (t ++ c :: r).
Proof.
  intros (b & -> & F) (b' & E & F'). cbn in E. injection E as E. rewrite <- app_assoc in E. cbn in E. specialize (F' b (c :: r)).
  rewrite <- E in F'. specialize (F' eq_refl). discriminate.
Qed.

(** ** Longest match *)
Section L.
Context (u : unicode).

Lemma starts_word_codes c : starts_word u c -> 65 <= c.
Proof.
  intros [H| ->]; [|lia]. unfold is_letter, in_range in H. destruct (Z.ltb_spec c 128); [|lia].
  apply orb_true_iff in H. rewrite !andb_true_iff, !Z.leb_le in H. lia.
Qed.
Lemma starts_word_ascii c : starts_word u c -> c < 128 -> 65 <= c <= 90 \/ c = 95 \/ 97 <= c <= 122.
Proof.
  intros [H| ->]; [|lia]. unfold is_letter, in_range in H. destruct (Z.ltb_spec c 128); [|lia].
  apply orb_true_iff in H. rewrite !andb_true_iff, !Z.leb_le in H. lia.
Qed.

Lemma punctuation_codes k t : In (k, t) punctuation ->
  (exists c, t = [c] /\ c < 128 /\ ~ starts_word u c /\ ~ decimal c /\ c <> 34 /\ c <> 39 /\ c <> 35) \/ t = [61; 61].
Proof.
  intros H. cbn in H.
  repeat destruct H as [H|H]; [..|contradiction]; injection H as <- <-;
    first [now right|left; eexists; split; [reflexivity|]; split; [lia|]; split; [intros W; apply starts_word_ascii in W; lia|unfold decimal; lia]].
Qed.

(** The first character tells the class, except for signs and slashes. *)
Inductive class := CWord | CNumber | CString | CLine | CFull | CPunct.
Definition in_class (k : Z) (t : list char) (cl : class) : Prop :=
  match cl with
  | CWord => exists c r, t = c :: r /\ starts_word u (fst c) /\ Forall (in_word u) (codes r) /\ word_kind (text t) k
  | CNumber => number k (codes t)
  | CString => k = K_STRING /\ string_text (codes t)
  | CLine => k = K_COMMENT /\ line_comment (codes t)
  | CFull => k = K_COMMENT /\ full_comment (codes t)
  | CPunct => In (k, codes t) punctuation
  end.
Lemma lexeme_class k t : lexeme u k t <-> exists cl, in_class k t cl.
Proof.
  split.
  - intros H. destruct H as [k c r ? ? ?|k t ?|t ?|t ?|t ?|k t ?]; [exists CWord; exists c, r; auto|exists CNumber|exists CString|exists CLine|exists CFull|exists CPunct]; cbn; auto.
  - intros (cl & H). destruct cl; cbn in H.
    + destruct H as (c & r & -> & ? & ? & ?). now apply lx_word.
    + now apply lx_number.
    + destruct H as (-> & H). now apply lx_string.
    + destruct H as (-> & H). now apply lx_line.
    + destruct H as (-> & H). now apply lx_full.
    + now apply lx_punct.
Qed.

(** The possible first characters of each class. *)
Definition first_of (cl : class) (c : Z) : Prop :=
  match cl with
  | CWord => starts_word u c
  | CNumber => decimal c \/ c = 43 \/ c = 45
  | CString => c = 34 \/ c = 39
  | CLine => c = 35 \/ c = 47
  | CFull => c = 47
  | CPunct => c < 128 /\ ~ starts_word u c /\ ~ decimal c /\ c <> 34 /\ c <> 39 /\ c <> 35
  end.
Lemma class_first k t cl : in_class k t cl -> exists c r, t = c :: r /\ first_of cl (fst c).
Proof.
  destruct cl; cbn [in_class first_of]; intros H.
  - destruct H as (c & r & -> & H & _). eauto.
  - apply number_head in H. destruct H as (c & r & E & H). destruct t as [|c' t]; [discriminate|]. injection E as E1 E2. subst.
    exists c', t. split; [reflexivity|]. tauto.
  - destruct H as (_ & q & b & H & _ & E). destruct t as [|c' t]; [discriminate|]. injection E as E1 E2. subst. eauto.
  - destruct H as (_ & l & _ & E). destruct t as [|c' t]; [destruct E; discriminate|]. exists c', t. split; [reflexivity|].
    destruct E as [E|E]; injection E as E1 E2; auto.
  - destruct H as (_ & b & E & _). destruct t as [|c' t]; [discriminate|]. injection E as E1 E2. eauto.
  - destruct (punctuation_codes k _ H) as [(c & E & Hc)|E].
    + destruct t as [|c' t]; [discriminate|]. injection E as E1 E2. subst. eauto.
    + destruct t as [|c' t]; [discriminate|]. injection E as E1 E2. exists c', t. split; [reflexivity|]. rewrite E1.
      split; [lia|]. split; [intros W; apply starts_word_ascii in W; lia|]. unfold decimal. lia.
Qed.
Lemma lexeme_nonempty k t : lexeme u k t -> t <> [].
Proof. intros H. apply lexeme_class in H. destruct H as (cl & H). apply class_first in H. destruct H as (? & ? & -> & _). discriminate. Qed.

Lemma class_overlap c cl cl' : first_of cl c -> first_of cl' c -> cl = cl' \/
  ((c = 43 \/ c = 45) /\ In cl [CNumber; CPunct] /\ In cl' [CNumber; CPunct]) \/
  (c = 47 /\ In cl [CLine; CFull; CPunct] /\ In cl' [CLine; CFull; CPunct]).
Proof.
  intros H H'. assert (W := starts_word_ascii c). unfold first_of, decimal in *.
  destruct cl, cl'; auto; cbn [In];
  repeat match goal with
  | H : _ /\ _ |- _ => destruct H
  | H : _ \/ _ |- _ => destruct H
  end; subst; try tauto;
  try (exfalso; match goal with H : starts_word _ _ |- _ => apply starts_word_ascii in H; lia end);
  try (exfalso; match goal with H : starts_word _ ?x |- _ => destruct (Z.lt_ge_cases x 128) as [L|L]; [apply starts_word_ascii in H; lia|lia] end);
  try lia; try (right; right; tauto); try (right; left; tauto).
Qed.

(** From a token and a longer one, the token can be made longer by one
    character; except that / and a full comment leave a gap. *)
Lemma lexeme_extend k t k' c r : lexeme u k t -> lexeme u k' (t ++ c :: r) ->
  (exists k'', lexeme u k'' (t ++ [c])) \/ (codes t = [47] /\ fst c = 42).
Proof.
  intros H H'. apply lexeme_class in H, H'. destruct H as (cl & H), H' as (cl' & H').
  destruct (class_first _ _ _ H) as (c0 & t0 & -> & F). destruct (class_first _ _ _ H') as (c1 & t1 & E & F'). cbn [app] in E. injection E as <- <-.
  destruct (class_overlap _ _ _ F F') as [<-|[(Hc & I & I')|(Hc & I & I')]].
  - destruct cl; cbn [in_class] in H, H'.
    + left. destruct H as (c2 & r2 & E & _ & H & _). injection E as <- <-. destruct H' as (c2 & r2 & E & H1 & H' & _). injection E as <- <-.
      rewrite codes_app in H'. apply Forall_app in H'. destruct H' as (_ & H'). cbn in H'. inversion_clear H' as [|? ? Hc _].
      assert (exists k'', word_kind (text ((c0 :: t0) ++ [c])) k'') as (k'' & Hk).
      { set (w := text ((c0 :: t0) ++ [c])). clearbody w. unfold word_kind.
        assert (G : forall L : list (string * Z), (exists k'' x, In (x, k'') L /\ w = lit x) \/ (forall x k', In (x, k') L -> w <> lit x)).
        { induction L as [|[x kx] L [(k'' & y & Hy & E)|IH]]; [right; intros ? ? []|left; exists k'', y; split; [now right|exact E]|].
          destruct (list_eq_dec Byte.byte_eq_dec w (lit x)) as [->|N].
          - left. exists kx, x. split; [now left|reflexivity].
          - right. intros y ky [E|Hy]; [now injection E as <- <-|]. now apply (IH y ky). }
        destruct (G reserved) as [(k'' & x & Hx & E)|N]; [exists k''; left; eauto|exists K_IDENT; right; auto]. }
      exists k''. apply lx_word; [exact F|rewrite codes_app; apply Forall_app; split; [exact H|now constructor]|exact Hk].
    + left. rewrite codes_app in H'. cbn [codes map app] in H'. destruct (number_extend k _ k' (fst c) _ H H') as (k'' & N).
      exists k''. apply lx_number. now rewrite codes_app.
    + destruct H as (_ & H), H' as (_ & H'). rewrite codes_app in H'. exfalso; exact (string_no_longer _ _ _ H H').
    + left. exists K_COMMENT. apply lx_line. destruct H as (_ & l & Hl & E), H' as (_ & l' & Hl' & E'). rewrite codes_app in *.
      exists (l ++ [fst c]). cbn [codes map app] in *. split.
      * intros I. apply in_app_or in I. destruct I as [I|[I|[]]]; [now apply Hl|]. apply Hl'.
        assert (In (fst c) (codes t0 ++ fst c :: codes r) /\ exists a, codes t0 = a ++ l /\ (a = [] \/ a = [47])) as (_ & a & Ea & Ha).
        { split; [apply in_or_app; right; now left|]. destruct E as [E|E]; injection E as E0 E1.
          - exists []. split; [exact E1|now left].
          - exists [47]. split; [exact E1|now right]. }
        change (map fst t0) with (codes t0) in *. change (map fst r) with (codes r) in *. rewrite Ea in *.
        destruct E' as [E'|E'].
        { injection E' as _ E'. rewrite <- E'. apply in_or_app. right. left. exact I. }
        { injection E' as E0 E'. destruct Ha as [->| ->]; cbn [app] in *.
          - destruct E as [E|E]; [assert (fst c0 = 35) by congruence; lia|apply (f_equal (@length Z)) in E; cbn in E; lia].
          - injection E' as E'. rewrite <- E'. apply in_or_app. right. left. exact I. }
      * destruct E as [E|E]; [left|right]; injection E as E0 E1; rewrite E0, E1; reflexivity.
    + destruct H as (_ & H), H' as (_ & H'). rewrite codes_app in H'. exfalso; exact (full_no_longer _ _ _ H H').
    + destruct (punctuation_codes _ _ H) as [(p & E & _)|E].
      * destruct (punctuation_codes _ _ H') as [(p' & E' & _)|E'].
        { rewrite codes_app in E'. rewrite E in E'. discriminate. }
        left. exists k'. apply lx_punct. rewrite codes_app in E'. rewrite E in E'. cbn in E'. injection E' as E1 E2 E3. destruct r; [|discriminate].
        exact H'.
      * destruct (punctuation_codes _ _ H') as [(p' & E' & _)|E']; rewrite codes_app, E in E'; discriminate.
  - (* a sign and a number *)
    cbn [In] in I, I'. destruct I as [<-|[<-|[]]]; cbn [in_class] in H.
    + destruct I' as [<-|[<-|[]]]; cbn [in_class] in H'.
      * left. rewrite codes_app in H'. cbn [codes map app] in H'. destruct (number_extend k _ k' (fst c) _ H H') as (k'' & N).
        exists k''. apply lx_number. now rewrite codes_app.
      * destruct (number_head _ _ H) as (x & y & E & [D|(_ & d & y' & -> & _)]); cbn [codes map] in E; injection E as E0 E1.
        { unfold decimal in D. lia. }
        destruct (punctuation_codes _ _ H') as [(p & E & _)|E]; cbn in E; injection E as E2 E3.
        { apply (f_equal (@length Z)) in E3. rewrite map_length, app_length in E3. cbn in E3. lia. }
        exfalso. lia.
    + destruct (punctuation_codes _ _ H) as [(p & E & _)|E]; cbn in E; injection E as E2 E3; [|exfalso; lia].
      destruct t0; [|discriminate]. cbn [app] in *.
      destruct I' as [<-|[<-|[]]]; cbn [in_class] in H'.
      * left. destruct (number_head _ _ H') as (x & y & E & [D|(_ & d & y' & -> & D)]); cbn [codes map] in E; injection E as E0 E1.
        { subst x. unfold decimal in D. lia. }
        exists K_INT. apply lx_number. cbn. apply (num_dec [fst c0] (fst c) []).
        { unfold sign. destruct Hc as [->| ->]; auto. }
        { constructor; [|constructor]. rewrite E1. exact D. }
      * destruct (punctuation_codes _ _ H') as [(p' & E & _)|E]; cbn in E; injection E as E0 E1; [discriminate|exfalso; lia].
  - (* slashes *)
    assert (HP : cl = CPunct -> t0 = []).
    { intros ->. cbn [in_class] in H. destruct (punctuation_codes _ _ H) as [(p & E & _)|E]; cbn in E; injection E as E2 E3; [|exfalso; lia].
      now destruct t0. }
    assert (HL : forall x, line_comment (codes (c0 :: x)) -> exists l, codes x = 47 :: l /\ ~ In 10 l).
    { intros x (l & N & [E|E]); cbn in E; injection E as E0 E1; [lia|]. exists l. auto. }
    assert (HF : forall x, full_comment (codes (c0 :: x)) -> exists l, codes x = 42 :: l).
    { intros x (b & E & _). cbn in E. injection E as E0 E1. eauto. }
    cbn [In] in I, I'. destruct I as [<-|[<-|[<-|[]]]].
    + destruct H as (_ & H). destruct (HL _ H) as (l & E & Hl). destruct I' as [<-|[<-|[<-|[]]]].
      * left. exists K_COMMENT. apply lx_line. destruct H' as (_ & H'). destruct (HL _ H') as (l' & E' & Hl').
        rewrite codes_app, E in E'. cbn [app codes map] in E'. injection E' as E'.
        exists (l ++ [fst c]). split; [intros J; apply in_app_or in J; destruct J as [J|[J|[]]]; [now apply Hl|]|].
        { apply Hl'. rewrite <- E'. apply in_or_app. right. now left. }
        right. rewrite codes_app. cbn [codes map]. change (map fst t0) with (codes t0). rewrite E, Hc. reflexivity.
      * destruct H' as (_ & H'). destruct (HF _ H') as (l' & E'). rewrite codes_app, E in E'. discriminate.
      * cbn [in_class] in H'. destruct (punctuation_codes _ _ H') as [(p' & E' & _)|E']; cbn in E'; injection E' as E0 E1; [|exfalso; lia].
        apply (f_equal (@length Z)) in E1. rewrite map_length, app_length in E1. cbn in E1. lia.
    + destruct H as (_ & H). destruct (HF _ H) as (l & E). destruct I' as [<-|[<-|[<-|[]]]].
      * destruct H' as (_ & H'). destruct (HL _ H') as (l' & E' & _). rewrite codes_app, E in E'. discriminate.
      * destruct H' as (_ & H'). change (c0 :: t0 ++ c :: r) with ((c0 :: t0) ++ c :: r) in H'. rewrite codes_app in H'. exfalso; exact (full_no_longer _ _ _ H H').
      * cbn [in_class] in H'. destruct (punctuation_codes _ _ H') as [(p' & E' & _)|E']; cbn in E'; injection E' as E0 E1; [|exfalso; lia].
        apply (f_equal (@length Z)) in E1. rewrite map_length, app_length in E1. cbn in E1. lia.
    + rewrite (HP eq_refl) in *. cbn [app] in *. destruct I' as [<-|[<-|[<-|[]]]].
      * destruct H' as (_ & H'). destruct (HL _ H') as (l' & E' & _). cbn in E'. injection E' as E0 E1.
        left. exists K_COMMENT. apply lx_line. exists []. split; [tauto|]. right. cbn. now rewrite Hc, E0.
      * destruct H' as (_ & H'). destruct (HF _ H') as (l' & E'). cbn in E'. injection E' as E0 E1.
        right. cbn. now rewrite Hc, E0.
      * cbn [in_class] in H'. destruct (punctuation_codes _ _ H') as [(p' & E' & _)|E']; cbn in E'; injection E' as E0 E1; [discriminate|exfalso; lia].
Qed.

(** ** The kind of a token is a function of its text *)
Lemma word_kind_unique w k k' : word_kind w k -> word_kind w k' -> k = k'.
Proof.
  assert (ND : NoDup (map fst reserved)).
  { cbn. repeat (constructor; [cbn; intuition discriminate|]). constructor. }
  assert (G : forall x y k k', In (x, k) reserved -> In (y, k') reserved -> lit x = lit y -> k = k').
  { intros x y k1 k2 H1 H2 E. assert (x = y).
    { apply (f_equal string_of_list_byte) in E. unfold lit in E. now rewrite !string_of_list_byte_of_string in E. } subst y.
    clear E. induction reserved as [|[z kz] L IH]; [destruct H1|]. cbn in ND. inversion_clear ND as [|? ? N1 N2].
    destruct H1 as [E1|H1], H2 as [E2|H2].
    - congruence.
    - injection E1 as -> ->. exfalso. apply N1. now apply (in_map fst) in H2.
    - injection E2 as -> ->. exfalso. apply N1. now apply (in_map fst) in H1.
    - now apply IH. }
  intros [(x & Hx & Ex)|(N & ->)] [(y & Hy & Ey)|(N' & ->)].
  - eapply G; eauto. congruence.
  - exfalso. now apply (N' x k).
  - exfalso. now apply (N y k').
  - reflexivity.
Qed.

Lemma lexeme_kind k k' t : lexeme u k t -> lexeme u k' t -> k = k'.
Proof.
  intros H H'. apply lexeme_class in H, H'. destruct H as (cl & H), H' as (cl' & H').
  destruct (class_first _ _ _ H) as (c & r & E & F). destruct (class_first _ _ _ H') as (c' & r' & E' & F'). rewrite E in E'. injection E' as <- <-.
  assert (P1 : cl = CPunct -> fst c = 43 \/ fst c = 45 \/ fst c = 47 -> r = []).
  { intros -> Hc. cbn in H. destruct (punctuation_codes _ _ H) as [(p & Ep & _)|Ep]; rewrite E in Ep; cbn in Ep; injection Ep as E0 E1; [now destruct r|exfalso; lia]. }
  assert (P2 : cl' = CPunct -> fst c = 43 \/ fst c = 45 \/ fst c = 47 -> r = []).
  { intros -> Hc. cbn in H'. destruct (punctuation_codes _ _ H') as [(p & Ep & _)|Ep]; rewrite E in Ep; cbn in Ep; injection Ep as E0 E1; [now destruct r|exfalso; lia]. }
  destruct (class_overlap _ _ _ F F') as [<-|[(Hc & I & I')|(Hc & I & I')]].
  - destruct cl; cbn [in_class] in H, H'; try (destruct H as (-> & _), H' as (-> & _); reflexivity).
    + destruct H as (? & ? & _ & _ & _ & W), H' as (? & ? & _ & _ & _ & W'). eapply word_kind_unique; eauto.
    + eapply number_kind; eauto.
    + assert (ND : NoDup (map snd punctuation)). { cbn. repeat (constructor; [cbn; intuition discriminate|]). constructor. }
      clear - H H' ND. induction punctuation as [|[kz z] L IH]; [destruct H|]. cbn in ND. inversion_clear ND as [|? ? N1 N2].
      destruct H as [E1|H1], H' as [E2|H2].
      * congruence.
      * injection E1 as -> ->. exfalso. apply N1. now apply (in_map snd) in H2.
      * injection E2 as -> ->. exfalso. apply N1. now apply (in_map snd) in H1.
      * now apply IH.
  - assert (NN : forall k, number k (codes t) -> r <> []).
    { intros k0 N. destruct (number_head _ _ N) as (x & y & Ex & [D|(_ & d & y' & -> & _)]); rewrite E in Ex; cbn in Ex; injection Ex as E0 E1.
      - unfold decimal in D. lia.
      - intros ->. discriminate. }
    cbn [In] in I, I'. destruct I as [<-|[<-|[]]], I' as [<-|[<-|[]]]; cbn [in_class] in H, H'.
    + eapply number_kind; eauto.
    + exfalso. apply (NN _ H). apply P2; tauto.
    + exfalso. apply (NN _ H'). apply P1; tauto.
    + rewrite (P1 eq_refl ltac:(tauto)) in E. rewrite E in H, H'. clear - H H' Hc.
      destruct c as [x bs]. cbn in H, H', Hc. destruct Hc as [->| ->]; repeat destruct H as [H|H]; try discriminate H; repeat destruct H' as [H'|H']; try discriminate H'; try contradiction; congruence.
  - assert (NL : forall k cl, in_class k t cl -> cl = CLine \/ cl = CFull -> k = K_COMMENT /\ r <> []).
    { intros k0 cl0 Hk [->| ->]; destruct Hk as (-> & Hk); (split; [reflexivity|]); intros ->; rewrite E in Hk.
      - destruct Hk as (l & _ & [El|El]); [|discriminate]. cbn in El. injection El as El. lia.
      - destruct Hk as (b & El & _). discriminate. }
    cbn [In] in I, I'. destruct I as [<-|[<-|[<-|[]]]], I' as [<-|[<-|[<-|[]]]];
    first
      [ destruct (NL _ _ H ltac:(tauto)) as (-> & _); destruct (NL _ _ H' ltac:(tauto)) as (-> & _); reflexivity
      | destruct (NL _ _ H ltac:(tauto)) as (_ & N); exfalso; apply N; apply P2; tauto
      | destruct (NL _ _ H' ltac:(tauto)) as (_ & N); exfalso; apply N; apply P1; tauto
      | idtac ].
    rewrite (P1 eq_refl ltac:(tauto)) in E. rewrite E in H, H'. clear - H H' Hc. cbn [in_class codes map] in H, H'. rewrite Hc in H, H'.
    cbn in H, H'. repeat destruct H as [H|H]; try discriminate H; repeat destruct H' as [H'|H']; try discriminate H'; try contradiction; congruence.
Qed.

(** ** Longest match and uniqueness *)
Lemma app_prefix {A} (a b c d : list A) : a ++ b = c ++ d -> (length a <= length c)%nat -> exists m, c = a ++ m /\ b = m ++ d.
Proof.
  revert c. induction a as [|x a IH]; intros c H L; [exists c; auto|].
  destruct c as [|y c]; [cbn in L; lia|]. cbn in *. injection H as <- H. destruct (IH c H ltac:(lia)) as (m & -> & ->). eauto.
Qed.

Definition stops (t rest : list char) : Prop :=
  forall c r, rest = c :: r -> (forall k', ~ lexeme u k' (t ++ [c])) /\ ~ (codes t = [47] /\ fst c = 42).

(** No token that starts where [t] starts is longer. *)
Theorem longest_match k t rest : lexeme u k t -> stops t rest ->
  forall k' t' rest', t ++ rest = t' ++ rest' -> lexeme u k' t' -> (length t' <= length t)%nat.
Proof.
  intros H S k' t' rest' E H'. destruct (Nat.le_gt_cases (length t') (length t)) as [L|L]; [exact L|exfalso].
  destruct (app_prefix t rest t' rest' E ltac:(lia)) as (m & -> & ->). destruct m as [|c m]; [rewrite app_nil_r in L; lia|].
  destruct (S c (m ++ rest') eq_refl) as (S1 & S2). destruct (lexeme_extend k t k' c m H H') as [(k'' & N)|N]; [now apply (S1 k'')|now apply S2].
Qed.

Lemma lexeme_not_white k c r : lexeme u k (c :: r) -> ~ white (fst c).
Proof.
  intros H W. apply lexeme_class in H. destruct H as (cl & H). destruct (class_first _ _ _ H) as (c' & r' & E & F). injection E as <- <-.
  destruct cl; cbn [first_of] in F; unfold white, decimal in *; try lia.
  - apply starts_word_codes in F. lia.
  - cbn in H. repeat destruct H as [H|H]; try contradiction; injection H as _ H; lia.
Qed.

Theorem lexes_unique cs k t rest k' t' rest' : lexes u cs k t rest -> lexes u cs k' t' rest' -> k = k' /\ t = t' /\ rest = rest'.
Proof.
  intros (ws & E & W & H & S) (ws' & E' & W' & H' & S').
  assert (WS : ws = ws' /\ t ++ rest = t' ++ rest').
  { rewrite E in E'. clear E. revert ws' E' W'. induction W as [|w ws Hw _ IH]; intros ws' E' W'.
    - destruct ws' as [|w' ws']; [auto|]. cbn in E'. inversion_clear W' as [|? ? Hw' _]. destruct t as [|c t]; [exfalso; now apply (lexeme_nonempty _ _ H)|].
      cbn in E'. injection E' as -> _. exfalso; now apply (lexeme_not_white _ _ _ H).
    - destruct ws' as [|w' ws'].
      + destruct t' as [|c t']; [exfalso; now apply (lexeme_nonempty _ _ H')|]. cbn in E'. injection E' as <- _. exfalso; now apply (lexeme_not_white _ _ _ H').
      + inversion_clear W' as [|? ? Hw' W'']. cbn in E'. injection E' as <- E'. destruct (IH _ E' W'') as (-> & E''). auto. }
  destruct WS as (_ & E''). pose proof (longest_match k t rest H S k' t' rest' E'' H') as L1.
  pose proof (longest_match k' t' rest' H' S' k t rest (eq_sym E'') H) as L2.
  destruct (app_prefix t rest t' rest' E'' ltac:(lia)) as (m & -> & ->). assert (m = []) as -> by (destruct m; [reflexivity|rewrite app_length in L1; cbn in L1; lia]).
  rewrite app_nil_r in *. split; [|auto]. eapply lexeme_kind; eauto.
Qed.

Theorem tokens_unique cs toks toks' : tokens u cs toks -> tokens u cs toks' -> toks = toks'.
Proof.
  assert (NW : forall cs k t rest, lexes u cs k t rest -> ~ Forall (fun c => white (fst c)) cs).
  { intros cs0 k t rest (ws & -> & W & H & S) F. apply Forall_app in F. destruct F as (_ & F). destruct t as [|c t]; [exfalso; now apply (lexeme_nonempty _ _ H)|].
    cbn in F. inversion_clear F as [|? ? F1 _]. exfalso; now apply (lexeme_not_white _ _ _ H). }
  intros H. revert toks'. induction H as [cs W|cs k t rest toks L T IH]; intros toks' H'.
  - destruct H' as [|cs k t rest toks' L' T']; [reflexivity|]. now apply NW in L'.
  - destruct H' as [cs W|cs k' t' rest' toks' L' T']; [now apply NW in L|].
    destruct (lexes_unique _ _ _ _ _ _ _ L L') as (-> & -> & ->). now rewrite (IH toks' T').
Qed.
End L.
