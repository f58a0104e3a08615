(** Putting sources together: the tokens of two texts joined by a newline, and
    the trees of token sequences that differ in their separators. *)
From Verif Require Import Base BaseLemmas GoType Utf8 Tokens LexSpec LexProof ScanProof Parse GrammarSpec ScanRun LayoutSpec.

(** ** Characters *)

Lemma decode_more s r : s <> [] -> ~ (fst (decode_rune s) = RuneError /\ snd (decode_rune s) = 1%nat) ->
  decode_rune (s ++ r) = decode_rune s.
Proof.
  destruct s as [|b0 s]; [congruence|]. intros _ H. cbn [app]. unfold decode_rune in *.
  destruct (b2z b0 <? 0x80); [reflexivity|].
  destruct ((0xC2 <=? b2z b0) && (b2z b0 <=? 0xDF)).
  { destruct s as [|b1 s]; [exfalso; apply H; split; reflexivity|reflexivity]. }
  destruct ((0xE0 <=? b2z b0) && (b2z b0 <=? 0xEF)).
  { destruct s as [|b1 [|b2 s]]; try (exfalso; apply H; split; reflexivity). reflexivity. }
  destruct ((0xF0 <=? b2z b0) && (b2z b0 <=? 0xF4)); [|reflexivity].
  destruct s as [|b1 [|b2 [|b3 s]]]; try (exfalso; apply H; split; reflexivity). reflexivity.
Qed.

Definition valid_char (c : char) : Prop := ~ (fst c = RuneError /\ length (snd c) = 1%nat).

Lemma chars_join a b : Forall valid_char (chars a) -> chars (a ++ b) = chars a ++ chars b.
Proof.
  induction a as [|a Ha IH] using chars_ind; [reflexivity|]. rewrite (chars_cons a Ha). intros F. inversion_clear F as [|? ? V F'].
  pose proof (decode_rune_fits a Ha) as W.
  assert (V' : ~ (fst (decode_rune a) = RuneError /\ snd (decode_rune a) = 1%nat)).
  { intros (A & B). apply V. split; [exact A|]. cbn [snd]. rewrite firstn_length. lia. }
  assert (Ne : a ++ b <> []) by (intros X; apply app_eq_nil in X; now destruct X).
  rewrite (chars_cons _ Ne), (decode_more a b Ha V'). cbn [app]. apply f_equal2.
  - apply (f_equal (pair _)). rewrite firstn_app. replace (snd (decode_rune a) - length a)%nat with 0%nat by lia. cbn [firstn]. now rewrite app_nil_r.
  - rewrite skipn_app. replace (snd (decode_rune a) - length a)%nat with 0%nat by lia. cbn [skipn]. now apply IH.
Qed.

Lemma chars_newline b : chars (x0a :: b) = (10, [x0a]) :: chars b.
Proof. rewrite (chars_cons (x0a :: b)) by discriminate. reflexivity. Qed.

(** ** Tokens *)

Section joined.
Context (u : unicode).

Lemma lexeme_no_newline k t c : fst c = 10 -> lexeme u k (t ++ [c]) -> False.
Proof.
  intros Hc H.
  assert (I : In 10 (codes (t ++ [c]))) by (unfold codes; rewrite map_app; apply in_or_app; right; cbn; auto).
  assert (L : exists x, codes (t ++ [c]) = x ++ [10]) by (exists (codes t); unfold codes; rewrite map_app; cbn; now rewrite Hc).
  inversion H as [k0 c0 r S F W E1 E2|k0 t0 N E1 E2|t0 (q & b & Q & B & E) E1 E2|t0 (l & NI & E) E1 E2|t0 (b & E & _) E1 E2|k0 t0 P E1 E2]; subst.
  - assert (N : forall z, in_word u z -> z <> 10).
    { intros z [A|[A|[A|A]]] ->; [rewrite is_letter_ascii in A by lia; discriminate|lia|discriminate|lia]. }
    rewrite <- E2 in I. cbn [codes map] in I. destruct I as [I|I].
    + apply (N (fst c0)); [destruct S as [S|S]; [now left|right; now left]|exact I].
    + apply (N 10); [|reflexivity]. now apply (proj1 (Forall_forall _ _) F).
  - assert (D : forall l, digits l -> ~ In 10 l) by (intros l D X; apply (proj1 (Forall_forall _ _) D) in X; unfold decimal in X; lia).
    assert (G : forall l, sign l -> ~ In 10 l) by (intros l [->|[->| ->]] X; cbn in X; intuition lia).
    destruct N as [sg x l Sg X Hx|sg d l Sg X|sg d l m Sg X Y|sg d l p e g m Sg X Y Ee Gg Y'].
    + apply in_app_or in I. destruct I as [I|[I|[I|I]]]; [now apply (G sg)|lia|lia|].
      apply (proj1 (Forall_forall _ _) Hx) in I. unfold hexadecimal, decimal in I. lia.
    + apply in_app_or in I. destruct I as [I|I]; [now apply (G sg)|now apply (D (d :: l))].
    + apply in_app_or in I. destruct I as [I|I]; [now apply (G sg)|]. rewrite app_comm_cons in I. apply in_app_or in I.
      destruct I as [I|[I|I]]; [now apply (D (d :: l))|lia|now apply (D m)].
    + apply in_app_or in I. destruct I as [I|I]; [now apply (G sg)|]. rewrite app_comm_cons in I. apply in_app_or in I.
      destruct I as [I|I]; [now apply (D (d :: l))|]. apply in_app_or in I. destruct I as [I|[I|I]].
      * destruct Y as [->|(q & -> & Y)]; [contradiction|]. destruct I as [I|I]; [lia|now apply (D q)].
      * lia.
      * apply in_app_or in I. destruct I as [I|I]; [now apply (G g)|now apply (D m)].
  - destruct L as (x & L). rewrite L in E. rewrite app_comm_cons in E. apply app_inj_tail in E. destruct E as (_ & E). lia.
  - apply NI. destruct E as [E|E]; rewrite E in I; cbn [In] in I; intuition lia.
  - destruct L as (x & L). rewrite L in E. change (47 :: 42 :: b ++ [42; 47]) with (47 :: 42 :: (b ++ [42] ++ [47])) in E.
    rewrite app_assoc, 2!app_comm_cons in E. apply app_inj_tail in E. destruct E as (_ & E). lia.
  - revert I P. generalize (codes (t ++ [c])). intros l I P. unfold punctuation in P. cbn [In] in P.
    repeat match goal with P : _ \/ _ |- _ => destruct P as [P|P] end; try contradiction; inversion P; subst; cbn [In] in I; intuition lia.
Qed.

Lemma tokens_white ws cs toks : Forall (fun c : char => white (fst c)) ws -> tokens u cs toks -> tokens u (ws ++ cs) toks.
Proof.
  intros F H. destruct H as [cs W|cs k t rest toks L T].
  - apply tk_end. now apply Forall_app.
  - apply tk_cons with (rest := rest); [|exact T]. destruct L as (ws' & -> & W & X). exists (ws ++ ws'). split; [now rewrite <- app_assoc|].
    split; [now apply Forall_app|exact X].
Qed.

Lemma tokens_join cs cs' toks toks' x : tokens u cs toks -> tokens u cs' toks' -> tokens u (cs ++ (10, x) :: cs') (toks ++ toks').
Proof.
  intros H H'. assert (N : tokens u ((10, x) :: cs') toks').
  { apply (tokens_white [(10, x)]); [|exact H']. constructor; [left; reflexivity|constructor]. }
  induction H as [cs W|cs k t rest toks L T IH].
  - now apply tokens_white.
  - cbn [app]. apply tk_cons with (rest := rest ++ (10, x) :: cs'); [|exact IH].
    destruct L as (ws & -> & W & Lx & M). exists ws. split; [now rewrite <- !app_assoc|]. split; [exact W|]. split; [exact Lx|].
    intros c r E. destruct rest as [|c0 rest]; cbn [app] in E; inversion E; subst.
    + split; [intros k' Lk; now apply (lexeme_no_newline k' t (10, x))|]. cbn [fst]. lia.
    + now apply (M c rest).
Qed.

Lemma source_join a b ta tb : firstn 3 b <> [xef; xbb; xbf] -> source_tokens u a ta -> source_tokens u b tb ->
  source_tokens u (a ++ x0a :: b) (ta ++ tb).
Proof.
  intros NB (Fa & Ta) (Fb & Tb).
  assert (Db : drop_bom (chars b) = chars b).
  { destruct b as [|b0 b']; [reflexivity|]. rewrite (chars_cons (b0 :: b')) by discriminate. cbn [drop_bom fst].
    destruct (Z.eqb_spec (fst (decode_rune (b0 :: b'))) byte_order_mark) as [E|E]; [|reflexivity].
    exfalso. apply NB. now apply decode_rune_bom. }
  rewrite Db in Fb, Tb.
  assert (Va : Forall valid_char (chars a)).
  { revert Fa. unfold drop_bom. destruct (chars a) as [|c cs]; [auto|]. destruct (Z.eqb_spec (fst c) byte_order_mark) as [E|E]; intros F.
    - constructor; [intros (X & _); rewrite E in X; discriminate|]. eapply Forall_impl; [|exact F]. now intros ? (_ & ? & _).
    - eapply Forall_impl; [|exact F]. now intros ? (_ & ? & _). }
  assert (E : drop_bom (chars (a ++ x0a :: b)) = drop_bom (chars a) ++ (10, [x0a]) :: chars b).
  { rewrite (chars_join _ _ Va), chars_newline. destruct (chars a) as [|c cs]; [reflexivity|]. cbn [app drop_bom].
    destruct (fst c =? byte_order_mark); reflexivity. }
  unfold source_tokens. rewrite E. split; [|now apply tokens_join].
  apply Forall_app. split; [exact Fa|]. constructor; [|exact Fb]. unfold ok_char. cbn [fst snd length]. split; [lia|]. split; [intros (X & _); discriminate|discriminate].
Qed.
End joined.

(** ** Trees *)

Lemma many_app {A} (G : A -> list tok -> Prop) l l' t t' : many G l t -> many G l' t' -> many G (l ++ l') (t ++ t').
Proof. intros H H'. induction H as [|a l ta tl Ha _ IH]; [exact H'|]. cbn [app]. rewrite <- app_assoc. now apply mn_cons. Qed.

Lemma rs_app a b t' : respaced (a ++ b) t' -> exists a' b', t' = a' ++ b' /\ respaced a a' /\ respaced b b'.
Proof.
  revert t'. induction a as [|x a IH]; intros t' H; [exists [], t'; repeat split; [constructor|exact H]|].
  cbn [app] in H. inversion H as [|x0 t t0 H0|x0 s t t0 S H0]; subst.
  - destruct (IH _ H0) as (a' & b' & -> & A & B). exists (x :: a'), b'. repeat split; [now constructor|exact B].
  - destruct (IH _ H0) as (a' & b' & -> & A & B). exists (s ++ a'), b'. repeat split; [now rewrite app_assoc|now constructor|exact B].
Qed.
Lemma rs_cons k x t t' : k <> K_SEMICOLON -> respaced ((k, x) :: t) t' -> exists r, t' = (k, x) :: r /\ respaced t r.
Proof. intros N H. inversion H as [|x0 t0 t1 H0|x0 s t0 t1 S H0]; subst; [eauto|congruence]. Qed.
Lemma rs_end t' : respaced [] t' -> t' = [].
Proof. intros H. now inversion H. Qed.
Lemma rs_sep s s' : separators s -> respaced s s' -> separators s'.
Proof.
  intros H R. induction R as [|x t t' _ IH|x z t t' Z _ IH]; [constructor| |].
  - inversion_clear H. constructor; [assumption|now apply IH].
  - inversion_clear H. apply Forall_app. split; [exact Z|now apply IH].
Qed.

Definition stable {A} (G : A -> list tok -> Prop) : Prop := forall a t t', G a t -> respaced t t' -> G a t'.

Ltac rs :=
  repeat match goal with
  | H : respaced (_ ++ _) _ |- _ => let a := fresh "a'" in let b := fresh "b'" in let A := fresh "A" in let B := fresh "B" in
      apply rs_app in H; destruct H as (a & b & -> & A & B)
  | H : respaced ((?k, _) :: _) _ |- _ => let r := fresh "r'" in let R := fresh "R" in
      apply (rs_cons k) in H; [destruct H as (r & -> & R)|solve [discriminate|assumption]]
  | H : respaced [] _ |- _ => apply rs_end in H; subst
  end.

Lemma st_items {A} (G : A -> list tok -> Prop) : stable G -> stable (items G).
Proof.
  intros S l t t' H. revert t'. induction H as [|a l ta sep tl Ha Hs _ IH]; intros t' R; rs; [constructor|].
  apply it_cons; [now apply (S a ta)|now apply (rs_sep sep)|now apply IH].
Qed.
Lemma st_bracketed {A} o c (G : A -> list tok -> Prop) : o <> K_SEMICOLON -> c <> K_SEMICOLON -> stable G -> stable (bracketed o c G).
Proof.
  intros No Nc S l t t' H R. destruct H as [l t x y H]. rs. apply br. now apply (st_items G S l t).
Qed.
Lemma st_optional {A} (G : A -> list tok -> Prop) : stable G -> stable (optional G).
Proof. intros S o t t' H R. destruct H as [|a t H]; rs; [constructor|]. constructor. now apply (S a t). Qed.
Lemma st_flag k : k <> K_SEMICOLON -> stable (flag k).
Proof. intros N b t t' H R. destruct H; rs; constructor. Qed.
Lemma st_lexical k : k <> K_SEMICOLON -> stable (lexical k).
Proof. intros N b t t' H R. destruct H; rs; constructor. Qed.
Lemma st_after {A} k (G : A -> list tok -> Prop) : k <> K_SEMICOLON -> stable G -> stable (after k G).
Proof. intros N S a t t' H R. destruct H; rs. constructor. now apply (S a t). Qed.
Lemma st_many {A} (G : A -> list tok -> Prop) : stable G -> stable (many G).
Proof.
  intros S l t t' H. revert t'. induction H as [|a l ta tl Ha _ IH]; intros t' R; rs; [constructor|].
  apply mn_cons; [now apply (S a ta)|now apply IH].
Qed.

Lemma st_annots : stable g_annots.
Proof.
  apply st_optional, st_bracketed; try discriminate. intros a t t' H R. destruct H as [w o to H]. rs. constructor.
  revert H R0. apply st_optional, st_after; [discriminate|]. now apply st_lexical.
Qed.

Lemma st_type : stable g_type.
Proof.
  intros a t t' H. revert t'. induction H as [k tk v tv a ta x1 x2 x3 x4 _ IHk _ IHv Ha|e te a ta x1 x2 x3 _ IH Ha|e te a ta x1 x2 x3 _ IH Ha|w a ta Ha]; intros t' R; rs.
  - apply gt_map; auto. now apply (st_annots a ta).
  - apply gt_set; auto. now apply (st_annots a ta).
  - apply gt_list; auto. now apply (st_annots a ta).
  - apply gt_ref; auto. now apply (st_annots a ta).
Qed.

Fixpoint st_value_at v t (H : g_value v t) {struct H} : forall t', respaced t t' -> g_value v t'.
Proof.
  destruct H as [w|w|w|w|l t H|l t H]; intros t' R.
  - rs. constructor.
  - rs. constructor.
  - rs. constructor.
  - rs. constructor.
  - apply gv_list. destruct H as [l t x y H]. rs. apply br. revert a' A.
    refine ((fix go l t (H : items g_value l t) {struct H} : forall t', respaced t t' -> items g_value l t' := _) l t H).
    destruct H as [|a l1 ta sep tl Ha Hs Hl]; intros t' R; rs; [constructor|].
    apply it_cons; [exact (st_value_at _ _ Ha _ A)|exact (rs_sep _ _ Hs A0)|exact (go _ _ Hl _ B0)].
  - apply gv_map. destruct H as [l t x y H]. rs. apply br. revert a' A.
    refine ((fix go l t (H : items (g_pair g_value) l t) {struct H} : forall t', respaced t t' -> items (g_pair g_value) l t' := _) l t H).
    destruct H as [|a l1 ta sep tl Ha Hs Hl]; intros t' R; rs; [constructor|].
    apply it_cons; [|exact (rs_sep _ _ Hs A0)|exact (go _ _ Hl _ B0)].
    destruct Ha as [k tk v tv x0 Hk Hv]. rs. apply gp; [apply (st_value_at _ _ Hk); assumption|apply (st_value_at _ _ Hv); assumption].
Qed.

Lemma st_value : stable g_value.
Proof. intros v t t' H. now apply st_value_at. Qed.

Lemma keyword_no_semicolon k : k = K_IDENT \/ isKeyword k = true -> k <> K_SEMICOLON.
Proof. intros [->|H] E; [discriminate|]. subst k. discriminate. Qed.

Lemma st_enum_value : stable g_enum_value.
Proof.
  intros a t t' H R. destruct H as [w o to a ta Ho Ha]. rs. constructor; [|now apply (st_annots a ta)].
  revert Ho A. apply st_optional, st_after; [discriminate|]. now apply st_lexical.
Qed.
Lemma st_field : stable g_field.
Proof.
  intros a t t' H R. destruct H as [id tid rq op tr t tt rf trf nm tn d td a ta Hid Hr Ht Hf Hn Hd Ha]. rs. constructor.
  - revert Hid A. apply st_optional. intros w x x' X RX. destruct X. rs. constructor.
  - destruct Hr; rs; constructor.
  - now apply (st_type t tt).
  - revert Hf A2. now apply st_flag.
  - destruct Hn as [k w Hk]. pose proof (keyword_no_semicolon k Hk). rs. now constructor.
  - revert Hd A4. apply st_optional, st_after; [discriminate|apply st_value].
  - now apply (st_annots a ta).
Qed.
Lemma st_method : stable g_method.
Proof.
  intros a t t' H R. destruct H as [ow to v r tr w args targs th tth a ta Ho Hr Hg Ht Ha]. rs. constructor.
  - revert Ho A. now apply st_flag.
  - destruct Hr as [x|t tt Ht']; rs; constructor. now apply (st_type t tt).
  - revert Hg A1. apply st_bracketed; [discriminate|discriminate|apply st_field].
  - revert Ht A2. apply st_optional, st_after; [discriminate|]. apply st_bracketed; [discriminate|discriminate|apply st_field].
  - now apply (st_annots a ta).
Qed.
Lemma st_header : stable g_header.
Proof.
  intros a t t' H R. destruct H as [w x|w a ta x y Ha|sc w a ta x Ha]; rs; constructor; now apply (st_annots a ta).
Qed.
Lemma st_def : stable g_def.
Proof.
  intros a t t' H R. destruct H as [t tt w v tv sep x y Ht Hv Hs|t tt w a ta sep x Ht Ha Hs|w l tl a ta x Hl Ha|k un ex w l tl a ta x Hk Hl Ha|w e te l tl a ta x He Hl Ha].
  - rs. constructor; [now apply (st_type t tt)|now apply (st_value v tv)|now apply (rs_sep sep)].
  - rs. constructor; [now apply (st_type t tt)|now apply (st_annots a ta)|now apply (rs_sep sep)].
  - rs. constructor; [|now apply (st_annots a ta)]. revert Hl A. apply st_bracketed; [discriminate|discriminate|apply st_enum_value].
  - assert (k <> K_SEMICOLON) by (destruct Hk; discriminate). rs. constructor; [exact Hk| |now apply (st_annots a ta)]. revert Hl A. apply st_bracketed; [discriminate|discriminate|apply st_field].
  - rs. constructor; [| |now apply (st_annots a ta)].
    + revert He A. apply st_optional, st_after; [discriminate|]. now apply st_lexical.
    + revert Hl A0. apply st_bracketed; [discriminate|discriminate|apply st_method].
Qed.
Lemma st_file : stable g_file.
Proof.
  intros f t t' H R. destruct H as [hs ths ds tds Hh Hd]. rs. constructor.
  - revert Hh A. apply st_many, st_header.
  - revert Hd B. apply st_many, st_def.
Qed.
