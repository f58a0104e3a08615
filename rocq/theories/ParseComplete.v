(** The parser returns the tree of every derivation, without an error. *)
From Coq Require Import Strings.String.
From Verif Require Import Base BaseLemmas GoType Utf8 Tokens Scan LexSpec LexProof ScanProof Parse GrammarSpec ParseProof.

Section complete.
Context (u : unicode) (src : list byte).
Notation inv := (inv src).
Notation mu := (mu src).
Notation eats := (eats u src).
Notation next := (p_next u src).

Lemma eats_inv s t s1 : eats s t s1 -> inv s -> inv s1 /\ (length t + mu s1 <= mu s)%nat.
Proof.
  induction 1 as [s|s s1 t s2 K Hn HE _ IH]; intros I; [split; [exact I|cbn; lia]|].
  pose proof (good_next u src s I) as G. rewrite Hn in G. destruct G as (I1 & L1 & S1 & _). destruct (IH I1) as (I2 & L2). split; [exact I2|].
  assert (Hp : (0 < mu s)%nat) by now apply (tok_mu src s (s_tok s)). specialize (S1 eq_refl Hp). cbn. lia.
Qed.

(** The first token of what is eaten. *)
Lemma eats_hd s k x t s2 : eats s ((k, x) :: t) s2 -> s_tok s = k /\ s_lit src s = x /\ k <> K_EOF /\ exists s1, next s = Ret tt s1 /\ eats s1 t s2.
Proof. intros H. inversion H; subst. repeat (split; [auto|]). eauto. Qed.
Lemma eats_0 s s2 : eats s [] s2 -> s = s2.
Proof. intros H. now inversion H. Qed.

Lemma run_bind {A B} (f : parser A) (k : A -> parser B) s a s1 : f s = Ret a s1 -> pbind f k s = k a s1.
Proof. intros H. unfold pbind. now rewrite H. Qed.

Lemma run_got k x t s s2 : eats s ((k, x) :: t) s2 -> exists s1, p_got u src k s = Ret true s1 /\ eats s1 t s2.
Proof. intros H. apply eats_hd in H. destruct H as (<- & _ & _ & s1 & Hn & He). exists s1. split; [|exact He]. unfold p_got, pbind. now rewrite Z.eqb_refl, Hn. Qed.
Lemma run_got_no k s : s_tok s <> k -> p_got u src k s = Ret false s.
Proof. intros H. unfold p_got. now rewrite (proj2 (Z.eqb_neq _ _) H). Qed.
Lemma run_want k x t s s2 : eats s ((k, x) :: t) s2 -> exists s1, p_want u src k s = Ret tt s1 /\ eats s1 t s2.
Proof. intros H. destruct (run_got _ _ _ _ _ H) as (s1 & H1 & H2). exists s1. split; [|exact H2]. unfold p_want, pbind. now rewrite H1. Qed.
Lemma run_lit k x t s s2 : eats s ((k, x) :: t) s2 -> exists s1, p_lit u src k s = Ret x s1 /\ eats s1 t s2.
Proof. intros H. apply eats_hd in H. destruct H as (<- & <- & _ & s1 & Hn & He). exists s1. split; [|exact He]. unfold p_lit, pbind. now rewrite Z.eqb_refl, Hn. Qed.
Lemma run_assign x t s s2 : eats s ((K_ASSIGN, x) :: t) s2 -> exists s1, p_gotAssign u src s = Ret true s1 /\ eats s1 t s2.
Proof. intros H. destruct (run_got _ _ _ _ _ H) as (s1 & H1 & H2). exists s1. split; [|exact H2]. unfold p_gotAssign, pbind. now rewrite H1. Qed.
Lemma run_assign_no s : s_tok s <> K_ASSIGN -> s_tok s <> K_EQL -> p_gotAssign u src s = Ret false s.
Proof. intros H H'. unfold p_gotAssign, pbind. rewrite (run_got_no _ _ H). unfold p_tok. now rewrite (proj2 (Z.eqb_neq _ _) H'). Qed.

Lemma run_separator_n : forall n t s s1, separators t -> eats s t s1 -> (length t <= n)%nat -> s_tok s1 <> K_COMMA -> s_tok s1 <> K_SEMICOLON ->
  p_separator_n u src n s = Ret tt s1.
Proof.
  intros n t. revert n. induction t as [|[k x] t IH]; intros n s s1 S H L N1 N2.
  - apply eats_0 in H. subst s1. destruct n; cbn [p_separator_n]; rewrite (proj2 (Z.eqb_neq _ _) N1), (proj2 (Z.eqb_neq _ _) N2); reflexivity.
  - inversion_clear S as [|? ? Hk St]. cbn in Hk. apply eats_hd in H. destruct H as (K & _ & _ & s2 & Hn & He). cbn in L. destruct n as [|n]; [lia|]. cbn [p_separator_n].
    rewrite K. replace ((k =? K_COMMA) || (k =? K_SEMICOLON)) with true by (destruct Hk as [->| ->]; reflexivity).
    rewrite (run_bind _ _ _ _ _ Hn). apply IH; auto. lia.
Qed.
Lemma fuel_mu s : (mu s < fuel src)%nat.
Proof. apply mu_fuel. Qed.
Lemma run_separator t s s1 : inv s -> separators t -> eats s t s1 -> s_tok s1 <> K_COMMA -> s_tok s1 <> K_SEMICOLON -> p_separator u src s = Ret tt s1.
Proof. intros I S H N1 N2. apply run_separator_n with t; auto. pose proof (eats_inv _ _ _ H I). pose proof (fuel_mu s). lia. Qed.

(** Standing at [s], with [t] to come up to [s1]. *)
Definition st (s : sstate) (t : list tok) (s1 : sstate) : Prop := inv s /\ eats s t s1.

(** ** Lists *)

(** What may follow an item without being taken for a part of it. *)
Definition ends_item (k : Z) : Prop := k <> K_LPAREN /\ k <> K_ASSIGN /\ k <> K_EQL /\ k <> K_THROWS.
Definition starts_item (k : Z) : Prop := ends_item k /\ ~ In k [K_EOF; K_COMMA; K_SEMICOLON; K_RPAREN; K_RBRACK; K_RBRACE].

(** [f] parses what [G] derives in fewer than [N] tokens if [F] holds of the
    token that follows. *)
Definition complete {A} (F : Z -> Prop) (N : nat) (G : A -> list tok -> Prop) (f : parser A) : Prop :=
  forall a t s s1, G a t -> (length t < N)%nat -> st s t s1 -> F (s_tok s1) -> f s = Ret a s1.
Definition begins {A} (G : A -> list tok -> Prop) (P : Z -> Prop) : Prop :=
  forall a t, G a t -> exists k x t', t = (k, x) :: t' /\ P k.

Lemma items_first {A} (G : A -> list tok -> Prop) l t s s1 close : begins G starts_item -> items G l t -> eats s t s1 -> s_tok s1 = close ->
  In close [K_RPAREN; K_RBRACK; K_RBRACE] -> ends_item (s_tok s) /\ s_tok s <> K_COMMA /\ s_tok s <> K_SEMICOLON.
Proof.
  intros HB H He Hc Hin. destruct H as [|a l ta sep tl Ha _ _].
  - apply eats_0 in He. subst s1. rewrite Hc. cbn in Hin. unfold ends_item. destruct Hin as [<-|[<-|[<-|[]]]]; repeat split; discriminate.
  - destruct (HB _ _ Ha) as (k & x & t' & -> & (E & N)). cbn [app] in He. apply eats_hd in He. destruct He as (-> & _). split; [exact E|]. cbn in N. split; intros X; apply N; rewrite X; tauto.
Qed.

Lemma run_items {A} (G : A -> list tok -> Prop) N close f : begins G starts_item -> complete ends_item N G f -> In close [K_RPAREN; K_RBRACK; K_RBRACE] ->
  forall l t, items G l t -> forall n s s1, (length t < N)%nat -> (length t <= n)%nat -> inv s -> eats s t s1 -> s_tok s1 = close -> p_items u src n close f s = Ret l s1.
Proof.
  intros HB HC Hin l t H. induction H as [|a l ta sep tl Ha Hs Hl IH]; intros n s s1 LN Ln I He Hc.
  - apply eats_0 in He. subst s1. destruct n; cbn [p_items]; rewrite Hc, Z.eqb_refl, andb_false_r; reflexivity.
  - apply eats_split in He. destruct He as (s2 & He1 & He). apply eats_split in He. destruct He as (s3 & He2 & He3).
    rewrite !app_length in LN, Ln. destruct (HB _ _ Ha) as (k & x & t' & Et & (E & Nk)).
    destruct (eats_inv _ _ _ He1 I) as (I2 & _). destruct (eats_inv _ _ _ He2 I2) as (I3 & _).
    destruct (items_first G l tl s3 s1 close HB Hl He3 Hc Hin) as (F1 & F2 & F3).
    assert (F0 : ends_item (s_tok s2)).
    { destruct sep as [|[k' x'] sep]; [apply eats_0 in He2; now subst|]. apply eats_hd in He2. destruct He2 as (-> & _). inversion_clear Hs as [|? ? Hk _]. cbn in Hk. unfold ends_item. destruct Hk as [->| ->]; repeat split; discriminate. }
    assert (K : s_tok s = k). { rewrite Et in He1. now apply eats_hd in He1. }
    destruct n as [|n]; [rewrite Et in Ln; cbn in Ln; lia|]. cbn [p_items]. rewrite K.
    assert (k <> K_EOF /\ k <> close) as (K1 & K2). { cbn in Nk, Hin. split; intros X; apply Nk; rewrite X; [tauto|]. destruct Hin as [<-|[<-|[<-|[]]]]; tauto. }
    rewrite (proj2 (Z.eqb_neq _ _) K1), (proj2 (Z.eqb_neq _ _) K2). cbn [negb andb].
    rewrite (run_bind _ _ _ _ _ (HC a ta s s2 Ha ltac:(lia) (conj I He1) F0)), (run_bind _ _ _ _ _ (run_separator _ _ _ I2 Hs He2 F2 F3)).
    assert (length ta <> 0)%nat by (rewrite Et; discriminate).
    rewrite (run_bind _ _ _ _ _ (IH n s3 s1 ltac:(lia) ltac:(lia) I3 He3 Hc)). reflexivity.
Qed.

Lemma run_list {A} (G : A -> list tok -> Prop) N open close f : begins G starts_item -> complete ends_item N G f -> In close [K_RPAREN; K_RBRACK; K_RBRACE] ->
  complete (fun _ => True) (S N) (bracketed open close G) (p_list u src open close f).
Proof.
  intros HB HC Hin l t s s1 H LN (I & He) _. destruct H as [l t x y Hi]. cbn [length] in LN. rewrite app_length in LN. cbn in LN.
  pose proof (eats_inv _ _ _ He I) as (_ & LM). cbn [length] in LM. rewrite app_length in LM.
  unfold p_list. destruct (run_want _ _ _ _ _ He) as (s2 & R2 & He2).
  assert (I2 : inv s2). { apply eats_hd in He. destruct He as (_ & _ & K & s2' & Hn & He'). pose proof (good_want u src open s I K) as G'. rewrite R2 in G'. apply G'. }
  rewrite (run_bind _ _ _ _ _ R2). apply eats_split in He2. destruct He2 as (s3 & He3 & He4).
  destruct (run_want _ _ _ _ _ He4) as (s4 & R4 & He5). apply eats_0 in He5. subst s4.
  apply eats_hd in He4. destruct He4 as (K3 & _).
  rewrite (run_bind _ _ _ _ _ (run_items G N close f HB HC Hin l t Hi (fuel src) s2 s3 ltac:(lia) ltac:(pose proof (fuel_mu s); lia) I2 He3 K3)).
  now rewrite (run_bind _ _ _ _ _ R4).
Qed.

(** ** Following a path *)
Lemma next_inv s s1 : inv s -> next s = Ret tt s1 -> inv s1.
Proof. intros I Hn. pose proof (good_next u src s I) as G. rewrite Hn in G. apply G. Qed.
Lemma st_split t1 t2 s s2 : st s (t1 ++ t2) s2 -> exists s1, st s t1 s1 /\ st s1 t2 s2.
Proof. intros (I & H). apply eats_split in H. destruct H as (s1 & H1 & H2). exists s1. destruct (eats_inv _ _ _ H1 I). split; split; auto. Qed.
Lemma st_tok s k x t s2 : st s ((k, x) :: t) s2 -> s_tok s = k.
Proof. intros (_ & H). now apply eats_hd in H. Qed.
Lemma st_0 s s2 : st s [] s2 -> s = s2.
Proof. intros (_ & H). now apply eats_0. Qed.
Lemma st_step s k x t s2 : st s ((k, x) :: t) s2 -> exists s1, next s = Ret tt s1 /\ st s1 t s2.
Proof. intros (I & H). apply eats_hd in H. destruct H as (_ & _ & _ & s1 & Hn & He). exists s1. split; [exact Hn|]. split; [now apply next_inv with s|exact He]. Qed.
Lemma st_next {A} (P : sstate -> res A) a k x t s s2 : st s ((k, x) :: t) s2 ->
  (forall t s2, eats s ((k, x) :: t) s2 -> exists s1, P s = Ret a s1 /\ eats s1 t s2) -> (forall s1, next s = Ret tt s1 -> P s = Ret a s1) ->
  exists s1, P s = Ret a s1 /\ st s1 t s2.
Proof. intros H _ HP. destruct (st_step _ _ _ _ _ H) as (s1 & Hn & H1). exists s1. auto. Qed.
Lemma st_got k x t s s2 : st s ((k, x) :: t) s2 -> exists s1, p_got u src k s = Ret true s1 /\ st s1 t s2.
Proof. intros H. pose proof (st_tok _ _ _ _ _ H) as K. destruct (st_step _ _ _ _ _ H) as (s1 & Hn & H1). exists s1. split; [|exact H1]. unfold p_got, pbind. now rewrite K, Z.eqb_refl, Hn. Qed.
Lemma st_want k x t s s2 : st s ((k, x) :: t) s2 -> exists s1, p_want u src k s = Ret tt s1 /\ st s1 t s2.
Proof. intros H. destruct (st_got _ _ _ _ _ H) as (s1 & H1 & H2). exists s1. split; [|exact H2]. unfold p_want, pbind. now rewrite H1. Qed.
Lemma st_lit k x t s s2 : st s ((k, x) :: t) s2 -> exists s1, p_lit u src k s = Ret x s1 /\ st s1 t s2.
Proof.
  intros H. pose proof (st_tok _ _ _ _ _ H) as K. destruct (st_step _ _ _ _ _ H) as (s1 & Hn & H1). exists s1. split; [|exact H1].
  destruct H as (_ & H). apply eats_hd in H. destruct H as (_ & <- & _). unfold p_lit, pbind. now rewrite K, Z.eqb_refl, Hn.
Qed.
Lemma st_assign x t s s2 : st s ((K_ASSIGN, x) :: t) s2 -> exists s1, p_gotAssign u src s = Ret true s1 /\ st s1 t s2.
Proof. intros H. destruct (st_got _ _ _ _ _ H) as (s1 & H1 & H2). exists s1. split; [|exact H2]. unfold p_gotAssign, pbind. now rewrite H1. Qed.

Ltac go R := rewrite (run_bind _ _ _ _ _ R).
Ltac split_st H := let s' := fresh "s" in let H' := fresh H in destruct (st_split _ _ _ _ H) as (s' & H' & H0); clear H; rename H0 into H.
Ltac by_lemma L H := let s' := fresh "s" in let R := fresh "R" in let H' := fresh "H" in destruct (L _ _ _ _ _ H) as (s' & R & H'); clear H; rename H' into H; go R; clear R.
Ltac want H := by_lemma st_want H.
Ltac got H := by_lemma st_got H.
Ltac literal H := by_lemma st_lit H.

(** [has <- gotAssign; v <- if has then f]: an optional part. *)
Lemma run_opt_assign {A} (G : A -> list tok -> Prop) N f F o t s s1 {B} (k : option A -> parser B) :
  complete F N G f -> optional (after K_ASSIGN G) o t -> (length t <= N)%nat -> st s t s1 -> (o <> None -> F (s_tok s1)) -> (o = None -> s_tok s1 <> K_ASSIGN /\ s_tok s1 <> K_EQL) ->
  (has <- p_gotAssign u src ;; v <- (if has : bool then w <- f ;; pret (Some w) else pret None) ;; k v) s = k o s1.
Proof.
  intros HC HO L H HF HN. destruct HO as [|a t HA].
  - apply st_0 in H. subst s1. destruct (HN eq_refl). go (run_assign_no s H H0). reflexivity.
  - destruct HA as [a t x HG]. destruct (st_assign _ _ _ _ H) as (s2 & R & H2). go R. cbn [length] in L. assert (HF' : F (s_tok s1)) by (apply HF; discriminate).
    cbv iota. rewrite (run_bind _ _ s2 (Some a) s1); [reflexivity|]. unfold pbind. rewrite (HC a t s2 s1 HG ltac:(lia) H2 HF'). reflexivity.
Qed.
Lemma run_opt {A} c (G : A -> list tok -> Prop) N f F o t s s1 {B} (k : option A -> parser B) :
  complete F N G f -> optional (after c G) o t -> (length t <= N)%nat -> st s t s1 -> (o <> None -> F (s_tok s1)) -> (o = None -> s_tok s1 <> c) ->
  (has <- p_got u src c ;; v <- (if has : bool then w <- f ;; pret (Some w) else pret None) ;; k v) s = k o s1.
Proof.
  intros HC HO L H HF HN. destruct HO as [|a t HA].
  - apply st_0 in H. subst s1. go (run_got_no c s (HN eq_refl)). reflexivity.
  - destruct HA as [a t x HG]. destruct (st_got _ _ _ _ _ H) as (s2 & R & H2). go R. cbn [length] in L. assert (HF' : F (s_tok s1)) by (apply HF; discriminate).
    cbv iota. rewrite (run_bind _ _ s2 (Some a) s1); [reflexivity|]. unfold pbind. rewrite (HC a t s2 s1 HG ltac:(lia) H2 HF'). reflexivity.
Qed.
Lemma first_opt {A} c (G : A -> list tok -> Prop) o t s s1 : optional (after c G) o t -> st s t s1 -> s_tok s = c \/ s_tok s = s_tok s1.
Proof. intros [|a t' H] X; [apply st_0 in X; subst; auto|]. destruct H. apply st_tok in X. auto. Qed.

Lemma complete_lit N k : complete (fun _ => True) N (lexical k) (p_lit u src k).
Proof. intros a t s s1 H _ X _. destruct H. destruct (st_lit _ _ _ _ _ X) as (s2 & R & X2). apply st_0 in X2. now subst. Qed.

Lemma complete_annotation N : complete ends_item N g_annotation (p_annotation u src).
Proof.
  intros a t s s1 H L X (F1 & F2 & F3 & F4). destruct H as [w o to HO]. unfold p_annotation. literal X.
  rewrite (run_opt_assign (lexical K_STRING) (length to) _ _ o to _ s1 _ (complete_lit _ K_STRING) HO); auto.
Qed.
Ltac starts := split; [repeat split; discriminate|cbn; intros X; repeat destruct X as [X|X]; try discriminate X; contradiction].
Lemma begins_annotation : begins g_annotation starts_item.
Proof. intros a t [w o to _]. eexists _, _, _. split; [reflexivity|]. starts. Qed.

Definition not_paren (k : Z) : Prop := k <> K_LPAREN.
Lemma complete_annots N : complete not_paren N g_annots (p_annotations u src).
Proof.
  intros a t s s1 H L X F. unfold p_annotations. unfold pbind at 1, p_tok. destruct H as [|l t HB].
  - apply st_0 in X. subst s1. now rewrite (proj2 (Z.eqb_neq _ _) F).
  - assert (K : s_tok s = K_LPAREN) by (destruct HB; now apply st_tok in X). rewrite K, Z.eqb_refl. cbn [negb].
    go (run_list g_annotation N K_LPAREN K_RPAREN (p_annotation u src) begins_annotation (complete_annotation N) ltac:(cbn; tauto) l t s s1 HB ltac:(lia) X Logic.I). reflexivity.
Qed.
Lemma first_annots a t s s1 : g_annots a t -> st s t s1 -> s_tok s = K_LPAREN \/ s_tok s = s_tok s1.
Proof. intros [|l t' H] X; [apply st_0 in X; subst; auto|]. destruct H. apply st_tok in X. auto. Qed.

Lemma complete_type : forall n, complete not_paren n g_type (p_type u src n).
Proof.
  induction n as [|n IH]; intros a t s s1 H L X F; [lia|]. cbn [p_type]. unfold pbind at 1, p_tok.
  destruct H as [k tk v tv a ta x1 x2 x3 x4 Hk Hv Ha|e te a ta x1 x2 x3 He Ha|e te a ta x1 x2 x3 He Ha|w a ta Ha];
    rewrite (st_tok _ _ _ _ _ X); cbn [length] in L; rewrite ?app_length in L; cbn [length] in L; rewrite ?app_length in L; cbn [length] in L.
  - rewrite Z.eqb_refl. want X. want X. destruct (st_split _ _ _ _ X) as (sk & Xk & X'). clear X.
    go (IH k tk _ _ Hk ltac:(lia) Xk ltac:(rewrite (st_tok _ _ _ _ _ X'); discriminate)). want X'. destruct (st_split _ _ _ _ X') as (sv & Xv & X). clear X'.
    go (IH v tv _ _ Hv ltac:(lia) Xv ltac:(rewrite (st_tok _ _ _ _ _ X); discriminate)). want X.
    go (complete_annots (S (length ta)) a ta _ _ Ha ltac:(lia) X F). reflexivity.
  - change (K_SET =? K_MAP) with false. rewrite Z.eqb_refl. cbv iota. want X. want X. destruct (st_split _ _ _ _ X) as (sk & Xk & X'). clear X.
    go (IH e te _ _ He ltac:(lia) Xk ltac:(rewrite (st_tok _ _ _ _ _ X'); discriminate)). want X'.
    go (complete_annots (S (length ta)) a ta _ _ Ha ltac:(lia) X' F). reflexivity.
  - change (K_LIST =? K_MAP) with false. change (K_LIST =? K_SET) with false. rewrite Z.eqb_refl. cbv iota. want X. want X. destruct (st_split _ _ _ _ X) as (sk & Xk & X'). clear X.
    go (IH e te _ _ He ltac:(lia) Xk ltac:(rewrite (st_tok _ _ _ _ _ X'); discriminate)). want X'.
    go (complete_annots (S (length ta)) a ta _ _ Ha ltac:(lia) X' F). reflexivity.
  - change (K_IDENT =? K_MAP) with false. change (K_IDENT =? K_SET) with false. change (K_IDENT =? K_LIST) with false. rewrite Z.eqb_refl. cbv iota. literal X.
    go (complete_annots (S (length ta)) a ta _ _ Ha ltac:(lia) X F). reflexivity.
Qed.

Lemma begins_value : begins g_value starts_item.
Proof.
  intros v t H. destruct H as [w|w|w|w|l t H|l t H]; try (eexists _, _, _; split; [reflexivity|starts]); destruct H; (eexists _, _, _; split; [reflexivity|starts]).
Qed.
Lemma begins_pair : begins (g_pair g_value) starts_item.
Proof. intros p t H. destruct H as [k tk v tv x Hk Hv]. destruct (begins_value _ _ Hk) as (k0 & x0 & t' & -> & S). eexists _, _, _. split; [reflexivity|exact S]. Qed.

Lemma complete_impl {A} (F F' : Z -> Prop) N G (f : parser A) : (forall k, F' k -> F k) -> complete F N G f -> complete F' N G f.
Proof. intros H C a t s s1 HG L X HF. apply C with t; auto. Qed.

Lemma complete_value : forall n, complete (fun _ => True) n g_value (p_value u src n).
Proof.
  induction n as [|n IH]; intros a t s s1 H L X _; [lia|]. cbn [p_value]. unfold pbind at 1, p_tok.
  assert (C : complete ends_item n g_value (p_value u src n)) by (apply complete_impl with (F := fun _ => True); auto).
  destruct H as [w|w|w|w|l t H|l t H].
  - rewrite (st_tok _ _ _ _ _ X), Z.eqb_refl. literal X. apply st_0 in X. now subst.
  - rewrite (st_tok _ _ _ _ _ X). change (K_INT =? K_IDENT) with false. rewrite Z.eqb_refl. cbv iota. literal X. apply st_0 in X. now subst.
  - rewrite (st_tok _ _ _ _ _ X). change (K_FLOAT =? K_IDENT) with false. change (K_FLOAT =? K_INT) with false. rewrite Z.eqb_refl. cbv iota. literal X. apply st_0 in X. now subst.
  - rewrite (st_tok _ _ _ _ _ X). change (K_STRING =? K_IDENT) with false. change (K_STRING =? K_INT) with false. change (K_STRING =? K_FLOAT) with false. rewrite Z.eqb_refl. cbv iota. literal X. apply st_0 in X. now subst.
  - assert (K : s_tok s = K_LBRACK) by (destruct H; now apply st_tok in X). rewrite K.
    change (K_LBRACK =? K_IDENT) with false. change (K_LBRACK =? K_INT) with false. change (K_LBRACK =? K_FLOAT) with false. change (K_LBRACK =? K_STRING) with false. rewrite Z.eqb_refl. cbv iota.
    go (run_list g_value n K_LBRACK K_RBRACK _ begins_value C ltac:(cbn; tauto) l t s s1 H L X Logic.I). reflexivity.
  - assert (K : s_tok s = K_LBRACE) by (destruct H; now apply st_tok in X). rewrite K.
    change (K_LBRACE =? K_IDENT) with false. change (K_LBRACE =? K_INT) with false. change (K_LBRACE =? K_FLOAT) with false. change (K_LBRACE =? K_STRING) with false. change (K_LBRACE =? K_LBRACK) with false. rewrite Z.eqb_refl. cbv iota.
    assert (CP : complete ends_item n (g_pair g_value) (p_keyValuePair u src (p_value u src n))).
    { clear - IH. intros p t s s1 H L X _. destruct H as [k tk v tv x Hk Hv]. rewrite app_length in L. cbn in L. unfold p_keyValuePair.
      destruct (st_split _ _ _ _ X) as (s2 & X1 & X2). go (IH k tk s s2 Hk ltac:(lia) X1 Logic.I). want X2. go (IH v tv _ _ Hv ltac:(lia) X2 Logic.I). reflexivity. }
    go (run_list (g_pair g_value) n K_LBRACE K_RBRACE _ begins_pair CP ltac:(cbn; tauto) l t s s1 H L X Logic.I). reflexivity.
Qed.

Lemma st_length s t s1 : st s t s1 -> (length t < fuel src)%nat.
Proof. intros (I & H). pose proof (eats_inv _ _ _ H I). pose proof (fuel_mu s). lia. Qed.
Lemma complete_type_ N : complete not_paren N g_type (p_type_ u src).
Proof. intros a t s s1 H _ X F. pose proof (st_length _ _ _ X). apply (complete_type (S (fuel src)) a t s s1 H ltac:(lia) X F). Qed.
Lemma complete_value_ N : complete (fun _ => True) N g_value (p_value_ u src).
Proof. intros a t s s1 H _ X F. pose proof (st_length _ _ _ X). apply (complete_value (S (fuel src)) a t s s1 H ltac:(lia) X F). Qed.

Lemma complete_enum_value N : complete ends_item N g_enum_value (p_enumValue u src).
Proof.
  intros a t s s1 H L X (F1 & F2 & F3 & F4). destruct H as [w o to a ta HO HA]. unfold p_enumValue. literal X. destruct (st_split _ _ _ _ X) as (s2 & X1 & X2).
  rewrite (run_opt_assign (lexical K_INT) (length to) _ _ o to _ s2 _ (complete_lit _ K_INT) HO (le_n _) X1); auto.
  - go (complete_annots (S (length ta)) a ta _ _ HA ltac:(lia) X2 F1). reflexivity.
  - intros _. destruct (first_annots _ _ _ _ HA X2) as [->| ->]; [split; discriminate|auto].
Qed.
Lemma begins_enum_value : begins g_enum_value starts_item.
Proof. intros a t [w o to b tb _ _]. eexists _, _, _. split; [reflexivity|]. starts. Qed.

Lemma begins_type : begins g_type (fun k => starts_item k /\ k <> K_INT /\ k <> K_REQUIRED /\ k <> K_OPTIONAL /\ k <> K_ONEWAY /\ k <> K_VOID).
Proof. intros a t H. destruct H; (eexists _, _, _; split; [reflexivity|]; split; [starts|repeat split; discriminate]). Qed.

Lemma keyword_facts k : k = K_IDENT \/ isKeyword k = true -> k <> K_LPAREN /\ k <> K_AND /\ k <> K_EOF.
Proof.
  unfold isKeyword. rewrite andb_true_iff, !Z.ltb_lt. unfold K_keyword_beg, K_keyword_end, K_IDENT, K_LPAREN, K_AND, K_EOF. lia.
Qed.

Lemma begins_field : begins g_field starts_item.
Proof.
  intros a t H. destruct H as [id tid rq op tr t tt rf trf nm tn d td a ta H1 H2 H3 H4 H5 H6 H7].
  destruct H1 as [|i ti Hi]; [|destruct Hi; eexists _, _, _; split; [reflexivity|starts]].
  destruct H2; [|eexists _, _, _; split; [reflexivity|starts]|eexists _, _, _; split; [reflexivity|starts]].
  destruct (begins_type _ _ H3) as (k & x & t' & -> & (S & _)). eexists _, _, _. split; [reflexivity|exact S].
Qed.

Lemma complete_field N : complete ends_item N g_field (p_field u src).
Proof.
  intros f t s s1 H L X (F1 & F2 & F3 & F4). destruct H as [id tid rq op tr t tt rf trf nm tn d td a ta H1 H2 H3 H4 H5 H6 H7]. unfold p_field. unfold pbind at 1, p_tok.
  destruct (begins_type _ _ H3) as (kt & xt & tt' & Ett & (_ & Nt1 & Nt2 & Nt3 & _)).
  destruct (st_split _ _ _ _ X) as (s2 & X1 & X'). clear X.
  assert (R1 : (if s_tok s =? K_INT then i <- p_int u src;; p_want u src K_COLON;;; pret (Some i) else pret None) s = Ret id s2).
  { destruct H1 as [|i ti Hi].
    - apply st_0 in X1. subst s2. assert (K : s_tok s <> K_INT).
      { destruct H2; [rewrite Ett in X'; apply st_tok in X'; congruence| |]; apply st_tok in X'; rewrite X'; discriminate. }
      now rewrite (proj2 (Z.eqb_neq _ _) K).
    - destruct Hi. rewrite (st_tok _ _ _ _ _ X1), Z.eqb_refl. literal X1. want X1. apply st_0 in X1. now subst. }
  go R1. destruct (st_split _ _ _ _ X') as (s3 & X2 & X3). clear X'.
  destruct (st_split _ _ _ _ X3) as (s4 & X4 & X5). clear X3.
  assert (K3 : s_tok s3 = kt) by (rewrite Ett in X4; now apply st_tok in X4).
  match goal with |- ?lhs = _ => assert (R2 : lhs = (t0 <- p_type_ u src;; ref <- p_got u src K_AND;; name <- p_fieldName u src;; has <- p_gotAssign u src;;
    d0 <- (if has : bool then v <- p_value_ u src;; pret (Some v) else pret None);; a0 <- p_annotations u src;; pret (mkField id rq op t0 ref name d0 a0)) s3) end.
  { destruct H2.
    - apply st_0 in X2. subst s3. go (run_got_no K_REQUIRED s2 ltac:(congruence)). cbv iota. go (run_got_no K_OPTIONAL s2 ltac:(congruence)). reflexivity.
    - got X2. apply st_0 in X2. subst. reflexivity.
    - go (run_got_no K_REQUIRED s2 ltac:(rewrite (st_tok _ _ _ _ _ X2); discriminate)). cbv iota. got X2. apply st_0 in X2. subst. reflexivity. }
  rewrite R2. clear R2 R1.
  destruct (st_split _ _ _ _ X5) as (s5 & X6 & X7). clear X5. destruct (st_split _ _ _ _ X7) as (s6 & X8 & X9). clear X7. destruct (st_split _ _ _ _ X9) as (s7 & X10 & X11). clear X9.
  destruct H5 as [kn w Hkn]. destruct (keyword_facts kn Hkn) as (Kn1 & Kn2 & Kn3). pose proof (st_tok _ _ _ _ _ X8) as K5.
  assert (K4 : s_tok s4 <> K_LPAREN). { destruct H4; [apply st_0 in X6; subst s5; congruence|]. rewrite (st_tok _ _ _ _ _ X6). discriminate. }
  go (complete_type_ (S (length tt)) t tt s3 s4 H3 ltac:(lia) X4 K4).
  assert (R3 : p_got u src K_AND s4 = Ret rf s5).
  { destruct H4; [apply st_0 in X6; subst s5; apply run_got_no; congruence|]. destruct (st_got _ _ _ _ _ X6) as (s8 & R & X). apply st_0 in X. now subst. }
  go R3.
  assert (R4 : p_fieldName u src s5 = Ret w s6).
  { unfold p_fieldName. rewrite K5. replace ((kn =? K_IDENT) || isKeyword kn) with true by (symmetry; apply orb_true_iff; rewrite Z.eqb_eq; exact Hkn).
    destruct (st_step _ _ _ _ _ X8) as (s8 & Hn & X). apply st_0 in X. subst s8. destruct X8 as (_ & X8). apply eats_hd in X8. destruct X8 as (_ & <- & _). unfold pbind. now rewrite Hn. }
  go R4.
  assert (NA : s_tok s7 <> K_ASSIGN /\ s_tok s7 <> K_EQL). { destruct (first_annots _ _ _ _ H7 X11) as [->| ->]; [split; discriminate|auto]. }
  rewrite (run_opt_assign g_value (length td) _ _ d td _ s7 _ (complete_value_ _) H6 (le_n _) X10); auto.
  go (complete_annots (S (length ta)) a ta _ _ H7 ltac:(lia) X11 F1). reflexivity.
Qed.

Lemma complete_fields N open close : In close [K_RPAREN; K_RBRACK; K_RBRACE] -> complete (fun _ => True) N (bracketed open close g_field) (p_fields u src open close).
Proof.
  intros Hc a t s s1 H L X F. destruct N as [|N]; [lia|]. apply (run_list g_field N open close _ begins_field (complete_field N) Hc a t s s1 H L X F).
Qed.

Lemma begins_method : begins g_method starts_item.
Proof.
  intros a t H. destruct H as [ow to v r tr w args targs th tth a ta H1 H2 H3 H4 H5].
  destruct H1; [|eexists _, _, _; split; [reflexivity|starts]]. destruct H2 as [x|t tt H2]; [eexists _, _, _; split; [reflexivity|starts]|].
  destruct (begins_type _ _ H2) as (k & x & t' & -> & (S & _)). eexists _, _, _. split; [reflexivity|exact S].
Qed.

Lemma complete_method N : complete ends_item N g_method (p_method u src).
Proof.
  intros m t s s1 H L X (F1 & F2 & F3 & F4). destruct H as [ow to v r tr w args targs th tth a ta H1 H2 H3 H4 H5]. unfold p_method.
  destruct (st_split _ _ _ _ X) as (s2 & X1 & X2). clear X. destruct (st_split _ _ _ _ X2) as (s3 & X3 & X4). clear X2.
  assert (R1 : p_got u src K_ONEWAY s = Ret ow s2).
  { destruct H1.
    - apply st_0 in X1. subst s2. apply run_got_no. destruct H2 as [x|t tt H2]; [rewrite (st_tok _ _ _ _ _ X3); discriminate|].
      destruct (begins_type _ _ H2) as (k & x & t' & -> & (_ & _ & _ & _ & N4 & _)). now rewrite (st_tok _ _ _ _ _ X3).
    - destruct (st_got _ _ _ _ _ X1) as (s4 & R & X). apply st_0 in X. now subst. }
  go R1. pose proof (st_tok _ _ _ _ _ X4) as K3.
  match goal with |- ?lhs = _ => assert (R2 : lhs = (name <- p_ident u src ;; args <- p_fields u src K_LPAREN K_RPAREN ;; has <- p_got u src K_THROWS ;;
    throws <- (if has : bool then l <- p_fields u src K_LPAREN K_RPAREN ;; pret (Some l) else pret None) ;; a <- p_annotations u src ;; pret (mkMethod ow v r name args throws a)) s3) end.
  { destruct H2 as [x|t tt H2].
    - got X3. apply st_0 in X3. subst. reflexivity.
    - destruct (begins_type _ _ H2) as (k & x & t' & E & (_ & _ & _ & _ & _ & N5)).
      assert (K2 : s_tok s2 <> K_VOID) by (rewrite E in X3; now rewrite (st_tok _ _ _ _ _ X3)).
      go (run_got_no K_VOID s2 K2). cbv iota. assert (R : (t0 <- p_type_ u src ;; pret (Some t0)) s2 = Ret (Some t) s3).
      { go (complete_type_ (S (length tt)) t tt s2 s3 H2 ltac:(lia) X3 ltac:(unfold not_paren; rewrite K3; discriminate)). reflexivity. }
      go R. reflexivity. }
  rewrite R2. clear R1 R2. literal X4. destruct (st_split _ _ _ _ X4) as (s5 & X5 & X6). clear X4. destruct (st_split _ _ _ _ X6) as (s6 & X7 & X8). clear X6.
  go (complete_fields (S (length targs)) K_LPAREN K_RPAREN ltac:(cbn; tauto) args targs _ _ H3 ltac:(lia) X5 Logic.I).
  rewrite (run_opt K_THROWS (bracketed K_LPAREN K_RPAREN g_field) (length tth) _ _ th tth _ s6 _ (complete_fields _ K_LPAREN K_RPAREN ltac:(cbn; tauto)) H4 (le_n _) X7); auto.
  - go (complete_annots (S (length ta)) a ta _ _ H5 ltac:(lia) X8 F1). reflexivity.
  - intros _. destruct (first_annots _ _ _ _ H5 X8) as [->| ->]; [discriminate|auto].
Qed.

(** ** Headers and definitions *)
Definition follows_header (k : Z) : Prop := k <> K_LPAREN.
Definition follows_def (k : Z) : Prop := k <> K_LPAREN /\ k <> K_COMMA /\ k <> K_SEMICOLON.

Lemma run_headers_one h t s s1 n : g_header h t -> st s t s1 -> s_tok s1 <> K_LPAREN ->
  p_headers u src (S n) s = (l <- p_headers u src n ;; pret (h :: l)) s1.
Proof.
  intros H X F. cbn [p_headers].
  assert (R : p_header u src s = Ret (Some h) s1); [|now rewrite (run_bind _ _ _ _ _ R)].
  unfold p_header. unfold pbind at 1, p_tok. destruct H as [w x|w a ta x y HA|sc w a ta x HA]; rewrite (st_tok _ _ _ _ _ X).
  - rewrite Z.eqb_refl. assert (R : p_include u src s = Ret (Include w) s1); [|now rewrite (run_bind _ _ _ _ _ R)].
    unfold p_include. want X. unfold p_string. literal X. apply st_0 in X. now subst.
  - change (K_NAMESPACE =? K_INCLUDE) with false. rewrite Z.eqb_refl. cbv iota. assert (R : p_namespace u src s = Ret (Namespace None w a) s1); [|now rewrite (run_bind _ _ _ _ _ R)].
    unfold p_namespace. want X. got X. cbv iota. unfold pbind at 1, pret at 1. unfold p_ident. literal X. go (complete_annots (S (length ta)) a ta _ _ HA ltac:(lia) X F). reflexivity.
  - change (K_NAMESPACE =? K_INCLUDE) with false. rewrite Z.eqb_refl. cbv iota. assert (R : p_namespace u src s = Ret (Namespace (Some sc) w a) s1); [|now rewrite (run_bind _ _ _ _ _ R)].
    unfold p_namespace. want X. go (run_got_no K_MUL s0 ltac:(rewrite (st_tok _ _ _ _ _ X); discriminate)). cbv iota. unfold pbind at 1. unfold p_ident at 1. literal X. unfold pret at 1. unfold p_ident. literal X.
    go (complete_annots (S (length ta)) a ta _ _ HA ltac:(lia) X F). reflexivity.
Qed.
Lemma begins_header : begins g_header (fun k => k = K_INCLUDE \/ k = K_NAMESPACE).
Proof. intros h t H. destruct H; (eexists _, _, _; split; [reflexivity|auto]). Qed.
Definition def_start (k : Z) : Prop := In k [K_CONST; K_TYPEDEF; K_ENUM; K_STRUCT; K_UNION; K_EXCEPTION; K_SERVICE].
Lemma begins_def : begins g_def def_start.
Proof.
  intros d t H. destruct H; (eexists _, _, _; split; [reflexivity|]); unfold def_start; cbn; try tauto.
  match goal with H : g_struct_kind _ _ _ |- _ => destruct H end; tauto.
Qed.

Lemma run_headers hs t : many g_header hs t -> forall n s s1, (length hs < n)%nat -> st s t s1 -> (s_tok s1 = K_EOF \/ def_start (s_tok s1)) -> p_headers u src n s = Ret hs s1.
Proof.
  induction 1 as [|h hs th ths Hh Hhs IH]; intros n s s1 L X F; (destruct n as [|n]; [lia|]).
  - apply st_0 in X. subst s1. cbn [p_headers].
    assert (R : p_header u src s = Ret None s); [|now rewrite (run_bind _ _ _ _ _ R)].
    unfold p_header, pbind, p_tok. unfold def_start in F. cbn in F. repeat destruct F as [F|F]; try contradiction; first [rewrite <- F|rewrite F]; reflexivity.
  - destruct (st_split _ _ _ _ X) as (s2 & X1 & X2). clear X.
    assert (K : s_tok s2 <> K_LPAREN).
    { destruct Hhs as [|h' hs' th' ths' Hh' _].
      - apply st_0 in X2. subst s2. unfold def_start in F. cbn in F. repeat destruct F as [F|F]; try contradiction; first [rewrite <- F|rewrite F]; discriminate.
      - destruct (begins_header _ _ Hh') as (k & x & t' & -> & Hk). rewrite (st_tok _ _ _ _ _ X2). destruct Hk as [->| ->]; discriminate. }
    rewrite (run_headers_one h th s s2 n Hh X1 K). cbn in L. go (IH n s2 s1 ltac:(lia) X2 F). reflexivity.
Qed.

Lemma run_def d t s s1 : g_def d t -> st s t s1 -> follows_def (s_tok s1) -> p_def u src s = Ret d s1.
Proof.
  intros H X (F1 & F2 & F3). unfold p_def. cut (p_def_switch u src s = Ret d s1); [intros ->; reflexivity|].
  unfold p_def_switch. unfold pbind at 1, p_tok.
  destruct H as [t tt w v tv sep x y Ht Hv Hs|t tt w a ta sep x Ht Ha Hs|w l tl a ta x Hl Ha|k un ex w l tl a ta x Hk Hl Ha|w e te l tl a ta x He Hl Ha]; rewrite (st_tok _ _ _ _ _ X).
  - rewrite Z.eqb_refl. unfold p_const. want X. destruct (st_split _ _ _ _ X) as (sx & X1 & X2). clear X.
    go (complete_type_ (S (length tt)) t tt _ _ Ht ltac:(lia) X1 ltac:(unfold not_paren; rewrite (st_tok _ _ _ _ _ X2); discriminate)).
    unfold p_ident. literal X2. want X2. destruct (st_split _ _ _ _ X2) as (sy & X3 & X4). clear X2.
    go (complete_value_ (S (length tv)) v tv _ _ Hv ltac:(lia) X3 Logic.I). go (run_separator sep _ _ (proj1 X4) Hs (proj2 X4) F2 F3). reflexivity.
  - change (K_TYPEDEF =? K_CONST) with false. rewrite Z.eqb_refl. cbv iota. unfold p_typedef. want X. destruct (st_split _ _ _ _ X) as (sx & X1 & X2). clear X.
    go (complete_type_ (S (length tt)) t tt _ _ Ht ltac:(lia) X1 ltac:(unfold not_paren; rewrite (st_tok _ _ _ _ _ X2); discriminate)).
    unfold p_ident. literal X2. destruct (st_split _ _ _ _ X2) as (sy & X3 & X4). clear X2.
    assert (K : s_tok sy <> K_LPAREN).
    { destruct sep as [|[k z] sep]; [apply st_0 in X4; now subst|]. rewrite (st_tok _ _ _ _ _ X4). inversion_clear Hs as [|? ? Hk _]. cbn in Hk. destruct Hk as [->| ->]; discriminate. }
    go (complete_annots (S (length ta)) a ta _ _ Ha ltac:(lia) X3 K). go (run_separator sep _ _ (proj1 X4) Hs (proj2 X4) F2 F3). reflexivity.
  - change (K_ENUM =? K_CONST) with false. change (K_ENUM =? K_TYPEDEF) with false. rewrite Z.eqb_refl. cbv iota. unfold p_enum. want X. unfold p_ident. literal X.
    destruct (st_split _ _ _ _ X) as (sx & X1 & X2). clear X.
    go (run_list g_enum_value (S (length tl)) K_LBRACE K_RBRACE _ begins_enum_value (complete_enum_value _) ltac:(cbn; tauto) l tl _ _ Hl ltac:(lia) X1 Logic.I).
    go (complete_annots (S (length ta)) a ta _ _ Ha ltac:(lia) X2 F1). reflexivity.
  - assert (R : p_struct u src k s = Ret (Struct un ex w l a) s1).
    { unfold p_struct. want X. unfold p_ident. literal X. destruct (st_split _ _ _ _ X) as (sx & X1 & X2). clear X.
      go (complete_fields (S (length tl)) K_LBRACE K_RBRACE ltac:(cbn; tauto) l tl _ _ Hl ltac:(lia) X1 Logic.I).
      go (complete_annots (S (length ta)) a ta _ _ Ha ltac:(lia) X2 F1). destruct Hk; reflexivity. }
    destruct Hk; exact R.
  - change (K_SERVICE =? K_CONST) with false. change (K_SERVICE =? K_TYPEDEF) with false. change (K_SERVICE =? K_ENUM) with false.
    change ((K_SERVICE =? K_STRUCT) || (K_SERVICE =? K_UNION) || (K_SERVICE =? K_EXCEPTION)) with false. rewrite Z.eqb_refl. cbv iota.
    unfold p_service. want X. unfold p_ident at 1. literal X. destruct (st_split _ _ _ _ X) as (sx & X1 & X2). clear X. destruct (st_split _ _ _ _ X2) as (sy & X3 & X4). clear X2.
    rewrite (run_opt K_EXTENDS (lexical K_IDENT) (length te) _ _ e te _ sx _ (complete_lit _ K_IDENT) He (le_n _) X1); auto.
    + go (run_list g_method (S (length tl)) K_LBRACE K_RBRACE _ begins_method (complete_method _) ltac:(cbn; tauto) l tl _ _ Hl ltac:(lia) X3 Logic.I).
      go (complete_annots (S (length ta)) a ta _ _ Ha ltac:(lia) X4 F1). reflexivity.
    + intros _. destruct Hl. rewrite (st_tok _ _ _ _ _ X3). discriminate.
Qed.

Lemma run_defs ds t : many g_def ds t -> forall n s s1, (length ds <= n)%nat -> st s t s1 -> s_tok s1 = K_EOF -> p_defs u src n s = Ret ds s1.
Proof.
  induction 1 as [|d ds td tds Hd Hds IH]; intros n s s1 L X F.
  - apply st_0 in X. subst s1. destruct n; cbn [p_defs]; rewrite F; reflexivity.
  - cbn in L. destruct n as [|n]; [lia|]. destruct (st_split _ _ _ _ X) as (s2 & X1 & X2). clear X. cbn [p_defs].
    destruct (begins_def _ _ Hd) as (k & x & t' & E & Hk). assert (K : s_tok s = k) by (rewrite E in X1; now apply st_tok in X1).
    assert (K0 : k <> K_EOF) by (unfold def_start in Hk; cbn in Hk; repeat destruct Hk as [<-|Hk]; try discriminate; contradiction).
    rewrite K, (proj2 (Z.eqb_neq _ _) K0). cbn [negb].
    assert (F' : follows_def (s_tok s2)).
    { destruct Hds as [|d' ds' td' tds' Hd' _]; [apply st_0 in X2; subst s2; rewrite F; repeat split; discriminate|].
      destruct (begins_def _ _ Hd') as (k' & x' & t'' & -> & Hk'). rewrite (st_tok _ _ _ _ _ X2). unfold def_start in Hk'. cbn in Hk'. repeat destruct Hk' as [<-|Hk']; try contradiction; repeat split; discriminate. }
    go (run_def d td s s2 Hd X1 F'). go (IH n s2 s1 ltac:(lia) X2 F). reflexivity.
Qed.

Lemma many_length {A} (G : A -> list tok -> Prop) P l t : begins G P -> many G l t -> (length l <= length t)%nat.
Proof. intros B. induction 1 as [|a l ta tl Ha _ IH]; [cbn; lia|]. destruct (B _ _ Ha) as (k & x & t' & -> & _). rewrite app_length. cbn. lia. Qed.

Lemma run_file f t s s1 : g_file f t -> st s t s1 -> s_tok s1 = K_EOF -> p_file u src s = Ret f s1.
Proof.
  intros H X F. pose proof (st_length _ _ _ X) as L. destruct H as [hs ths ds tds H1 H2]. rewrite app_length in L. unfold p_file. destruct (st_split _ _ _ _ X) as (s2 & X1 & X2).
  pose proof (many_length _ _ _ _ begins_header H1). pose proof (many_length _ _ _ _ begins_def H2).
  assert (F' : s_tok s2 = K_EOF \/ def_start (s_tok s2)).
  { destruct H2 as [|d ds td tds Hd _]; [apply st_0 in X2; subst; auto|]. destruct (begins_def _ _ Hd) as (k & x & t' & -> & Hk). right. now rewrite (st_tok _ _ _ _ _ X2). }
  go (run_headers hs ths H1 (S (fuel src)) s s2 ltac:(lia) X1 F'). go (run_defs ds tds H2 (fuel src) s2 s1 ltac:(lia) X2 F). reflexivity.
Qed.

Theorem run_complete toks f : source_tokens u src toks -> g_file f (no_comments toks) ->
  exists s, p_run u src = Ret f s /\ s_errs s = [].
Proof.
  intros HS HG. apply (source_clean u src) in HS. destruct HS as (HE & CF). unfold p_run. destruct (next_total u src _ (init_ready src)) as (s1 & E1 & N).
  destruct (eats_clean u src (S (length toks)) toks _ s1 (le_n _) (init_ready src) (ns_run _ _ _ _ _ N) CF) as (s2 & X & K & HE2).
  exists s2. split; [|congruence]. go (ns_run _ _ _ _ _ N). apply run_file with (no_comments toks); auto. split; [apply N|exact X].
Qed.

End complete.
