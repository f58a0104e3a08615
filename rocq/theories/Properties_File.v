(** Properties C36 to C42: scanning and parsing .thrift files. *)
From Coq Require Import Strings.String Permutation Sorted.
From Verif Require Import Base BaseLemmas GoType Utf8 Tokens Scan LexSpec LexProof ScanProof Parse GrammarSpec ParseProof ParseComplete ScanRun.

(** For the examples: no letters or digits outside ASCII. *)
Definition ascii : unicode := mkUnicode (fun _ => false) (fun _ => false) (fun _ => false) (fun _ => false) (fun c => c) (fun _ => false).
Definition newline : list byte := [x0a].

(** ** C36 *)

(** For every sequence of bytes, the calls of next come to the end of the
    input.  Their tokens are pieces of the source in order, not empty and without
    overlap.  Every byte is in a token, or white, or part of a character at
    which an error is reported, or part of a byte order mark at the start.  The
    run is the only one. *)
Theorem C36_every_byte u src :
  exists toks s', scan_run u src (s_init src) toks s' /\
    (forall toks2 s2, scan_run u src (s_init src) toks2 s2 -> toks2 = toks /\ s2 = s') /\
    in_order src 0 toks /\
    forall i, (i < length src)%nat ->
      in_token toks i \/ white_byte src i \/ reported src (s_errs s') i \/
      ((i < 3)%nat /\ firstn 3 src = [xef; xbb; xbf]).
Proof.
  destruct (scan_all u src (S (length src)) (s_init src) (rc_init u src) ltac:(lia)) as (l & s' & E & Hr & He & _ & Ho & Hc).
  exists l, s'. split; [exact Hr|]. split; [intros l2 s2 H2; destruct (scan_run_unique u src _ _ _ Hr _ _ H2); auto|].
  pose proof (init_off src) as IO. split.
  - destruct l as [|[[k p] x] l]; [exact I|]. cbn [in_order] in *. split; [lia|tauto].
  - intros i Hi. destruct (Nat.lt_ge_cases i (s_off (s_init src))) as [L|L].
    + right. right. right. destruct (chars src) as [|c cs] eqn:EC; [lia|]. destruct (Z.eqb_spec (fst c) byte_order_mark) as [X|X]; [|lia].
      assert (Ne : src <> []) by (intros Z0; rewrite Z0 in EC; discriminate). rewrite (chars_cons src Ne) in EC. injection EC as EC _. subst c. cbn [fst snd] in *.
      destruct (decode_rune_bom src X) as (B & W). split; [|exact B]. rewrite W, firstn_length in IO. lia.
    + destruct (Hc i ltac:(lia)) as [X|[X|(e & X & Y)]]; auto. right. right. left. exists e. split; [|exact Y]. rewrite He. apply in_or_app. now right.
Qed.
Print Assumptions C36_every_byte.

(** Each call makes progress until the end; there it stays. *)
Theorem C36_progress u src s : reached u src s ->
  exists s', s_next u src s = Some s' /\
    (s_tok s' <> K_EOF -> (s_off s <= s_pos s' < s_off s')%nat) /\
    (s_tok s' = K_EOF -> s_off s' = length src) /\
    (s_off s = length src -> s_tok s' = K_EOF).
Proof.
  intros H. destruct (reached_at u src s H) as (A & R). destruct (next_spec u src s _ A) as (s' & gap & t & cs' & E & Hn & N). exists s'. split; [exact Hn|].
  pose proof (eof_iff u src s s' _ gap t cs' E A N R) as EI. destruct (reached_at u src s' (rc_next u src s s' H Hn)) as (A' & R').
  pose proof (nx_pos _ _ _ _ _ _ _ _ _ N) as P1. pose proof (nx_off _ _ _ _ _ _ _ _ _ N) as O1. split; [|split; [exact R'|]].
  - intros K. assert (t <> []) by (intros Z0; apply K, EI, Z0). destruct t as [|c t]; [congruence|].
    assert (Ec : chars (skipn (s_off s) src) = gap ++ c :: (t ++ cs')) by apply (nx_split _ _ _ _ _ _ _ _ _ N).
    destruct (chars_at_off src s _ gap c _ A Ec) as (_ & W & Ne). pose proof (decode_rune_fits _ Ne). unfold text in O1. cbn [map concat] in O1. rewrite app_length in O1. lia.
  - intros O0. apply EI. pose proof (proj2 (at_eof _ _ _ A) O0) as Z0. rewrite (nx_split _ _ _ _ _ _ _ _ _ N) in Z0. apply app_eq_nil in Z0. destruct Z0 as (_ & Z0). now apply app_eq_nil in Z0.
Qed.
Print Assumptions C36_progress.

(** Bytes that make sense to nobody: NUL, half a character, a stray ~. *)
Definition junk : list byte := lit "a " ++ [x00; xc3; x28] ++ lit "~ 1.5" ++ newline ++ lit "'x'".
Example C36_sample : exists s', scan_run ascii junk (s_init junk)
    [(K_IDENT, 0%nat, lit "a"); (K_LPAREN, 4%nat, lit "("); (K_FLOAT, 7%nat, lit "1.5"); (K_STRING, 11%nat, lit "'x'")] s' /\
  map (fun e => (pe_off e, pe_line e, pe_col e)) (s_errs s') = [(2, 1, 3); (2, 1, 3); (3, 1, 4); (3, 1, 4); (5, 1, 6)]%nat.
Proof.
  eexists. split; [apply (scan_fun_run _ _ 10); vm_compute; reflexivity|reflexivity].
Qed.

(** ** C37 *)

(** At any point: if what is left of the source begins, after white space, with
    a token of the grammar, that token is what next returns; if only white space is
    left, it is the end; otherwise an error is reported.  No error is ever
    taken back. *)
Theorem C37_next_token u src s : reached u src s ->
  let rest := chars (skipn (s_off s) src) in
  exists s' E, s_next u src s = Some s' /\ s_errs s' = s_errs s ++ E /\
    (forall k t r, lexes u rest k t r -> s_tok s' = k /\ s_lit src s' = text t /\ chars (skipn (s_off s') src) = r) /\
    (Forall (fun c => white (fst c)) rest -> s_tok s' = K_EOF) /\
    ((forall k t r, ~ lexes u rest k t r) -> ~ Forall (fun c => white (fst c)) rest -> E <> []).
Proof.
  intros H rest. destruct (reached_at u src s H) as (A & R). destruct (next_spec u src s _ A) as (s' & gap & t & cs' & E & Hn & N). exists s', E. split; [exact Hn|]. split; [apply N|].
  fold rest in A, N. destruct (nx_token _ _ _ _ _ _ _ _ _ N) as [(W & L & St & I)|[(W & X & I)|(X & Y & Z0)]].
  - assert (L' : lexes u rest (s_tok s') t cs') by (exists gap; split; [apply N|auto]). split; [|split].
    + intros k t0 r L0. destruct (lexes_unique u _ _ _ _ _ _ _ L0 L') as (-> & -> & ->). split; [reflexivity|]. split; [now apply (next_lit u src _ _ _ _ _ _ _ N A)|].
      apply (at_chars _ _ _ (nx_at _ _ _ _ _ _ _ _ _ N)).
    + intros W'. exfalso. now apply (whites_no_lexes u rest _ _ _ W' L').
    + intros F. exfalso. now apply (F _ _ _ L').
  - destruct (nx_end _ _ _ _ _ _ _ _ _ N X) as (C & K). assert (W' : whites rest). { rewrite (nx_split _ _ _ _ _ _ _ _ _ N), X, C. cbn. now rewrite app_nil_r. } split; [|split].
    + intros k t0 r L0. exfalso. now apply (whites_no_lexes u rest _ _ _ W' L0).
    + auto.
    + intros _ F. contradiction.
  - split; [|split].
    + intros k t0 r L0. exfalso. now apply (Z0 _ _ _ L0).
    + intros W'. contradiction.
    + auto.
Qed.
Print Assumptions C37_next_token.

(** A token of the grammar is the longest there is at its place. *)
Theorem C37_longest u cs k t rest : lexes u cs k t rest ->
  forall k' t' rest', t ++ rest = t' ++ rest' -> lexeme u k' t' -> (length t' <= length t)%nat.
Proof. intros (ws & _ & _ & L & S). exact (longest_match u k t rest L S). Qed.
Print Assumptions C37_longest.

(** A full comment ends at the first star-slash; a line comment ends before the
    first newline, or at the end of the file. *)
Theorem C37_full_comment u cs k t rest x : lexes u cs k t rest -> codes t = 47 :: 42 :: x ->
  k = K_COMMENT /\ exists b, x = b ++ [42; 47] /\ forall p q, x = p ++ 42 :: 47 :: q -> q = [].
Proof.
  intros (ws & _ & _ & L & _) C. destruct L as [k c r S _ _|k t Hn|t Hs|t Hl|t Hf|k t Hp].
  - exfalso. cbn in C. injection C as C _. apply starts_word_codes in S. lia.
  - exfalso. destruct (number_head _ _ Hn) as (c & r & Er & Hd). rewrite C in Er. injection Er as <- _. unfold decimal in Hd. lia.
  - exfalso. destruct Hs as (q & b & Hq & _ & Er). rewrite C in Er. injection Er as <- _. lia.
  - exfalso. destruct Hl as (l & _ & [Er|Er]); rewrite C in Er; discriminate.
  - split; [reflexivity|]. destruct Hf as (b & Er & F). rewrite C in Er. injection Er as ->. exists b. auto.
  - exfalso. rewrite C in Hp. cbn in Hp. repeat destruct Hp as [Hp|Hp]; try discriminate Hp; contradiction.
Qed.
Print Assumptions C37_full_comment.
Theorem C37_line_comment u cs k t rest x : lexes u cs k t rest -> codes t = 35 :: x \/ codes t = 47 :: 47 :: x ->
  k = K_COMMENT /\ ~ In 10 x /\ (rest = [] \/ exists c r, rest = c :: r /\ fst c = 10).
Proof.
  intros (ws & _ & _ & L & S) C.
  assert (G : line_comment (codes t) /\ k = K_COMMENT /\ ~ In 10 x).
  { destruct L as [k c r Sw _ _|k t Hn|t Hs|t Hl|t Hf|k t Hp].
    - exfalso. apply starts_word_codes in Sw. destruct C as [C|C]; cbn in C; injection C as C _; lia.
    - exfalso. destruct (number_head _ _ Hn) as (c & r & Er & Hd). unfold decimal in Hd. destruct C as [C|C]; rewrite C in Er; injection Er as <- _; lia.
    - exfalso. destruct Hs as (q & b & Hq & _ & Er). destruct C as [C|C]; rewrite C in Er; injection Er as <- _; lia.
    - split; [exact Hl|]. split; [reflexivity|]. destruct Hl as (l & F & Er). destruct C as [C|C], Er as [Er|Er]; rewrite C in Er; try discriminate; now injection Er as ->.
    - exfalso. destruct Hf as (b & Er & F). destruct C as [C|C]; rewrite C in Er; discriminate.
    - exfalso. destruct C as [C|C]; rewrite C in Hp; cbn in Hp; repeat destruct Hp as [Hp|Hp]; try discriminate Hp; contradiction. }
  destruct G as (G & -> & Nx). split; [reflexivity|]. split; [exact Nx|]. destruct rest as [|c r]; [now left|]. right. exists c, r. split; [reflexivity|].
  destruct (Z.eq_dec (fst c) 10) as [Y|Y]; [exact Y|exfalso]. destruct (S c r eq_refl) as (F & _). apply (F K_COMMENT). apply lx_line.
  destruct G as (l & Nl & Er). unfold line_comment. rewrite codes_app. exists (l ++ [fst c]). split; [intros X; apply in_app_or in X; destruct X as [X|[X|[]]]; [contradiction|lia]|].
  destruct Er as [-> | ->]; cbn; auto.
Qed.
Print Assumptions C37_line_comment.

(** A whole scan reports no error exactly if the source is a sequence of tokens,
    and then it returns them. *)
Theorem C37_whole_file u src toks s' : scan_run u src (s_init src) toks s' ->
  (s_errs s' = [] <-> exists l, source_tokens u src l) /\
  (forall l, source_tokens u src l -> l = map (fun x => (fst (fst x), snd x)) toks).
Proof.
  intros Hr. destruct (run_clean u src _ _ _ Hr (rc_init u src)) as (G1 & G2).
  destruct (scan_all u src (S (length src)) (s_init src) (rc_init u src) ltac:(lia)) as (l2 & s2 & E & Hr2 & He & _). destruct (scan_run_unique u src _ _ _ Hr _ _ Hr2) as (_ & <-).
  split; [split|].
  - intros X. rewrite X in He. symmetry in He. apply app_eq_nil in He. destruct He as (He & _). exists (strip toks). apply source_clean. split; [exact He|]. apply G1. congruence.
  - intros (l & S). apply source_clean in S. destruct S as (He' & C). destruct (G2 _ C) as (X & _). congruence.
  - intros l S. apply source_clean in S. destruct S as (He' & C). now destruct (G2 _ C).
Qed.
Print Assumptions C37_whole_file.
Definition comments : list byte := lit "a/*x*/b//y*/" ++ newline ++ lit "c#z".
Example C37_sample : exists s', scan_run ascii comments (s_init comments)
    [(K_IDENT, 0%nat, lit "a"); (K_COMMENT, 1%nat, lit "/*x*/"); (K_IDENT, 6%nat, lit "b"); (K_COMMENT, 7%nat, lit "//y*/"); (K_IDENT, 13%nat, lit "c"); (K_COMMENT, 14%nat, lit "#z")] s' /\
  s_errs s' = [].
Proof. eexists. split; [apply (scan_fun_run _ _ 10); vm_compute; reflexivity|reflexivity]. Qed.

(** ** C38 *)

(** A word: a letter or _, then letters, digits, _ and points, as many as there are. *)
Definition word_at (u : unicode) (cs t r : list char) : Prop :=
  exists ws c t', cs = ws ++ t ++ r /\ Forall (fun c => white (fst c)) ws /\ t = c :: t' /\ starts_word u (fst c) /\ Forall (in_word u) (codes t') /\
    forall d r', r = d :: r' -> ~ in_word u (fst d).

Lemma word_lexes u cs t r k : word_at u cs t r -> word_kind (text t) k -> lexes u cs k t r.
Proof.
  intros (ws & c & t' & -> & W & -> & Hc & Ht & Hr) K. exists ws. split; [reflexivity|]. split; [exact W|]. split; [now apply lx_word|].
  intros d r' ->. specialize (Hr d r' eq_refl). pose proof (starts_word_codes u _ Hc) as Lc. pose proof (starts_word_ascii u _ Hc) as La. split.
  - intros k' L. apply Hr. inversion L as [? ? ? _ F _|? ? Hn|? Hs|? Hl|? Hf|? ? Hp]; subst.
    + rewrite codes_app in F. apply Forall_app in F. destruct F as (_ & F). now inversion_clear F.
    + exfalso. destruct (number_head _ _ Hn) as (x & y & Er & Hd). cbn in Er. injection Er as <- _. unfold decimal in Hd. lia.
    + exfalso. destruct Hs as (q & b & Hq & _ & Er). cbn in Er. injection Er as <- _. lia.
    + exfalso. destruct Hl as (l & _ & [Er|Er]); cbn in Er; injection Er as X _; lia.
    + exfalso. destruct Hf as (b & Er & _). cbn in Er. injection Er as X _. lia.
    + exfalso. cbn in Hp. repeat destruct Hp as [Hp|Hp]; try contradiction; injection Hp; intros; lia.
  - intros (X & _). cbn in X. injection X as X _. lia.
Qed.

(** Every word but two is a keyword if and only if it is one of Thrift's, and
    every keyword has its kind.  (False of the two words below.) *)
Theorem C38_keywords_partial u src s t r : reached u src s -> word_at u (chars (skipn (s_off s) src)) t r ->
  exists s', s_next u src s = Some s' /\
    (forall x k, In (x, k) thrift_keywords -> text t = lit x -> s_tok s' = k /\ s_lit src s' = lit x) /\
    ((forall x k, In (x, k) thrift_keywords -> text t <> lit x) -> text t <> lit "definition_beg" -> text t <> lit "definition_end" ->
     s_tok s' = K_IDENT /\ s_lit src s' = text t).
Proof.
  intros H W. destruct (C37_next_token u src s H) as (s' & E & Hn & _ & G & _). exists s'. split; [exact Hn|]. split.
  - intros x k Hk Et. destruct (G k t r) as (K & L & _).
    + apply word_lexes; [exact W|]. left. exists x. split; [apply in_or_app; now left|exact Et].
    + rewrite Et in L. auto.
  - intros F1 F2 F3. destruct (G K_IDENT t r) as (K & L & _); [|auto]. apply word_lexes; [exact W|]. right. split; [|reflexivity].
    intros x k Hk. apply in_app_or in Hk. destruct Hk as [Hk|[Hk|[Hk|[]]]]; [now apply F1 with k| |]; injection Hk as <- <-; assumption.
Qed.
Print Assumptions C38_keywords_partial.
Example C38_sample : exists s', scan_run ascii (lit " service.x struct") (s_init (lit " service.x struct"))
    [(K_IDENT, 1%nat, lit "service.x"); (K_STRUCT, 11%nat, lit "struct")] s'.
Proof. eexists. apply (scan_fun_run _ _ 10). vm_compute. reflexivity. Qed.

(** The two are no Thrift keywords, but are scanned as keywords, and a struct of
    that name does not parse. *)
Definition wrong_keyword (w : string) : Prop :=
  ~ In w (map fst thrift_keywords) /\
  (exists s', s_next ascii (lit w) (s_init (lit w)) = Some s' /\ s_lit (lit w) s' = lit w /\ isKeyword (s_tok s') = true) /\
  forall sort, (forall l, Permutation l (sort l)) -> exists f e errs, parse sort ascii (lit "struct " ++ lit w ++ lit " {}") = Some (f, e :: errs).
Lemma parse_fails sort u src f s : p_run u src = Ret f s -> s_errs s <> [] -> (forall l, Permutation l (sort l)) ->
  exists e errs, parse sort u src = Some (f, e :: errs).
Proof.
  intros R N Hs. unfold parse. rewrite R. pose proof (Permutation_length (Hs (s_errs s))) as P.
  destruct (sort (s_errs s)) as [|e l]; [|eauto]. exfalso. apply N. now apply length_zero_iff_nil.
Qed.
Ltac wrong_word := split; [intros X; cbn in X; repeat destruct X as [X|X]; try discriminate X; contradiction|split;
    [eexists; split; [vm_compute; reflexivity|]; split; [vm_compute; reflexivity|reflexivity]|
     intros sort Hs; eexists; eapply parse_fails; [vm_compute; reflexivity|vm_compute; discriminate|exact Hs]]].
Theorem C38_keywords_refuted : wrong_keyword "definition_beg" /\ wrong_keyword "definition_end".
Proof. split; wrong_word. Qed.
Print Assumptions C38_keywords_refuted.

(** ** C39 *)

(** What a call returns depends only on what is left of the source: the text of
    the token and how far away it is, and its kind unless the token is a string
    broken off by a newline or an unknown escape, which keeps the kind of the
    token before it. *)
Theorem C39_context_free_partial u src1 src2 s1 s2 r1 r2 : reached u src1 s1 -> reached u src2 s2 ->
  skipn (s_off s1) src1 = skipn (s_off s2) src2 -> s_next u src1 s1 = Some r1 -> s_next u src2 s2 = Some r2 ->
  s_lit src1 r1 = s_lit src2 r2 /\ (s_pos r1 - s_off s1 = s_pos r2 - s_off s2)%nat /\
  (s_tok r1 = s_tok r2 \/
   s_tok r1 = s_tok s1 /\ s_tok r2 = s_tok s2 /\
   exists E1 e1 E2 e2, s_errs r1 = E1 ++ [e1] /\ s_errs r2 = E2 ++ [e2] /\
     Forall (fun e => pe_msg e = lit "newline in string" \/ pe_msg e = lit "unknown escape") [e1; e2]).
Proof.
  intros H1 H2 EQ N1 N2. destruct (next_same u src1 src2 s1 s2 r1 r2 H1 H2 EQ N1 N2) as (A & B & C). split; [exact A|]. split; [exact B|].
  destruct C as [C|((T1 & E1 & e1 & X1 & M1) & (T2 & E2 & e2 & X2 & M2))]; [now left|]. right. split; [exact T1|]. split; [exact T2|]. exists E1, e1, E2, e2. auto.
Qed.
Print Assumptions C39_context_free_partial.
(** For the examples: the state after [n] calls. *)
Fixpoint after (u : unicode) (src : list byte) (n : nat) : option sstate :=
  match n with
  | O => Some (s_init src)
  | S m => match after u src m with Some s => s_next u src s | None => None end
  end.
Lemma after_reached u src : forall n s, after u src n = Some s -> reached u src s.
Proof.
  induction n as [|n IH]; intros s H; cbn [after] in H; [injection H as <-; apply rc_init|].
  destruct (after u src n) as [s0|]; [|discriminate]. apply rc_next with s0; auto.
Qed.
Ltac by_running n1 n2 := cbv zeta; eexists _, _, _, _; split; [eapply (after_reached _ _ n1); vm_compute; reflexivity|]; split; [eapply (after_reached _ _ n2); vm_compute; reflexivity|];
  split; [vm_compute; reflexivity|]; split; [vm_compute; reflexivity|]; split; [vm_compute; reflexivity|]; split; reflexivity.
(** The same struct after an include and after a comment. *)
Example C39_sample : let a := lit "include 'x' struct S {}" in let b := lit "/**/ struct S {}" in
  exists s1 s2 r1 r2, reached ascii a s1 /\ reached ascii b s2 /\ skipn (s_off s1) a = skipn (s_off s2) b /\
    s_next ascii a s1 = Some r1 /\ s_next ascii b s2 = Some r2 /\ s_tok r1 = K_STRUCT /\ s_tok r2 = K_STRUCT.
Proof. by_running 2%nat 1%nat. Qed.

(** A broken string keeps the kind of the token before it: the same text is a
    comma in one source and an identifier in another. *)
Theorem C39_context_free_refuted : let a := lit ", 'x" ++ newline in let b := lit "y 'x" ++ newline in
  exists s1 s2 r1 r2, reached ascii a s1 /\ reached ascii b s2 /\ skipn (s_off s1) a = skipn (s_off s2) b /\
    s_next ascii a s1 = Some r1 /\ s_next ascii b s2 = Some r2 /\ s_tok r1 = K_COMMA /\ s_tok r2 = K_IDENT.
Proof. by_running 1%nat 1%nat. Qed.
Print Assumptions C39_context_free_refuted.

(** ** C40 to C42 *)

(** What is asked of sort.Sort. *)
Definition sorts (sort : list perr -> list perr) : Prop :=
  forall l, Permutation l (sort l) /\ StronglySorted (fun a b => perr_less b a = false) (sort l).

(** Parse returns a File on every input.  (The model's parse is None on a panic that
    is not recovered and on an endless loop.) *)
Theorem C40_total sort u src : exists f errs, parse sort u src = Some (f, errs).
Proof. destruct (run_total u src) as (f & s & R & _). unfold parse. rewrite R. eauto. Qed.
Print Assumptions C40_total.

(** Parse returns a nil error iff the tokens of the source, comments left out,
    derive a tree in the grammar; that tree is the File. *)
Theorem C41_grammar sort u src f : sorts sort ->
  (parse sort u src = Some (f, []) <-> exists toks, source_tokens u src toks /\ g_file f (no_comments toks)).
Proof.
  intros Hs. split.
  - intros P. destruct (run_total u src) as (f' & s & R & _ & G). unfold parse in P. rewrite R in P. injection P as <- P. apply G.
    destruct (Hs (s_errs s)) as (Pm & _). rewrite P in Pm. symmetry in Pm. now apply Permutation_nil in Pm.
  - intros (toks & S & G). destruct (run_complete u src toks f S G) as (s & R & E). unfold parse. rewrite R, E. destruct (Hs []) as (Pm & _). apply Permutation_nil in Pm. now rewrite Pm.
Qed.
Print Assumptions C41_grammar.
(** A text has at most one tree. *)
Theorem C41_one_tree u src f f' toks toks' :
  source_tokens u src toks -> g_file f (no_comments toks) -> source_tokens u src toks' -> g_file f' (no_comments toks') -> f = f'.
Proof.
  intros S G S' G'. destruct (run_complete u src toks f S G) as (s & R & _). destruct (run_complete u src toks' f' S' G') as (s' & R' & _). congruence.
Qed.
Print Assumptions C41_one_tree.

(** If the tree has a BadDef, or the source is not a sequence of tokens, or the
    tokens derive no tree, the error is not nil.  The errors are sorted by line,
    column and message. *)
Theorem C42_errors sort u src f errs : sorts sort -> parse sort u src = Some (f, errs) ->
  (forall a b, In (BadDef a b) (file_defs f) -> errs <> []) /\
  ((forall toks, ~ source_tokens u src toks) -> errs <> []) /\
  (forall toks, source_tokens u src toks -> (forall f', ~ g_file f' (no_comments toks)) -> errs <> []) /\
  StronglySorted (fun a b => (pe_line a < pe_line b)%nat \/ (pe_line a = pe_line b /\ (pe_col a <= pe_col b)%nat)) errs /\
  Forall (fun e => (pe_off e <= length src)%nat) errs.
Proof.
  intros Hs P. assert (G : errs = [] -> exists toks, source_tokens u src toks /\ g_file f (no_comments toks)).
  { intros ->. now apply (C41_grammar sort u src f Hs). }
  split; [|split; [|split; [|split]]].
  - intros a b HB E. destruct (G E) as (toks & _ & Gf). destruct Gf as [hs ths ds tds _ Hd]. cbn in HB.
    clear - HB Hd. induction Hd as [|d ds td tds Hd _ IH]; [contradiction|]. destruct HB as [->|HB]; [inversion Hd|now apply IH].
  - intros F E. destruct (G E) as (toks & S & _). now apply (F toks).
  - intros toks S F E. destruct (G E) as (toks' & S' & Gf). assert (toks = toks') as ->; [|now apply (F f)]. destruct S as (_ & S), S' as (_ & S'). now apply (tokens_unique u _ _ _ S S').
  - unfold parse in P. destruct (p_run u src) as [f' s|s|]; try discriminate. injection P as <- <-. destruct (Hs (s_errs s)) as (_ & So). clear G.
    induction So as [|e l _ IH F]; constructor; [exact IH|]. apply Forall_forall. intros e' He'. apply (proj1 (Forall_forall _ _) F) in He'. unfold perr_less in He'.
    destruct (Nat.eqb_spec (pe_line e') (pe_line e)) as [L|L]; cbn [negb] in He'.
    + destruct (Nat.eqb_spec (pe_col e') (pe_col e)) as [C|C]; cbn [negb] in He'; [lia|]. apply Nat.ltb_ge in He'. lia.
    + apply Nat.ltb_ge in He'. lia.
  - destruct (run_total u src) as (f' & s & R & B & _). unfold parse in P. rewrite R in P. injection P as <- <-. destruct (Hs (s_errs s)) as (Pm & _).
    now apply (Permutation_Forall Pm).
Qed.
Print Assumptions C42_errors.

(** A sort: the hypothesis can be met. *)
Fixpoint insert (e : perr) (l : list perr) : list perr :=
  match l with
  | [] => [e]
  | f :: r => if perr_less f e then f :: insert e r else e :: l
  end.
Definition insertion_sort (l : list perr) : list perr := fold_right insert [] l.
Lemma bytes_lt_asym : forall a b, bytes_lt a b = true -> bytes_lt b a = false.
Proof.
  induction a as [|x a IH]; intros [|y b] H; try discriminate; [reflexivity|]. cbn in *. apply orb_false_iff. apply orb_true_iff in H. rewrite Z.ltb_lt, andb_true_iff, Z.eqb_eq in H. destruct H as [H|(H & H')].
  - split; [apply Z.ltb_ge; lia|]. apply andb_false_iff. left. apply Z.eqb_neq. lia.
  - split; [apply Z.ltb_ge; lia|]. rewrite (IH _ H'). apply andb_false_r.
Qed.
Lemma bytes_lt_trans : forall a b c, bytes_lt b a = false -> bytes_lt c b = false -> bytes_lt c a = false.
Proof.
  induction a as [|x a IH]; intros [|y b] [|z c] H1 H2; try discriminate; try reflexivity. cbn in *. apply orb_false_iff in H1, H2. destruct H1 as (H1 & H1'), H2 as (H2 & H2').
  apply Z.ltb_ge in H1, H2. apply andb_false_iff in H1', H2'. rewrite !Z.eqb_neq in *. apply orb_false_iff. split; [apply Z.ltb_ge; lia|].
  apply andb_false_iff. rewrite Z.eqb_neq. destruct (Z.eq_dec (b2z z) (b2z x)) as [E|E]; [right|now left]. apply IH with b; [destruct H1' as [X|X]; [lia|exact X]|destruct H2' as [X|X]; [lia|exact X]].
Qed.
Lemma perr_less_asym a b : perr_less a b = true -> perr_less b a = false.
Proof.
  unfold perr_less. destruct (Nat.eqb_spec (pe_line a) (pe_line b)) as [L|L], (Nat.eqb_spec (pe_line b) (pe_line a)) as [L'|L']; try lia; cbn [negb];
    [|rewrite Nat.ltb_lt, Nat.ltb_ge; lia].
  destruct (Nat.eqb_spec (pe_col a) (pe_col b)) as [C|C], (Nat.eqb_spec (pe_col b) (pe_col a)) as [C'|C']; try lia; cbn [negb]; [apply bytes_lt_asym|rewrite Nat.ltb_lt, Nat.ltb_ge; lia].
Qed.
Lemma perr_less_trans a b c : perr_less b a = false -> perr_less c b = false -> perr_less c a = false.
Proof.
  unfold perr_less.
  destruct (Nat.eqb_spec (pe_line b) (pe_line a)) as [L1|L1], (Nat.eqb_spec (pe_line c) (pe_line b)) as [L2|L2], (Nat.eqb_spec (pe_line c) (pe_line a)) as [L3|L3]; try lia; cbn [negb];
    rewrite ?Nat.ltb_ge; try lia.
  destruct (Nat.eqb_spec (pe_col b) (pe_col a)) as [C1|C1], (Nat.eqb_spec (pe_col c) (pe_col b)) as [C2|C2], (Nat.eqb_spec (pe_col c) (pe_col a)) as [C3|C3]; try lia; cbn [negb];
    rewrite ?Nat.ltb_ge; try lia. apply bytes_lt_trans.
Qed.
Theorem insertion_sorts : sorts insertion_sort.
Proof.
  assert (P : forall e l, Permutation (e :: l) (insert e l)).
  { intros e. induction l as [|f l IH]; cbn; [reflexivity|]. destruct (perr_less f e); [|reflexivity]. rewrite perm_swap. now apply perm_skip. }
  intros l. split.
  - induction l as [|e l IH]; cbn; [reflexivity|]. rewrite <- P. now apply perm_skip.
  - induction l as [|e l IH]; cbn; [constructor|]. change (fold_right insert [] l) with (insertion_sort l) in *. induction IH as [|f r S IH F]; cbn; [repeat constructor|].
    destruct (perr_less f e) eqn:L.
    + constructor; [exact IH|]. apply (Permutation_Forall (P e r)). constructor; [|exact F]. now apply perr_less_asym.
    + constructor; [now constructor|]. constructor; [exact L|]. apply Forall_forall. intros x Hx. apply (proj1 (Forall_forall _ _) F) in Hx. now apply perr_less_trans with f.
Qed.

(** A file with most of the grammar in it, and one that is broken in the middle. *)
Definition sample_file : list byte := lit
"namespace go x // the package
include 'y.thrift'
typedef map<string, list<i32>> T (a = 'b')
const T C = {'k': [1, -2]; 'l': []}
enum E { A = 1, B }
struct S { 1: required T t = C; optional E e (q) 3: set<i64> void }
service X extends Y { oneway void f(1: i32 a), i32 g() throws (1: S s) }
".
Example C41_sample : parse insertion_sort ascii sample_file =
  Some (mkFile [Namespace (Some (lit "go")) (lit "x") None; Include (lit "'y.thrift'")]
    [Typedef (TMap (TRef (lit "string") None) (TList (TRef (lit "i32") None) None) None) (lit "T") (Some [mkAnn (lit "a") (Some (lit "'b'"))]);
     Const (TRef (lit "T") None) (lit "C") (VMap [(VString (lit "'k'"), VList [VInt (lit "1"); VInt (lit "-2")]); (VString (lit "'l'"), VList [])]);
     Enum (lit "E") [mkEnumValue (lit "A") (Some (lit "1")) None; mkEnumValue (lit "B") None None] None;
     Struct false false (lit "S")
       [mkField (Some (lit "1")) true false (TRef (lit "T") None) false (lit "t") (Some (VIdent (lit "C"))) None;
        mkField None false true (TRef (lit "E") None) false (lit "e") None (Some [mkAnn (lit "q") None]);
        mkField (Some (lit "3")) false false (TSet (TRef (lit "i64") None) None) false (lit "void") None None] None;
     Service (lit "X") (Some (lit "Y"))
       [mkMethod true true None (lit "f") [mkField (Some (lit "1")) false false (TRef (lit "i32") None) false (lit "a") None None] None None;
        mkMethod false false (Some (TRef (lit "i32") None)) (lit "g") [] (Some [mkField (Some (lit "1")) false false (TRef (lit "S") None) false (lit "s") None None]) None] None], []).
Proof. vm_compute. reflexivity. Qed.
Definition broken_file : list byte := lit "enum E { A } 7 struct S {} typedef = x".
Example C42_sample : match parse insertion_sort ascii broken_file with
  | Some (f, errs) => (length (file_defs f), map (fun e => (pe_off e, pe_msg e)) errs)
  | None => (O, [])
  end = (4%nat, [(13%nat, lit "expected definition, found 7"); (35%nat, lit "expected type, found '='")]).
Proof. vm_compute. reflexivity. Qed.
