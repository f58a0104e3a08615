(** Property C63: Readers on the caller's own *bufio.Reader. *)
From Coq Require Import Strings.String.
From Verif Require Import Base BaseLemmas Prog Fuel Bufio BufioProof Wire WireProof Spec Clients Binary Compact CompactProof
  GoFloat Utf8 GoType Fields Arshal GoTypeProof FieldsProof ArshalSpec ArshalTotal ArshalInput ArshalExample Properties_Arshal
  MapSpec StoreSpec Properties_Store Objects Shared SharedProof SharedW SharedReach SharedWProof SharedTurns BufioW BufioWProof ArshalThms PipelineProof.
Local Open Scope list_scope.

(** ** C63 *)
(** NewReader on a *bufio.Reader of at least 4096 bytes makes a Reader that reads from just that one, and changes nothing. *)
Theorem C63_new w k strict : 4096 <= bo_size (rw_buf w k) ->
  new_bin strict (RBuf k) w = (mkRd (SBin strict) k, w) /\ new_cmp (RBuf k) w = (mkRd (SCmp cr0) k, w).
Proof. intros H. unfold new_bin, new_cmp, new_buf. replace (_ >=? 4096) with true by lia. auto. Qed.
Print Assumptions C63_new.

Lemma on_below {A} j (p q : prog wireR A) : below p q -> below (on j p) (on j q).
Proof. induction 1; cbn [on]; [apply bl_fuel|now apply bl_cut|apply bl_ret|apply bl_crash|now apply bl_vis]. Qed.

Lemma turn_ok env P w0 k i size d xs x l w b rest e :
  env_ok env -> unique_ids env -> supported env P -> 10 <= size -> Forall (ready k) xs ->
  laid_out env P xs x l -> holds w0 k i size w b -> binv size b -> abs b = mkStream (l ++ rest) (FErr e) ->
  exists N r w' b', received_well env x r /\ holds w0 k i size w' b' /\ binv size b' /\ abs b' = mkStream rest (FErr e) /\
    forall n, (N <= n)%nat -> run (shared_h d) (take_turn env n k x) (xs, w) = Done (xs, w') r.
Proof.
  intros He Hu Hs Hz Hx Hl Hh Hb Ha. destruct x as [l'|j t dst tv]; cbn [laid_out received_well take_turn] in *.
  - subst l'. pose proof (read_full_refines size ltac:(lia) (zlen l) b Hb ltac:(unfold zlen; lia)) as R.
    pose proof (holds_step w0 k i size d _ (BReadFull (zlen l)) w b Hh) as G. unfold simw in G. cbn [bufio_h] in G.
    unfold refines in R. cbn [stream_h] in R. rewrite Ha in R. cbn [sdata sfin] in R. rewrite zlen_app in R.
    rewrite (proj2 (Z.leb_le (zlen l) (zlen l + zlen rest)) ltac:(unfold zlen; lia)) in R.
    replace (Z.to_nat (zlen l)) with (length l) in R by (unfold zlen; lia).
    rewrite skipn_app, firstn_app, Nat.sub_diag, skipn_all, firstn_all, app_nil_r in R. cbn [skipn app] in R.
    destruct (read_full size (zlen l) b) as [b' y|]; [|contradiction]. destruct R as (-> & R1 & R2).
    destruct (buf_h d k _ (BReadFull (zlen l)) w) as [w' y|] eqn:E; [|contradiction]. destruct G as [-> G].
    exists 0%nat, (l, None, None), w', b'. conj; auto. intros n _. cbn [bind call run shared_h fst snd]. rewrite E. reflexivity.
  - destruct Hl as (Pt & Hd & T & C & Hl). destruct (nth_error xs j) as [[[strict|st] k']|] eqn:Hj; [| |contradiction].
    + pose proof (proj1 (Forall_forall _ _) Hx _ (nth_error_In _ _ Hj)) as [K _]. cbn in K. subst k'. destruct Hl as [Hw El]. subst l.
      destruct (C53_binary env P strict size b t dst tv rest He Hu Hs ltac:(lia) Hb Hw Pt Hd T ltac:(now rewrite Ha)) as (N & v & r & R1 & R2 & R3).
      pose proof (proj2 R1 C) as Er. destruct (R3 N (le_n _)) as (b' & E & B' & A'). rewrite Er in *. specialize (R2 eq_refl). specialize (A' eq_refl).
      rewrite Ha in A'. cbn [sfin] in A'.
      pose proof (on_bin w0 k i size d strict j (Unmarshal env N N (Some (RtPtr t, GPtr (Some dst)))) xs w b Hj Hh) as G.
      rewrite E in G. unfold simw in G. destruct (run (shared_h d) (on j _) (xs, w)) as [[xs' w'] y|] eqn:Er'; [|contradiction].
      destruct G as (-> & Ex & G). cbn [fst snd] in *. subst xs'.
      exists N, ([], Some v, None), w', b'. conj; eauto. intros n Hn. rewrite run_bind.
      rewrite (below_done (shared_h d) _ _ _ _ _ (on_below j _ _ (Unmarshal_more env N n N n _ Hn Hn)) Er'). reflexivity.
    + pose proof (proj1 (Forall_forall _ _) Hx _ (nth_error_In _ _ Hj)) as [K Kb]. cbn in K, Kb. subst k'. destruct Hl as [Hw El].
      destruct (C53_compact env P size b t dst tv l rest st e He Hu Hs Hz Hb Hw Pt Hd T El Kb Ha) as (N & v & r & R1 & R2 & R3).
      pose proof (proj2 R1 C) as Er. destruct (R3 N (le_n _)) as (st' & b' & E & B' & A'). rewrite Er in *. specialize (R2 eq_refl). destruct (A' eq_refl) as [-> A2].
      pose proof (on_cmp w0 k i size d j (Unmarshal env N N (Some (RtPtr t, GPtr (Some dst)))) st xs w b Hj Hh) as G.
      rewrite E in G. unfold simw in G. destruct (run (shared_h d) (on j _) (xs, w)) as [[xs' w'] y|] eqn:Er'; [|contradiction].
      destruct G as (-> & Ex & G). cbn [fst snd] in *. rewrite (place_self _ _ _ Hj) in Ex. subst xs'.
      exists N, ([], Some v, None), w', b'. conj; eauto. intros n Hn. rewrite run_bind.
      rewrite (below_done (shared_h d) _ _ _ _ _ (on_below j _ _ (Unmarshal_more env N n N n _ Hn Hn)) Er'). reflexivity.
Qed.

(** Readers of any protocols on one *bufio.Reader, and the caller itself, may take turns in any order: each gets its own value or
    bytes and takes nothing that belongs to the next; what follows the last turn is still in the *bufio.Reader, and nothing else
    in the world was touched. *)
Theorem C63_turns env P w k i size buf er d xs ts ls rest e :
  env_ok env -> unique_ids env -> supported env P -> 10 <= size ->
  rw_buf w k = mkBO size buf er (RPlain i) -> binv size (mkB buf er (rw_src w i)) ->
  Forall (ready k) xs -> Forall2 (laid_out env P xs) ts ls ->
  buf ++ src_bytes (rw_src w i) = concat ls ++ rest -> src_fin (rw_src w i) = FErr e ->
  exists N rs w' buf' er', Forall2 (received_well env) ts rs /\
    (forall n, (N <= n)%nat -> run (shared_h d) (take_turns env n k ts) (xs, w) = Done (xs, w') rs) /\
    rw_buf w' k = mkBO size buf' er' (RPlain i) /\ buf' ++ src_bytes (rw_src w' i) = rest /\
    (forall j, j <> i -> rw_src w' j = rw_src w j) /\ (forall j, j <> k -> rw_buf w' j = rw_buf w j).
Proof.
  intros He Hu Hs Hz Hk Hb Hx Hl Hd Hf.
  assert (G : forall ts ls, Forall2 (laid_out env P xs) ts ls -> forall w1 b, holds w k i size w1 b -> binv size b -> abs b = mkStream (concat ls ++ rest) (FErr e) ->
    exists N rs w' b', Forall2 (received_well env) ts rs /\ holds w k i size w' b' /\ abs b' = mkStream rest (FErr e) /\
      forall n, (N <= n)%nat -> run (shared_h d) (take_turns env n k ts) (xs, w1) = Done (xs, w') rs).
  { clear Hl Hd ts ls. intros ts ls Hl. induction Hl as [|x l ts ls Hl _ IH]; intros w1 b Hh B A.
    - exists 0%nat, [], w1, b. conj; auto.
    - cbn [concat] in A. rewrite <- app_assoc in A.
      destruct (turn_ok env P w k i size d xs x l w1 b _ e He Hu Hs Hz Hx Hl Hh B A) as (N1 & r & w2 & b2 & W1 & H1 & B1 & A1 & R1).
      destruct (IH w2 b2 H1 B1 A1) as (N2 & rs & w3 & b3 & W2 & H2 & A2 & R2).
      exists (Nat.max N1 N2), (r :: rs), w3, b3. conj; auto. intros n Hn. cbn [take_turns]. rewrite run_bind, R1 by lia. cbn [obind].
      rewrite run_bind, R2 by lia. reflexivity. }
  destruct (G ts ls Hl w (mkB buf er (rw_src w i))) as (N & rs & w' & b' & W & (H1 & H2 & H3 & H4 & _) & A & R); auto.
  - unfold holds; cbn. auto.
  - unfold abs; cbn. now rewrite Hd, Hf.
  - exists N, rs, w', (bbuf b'), (berr b'). conj; auto. rewrite H2. exact (f_equal sdata A).
Qed.
Print Assumptions C63_turns.

(** Reset of a compact Reader does the same; it leaves alone everything but the *bufio.Reader it read from until then. *)
Theorem C63_reset_compact w k st j : 4096 <= bo_size (rw_buf w k) ->
  exists w', reset_reader (RBuf k) (mkRd (SCmp st) j) w = (mkRd (SCmp cr0) k, w') /\ (j = k -> w' = w) /\
    rw_src w' = rw_src w /\ (forall m, m <> j -> rw_buf w' m = rw_buf w m).
Proof.
  intros H. unfold reset_reader. cbn [rd_st rd_buf]. unfold buf_reset. destruct (Nat.eqb_spec k j) as [<-|Hj].
  - unfold new_buf. replace (_ >=? 4096) with true by lia. eexists. conj; reflexivity.
  - unfold new_buf, put_buf at 1. cbn [rw_buf]. rewrite upd_other by exact Hj. replace (_ >=? 4096) with true by lia.
    eexists. conj; [reflexivity|congruence|reflexivity|]. intros m Hm. cbn. now rewrite upd_other.
Qed.
Print Assumptions C63_reset_compact.

(** Not so the binary one: after Reset it has a buffer of its own in front of the caller's *bufio.Reader and takes all that this
    one holds.  (A new Reader takes the one byte it is asked for.) *)
Definition two_bufs (buf0 buf1 : list byte) : rworld :=
  mkRW (fun _ => mkSource [] (FErr EEOF))
    (fun k => mkBO 4096 (match k with O => buf0 | S O => buf1 | _ => [] end) None (RPlain k)) 2.
Theorem C63_reset_binary_refuted :
  let w := two_bufs [] [x01; x02; x03] in
  exists x1 w1 x2 w2, new_bin true (RBuf 0) w = (mkRd (SBin true) 0, w) /\
    run (reader_h 2) (call RByte) (reset_reader (RBuf 1) (mkRd (SBin true) 0) w) = Done (x1, w1) (x01, None) /\
    bo_buf (rw_buf w1 1) = [] /\
    run (reader_h 2) (call RByte) (new_bin true (RBuf 1) w) = Done (x2, w2) (x01, None) /\
    bo_buf (rw_buf w2 1) = [x02; x03].
Proof. do 4 eexists. split; [reflexivity|]. vm_compute. auto. Qed.
Print Assumptions C63_reset_binary_refuted.

(** And Reset takes the caller's *bufio.Reader along: it, too, now reads from the new io.Reader, and what it held is lost. *)
Theorem C63_reset_takes_over w x r x' w' : reset_reader r x w = (x', w') -> r <> RBuf (rd_buf x) ->
  rd_buf x <> rw_next w ->
  rw_buf w' (rd_buf x) = mkBO (bo_size (rw_buf w (rd_buf x))) [] None r.
Proof.
  intros E Hr Hn. assert (B : rw_buf (buf_reset (rd_buf x) r w) (rd_buf x) = mkBO (bo_size (rw_buf w (rd_buf x))) [] None r).
  { unfold buf_reset. destruct r as [i|j]; [cbn; apply upd_same|]. destruct (Nat.eqb_spec j (rd_buf x)); [congruence|cbn; apply upd_same]. }
  assert (Nx : rw_next (buf_reset (rd_buf x) r w) = rw_next w) by (unfold buf_reset; destruct r as [i|j]; [reflexivity|now destruct (Nat.eqb j (rd_buf x))]).
  unfold reset_reader in E. destruct (rd_st x); [injection E as <- <-; exact B|].
  unfold new_buf in E. rewrite Nx in E. destruct r as [i|j]; [|destruct (_ >=? 4096)]; injection E as <- <-; cbn [rw_buf]; auto; now rewrite upd_other.
Qed.
Print Assumptions C63_reset_takes_over.

(** A smaller *bufio.Reader is not shared: the Reader reads ahead into a buffer of its own. *)
Example C63_small :
  let w := mkRW (fun _ => mkSource [] (FErr EEOF)) (fun k => mkBO 4095 [x01; x02; x03] None (RPlain k)) 1 in
  exists x w', run (reader_h 1) (call RByte) (new_bin true (RBuf 0) w) = Done (x, w') (x01, None) /\ bo_buf (rw_buf w' 0) = [].
Proof. do 2 eexists. split; vm_compute; reflexivity. Qed.

(** A frame length, a Node for a binary Reader, one for a compact Reader, a byte in between, and the first Reader again: all that
    C63_turns asks. *)
Definition two_readers : list reader := [mkRd (SBin true) 0; mkRd (SCmp cr0) 0].
Definition turns : list turn :=
  [Own [x00; x00; x00; x2a]; Value 0 Node node_value node_update; Value 1 Node (zero node_env Node) node_update; Own [xff];
   Value 0 RtInt32 (GInt 3) (VI32 (-2))].
Example C63_sample : Forall (ready 0) two_readers /\ exists ls, Forall2 (laid_out node_env node_types two_readers) turns ls.
Proof.
  split; [repeat constructor|]. destruct C53_sample as (W & T & C & _).
  assert (W2 : wf (2 ^ 63) node_update) by (vm_compute; intuition discriminate).
  assert (L : exists l, compact_encoding node_update l).
  { destruct (Properties_Values.C03_compact_writer_conforms_partial 4096 (BufioW.mkSink [] false [] false []) node_update (write_val node_update)) as (b & st & _ & l & L & _); eauto.
    - lia.
    - vm_compute; auto.
    - vm_compute. intuition discriminate.
    - apply Choices.with_bytes_w_refl. }
  destruct L as (l & L). exists [[x00; x00; x00; x2a]; binary_encoding node_update; l; [xff]; binary_encoding (VI32 (-2))].
  constructor; [reflexivity|]. constructor; [|constructor; [|constructor; [reflexivity|constructor; [|constructor]]]]; cbn [laid_out nth_error two_readers].
  - conj; auto; [left; reflexivity|exact node_typed].
  - conj; auto; [left; reflexivity|apply zero_typed, node_ok].
  - conj; auto; [right; left; reflexivity|cbn; unfold is_i32; lia|apply tt_i32; auto| | ].
    + apply cf_scalar; [exact I|apply tt_i32; auto].
    + vm_compute; intuition discriminate.
Qed.

(** ** Writers *)
Theorem C63_new_writer w k strict : 4096 <= wbo_size (ww_buf w k) ->
  new_bin_writer strict (WBuf k) w = (mkWr (SWBin strict) k (Some (WBuf k)), w) /\
  new_cmp_writer (WBuf k) w = (mkWr (SWCmp cw0) k (Some (WBuf k)), w).
Proof. intros H. unfold new_bin_writer, new_cmp_writer, new_wbuf. replace (_ >=? 4096) with true by lia. auto. Qed.
Print Assumptions C63_new_writer.

Lemma onw_below {A} j (p q : prog wireW A) : below p q -> below (onw j p) (onw j q).
Proof. induction 1; cbn [onw]; [apply bl_fuel|now apply bl_cut|apply bl_ret|apply bl_crash|now apply bl_vis]. Qed.

Lemma place_ready k j x xs : Forall (readyw k) xs -> readyw k x -> Forall (readyw k) (place_at j x xs).
Proof.
  intros H Hx. unfold place_at. apply Forall_app. split; [|constructor; [exact Hx|]]; apply Forall_forall; intros y Hy;
    apply (proj1 (Forall_forall _ _) H).
  - rewrite <- (firstn_skipn j xs). apply in_or_app. now left.
  - rewrite <- (firstn_skipn (S j) xs). apply in_or_app. now right.
Qed.
Lemma place_binary j x y xs : nth_error xs j = Some y -> is_binary x = is_binary y -> map is_binary (place_at j x xs) = map is_binary xs.
Proof.
  intros Hj E. rewrite <- (place_self j y xs Hj) at 2. unfold place_at. rewrite !map_app. cbn [map]. now rewrite E.
Qed.

Lemma wturn_ok env P w0 k i size d xs x w m :
  env_ok env -> unique_ids env -> supported env P -> 0 < size -> Forall (readyw k) xs ->
  writable env P xs x -> carries w0 k i size w m ->
  exists N l xs' w', spelled env xs x l /\ carries w0 k i size w' (m ++ l) /\ Forall (readyw k) xs' /\ map is_binary xs' = map is_binary xs /\
    forall n, (N <= n)%nat -> run (sharedw_h d) (write_turn env n k x) (xs, w) = Done (xs', w') None.
Proof.
  intros He Hu Hs Hz Hx Hw Hc. destruct x as [l|j t v iv]; cbn [writable spelled write_turn] in *.
  - destruct (carries_step w0 k i size Hz d None _ (BWWrite l) w m (or_introl eq_refl) Hc) as (w' & m' & r & E1 & E2 & Hc').
    cbn [mem_h] in E2. injection E2 as <- <-. exists 0%nat, l, xs, w'. conj; auto. intros n _. unfold call. cbn [run sharedw_h fst snd]. rewrite E1. reflexivity.
  - destruct Hw as (Pt & Ht & Hf & Hp & Hj). apply nth_error_Some in Hj. destruct (nth_error xs j) as [x|] eqn:Ej; [clear Hj|now elim Hj].
    pose proof (proj1 (Forall_forall _ _) Hx _ (nth_error_In _ _ Ej)) as (K & U & B). destruct x as [[strict|st] k' under]; cbn in K, U, B; subst k'.
    + destruct (bin_marshal_mem env P He Hs strict t v iv Pt Ht Hp) as (N & tv & S & M).
      pose proof (onw_bin w0 k i size Hz d strict under j (Marshal env N N (Some iv)) U xs w m Ej Hc) as G. rewrite (M N m (le_n _)) in G. unfold simw in G.
      destruct (run (sharedw_h d) _ _) as [[xs' w'] y|] eqn:Er; [|contradiction]. destruct G as (-> & Ex & G). cbn [fst snd] in *. subst xs'.
      exists N, (binary_encoding tv), xs, w'. conj; auto; [now exists tv|]. intros n Hn.
      exact (below_done (sharedw_h d) _ _ _ _ _ (onw_below j _ _ (Marshal_more env N n N n _ Hn Hn)) Er).
    + destruct (cmp_marshal_mem env P He Hs t v iv Pt Ht Hf Hp) as (N & tv & S & M). destruct (M st m B) as (l & L & M').
      destruct (M' N (le_n _)) as (st' & B' & E). pose proof (onw_cmp w0 k i size Hz d under j (Marshal env N N (Some iv)) U st xs w m Ej Hc) as G. rewrite E in G. unfold simw in G.
      destruct (run (sharedw_h d) _ _) as [[xs' w'] y|] eqn:Er; [|contradiction]. destruct G as (-> & Ex & G). cbn [fst snd] in *. subst xs'.
      exists N, l, (place_at j (mkWr (SWCmp st') k under) xs), w'. conj; auto.
      * now exists tv.
      * apply place_ready; auto. unfold readyw; cbn; auto.
      * now apply (place_binary j _ _ _ Ej).
      * intros n Hn. exact (below_done (sharedw_h d) _ _ _ _ _ (onw_below j _ _ (Marshal_more env N n N n _ Hn Hn)) Er).
Qed.

(** Every way to flush. *)
Definition flushes (k : nat) (xs : list writer) (f : prog sharedW (option err)) : Prop :=
  f = call (WOwnFlush k) \/ exists j, (j < length xs)%nat /\ f = call (WCall j WFlush).

Lemma flush_ok w0 k i size d xs f w m : 0 < size -> Forall (readyw k) xs -> flushes k xs f -> carries w0 k i size w m ->
  exists xs' w', run (sharedw_h d) f (xs, w) = Done (xs', w') None /\ carries w0 k i size w' m /\ received (ww_sink w' i) = m.
Proof.
  intros Hz Hx Hf Hc. destruct (carries_flush w0 k i size Hz d w m Hc) as (w1 & E1 & C1 & R1 & _).
  destruct Hf as [->|(j & Hj & ->)].
  - exists xs, w1. unfold call. cbn [run sharedw_h fst snd]. rewrite E1. auto.
  - apply nth_error_Some in Hj. destruct (nth_error xs j) as [x|] eqn:Ej; [clear Hj|now elim Hj].
    pose proof (proj1 (Forall_forall _ _) Hx _ (nth_error_In _ _ Ej)) as (K & U & B). destruct x as [s k' under]; cbn in K, U, B; subst k'.
    destruct (carries_flush w0 k i size Hz d w1 m C1) as (w2 & E2 & C2 & R2 & _).
    assert (Fu : exists w', wbuf_h d k under _ BWUnderFlush w1 = Done w' None /\ carries w0 k i size w' m /\ received (ww_sink w' i) = m).
    { destruct U as [->| ->]; cbn [wbuf_h]; [now exists w1|now exists w2]. }
    destruct Fu as (w3 & E3 & C3 & R3).
    unfold call. cbn [run sharedw_h fst snd]. rewrite Ej. unfold writer_h. cbn [wr_st wr_buf wr_under].
    assert (Ef : wbuf_h d k under _ BWFlush w = Done w1 None) by exact E1.
    destruct s as [strict|st].
    + unfold bin_write, and_then. rewrite run_bind, run_call, Ef. cbn [obind]. rewrite run_call, E3. cbn [obind fst snd]. eauto.
    + unfold cmp_writer, liftw, and_then. rewrite !run_bind, run_call, Ef. cbn [obind].
      destruct (cw_uw st); [rewrite run_call, E3|cbn [run]]; cbn [obind run fst snd]; eauto.
Qed.

(** Writers of any protocols on one *bufio.Writer, and the caller itself, may take turns in any order: what each writes follows
    what was written before, and whoever flushes, all of it has arrived at the io.Writer below. *)
Theorem C63_write_turns env P w k i size buf d xs ts :
  env_ok env -> unique_ids env -> supported env P -> 0 < size ->
  ww_buf w k = mkWBO size buf None (WPlain i) -> zlen buf <= size -> ok_sink (ww_sink w i) ->
  Forall (readyw k) xs -> Forall (writable env P xs) ts ->
  exists N ls xs' w', Forall2 (spelled env xs) ts ls /\
    (forall n, (N <= n)%nat -> run (sharedw_h d) (write_turns env n k ts) (xs, w) = Done (xs', w') (map (fun _ => None) ts)) /\
    forall f, flushes k xs f -> exists xs2 w2, run (sharedw_h d) f (xs', w') = Done (xs2, w2) None /\
      received (ww_sink w2 i) = received (ww_sink w i) ++ buf ++ concat ls /\
      (forall j, j <> i -> ww_sink w2 j = ww_sink w j) /\ (forall j, j <> k -> ww_buf w2 j = ww_buf w j).
Proof.
  intros He Hu Hs Hz Hk Hb Hi Hx Ht.
  assert (G : forall ts xs1 w1 m, map is_binary xs1 = map is_binary xs -> Forall (readyw k) xs1 -> Forall (writable env P xs) ts -> carries w k i size w1 m ->
    exists N ls xs' w', Forall2 (spelled env xs) ts ls /\ carries w k i size w' (m ++ concat ls) /\ Forall (readyw k) xs' /\ map is_binary xs' = map is_binary xs /\
      forall n, (N <= n)%nat -> run (sharedw_h d) (write_turns env n k ts) (xs1, w1) = Done (xs', w') (map (fun _ => None) ts)).
  { clear ts Ht. induction ts as [|x ts IH]; intros xs1 w1 m Hm R Ht Hc.
    - exists 0%nat, [], xs1, w1. cbn [concat]. rewrite app_nil_r. conj; auto.
    - inversion Ht as [|? ? Hw Ht']; subst.
      assert (Hl : length xs1 = length xs) by (rewrite <- (map_length is_binary xs1), Hm; apply map_length).
      assert (Hw' : writable env P xs1 x) by (destruct x; cbn in *; [exact I|now rewrite Hl]).
      destruct (wturn_ok env P w k i size d xs1 x w1 m He Hu Hs Hz R Hw' Hc) as (N1 & l & xs2 & w2 & S & C2 & R2 & M2 & E1).
      destruct (IH xs2 w2 (m ++ l) ltac:(congruence) R2 Ht' C2) as (N2 & ls & xs3 & w3 & S2 & C3 & R3 & M3 & E2).
      exists (Nat.max N1 N2), (l :: ls), xs3, w3. cbn [concat]. rewrite app_assoc. conj; auto.
      + constructor; [|exact S2]. destruct x as [l'|j t v iv]; cbn [spelled] in *; [exact S|]. destruct S as (tv & S & Sl). exists tv. split; [exact S|].
        assert (Ej : option_map is_binary (nth_error xs1 j) = option_map is_binary (nth_error xs j)) by (rewrite <- !nth_error_map; now rewrite Hm).
        destruct (nth_error xs1 j), (nth_error xs j); cbn in Ej; try discriminate; [|contradiction]. injection Ej as <-. exact Sl.
      + intros n Hn. cbn [write_turns]. rewrite run_bind, E1 by lia. cbn [obind]. rewrite run_bind, E2 by lia. reflexivity. }
  assert (C0 : carries w k i size w (received (ww_sink w i) ++ buf)).
  { exists (mkBW buf None (ww_sink w i)). unfold holdsw, wok, winv; cbn. conj; auto. }
  destruct (G ts xs w _ eq_refl Hx Ht C0) as (N & ls & xs' & w' & S & C & R & M & E). exists N, ls, xs', w'. conj; auto. intros f Hf.
  assert (Hf' : flushes k xs' f).
  { destruct Hf as [->|(j & Hj & ->)]; [now left|right; exists j; split; [|reflexivity]]. rewrite <- (map_length is_binary xs'), M, map_length. exact Hj. }
  destruct (flush_ok w k i size d xs' f w' _ Hz R Hf' C) as (xs2 & w2 & Ef & (b & (_ & _ & H3 & H4 & _) & _) & Rv).
  exists xs2, w2. conj; auto. rewrite Rv. now rewrite app_assoc.
Qed.
Print Assumptions C63_write_turns.

(** Reset takes the caller's *bufio.Writer along, too: what it held and had not flushed is lost, and what the caller writes to it
    from then on goes to the new io.Writer. *)
Theorem C63_reset_writer_takes_over w x r x' w' : reset_writer r x w = (x', w') -> r <> WBuf (wr_buf x) ->
  ww_buf w' (wr_buf x) = mkWBO (wbo_size (ww_buf w (wr_buf x))) [] None r /\ ww_sink w' = ww_sink w /\
  (forall m, m <> wr_buf x -> ww_buf w' m = ww_buf w m).
Proof.
  intros E Hr. assert (B : w' = put_wbuf (wr_buf x) (mkWBO (wbo_size (ww_buf w (wr_buf x))) [] None r) w).
  { unfold reset_writer, wbuf_reset in E. destruct r as [i|j]; [destruct (wr_st x); now injection E as _ <-|].
    destruct (Nat.eqb_spec j (wr_buf x)); [congruence|destruct (wr_st x); now injection E as _ <-]. }
  subst w'. cbn. conj; [apply upd_same|reflexivity|]. intros m Hm. now rewrite upd_other.
Qed.
Print Assumptions C63_reset_writer_takes_over.

(** After Reset nothing the Writer does reaches the io.Writer it was on before, not even a Flush, nor anything else that the new
    io.Writer does not write to. *)
Theorem C63_reset_writer_leaves {A} d w x r x' w' (p : prog wireW A) x2 w2 y : reset_writer r x w = (x', w') ->
  run (writer_h d) p (x', w') = Done (x2, w2) y ->
  (forall i, ~ feeds w' r (WPlain i) -> ww_sink w2 i = ww_sink w i) /\
  (forall k, k <> wr_buf x -> ~ feeds w' r (WBuf k) -> ww_buf w2 k = ww_buf w k).
Proof.
  intros E R. set (P := fun q => q = WBuf (wr_buf x) \/ feeds w' r q).
  assert (W : ww_sink w' = ww_sink w /\ (forall k, k <> wr_buf x -> ww_buf w' k = ww_buf w k) /\
              wr_buf x' = wr_buf x /\ (forall q, wr_under x' = Some q -> q = r) /\
              (wbo_wr (ww_buf w' (wr_buf x)) = r \/ r = WBuf (wr_buf x))).
  { assert (B : w' = wbuf_reset (wr_buf x) r w) by (unfold reset_writer in E; destruct (wr_st x); now injection E as _ <-).
    assert (B' : ww_sink w' = ww_sink w /\ (forall k, k <> wr_buf x -> ww_buf w' k = ww_buf w k) /\
                 (wbo_wr (ww_buf w' (wr_buf x)) = r \/ r = WBuf (wr_buf x))).
    { subst w'. unfold wbuf_reset. destruct r as [i|j]; [|destruct (Nat.eqb_spec j (wr_buf x)) as [->|N]; [auto|]]; cbn;
        (split; [reflexivity|split; [intros k Hk; now rewrite upd_other|left; now rewrite upd_same]]). }
    destruct B' as (B1 & B2 & B3). unfold reset_writer in E. destruct (wr_st x); injection E as <- _; cbn; conj; auto; intros q Q; congruence. }
  destruct W as (Ws & Wb & Wk & Wu & Wt).
  assert (Sh : shut P w').
  { intros k [Hk|Hk]; [|right; now apply feeds_on]. injection Hk as ->. right. destruct Wt as [T|T]; [rewrite T; constructor|].
    apply feeds_on. rewrite <- T. constructor. }
  assert (O := ok_writer P w' Sh d p x' w'). rewrite Wk in O. specialize (O (or_introl eq_refl)).
  specialize (O (fun q Q => or_intror (eq_ind_r (feeds w' r) (feeds_self w' r) (Wu q Q))) (apart_refl P w')). rewrite R in O. cbn in O.
  destruct O as (O1 & O2 & _). split.
  - intros i Hi. rewrite O1, Ws; [reflexivity|]. intros [H|H]; [discriminate|contradiction].
  - intros k Hk Hf. rewrite O2; [now apply Wb|]. intros [H|H]; [congruence|contradiction].
Qed.
Print Assumptions C63_reset_writer_leaves.
(** A compact Writer on the io.Writer 0, which has a Flush of its own, reset to the io.Writer 1: Flush sends the byte to 1 and
    leaves 0 as it was. *)
Example C63_leaves_sample :
  let w := mkWW (fun _ => mkSink [] true [None] false []) (fun k => mkWBO 4096 [] None (WPlain k)) 2 in
  let '(x', w') := reset_writer (WPlain 1) (mkWr (SWCmp cw0) 0 (Some (WPlain 0))) w in
  (exists x2 w2, run (writer_h 2) (call (WByte x07) >>! call WFlush) (x', w') = Done (x2, w2) None /\
    ww_sink w2 0 = ww_sink w 0 /\ received (ww_sink w2 1) = [x07]) /\
  ~ feeds w' (WPlain 1) (WPlain 0) /\ s_flusher (ww_sink w 0) = true.
Proof.
  cbn -[run]. split; [do 2 eexists; vm_compute; conj; reflexivity|]. split; [|reflexivity].
  intros H. remember (WPlain 0) as q eqn:Q. assert (X : q = WPlain 1) by (clear Q; induction H as [|k _ IH]; [reflexivity|discriminate IH]). congruence.
Qed.

(** Reset to the *bufio.Writer (Reader) that the Writer (Reader) is on already loses nothing: what has not been flushed (read) is
    still there, and the caller's other objects are as before. *)
Theorem C63_reset_writer_self w x : exists st under,
  reset_writer (WBuf (wr_buf x)) x w = (mkWr st (wr_buf x) under, w) /\
  (forall strict, wr_st x = SWBin strict -> st = SWBin strict /\ under = Some (WBuf (wr_buf x))).
Proof.
  unfold reset_writer, wbuf_reset. rewrite Nat.eqb_refl. destruct (wr_st x); do 2 eexists; (split; [reflexivity|]); intros s' E; [|discriminate E].
  injection E as ->. auto.
Qed.
Print Assumptions C63_reset_writer_self.
Theorem C63_reset_binary_self w strict k : reset_reader (RBuf k) (mkRd (SBin strict) k) w = (mkRd (SBin strict) k, w).
Proof. unfold reset_reader, buf_reset. cbn. now rewrite Nat.eqb_refl. Qed.
Print Assumptions C63_reset_binary_self.

(** Reset to another *bufio.Writer: the Writer gets a buffer of its own in
    front of it, whose Flush does not reach the io.Writer below if the protocol is compact. *)
Definition two_wbufs : wworld :=
  mkWW (fun _ => mkSink [] false [] false []) (fun k => mkWBO 4096 [] None (WPlain k)) 2.
Theorem C63_reset_writer_refuted :
  let p : prog wireW (option err) := call (WByte x07) >>! call WFlush in
  exists x w1 y w2 z w3,
    run (writer_h 2) p (reset_writer (WBuf 1) (mkWr (SWCmp cw0) 0 (Some (WBuf 0))) two_wbufs) = Done (x, w1) None /\
    received (ww_sink w1 1) = [] /\ wbo_buf (ww_buf w1 1) = [x07] /\
    run (writer_h 2) p (new_cmp_writer (WBuf 1) two_wbufs) = Done (y, w2) None /\ received (ww_sink w2 1) = [x07] /\
    run (writer_h 2) p (reset_writer (WBuf 1) (mkWr (SWBin true) 0 (Some (WBuf 0))) two_wbufs) = Done (z, w3) None /\ received (ww_sink w3 1) = [x07].
Proof. do 6 eexists. vm_compute. conj; reflexivity. Qed.
Print Assumptions C63_reset_writer_refuted.

(** A frame length, a Node from a binary Writer, one from a compact Writer by pointer, a byte and an int32: all that
    C63_write_turns asks. *)
Definition two_writers : list writer := [mkWr (SWBin true) 0 (Some (WBuf 0)); mkWr (SWCmp cw0) 0 (Some (WBuf 0))].
Definition writes : list wturn :=
  [OwnW [x00; x00; x00; x2a]; ValueW 0 Node node_value (Node, node_value);
   ValueW 1 Node node_value (RtPtr Node, GPtr (Some node_value)); OwnW [xff]; ValueW 0 RtInt32 (GInt 3) (RtInt32, GInt 3)].
Example C63_sample_writes : Forall (readyw 0) two_writers /\ Forall (writable node_env node_types two_writers) writes /\
  ok_sink (ww_sink two_wbufs 0) /\ ww_buf two_wbufs 0 = mkWBO 4096 [] None (WPlain 0).
Proof.
  assert (F : fits node_env (2 ^ 63) node_value Node) by (apply fits_check; reflexivity).
  conj; [apply Forall_forall; intros x [<-|[<-|[]]]; unfold readyw; cbn; auto| |vm_compute; auto|reflexivity].
  repeat (apply Forall_cons; [cbn [writable]; try exact I|]); [| | |apply Forall_nil].
  - conj; [left; reflexivity|exact node_typed|exact F|right; split; reflexivity|cbn; lia].
  - conj; [left; reflexivity|exact node_typed|exact F|left; exists (RtPtr Node); split; reflexivity|cbn; lia].
  - conj; [right; left; reflexivity|cbn; unfold is_i32; lia|apply fits_check; reflexivity|right; split; reflexivity|cbn; lia].
Qed.
