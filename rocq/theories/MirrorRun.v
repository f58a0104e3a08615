(** Marshal and Unmarshal on any Writer and Reader, step by step. *)
From Coq Require Import Strings.String.
From Verif Require Import Base BaseLemmas Prog Wire WireProof Spec Clients Fuel Reads Robust
  GoFloat Utf8 GoType Fields Arshal GoTypeProof FieldsProof ArshalSpec ArshalEnc ArshalDec ArshalTrip ArshalTotal
  ArshalThms ArshalSafe ArshalInput ArshalErr ArshalGives MapSpec MapProof StoreSpec StoreProof Memo MemoProof Mirror.
Local Open Scope Z_scope.
Local Open Scope list_scope.

(** ** Every value has some size *)
Section Size.
Context (env : tenv).
Definition sized (v : gval) : Prop := exists k, 0 < k /\ forall lim t, k <= lim -> ArshalSpec.fits env lim v t.

Lemma sized_all l : Forall sized l -> exists k, 0 < k /\ forall lim t v, k <= lim -> In v l -> ArshalSpec.fits env lim v t.
Proof.
  induction 1 as [|v l (k & K & Hk) _ (k' & K' & Hk')]; [exists 1; split; [lia|contradiction]|].
  exists (k + k'). split; [lia|]. intros lim t w Hl [->|Hw]; [apply Hk|apply Hk']; auto; lia.
Qed.

Lemma sized_val v : sized v.
Proof.
  induction v as [b|z|z|z|z|nl x sp|u|es IH|nl es sp IH IH2| |es IH| |v IH|vs IH|k] using gval_ind';
    try (exists 1; split; [lia|]; intros lim t Hl x0 u0 Hi; inversion Hi; subst; exact I).
  - exists (zlen z + 1). pose proof (zlen_nonneg z). split; [lia|]. intros lim t Hl x0 u0 Hi; inversion Hi; subst. lia.
  - exists (zlen x + 1). pose proof (zlen_nonneg x). split; [lia|]. intros lim t Hl x0 u0 Hi; inversion Hi; subst. lia.
  - destruct (sized_all es IH) as (k & K & H). exists (k + zlen es + 1). pose proof (zlen_nonneg es). split; [lia|].
    intros lim t Hl x0 u0 Hi; inversion Hi; subst; [lia|]. eapply (H lim e w); eauto; lia.
  - assert (G : exists k, 0 < k /\ forall lim t p, k <= lim -> In p es -> ArshalSpec.fits env lim (fst p) t /\ ArshalSpec.fits env lim (snd p) t).
    { induction IH as [|p l [(k & K & Hk) (j & J & Hj)] _ (k' & K' & Hk')]; [exists 1; split; [lia|contradiction]|].
      exists (k + j + k'). split; [lia|]. intros lim t w Hl [->|Hw]; [split; [apply Hk|apply Hj]|apply Hk']; auto; lia. }
    destruct G as (k & K & H). exists (k + zlen es + 1). pose proof (zlen_nonneg es). split; [lia|].
    intros lim t Hl x0 u0 Hi; inversion Hi as [| |? kt ? ? k0 w ? ? ? Hin|? ? e ? k0 w ? ? ? Hin| |]; subst; [lia| |].
    + destruct (H lim kt (k0, w) ltac:(lia) ltac:(assumption)) as [F _]. eapply F; eassumption.
    + destruct (H lim e (k0, w) ltac:(lia) ltac:(assumption)) as [_ F]. eapply F; eassumption.
  - destruct IH as (k & K & H). exists k. split; [lia|]. intros lim t Hl x0 u0 Hi; inversion Hi; subst; [exact I|]. eapply H; eauto.
  - destruct (sized_all vs IH) as (k & K & H). exists k. split; [lia|].
    intros lim t Hl x0 u0 Hi; inversion Hi as [| | | | |? ? ? sf ? w ? ? ? ? Hn]; subst; [exact I|]. eapply (H lim (sf_type sf) w); eauto. eapply nth_error_In; eauto.
Qed.
End Size.

(** ** On any Writer and any Reader *)
(** All the calls return nil. *)
Definition all_nil {A} (cs : list A) : list (option err) := map (fun _ => None) cs.

Section Run.
Context (env : tenv).
Notation wmarshal := (ArshalErr.wrapped env "marshal").
Notation wunmarshal := (ArshalErr.wrapped env "unmarshal").

Lemma wname_emb c : wname (MemoProof.ev (emb c)) = wname (ArshalEnc.ev c).
Proof. now rewrite ev_emb. Qed.

Lemma plays_all {S} (h : handler wireW S) p cs r : plays env p cs r -> forall s s',
  written h (map emb cs) s = Done s' (all_nil (map emb cs)) -> run h p s = Done s' r.
Proof.
  induction 1 as [|e He|c k cs r Hk Hn IH]; intros s s' W; cbn [map written] in W.
  - injection W as ->. reflexivity.
  - injection W as ->. reflexivity.
  - rewrite ev_emb in W. cbn [run]. destruct (h _ (ArshalEnc.ev c) s) as [s1 x|cr]; [|discriminate].
    destruct (written h (map emb cs) s1) as [s2 rs|cr] eqn:E; [|discriminate]. injection W as -> -> ->. now apply IH.
Qed.

Lemma plays_cut {S} (h : handler wireW S) p cs r : plays env p cs r -> forall cs1 c cs2 s s1 s2 er,
  map emb cs = cs1 ++ c :: cs2 -> written h cs1 s = Done s1 (all_nil cs1) -> h _ (MemoProof.ev c) s1 = Done s2 (Some er) ->
  exists e, run h p s = Done s2 (Some e) /\ wmarshal (wname (MemoProof.ev c)) er e.
Proof.
  induction 1 as [|e He|c0 k cs r Hk Hn IH]; intros cs1 c cs2 s s1 s2 er E W B; try (destruct cs1; discriminate).
  cbn [map] in E. destruct cs1 as [|c1 cs1]; injection E as <- E; cbn [written] in W; cbn [run].
  - injection W as ->. rewrite ev_emb in B. rewrite B, ev_emb. destruct (Hk er) as (e & -> & We). exists e. split; [reflexivity|exact We].
  - rewrite ev_emb in W. destruct (h _ (ArshalEnc.ev c0) s) as [s3 x|cr]; [|discriminate].
    destruct (written h cs1 s3) as [s4 rs|cr] eqn:E1; [|discriminate]. injection W as -> -> ->. eapply IH; eauto.
Qed.

Lemma asks_all {S A} (bad : A -> option err) (h : handler wireR S) p l a : asks env bad p l a -> forall s s',
  asked h l s s' -> run h p s = Done s' a.
Proof.
  induction 1 as [a|X e k x l a Hn Hk H IH]; intros s s' A0; cbn [asked] in A0; cbn [run]; [now subst|].
  destruct A0 as (s1 & -> & A1). now apply IH.
Qed.

Lemma asks_cut {S A} (bad : A -> option err) (h : handler wireR S) p l a : asks env bad p l a ->
  forall l1 X (e : wireR X) x l2 s s1 s2 x' er, l = l1 ++ Answer e x :: l2 -> asked h l1 s s1 ->
  h _ e s1 = Done s2 x' -> errR e x' = Some er ->
  exists b e', run h p s = Done s2 b /\ bad b = Some e' /\ wunmarshal (rname e) er e'.
Proof.
  induction 1 as [a|Y f k y l a Hn Hk H IH]; intros l1 X e x l2 s s1 s2 x' er E A0 B Ex; [destruct l1; discriminate|].
  destruct l1 as [|[Z g z] l1]; cbn [asked] in A0.
  - pose proof (f_equal (hd (Answer RBool (false, None))) E) as E1. cbn [app hd] in E1.
    subst s1. cbn [run].
    enough (G : forall (q : answer), Answer f y = q -> match q with Answer e x => forall x' er s2, h _ e s = Done s2 x' -> errR e x' = Some er ->
       exists b e', match h _ f s with Done s' x => run h (k x) s' | Crashed c => Crashed c end = Done s2 b /\ bad b = Some e' /\ wunmarshal (rname e) er e' end).
    { exact (G _ E1 x' er s2 B Ex). }
    intros q <-. intros x1 er1 s3 B1 Ex1. rewrite B1. destruct (Hk x1 er1 Ex1) as (b & e' & -> & Bb & We). exists b, e'. auto.
  - pose proof (f_equal (hd (Answer RBool (false, None))) E) as E1. pose proof (f_equal (@tl _) E) as E2. cbn [app hd tl] in E1, E2.
    cbn [run]. destruct A0 as (s3 & A1 & A2).
    enough (G : forall (q : answer), Answer f y = q -> match q with Answer e x => h _ e s = Done s3 x -> h _ f s = Done s3 y end).
    { rewrite (G _ E1 A1). eapply IH; eauto. }
    intros q <-. auto.
Qed.

Lemma asks_names {A} (bad : A -> option err) p l a : asks env bad p l a ->
  Forall (fun q => match q with Answer e _ => rname e = String.append "Read" (read_step e) end) l.
Proof. induction 1; constructor; auto. Qed.
End Run.

(** ** On a Memo *)
Lemma steps_names l : forall m m', asked memoR l m m' -> m_break m <= 0 \/ Z.of_nat (m_r m + length l) < m_break m ->
  memo_Steps m' = memo_Steps m ++ map (fun q => match q with Answer e _ => read_step e end) l.
Proof.
  induction l as [|[X e x] l IH]; intros m m' A B; cbn [asked map] in *; [subst; now rewrite app_nil_r|].
  destruct A as (m1 & A1 & A2). unfold memoR in A1. unfold advance_r, advance in A1.
  replace ((0 <? m_break m) && (m_break m <=? Z.of_nat (m_r m) + 1)) with false in A1 by (symmetry; cbn [length] in B; lia).
  unfold memo_read in A1. cbn [m_steps m_r m_break m_w m_values] in A1. set (q := nth_error (m_steps m ++ [read_step e]) (S (m_r m) - 1)) in *.
  destruct q as [w|]; [|discriminate]. destruct (String.eqb _ w); [|discriminate].
  destruct (read_set e _); [|discriminate]. injection A1 as <- ->.
  rewrite (IH _ _ A2).
  - unfold memo_Steps. cbn [m_steps]. now rewrite <- app_assoc.
  - cbn [m_break m_r]. cbn [length] in B. lia.
Qed.

Lemma split_at cs : forall k, (k < length (flat_map step_names cs))%nat ->
  exists cs1 c cs2, cs = cs1 ++ c :: cs2 /\ (length (flat_map step_names cs1) <= k < length (flat_map step_names cs1) + length (step_names c))%nat.
Proof.
  induction cs as [|c cs IH]; intros k Hk; cbn [flat_map length] in Hk; [lia|]. rewrite app_length in Hk.
  destruct (Nat.lt_ge_cases k (length (step_names c))) as [H|H].
  - exists [], c, cs. cbn. split; [reflexivity|lia].
  - destruct (IH (k - length (step_names c))%nat ltac:(lia)) as (cs1 & c' & cs2 & -> & G).
    exists (c :: cs1), c', cs2. cbn [flat_map app]. rewrite app_length. split; [reflexivity|lia].
Qed.

Lemma names_recorded cs : map fst (flat_map recorded cs) = flat_map step_names cs.
Proof. induction cs as [|c cs IH]; cbn; [reflexivity|]. now rewrite map_app, recorded_names, IH. Qed.
Lemma len_recorded cs : length (flat_map recorded cs) = length (flat_map step_names cs).
Proof. now rewrite <- names_recorded, map_length. Qed.

Lemma all_nil_results cs : forall o, (match o with Some r => length (flat_map step_names cs) <= r | None => True end)%nat -> results o cs = all_nil cs.
Proof.
  induction cs as [|c cs IH]; intros o H; cbn [results all_nil map]; [reflexivity|]. cbn zeta. f_equal.
  - destruct o as [r|]; cbn [fit]; [|now rewrite Nat.eqb_refl]. cbn [flat_map] in H. rewrite app_length in H.
    destruct (Nat.eqb_spec (Nat.min (length (step_names c)) r) (length (step_names c))); [reflexivity|lia].
  - apply IH. destruct o as [r|]; [|exact I]. cbn [flat_map] in H. rewrite app_length in H. lia.
Qed.

(** Cut at the step [k]. *)
Lemma memo_cut cs1 c cs2 k : (length (flat_map step_names cs1) <= k < length (flat_map step_names cs1) + length (step_names c))%nat ->
  let l := flat_map recorded (cs1 ++ c :: cs2) in
  exists m, written memoW cs1 (new_memo (Z.of_nat k + 1)) = Done m (all_nil cs1) /\
    memoW _ (MemoProof.ev c) m = Done (added (new_memo (Z.of_nat k + 1)) k l) (Some EBreak).
Proof.
  intros H l. pose proof (written_spec cs1 (new_memo (Z.of_nat k + 1))) as W. cbn zeta in W. cbn [new_memo m_break m_w] in W.
  assert (Ro : room (Z.of_nat k + 1) 0 = Some k).
  { unfold room. destruct (Z.ltb_spec 0 (Z.of_nat k + 1)); [|lia]. f_equal. lia. }
  rewrite Ro in W. cbn [fit] in W. rewrite all_nil_results in W by lia.
  rewrite Nat.min_l in W by (rewrite len_recorded; lia).
  eexists. split; [exact W|]. rewrite memoW_puts, puts_spec. cbn zeta. cbn [added m_break m_w Nat.add].
  assert (R2 : room (Z.of_nat k + 1) (length (flat_map recorded cs1)) = Some (k - length (flat_map recorded cs1))%nat).
  { unfold room. destruct (Z.ltb_spec 0 (Z.of_nat k + 1)); [|lia]. f_equal. lia. }
  change (m_break (new_memo (Z.of_nat k + 1))) with (Z.of_nat k + 1). change (m_w (new_memo (Z.of_nat k + 1)) + length (flat_map recorded cs1))%nat with (length (flat_map recorded cs1)).
  rewrite R2. cbn [fit]. pose proof (f_equal (@length _) (recorded_names c)) as Lc. rewrite map_length in Lc.
  pose proof (len_recorded cs1) as L1.
  rewrite Nat.min_r by lia. destruct (Nat.eqb_spec (k - length (flat_map recorded cs1)) (length (recorded c))); [lia|].
  f_equal. unfold new_memo, added. cbn [m_break m_r m_w m_steps m_values app].
  replace (firstn k l) with (flat_map recorded cs1 ++ firstn (k - length (flat_map recorded cs1)) (recorded c)).
  - rewrite firstn_all, !map_app. f_equal. lia.
  - unfold l. rewrite flat_map_app. cbn [flat_map]. rewrite firstn_app, (firstn_all2 (n := k) (flat_map recorded cs1)) by lia. f_equal.
    rewrite firstn_app. replace (k - length (flat_map recorded cs1) - length (recorded c))%nat with O by lia. now rewrite firstn_O, app_nil_r.
Qed.

Lemma memo_whole cs : written memoW cs (new_memo 0) = Done (added (new_memo 0) (length (flat_map recorded cs)) (flat_map recorded cs)) (all_nil cs).
Proof.
  pose proof (written_spec cs (new_memo 0)) as W. cbn zeta in W. cbn [new_memo m_break m_w] in W.
  change (room 0 0) with (@None nat) in W. cbn [fit] in W. now rewrite all_nil_results in W.
Qed.

(** What is read back of the first [k] steps under the same breakpoint. *)
Lemma memo_read_back cs l k bp : replay cs l -> (bp = 0 /\ k = length l \/ bp = Z.of_nat k + 1 /\ (k <= length l)%nat) ->
  exists m', asked memoR (firstn k l) (added (new_memo bp) k (flat_map recorded cs)) m' /\
    memo_Steps m' = firstn k (flat_map step_names cs) ++ firstn k (flat_map step_names cs) /\
    (bp = 0 \/ forall X (e : wireR X), exists x, memoR _ e m' = Done m' x /\ errR e x = Some EBreak).
Proof.
  intros R Hb. pose proof (replay_matches cs l R) as M. set (rec := flat_map recorded cs) in *.
  assert (Len : length l = length rec) by (symmetry; clear -M; induction M; cbn; congruence).
  destruct (asked_spec (firstn k l) [] (firstn k rec) (added (new_memo bp) k rec)) with (l1 := firstn k rec) (l2 := @nil (string * list any))
    as (m' & A1 & A2 & A3 & A4).
  - split; [exists []|]; reflexivity || (cbn; now rewrite app_nil_r).
  - reflexivity.
  - now rewrite app_nil_r.
  - apply Forall2_firstn. exact M.
  - cbn [added new_memo m_break length]. unfold room. rewrite firstn_length. destruct Hb as [[-> ->]|[-> Hk]]; [reflexivity|].
    destruct (Z.ltb_spec 0 (Z.of_nat k + 1)); [|reflexivity]. apply Nat.leb_le. lia.
  - exists m'. split; [exact A1|]. cbn [length] in A3. rewrite firstn_length in A3. cbn [added new_memo m_break] in A4. split.
    + rewrite (steps_names _ _ _ A1).
      * assert (E : map (fun q => match q with Answer e _ => read_step e end) l = flat_map step_names cs).
        { rewrite <- names_recorded. fold rec. clear -M. induction M as [|p [X e x] ps l [H _] M IH]; cbn; [reflexivity|]. now rewrite IH, H. }
        unfold memo_Steps, added, new_memo. cbn [m_steps app]. rewrite <- !firstn_map, E. unfold rec. now rewrite names_recorded.
      * cbn [added new_memo m_break m_r Nat.add]. rewrite firstn_length. destruct Hb as [[-> ->]|[-> Hk]]; [left|right]; lia.
    + destruct Hb as [[-> ->]|[-> Hk]]; [now left|right]. intros X e. apply read_broken. rewrite A4, A3. unfold room.
      destruct (Z.ltb_spec 0 (Z.of_nat k + 1)); [|lia]. f_equal. lia.
Qed.

(** ** More fuel changes nothing *)
Section Below.
Context (env : tenv).
Lemma below_inv {E A} (p q : prog E A) : below p q ->
  match p with
  | Ret a => q = Ret a
  | Vis e k => exists k', q = Vis e k' /\ forall x, below (k x) (k' x)
  | Crash _ => True
  end.
Proof. intros H. destruct H as [q|a q H|a|c|X e k k' H]; auto; [destruct H|]. now exists k'. Qed.

Lemma plays_below p cs r : plays env p cs r -> forall q, below p q -> plays env q cs r.
Proof.
  induction 1 as [|e He|c k cs r Hk Hn IH]; intros q B; apply below_inv in B.
  - subst q. constructor.
  - subst q. now constructor.
  - destruct B as (k' & -> & B). constructor; [|apply IH, B]. intros er. destruct (Hk er) as (e & E & W). exists e. split; [|exact W].
    specialize (B (Some er)). rewrite E in B. now apply below_inv in B.
Qed.
Lemma asks_below {A} (bad : A -> option err) p l a : asks env bad p l a -> forall q, below p q -> asks env bad q l a.
Proof.
  induction 1 as [a|X e k x l a Hn Hk H IH]; intros q B; apply below_inv in B.
  - subst q. constructor.
  - destruct B as (k' & -> & B). constructor; [exact Hn| |apply IH, B]. intros x' er Ex.
    destruct (Hk x' er Ex) as (b & e' & E & Bb & W). exists b, e'. split; [|auto].
    specialize (B x'). rewrite E in B. now apply below_inv in B.
Qed.
End Below.

(** ** Marshal and Unmarshal *)
Section Both.
Context (env : tenv) (P : rtype -> Prop) (Hsup : supported env P) (Henv : env_ok env) (Hids : unique_ids env).

Theorem both t v dst i : P t -> has_type env v t -> has_type env dst t -> passes env i t v ->
  exists N tv v' cs l, stands_for env t v tv /\ stores env t dst tv v' /\ has_type env v' t /\
    (dst = zero env t -> keys_distinct env v t -> trip env t v v') /\ replay (map emb cs) l /\
    forall n, (N <= n)%nat -> plays env (Marshal env n n (Some i)) cs None /\
      asks env snd (Unmarshal env n n (Some (RtPtr t, GPtr (Some dst)))) l (Some v', None).
Proof using Hsup Henv Hids.
  intros Pt Ht Hd Hp. destruct (stands_image env P Henv Hsup t v Pt Ht) as (N & a & tv & S & Hc & HN).
  destruct (sized_val env v) as (lim & Hl & Hf). specialize (Hf lim t (Z.le_refl _)).
  destruct (evolve_gives env P Hsup Henv Hids lim t t v tv dst Hl Pt Pt Ht Hf Hd (compatible_refl env P t Hsup Hids Pt) S)
    as (v' & a1 & St & Tv & Hc1 & W & (M & D)).
  assert (a1 = a) by (eapply codec_fun; eauto). subst a1.
  set (n0 := (N + M)%nat). destruct (HN n0 ltac:(lia)) as (L & I0).
  pose proof (D n0 n0 ltac:(lia) ltac:(lia)) as D0.
  destruct (mirror env n0 Henv Hids n0 n0 t a v tv dst v' Hc I0 D0) as (cs & l & P1 & P2 & P3).
  exists n0, tv, v', cs, l. conj; auto.
  { intros -> Hk. destruct (image_exists env P Henv Hids Hsup t v Pt Ht Hk) as (K & a2 & tv2 & v2 & T & C2 & HK).
    assert (a2 = a) by (eapply codec_fun; eauto). subst a2.
    destruct (HK (n0 + K)%nat (n0 + K)%nat ltac:(lia) ltac:(lia)) as (_ & I2 & D2).
    destruct (HN (n0 + K)%nat ltac:(lia)) as (_ & I1). rewrite I1 in I2. injection I2 as <-.
    rewrite (D (n0 + K)%nat (n0 + K)%nat ltac:(lia) ltac:(lia)) in D2. injection D2 as <-. exact T. }
  intros n Hn. split.
  - eapply plays_below; [|apply (Marshal_more env n0 n n0 n); lia].
    now rewrite (Marshal_passes env n0 n0 i t v a Hp L).
  - eapply asks_below; [|apply (Unmarshal_more env n0 n n0 n); lia].
    cbn [Unmarshal]. unfold is_ptr, elem_type. cbn [under]. rewrite L. rewrite <- (app_nil_r l).
    eapply asks_bind; [exact P3| |constructor].
    intros [g e0] e1 E1. cbn [snd] in E1. subst e0. eexists. split; reflexivity.
Qed.

(** Marshal into a Memo and Unmarshal out of it. *)
Lemma both_memo cs l (p : prog wireW (option err)) {A} (q : prog wireR (A * option err)) v' :
  replay (map emb cs) l -> plays env p cs None -> asks env snd q l (v', None) ->
  let steps := flat_map step_names (map emb cs) in
  (exists m m', run memoW p (new_memo 0) = Done m None /\ memo_Steps m = steps /\
     run memoR q m = Done m' (v', None) /\ memo_Steps m' = steps ++ steps) /\
  forall k step, nth_error steps k = Some step ->
    exists m e m' b e', run memoW p (new_memo (Z.of_nat k + 1)) = Done m (Some e) /\ memo_Steps m = firstn k steps /\
      (wrapped env "marshal" (String.append "Write" step) EBreak e \/ wrapped env "marshal" "WriteStructEnd" EBreak e) /\
      run memoR q m = Done m' (b, Some e') /\ wrapped env "unmarshal" (String.append "Read" step) EBreak e' /\
      memo_Steps m' = firstn k steps ++ firstn k steps.
Proof using.
  clear Hsup Henv Hids. intros R Pl As steps.
  assert (Ls : length l = length steps).
  { unfold steps. rewrite <- len_recorded. pose proof (replay_matches _ _ R) as M. clear -M. symmetry. induction M; cbn; congruence. }
  split.
  - destruct (memo_read_back (map emb cs) l (length l) 0 R (or_introl (conj eq_refl eq_refl))) as (m' & A1 & A2 & _).
    rewrite firstn_all in A1. rewrite Ls in A1, A2. fold steps in A2. rewrite firstn_all in A2.
    pose proof (memo_whole (map emb cs)) as W. rewrite len_recorded in W. fold steps in W.
    eexists _, m'. split; [exact (plays_all env memoW p cs None Pl _ _ W)|]. split; [|split; [exact (asks_all env snd memoR q l _ As _ _ A1)|exact A2]].
    unfold memo_Steps, added, new_memo. cbn [m_steps app]. rewrite <- firstn_map, names_recorded. apply firstn_all.
  - intros k step Hk. assert (Kl : (k < length steps)%nat) by (apply nth_error_Some; congruence).
    destruct (split_at (map emb cs) k Kl) as (cs1 & c & cs2 & E & H).
    destruct (memo_cut cs1 c cs2 k H) as (m1 & W1 & W2). rewrite <- E in W2. cbn zeta in W2.
    destruct (plays_cut env memoW p cs None Pl cs1 c cs2 _ _ _ _ E W1 W2) as (e & Rm & We).
    destruct (memo_read_back (map emb cs) l k (Z.of_nat k + 1) R ltac:(lia)) as (m' & A1 & A2 & [A3|A3]); [lia|].
    assert (Kl' : (k < length l)%nat) by lia.
    destruct (nth_error l k) as [[X f x]|] eqn:Nl; [|apply nth_error_None in Nl; lia].
    destruct (nth_error_split l k Nl) as (l1 & l2 & El & Ll).
    assert (Fl : firstn k l = l1).
    { rewrite El, <- Ll, firstn_app, firstn_all, Nat.sub_diag, firstn_O. apply app_nil_r. }
    rewrite Fl in A1. destruct (A3 X f) as (x' & B1 & B2).
    destruct (asks_cut env snd memoR q l _ As l1 X f x l2 _ _ _ _ _ El A1 B1 B2) as ([b e0] & e' & Rq & Ee & We').
    cbn [snd] in Ee. subst e0.
    assert (Ns : read_step f = step /\ rname f = String.append "Read" (read_step f)).
    { split.
      - pose proof (replay_matches _ _ R) as M. unfold steps in Hk. rewrite <- names_recorded in Hk. clear -M Hk Nl.
        revert k Hk Nl. induction M as [|p [Y g y] ps l [Hs _] M IH]; intros [|k] Hk Nl; cbn in Hk, Nl; try discriminate; [|eauto].
        assert (G : forall (z : answer), Answer g y = z -> match z with Answer f _ => read_step f = fst p end) by (intros z <-; now symmetry).
        injection Hk as <-.
        exact (G _ (f_equal (fun o => match o with Some z => z | None => Answer RBool (false, None) end) Nl)).
      - pose proof (asks_names env snd q l _ As) as F. rewrite Forall_forall in F. exact (F _ (nth_error_In _ _ Nl)). }
    destruct Ns as [Ns Nr]. rewrite Nr, Ns in We'.
    exists (added (new_memo (Z.of_nat k + 1)) k (flat_map recorded (map emb cs))), e, m', b, e'. conj; auto.
    + unfold memo_Steps, added, new_memo. cbn [m_steps app]. now rewrite <- firstn_map, names_recorded.
    + assert (Nk : nth_error (step_names c) (k - length (flat_map step_names cs1)) = Some step).
      { unfold steps in Hk. rewrite E, flat_map_app in Hk. cbn [flat_map] in Hk. rewrite nth_error_app2, nth_error_app1 in Hk by lia. exact Hk. }
      clear -We Nk. destruct c; cbn [step_names MemoProof.ev wname] in *; try (right; exact We); left;
        (destruct (k - length (flat_map step_names cs1))%nat as [|j]; [injection Nk as <-; exact We|destruct j; discriminate]).
Qed.
End Both.
