(** Looking positions up in a file set. *)
From Coq Require Import Strings.String Sorted.
From Verif Require Import Base BaseLemmas GoType Utf8 Tokens Scan Parse PosSpec PosProof ParseProof BadDefs FileSet.
Local Open Scope list_scope.

(** ** Binary search *)

Lemma search_n_spec n (p : nat -> bool) : forall i j, (i <= j)%nat -> (j - i <= n)%nat ->
  (forall a b, (a <= b < j)%nat -> p a = true -> p b = true) ->
  (i <= search_n n p i j <= j)%nat /\
  (forall k, (i <= k < search_n n p i j)%nat -> p k = false) /\
  (forall k, (search_n n p i j <= k < j)%nat -> p k = true).
Proof.
  induction n as [|n IH]; intros i j L N M; cbn [search_n].
  - repeat split; intros; lia.
  - destruct (Nat.ltb_spec i j) as [L1|L1]; [|repeat split; intros; lia].
    remember (Nat.div2 (i + j)) as h eqn:Eh.
    assert (Hh : (i <= h < j)%nat). { pose proof (Nat.div2_odd (i + j)) as D. rewrite <- Eh in D. destruct (Nat.odd (i + j)); cbn [Nat.b2n] in D; lia. }
    destruct (p h) eqn:P.
    + destruct (IH i h ltac:(lia) ltac:(lia)) as (A & B & C); [intros a b Hab; apply M; lia|]. split; [lia|]. split; [exact B|].
      intros k Hk. destruct (Nat.lt_ge_cases k h) as [H|H]; [apply C; lia|]. apply (M h); [lia|exact P].
    + destruct (IH (S h) j ltac:(lia) ltac:(lia) M) as (A & B & C). split; [lia|]. split; [|exact C].
      intros k Hk. destruct (Nat.le_gt_cases k h) as [H|H]; [|apply B; lia]. destruct (p k) eqn:P2; [|reflexivity].
      rewrite (M k h) in P; [discriminate|lia|exact P2].
Qed.
Lemma search_spec n (p : nat -> bool) : (forall a b, (a <= b < n)%nat -> p a = true -> p b = true) ->
  (search n p <= n)%nat /\ (forall k, (k < search n p)%nat -> p k = false) /\ (forall k, (search n p <= k < n)%nat -> p k = true).
Proof.
  intros M. destruct (search_n_spec n p O n ltac:(lia) ltac:(lia) M) as (A & B & C). unfold search. split; [lia|]. split; [intros k Hk; apply B; lia|exact C].
Qed.

(** ** Lines *)

Definition ascending (l : list nat) : Prop := forall i j, (i < j < length l)%nat -> (nth i l O < nth j l O)%nat.

Lemma ascending_app l x : ascending l -> (forall y, In y l -> (y < x)%nat) -> ascending (l ++ [x]).
Proof.
  intros A B i j H. rewrite app_length in H. cbn in H. rewrite app_nth1 by lia. destruct (Nat.eq_dec j (length l)) as [->|N].
  - rewrite app_nth2, Nat.sub_diag by lia. cbn. apply B, nth_In. lia.
  - rewrite app_nth1 by lia. apply A. lia.
Qed.
Lemma ascending_last l : ascending l -> forall y, In y l -> (y <= last l O)%nat.
Proof.
  intros A y Y. destruct (In_nth l y O Y) as (k & K & <-). destruct l as [|x l] using rev_ind; [destruct Y|].
  rewrite last_last. rewrite app_length in K. cbn in K. destruct (Nat.eq_dec k (length l)) as [->|N].
  - rewrite app_nth2, Nat.sub_diag by lia. cbn. lia.
  - specialize (A k (length l)). rewrite app_length in A. cbn in A. rewrite (app_nth2 _ _ _ (le_n (length l))), Nat.sub_diag in A. cbn in A. specialize (A ltac:(lia)). lia.
Qed.

(** The search through the lines finds what walking back through them does. *)
Lemma position_search l (off : nat) :
  let i := search (length l) (fun h => Z.of_nat off <? Z.of_nat (nth h l O)) in
  ascending l -> hd_error l = Some O ->
  exists k, i = S k /\ position (rev l) off = (i, S (off - nth k l O)) /\ (nth k l O <= off)%nat.
Proof.
  intros i A H0. assert (M : forall a b, (a <= b < length l)%nat -> (Z.of_nat off <? Z.of_nat (nth a l O)) = true -> (Z.of_nat off <? Z.of_nat (nth b l O)) = true).
  { intros a b L. rewrite !Z.ltb_lt. destruct (Nat.eq_dec a b) as [->|N]; [auto|]. specialize (A a b ltac:(lia)). lia. }
  destruct (search_spec (length l) _ M) as (S1 & S2 & S3). fold i in S1, S2, S3.
  destruct l as [|l0 l']; [discriminate|]. injection H0 as ->. set (l := O :: l') in *.
  destruct i as [|k] eqn:Ei; [specialize (S3 O ltac:(cbn; lia)); apply Z.ltb_lt in S3; cbn in S3; lia|].
  exists k. split; [reflexivity|]. pose proof (S2 k ltac:(lia)) as S2k. apply Z.ltb_ge in S2k. split; [|lia].
  clear Ei i M A. assert (G : forall m, (S k <= m <= length l)%nat -> position (rev (firstn m l)) off = (S k, S (off - nth k l O))); [|specialize (G (length l) ltac:(lia)); rewrite firstn_all in G; exact G].
  induction m as [|m IH]; intros Hm; [lia|].
  assert (F : firstn (S m) l = firstn m l ++ [nth m l O]).
  { assert (Hl : (m < length l)%nat) by lia. clear - Hl. revert m Hl. generalize l. clear. induction l as [|x l IH]; intros m H; cbn in H; [lia|]. destruct m as [|m]; [reflexivity|]. rewrite (firstn_cons (S m)), (IH m) by lia. reflexivity. }
  rewrite F, rev_unit. cbn [position]. rewrite rev_length, firstn_length, Nat.min_l by lia.
  destruct (Nat.leb_spec (nth m l O) off) as [L|L].
  - destruct (Nat.eq_dec m k) as [->|N]; [reflexivity|]. specialize (S3 m ltac:(lia)). apply Z.ltb_lt in S3. lia.
  - apply IH. destruct (Nat.eq_dec m k) as [->|N]; lia.
Qed.

(** ** Histories *)

Definition lines_ok (f : tfile) : Prop := ascending (tf_lines f) /\ hd_error (tf_lines f) = Some O.

Record wf (fs : fileset) : Prop := mkWf {
  w_base : 1 <= fs_base fs < 2 ^ 63;
  w_file : forall i f, nth_error (fs_files fs) i = Some f ->
    1 <= tf_base f /\ 0 <= tf_size f /\ tf_base f + tf_size f < fs_base fs /\ lines_ok f;
  w_apart : forall i j f g, (i < j)%nat -> nth_error (fs_files fs) i = Some f -> nth_error (fs_files fs) j = Some g ->
    tf_base f + tf_size f < tf_base g }.

(** The arguments of AddFile are ints. *)
Definition ints (e : fs_event) : Prop :=
  match e with EAdd _ base size => is_i64 base /\ is_i64 size | _ => True end.

Lemma wf_new : wf new_fileset.
Proof. split; cbn; [lia| |]; intros; destruct i; discriminate. Qed.

Lemma nth_app_last {A} (l : list A) x i y : nth_error (l ++ [x]) i = Some y ->
  nth_error l i = Some y \/ i = length l /\ y = x.
Proof.
  intros H. destruct (Nat.lt_ge_cases i (length l)) as [L|L]; [left; now rewrite nth_error_app1 in H|right].
  rewrite nth_error_app2 in H by lia. destruct (i - length l)%nat as [|k] eqn:E; [injection H as <-; split; [lia|reflexivity]|destruct k; discriminate].
Qed.

Lemma wf_add name base size fs fs' : is_i64 base -> is_i64 size -> wf fs -> add_file name base size fs = Some fs' -> wf fs'.
Proof.
  intros Hb Hs [W1 W2 W3]. unfold add_file. set (b := if base <? 0 then fs_base fs else base).
  assert (B : b < 2 ^ 63) by (unfold b, is_i64 in *; destruct (base <? 0); lia).
  destruct (Z.ltb_spec b (fs_base fs)); [discriminate|]. destruct (Z.ltb_spec size 0); [discriminate|].
  destruct (Z.ltb_spec (i64 (b + size + 1)) 0) as [N|N]; [discriminate|]. injection 1 as <-.
  assert (E : i64 (b + size + 1) = b + size + 1).
  { unfold i64, is_i64 in *. remember (b + size + 1 + 2 ^ 63) as z. destruct (Z.lt_ge_cases z (2 ^ 64)) as [L|L].
    - rewrite Z.mod_small by lia. lia.
    - exfalso. replace z with ((z - 2 ^ 64) + 1 * 2 ^ 64) in N by lia. rewrite Z.mod_add, Z.mod_small in N by lia. lia. }
  rewrite E in *. split; cbn [fs_base fs_files].
  - unfold is_i64, i64 in *. pose proof (Z.mod_pos_bound (b + size + 1 + 2 ^ 63) (2 ^ 64) ltac:(lia)). lia.
  - intros i f Hf. apply nth_app_last in Hf. destruct Hf as [Hf|(-> & ->)].
    + destruct (W2 i f Hf) as (A1 & A2 & A3 & A4). split; [exact A1|]. split; [exact A2|]. split; [lia|exact A4].
    + cbn [tf_base tf_size]. split; [lia|]. split; [lia|]. split; [lia|]. split; [|reflexivity]. intros i j L. cbn in L. lia.
  - intros i j f g L Hf Hg. apply nth_app_last in Hf, Hg. destruct Hf as [Hf|(-> & ->)], Hg as [Hg|(-> & ->)].
    + now apply (W3 i j).
    + cbn [tf_base]. destruct (W2 i f Hf). lia.
    + assert (j < length (fs_files fs))%nat by (apply nth_error_Some; congruence). lia.
    + lia.
Qed.

Lemma nth_upd i g l k : nth_error (upd_file i g l) k = if (k =? i)%nat then option_map g (nth_error l k) else nth_error l k.
Proof.
  revert i k. induction l as [|f l IH]; intros i k; cbn [upd_file].
  - assert (E : nth_error (@nil tfile) k = None) by now destruct k. replace (upd_file i g []) with (@nil tfile) by now destruct i. rewrite E. now destruct (k =? i)%nat.
  - destruct i as [|i], k as [|k]; cbn [nth_error Nat.eqb]; try reflexivity. apply IH.
Qed.
Lemma length_upd i g l : length (upd_file i g l) = length l.
Proof. revert i. induction l as [|f l IH]; intros i; [now destruct i|]. destruct i; cbn; [reflexivity|now rewrite IH]. Qed.

Lemma add_line_keeps o f : tf_name (file_add_line o f) = tf_name f /\ tf_base (file_add_line o f) = tf_base f /\ tf_size (file_add_line o f) = tf_size f.
Proof. unfold file_add_line. now destruct (_ && _). Qed.
Lemma add_line_ok o f : lines_ok f -> lines_ok (file_add_line o f).
Proof.
  intros (A & B). unfold file_add_line. destruct (Nat.ltb_spec (last (tf_lines f) O) o) as [L|L]; cbn [andb]; [|split; assumption].
  destruct (_ <? _); [|split; assumption]. split; cbn [tf_lines].
  - apply ascending_app; [exact A|]. intros y Y. pose proof (ascending_last _ A y Y). lia.
  - destruct (tf_lines f); [discriminate|exact B].
Qed.

Lemma wf_line i o fs : wf fs -> wf (mkFileSet (fs_base fs) (upd_file i (file_add_line o) (fs_files fs)) (fs_last fs)).
Proof.
  intros [W1 W2 W3].
  assert (G : forall k f, nth_error (upd_file i (file_add_line o) (fs_files fs)) k = Some f ->
    exists f0, nth_error (fs_files fs) k = Some f0 /\ tf_base f = tf_base f0 /\ tf_size f = tf_size f0 /\ (lines_ok f0 -> lines_ok f)).
  { intros k f. rewrite nth_upd. destruct (k =? i)%nat; [|intros H; exists f; auto].
    destruct (nth_error _ k) as [f0|]; [|discriminate]. cbn. injection 1 as <-. exists f0. destruct (add_line_keeps o f0) as (_ & -> & ->). repeat split; auto; apply add_line_ok; assumption. }
  split; cbn [fs_base fs_files]; [exact W1| |].
  - intros k f H. destruct (G k f H) as (f0 & H0 & -> & -> & L). destruct (W2 k f0 H0) as (A1 & A2 & A3 & A4). auto.
  - intros k j f g L Hf Hg. destruct (G k f Hf) as (f0 & Hf0 & -> & -> & _). destruct (G j g Hg) as (g0 & Hg0 & -> & _). now apply (W3 k j).
Qed.

(** ** Lookup *)

Lemma find_same p fs : fs_base (snd (find_file p fs)) = fs_base fs /\ fs_files (snd (find_file p fs)) = fs_files fs.
Proof.
  unfold find_file. destruct (fs_last fs) as [k|]; [destruct (nth_error (fs_files fs) k) as [f|]; [destruct (holds p f); [split; reflexivity|]|]|];
    (destruct (search _ _) as [|m]; [split; reflexivity|]; destruct (nth_error (fs_files fs) m) as [f'|]; [|split; reflexivity]; destruct (_ <=? _); split; reflexivity).
Qed.
Lemma look_same p fs : fs_base (snd (fs_position p fs)) = fs_base fs /\ fs_files (snd (fs_position p fs)) = fs_files fs.
Proof. unfold fs_position. destruct (p =? 0); [split; reflexivity|]. pose proof (find_same p fs) as H. destruct (find_file p fs). exact H. Qed.

Lemma holds_spec p f : holds p f = true <-> tf_base f <= p <= tf_base f + tf_size f.
Proof. unfold holds. rewrite andb_true_iff, !Z.leb_le. reflexivity. Qed.

Lemma wf_one fs i j f g p : wf fs -> nth_error (fs_files fs) i = Some f -> nth_error (fs_files fs) j = Some g ->
  holds p f = true -> holds p g = true -> i = j.
Proof.
  intros W Hf Hg H1 H2. apply holds_spec in H1, H2. destruct (Nat.lt_total i j) as [L|[L|L]]; [|exact L|].
  - pose proof (w_apart _ W i j f g L Hf Hg). lia.
  - pose proof (w_apart _ W j i g f L Hg Hf). lia.
Qed.

Lemma find_spec p fs : wf fs ->
  match fst (find_file p fs) with
  | Some f => exists i, nth_error (fs_files fs) i = Some f /\ holds p f = true
  | None => forall i f, nth_error (fs_files fs) i = Some f -> holds p f = false
  end.
Proof.
  intros W. unfold find_file. set (P := fun h => match nth_error (fs_files fs) h with Some f => p <? tf_base f | None => true end).
  set (slow := match search _ P with O => _ | S k => _ end).
  assert (G : match fst slow with
    | Some f => exists i, nth_error (fs_files fs) i = Some f /\ holds p f = true
    | None => forall i f, nth_error (fs_files fs) i = Some f -> holds p f = false
    end).
  { assert (M : forall a b, (a <= b < length (fs_files fs))%nat -> P a = true -> P b = true).
    { intros a b L. unfold P. destruct (nth_error (fs_files fs) b) as [g|] eqn:Hg; [|reflexivity].
      destruct (nth_error (fs_files fs) a) as [f|] eqn:Hf; [|apply nth_error_None in Hf; lia].
      destruct (Nat.eq_dec a b) as [->|N]; [congruence|]. pose proof (w_apart _ W a b f g ltac:(lia) Hf Hg). pose proof (w_file _ W a f Hf) as (_ & S0 & _). rewrite !Z.ltb_lt. lia. }
    destruct (search_spec _ P M) as (S1 & S2 & S3). unfold slow. destruct (search _ P) as [|k].
    - cbn [fst]. intros i f Hf. assert (i < length (fs_files fs))%nat by (apply nth_error_Some; congruence). specialize (S3 i ltac:(lia)). unfold P in S3. rewrite Hf in S3.
      apply Z.ltb_lt in S3. unfold holds. apply andb_false_intro1. apply Z.leb_gt. lia.
    - specialize (S2 k ltac:(lia)) as S2k. unfold P in S2k. destruct (nth_error (fs_files fs) k) as [f|] eqn:Hf; [|discriminate]. apply Z.ltb_ge in S2k.
      destruct (Z.leb_spec p (tf_base f + tf_size f)) as [L|L]; cbn [fst].
      + exists k. split; [exact Hf|]. apply holds_spec. lia.
      + intros i g Hg. destruct (holds p g) eqn:Hp; [|reflexivity]. exfalso. apply holds_spec in Hp.
        destruct (Nat.lt_total i k) as [Lt|[->|Lt]].
        * pose proof (w_apart _ W i k g f Lt Hg Hf). pose proof (w_file _ W k f Hf). lia.
        * rewrite Hf in Hg. injection Hg as <-. lia.
        * assert (i < length (fs_files fs))%nat by (apply nth_error_Some; congruence). specialize (S3 i ltac:(lia)). unfold P in S3. rewrite Hg in S3. apply Z.ltb_lt in S3. lia. }
  destruct (fs_last fs) as [k|]; [|exact G]. destruct (nth_error (fs_files fs) k) as [f|] eqn:Hf; [|exact G].
  destruct (holds p f) eqn:Hp; [|exact G]. cbn [fst]. exists k. auto.
Qed.

(** A position is looked up in the one file that has it. *)
Lemma position_in p fs i f : wf fs -> nth_error (fs_files fs) i = Some f -> tf_base f <= p <= tf_base f + tf_size f ->
  fst (fs_position p fs) = file_position f p.
Proof.
  intros W Hf Hp. apply holds_spec in Hp as Hh. pose proof (w_file _ W i f Hf) as (B & _). unfold fs_position. destruct (Z.eqb_spec p 0) as [->|_]; [lia|].
  pose proof (find_spec p fs W) as F. destruct (find_file p fs) as [[g|] fs']; cbn [fst] in *.
  - destruct F as (j & Hg & Hh2). pose proof (wf_one fs i j f g p W Hf Hg Hh Hh2) as ->. congruence.
  - rewrite (F i f Hf) in Hh. discriminate.
Qed.
Lemma position_out p fs : wf fs -> (forall i f, nth_error (fs_files fs) i = Some f -> ~ tf_base f <= p <= tf_base f + tf_size f) ->
  fst (fs_position p fs) = zero_position.
Proof.
  intros W N. unfold fs_position. destruct (p =? 0); [reflexivity|]. pose proof (find_spec p fs W) as F. destruct (find_file p fs) as [[g|] fs']; cbn [fst] in *; [|reflexivity].
  destruct F as (j & Hg & Hh). apply holds_spec in Hh. now apply N in Hg.
Qed.

Lemma wf_step e fs fs' : ints e -> wf fs -> fs_step e fs = Some fs' -> wf fs'.
Proof.
  intros I W. destruct e as [name base size|i o|p]; cbn [fs_step ints] in *.
  - now apply wf_add.
  - injection 1 as <-. now apply wf_line.
  - injection 1 as <-. destruct (look_same p fs) as (E1 & E2). destruct W. split; rewrite ?E1, ?E2; auto.
Qed.
Lemma wf_run h : forall fs fs', Forall ints h -> wf fs -> fs_run h fs = Some fs' -> wf fs'.
Proof.
  induction h as [|e h IH]; intros fs fs' I W; cbn [fs_run]; [now injection 1 as <-|]. inversion_clear I as [|? ? I1 I2].
  destruct (fs_step e fs) as [fs1|] eqn:E; [|discriminate]. apply IH; [exact I2|]. now apply (wf_step e fs).
Qed.

(** ** What becomes of a file *)

(** The calls of AddLine on a file. *)
Fixpoint calls (i : nat) (h : list fs_event) : list nat :=
  match h with
  | [] => []
  | ELine k o :: h => if (k =? i)%nat then o :: calls i h else calls i h
  | _ :: h => calls i h
  end.
Definition table (f : tfile) (os : list nat) : tfile := fold_left (fun f o => file_add_line o f) os f.

Lemma table_keeps os : forall f, tf_name (table f os) = tf_name f /\ tf_base (table f os) = tf_base f /\ tf_size (table f os) = tf_size f.
Proof.
  induction os as [|o os IH]; intros f; [repeat split|]. cbn [table fold_left]. fold (table (file_add_line o f) os).
  destruct (IH (file_add_line o f)) as (-> & -> & ->). apply add_line_keeps.
Qed.

Lemma follow h : forall fs fs' i f, fs_run h fs = Some fs' -> nth_error (fs_files fs) i = Some f ->
  nth_error (fs_files fs') i = Some (table f (calls i h)).
Proof.
  induction h as [|e h IH]; intros fs fs' i f; cbn [fs_run]; [now injection 1 as <-|].
  destruct (fs_step e fs) as [fs1|] eqn:E; [|discriminate]. intros R Hf. destruct e as [name base size|k o|p]; cbn [fs_step calls] in *.
  - apply (IH fs1 fs' i f R). unfold add_file in E. destruct (_ <? fs_base fs); [discriminate|]. destruct (size <? 0); [discriminate|]. destruct (_ <? 0); [discriminate|].
    injection E as <-. cbn [fs_files]. rewrite nth_error_app1; [exact Hf|]. apply nth_error_Some. congruence.
  - injection E as <-. pose proof (fun f => IH _ fs' i f R) as IH1. cbn [fs_files] in IH1. rewrite nth_upd, Nat.eqb_sym, Hf in IH1. destruct (k =? i)%nat; exact (IH1 _ eq_refl).
  - injection E as <-. apply (IH _ fs' i f R). destruct (look_same p fs) as (_ & ->). exact Hf.
Qed.

Lemma added name size fs fs' : add_file name (-1) size fs = Some fs' ->
  nth_error (fs_files fs') (length (fs_files fs)) = Some (mkTFile name (fs_base fs) size [O]).
Proof.
  unfold add_file. cbn [Z.ltb Z.compare]. destruct (_ <? fs_base fs); [discriminate|]. destruct (size <? 0); [discriminate|]. destruct (_ <? 0); [discriminate|].
  injection 1 as <-. cbn [fs_files]. rewrite nth_error_app2, Nat.sub_diag by lia. reflexivity.
Qed.

Lemma run_app h1 h2 fs : fs_run (h1 ++ h2) fs = match fs_run h1 fs with Some fs1 => fs_run h2 fs1 | None => None end.
Proof. revert fs. induction h1 as [|e h1 IH]; intros fs; [reflexivity|]. cbn [app fs_run]. destruct (fs_step e fs); [apply IH|reflexivity]. Qed.

(** ** The lines of a parse *)

Lemma run_end u src f s : p_run u src = Ret f s -> s_off s = length src.
Proof.
  unfold p_run, pbind. destruct (next_total u src _ (init_ready src)) as (s1 & E1 & N). rewrite (ns_run _ _ _ _ _ N). pose proof (ns_inv _ _ _ _ _ N) as I1.
  destruct (good_file u src s1 I1) as (H & HK). destruct (p_file u src s1) as [f2 s2|s2|]; try discriminate. injection 1 as -> ->.
  destruct H as (I2 & _). specialize (HK f s eq_refl). apply I2. exact HK.
Qed.
Lemma parse_lines_starts u src l : parse_lines u src = Some l -> l = rev (starts src (length src)).
Proof.
  unfold parse_lines. pose proof (run_inv src u) as I. destruct (p_run u src) as [f s|s|] eqn:E; [|discriminate|discriminate].
  injection 1 as <-. now rewrite (i_lines _ _ I), (run_end u src f s E).
Qed.

(** The place of every offset of a file that has been parsed. *)
Lemma file_place u src f off : parse_lines u src = Some (tf_lines f) -> lines_ok f -> (off <= length src)%nat ->
  exists line col, file_position f (tf_base f + Z.of_nat off) = mkPosition (tf_name f) (Z.of_nat off) (Z.of_nat line) (Z.of_nat col) /\ place src off line col.
Proof.
  intros P (A & B) L. apply parse_lines_starts in P. destruct (position_search (tf_lines f) off A B) as (k & E & Q & K).
  pose proof (position_place src (length src) off L) as Pl. rewrite P in Q at 1. rewrite rev_involutive in Q. rewrite Q in Pl. cbn [fst snd] in Pl.
  eexists _, _. split; [|exact Pl]. unfold file_position. replace (tf_base f + Z.of_nat off - tf_base f) with (Z.of_nat off) by lia.
  rewrite E. f_equal. lia.
Qed.

(** The calls of AddLine that a parse makes give its lines. *)
Lemma table_all f r : ascending (tf_lines f ++ r) -> tf_lines f <> [] -> Forall (fun o => Z.of_nat o < tf_size f) r -> tf_lines (table f r) = tf_lines f ++ r.
Proof.
  revert f. induction r as [|o r IH]; intros f A N S; [now rewrite app_nil_r|]. inversion_clear S as [|? ? S1 S2].
  cbn [table fold_left]. fold (table (file_add_line o f) r).
  assert (E : file_add_line o f = mkTFile (tf_name f) (tf_base f) (tf_size f) (tf_lines f ++ [o])).
  { unfold file_add_line. destruct (Nat.ltb_spec (last (tf_lines f) O) o) as [L|L]; cbn [andb].
    - now apply Z.ltb_lt in S1 as ->.
    - exfalso. destruct (tf_lines f) as [|x l] using rev_ind; [congruence|]. rewrite last_last in L.
      specialize (A (length l) (S (length l))). rewrite !app_length in A. specialize (A ltac:(cbn; lia)). rewrite <- app_assoc in A.
      rewrite (app_nth2 l _ O (le_n (length l))), (app_nth2 l _ O (le_S _ _ (le_n (length l)))), Nat.sub_diag in A.
      replace (S (length l) - length l)%nat with 1%nat in A by lia. cbn in A. lia. }
  rewrite E. specialize (IH (mkTFile (tf_name f) (tf_base f) (tf_size f) (tf_lines f ++ [o]))). cbn [tf_lines tf_size] in IH.
  rewrite <- app_assoc in IH. apply IH; auto. intros H. now apply app_eq_nil in H.
Qed.
Lemma starts_ascending src n : ascending (rev (starts src n)).
Proof.
  induction n as [|n IH]; cbn [starts]; [intros i j L; cbn in L; lia|]. destruct (_ && _); [|exact IH]. cbn [rev].
  apply ascending_app; [exact IH|]. intros y Y. apply in_rev in Y. apply starts_le in Y. lia.
Qed.
Lemma starts_first src n : exists r, rev (starts src n) = O :: r.
Proof. induction n as [|n (r & IH)]; cbn [starts]; [now exists []|]. destruct (_ && _); cbn [rev]; rewrite IH; eexists; reflexivity. Qed.
Lemma starts_lt src n i : In i (starts src n) -> i = O \/ (i < length src)%nat.
Proof. intros H. apply starts_in in H. destruct H as ([H|(k & _ & _ & H)] & _); auto. Qed.

Lemma parse_table u src l name base : parse_lines u src = Some l ->
  tf_lines (table (mkTFile name base (Z.of_nat (length src)) [O]) (tl l)) = l.
Proof.
  intros P. apply parse_lines_starts in P. destruct (starts_first src (length src)) as (r & E). rewrite <- P in E. pose proof (starts_ascending src (length src)) as A. rewrite <- P in A.
  rewrite E in *. cbn [tl]. rewrite table_all; cbn [tf_lines tf_size app]; [reflexivity|exact A|discriminate|].
  apply Forall_forall. intros o Ho. assert (I : In o (starts src (length src))) by (apply in_rev; rewrite <- P; now right).
  destruct (starts_lt _ _ _ I) as [->|L]; [|lia]. exfalso. destruct (In_nth r O O Ho) as (k & K & Ek). specialize (A O (S k)). cbn [length nth] in A. specialize (A ltac:(lia)). lia.
Qed.
