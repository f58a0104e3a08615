(** Readers that share a *bufio.Reader on an arbitrary io.Reader. *)
From Verif Require Import Base BaseLemmas Prog Bufio BufioProof Wire Binary Compact Objects Shared.

(** ** One *bufio.Reader on an arbitrary io.Reader is that of Bufio.v *)
Section Plain.
Context (i : nat) (w0 : rworld).

(** Only the io.Reader [i] was touched. *)
Definition kept (w : rworld) : Prop :=
  (forall j, j <> i -> rw_src w j = rw_src w0 j) /\ rw_buf w = rw_buf w0 /\ rw_next w = rw_next w0.
Definition same_buf (g : gbuf rworld) (b : breader) : Prop :=
  g_buf g = bbuf b /\ g_err g = berr b /\ rw_src (g_w g) i = bsrc b /\ kept (g_w g).
Definition sim {X} (o : outcome (gbuf rworld) X) (o' : outcome breader X) : Prop :=
  match o, o' with
  | Done g x, Done b y => x = y /\ same_buf g b
  | Crashed c, Crashed c' => c = c'
  | _, _ => False
  end.

Lemma upd_same {A} (f : nat -> A) k a : upd f k a k = a.
Proof. unfold upd. now rewrite Nat.eqb_refl. Qed.
Lemma upd_other {A} (f : nat -> A) k a j : j <> k -> upd f k a j = f j.
Proof. unfold upd. intros H. now destruct (Nat.eqb_spec j k). Qed.

Lemma kept_put w s : kept w -> kept (put_src i s w).
Proof. intros (A & B & C). unfold kept, put_src; cbn. conj; auto. intros j Hj. now rewrite upd_other, A. Qed.

Lemma sim_bind {X Y} (o : outcome (gbuf rworld) X) (o' : outcome breader X) f f' :
  sim o o' -> (forall g b x, same_buf g b -> sim (f g x) (f' b x)) -> sim (X := Y) (obind o f) (obind o' f').
Proof. destruct o as [g x|c], o' as [b y|c']; cbn; try contradiction; [|congruence]. intros [<- H] Hf. now apply Hf. Qed.

Context (d : nat).
Notation rd := (io_read d (RPlain i)).

Lemma io_read_plain n w : rd n w = obind (src_read n (rw_src w i)) (fun s x => Done (put_src i s w) x).
Proof. now destruct d. Qed.

Lemma sim_done {X} g b (x : X) : same_buf g b -> sim (Done g x) (Done b x).
Proof. cbn. auto. Qed.
Lemma same_clear g b : same_buf g b -> same_buf (g_clear g) (clear_err b).
Proof. intros (A & B & C & D). unfold same_buf, g_clear, clear_err; cbn. auto. Qed.
Lemma same_set g b l e : same_buf g b -> same_buf (mkG l e (g_w g)) (mkB l e (bsrc b)).
Proof. intros (A & B & C & D). unfold same_buf; cbn. auto. Qed.
Lemma same_src g b l e s : same_buf g b -> same_buf (mkG l e (put_src i s (g_w g))) (mkB l e s).
Proof. intros (A & B & C & D). unfold same_buf; cbn. conj; auto; [apply upd_same|now apply kept_put]. Qed.

Lemma sim_fill_loop size k : forall g b, same_buf g b -> sim (g_fill_loop rd size k g) (fill_loop size k b).
Proof.
  induction k as [|k IH]; intros g b H; cbn [g_fill_loop fill_loop]; pose proof H as (A & B & C & D).
  - apply sim_done. rewrite A. now apply same_set.
  - rewrite io_read_plain, A, B, C. destruct (src_read _ (bsrc b)) as [s [c eo]|c]; cbn [obind]; [|reflexivity].
    destruct eo as [e|]; [apply sim_done; eapply same_src; eassumption|]. destruct c; [apply IH|apply sim_done]; (eapply same_src; eassumption).
Qed.
Lemma sim_fill size g b : same_buf g b -> sim (g_fill rd size g) (fill size b).
Proof.
  intros H. unfold g_fill, fill. pose proof H as (A & _). rewrite A. destruct (_ <=? _); [reflexivity|]. now apply sim_fill_loop.
Qed.
Lemma sim_peek_fill size n f : forall g b, same_buf g b -> sim (g_peek_fill rd size f n g) (peek_fill size f n b).
Proof.
  induction f as [|f IH]; intros g b H; cbn [g_peek_fill peek_fill]; pose proof H as (A & B & C & D); rewrite A, B;
    (destruct (_ && _); [|now apply sim_done]); [reflexivity|].
  apply sim_bind; [now apply sim_fill|]. intros. now apply IH.
Qed.
Lemma sim_peek size n g b : same_buf g b -> sim (g_peek rd size n g) (peek size n b).
Proof.
  intros H. unfold g_peek, peek. destruct (n <? 0); [now apply sim_done|]. apply sim_bind; [now apply sim_peek_fill|].
  clear g b H. intros g b _ H. pose proof H as (A & B & _). rewrite A, B. destruct (_ <? _); [now apply sim_done|].
  destruct (_ <? _); apply sim_done; auto using same_clear.
Qed.
Lemma sim_discard_loop size n f : forall r g b, same_buf g b -> sim (g_discard_loop rd size f n r g) (discard_loop size f n r b).
Proof.
  induction f as [|f IH]; intros r g b H; cbn [g_discard_loop discard_loop]; [reflexivity|]. pose proof H as (A & _). rewrite A.
  apply sim_bind; [destruct (_ =? _); [now apply sim_fill|now apply sim_done]|].
  clear g b H A. intros g b _ H. pose proof H as (A & B & _). rewrite A, B. cbn [g_err berr].
  destruct (_ =? _); [apply sim_done; now apply same_set|]. destruct (berr b).
  - apply sim_done. now apply same_clear, same_set.
  - apply IH. now apply same_set.
Qed.
Lemma sim_discard size n g b : same_buf g b -> sim (g_discard rd (io_bytes d (RPlain i)) size n g) (discard size n b).
Proof.
  intros H. unfold g_discard, discard. destruct (_ <? _); [now apply sim_done|]. destruct (_ =? _); [now apply sim_done|].
  pose proof H as (A & _ & C & _). replace (io_bytes d (RPlain i) (g_w g)) with (length (src_bytes (bsrc b))) by (destruct d; cbn; now rewrite C).
  rewrite A. now apply sim_discard_loop.
Qed.
Lemma sim_read_byte size f : forall g b, same_buf g b -> sim (g_read_byte_loop rd size f g) (read_byte_loop size f b).
Proof.
  induction f as [|f IH]; intros g b H; cbn [g_read_byte_loop read_byte_loop]; pose proof H as (A & B & _); rewrite A, B;
    (destruct (bbuf b) as [|c l]; [|apply sim_done; now apply same_set]); (destruct (berr b); [apply sim_done; now apply same_clear|]);
    [reflexivity|]. apply sim_bind; [now apply sim_fill|]. intros. now apply IH.
Qed.
Lemma sim_read size n g b : same_buf g b -> sim (g_read rd size n g) (bread size n b).
Proof.
  intros H. unfold g_read, bread. pose proof H as (A & B & C & _). rewrite A, B.
  destruct (bbuf b) as [|x l]; [|apply sim_done; now apply same_set]. destruct (berr b); [apply sim_done; now apply same_clear|].
  destruct (_ <=? _); rewrite io_read_plain, C.
  - destruct (src_read n (bsrc b)) as [s [c eo]|c]; cbn [obind]; [|reflexivity]. apply sim_done. eapply same_src; eassumption.
  - destruct (src_read size (bsrc b)) as [s [c eo]|c]; cbn [obind]; [|reflexivity]. destruct c; apply sim_done; eapply same_src; eassumption.
Qed.
Lemma sim_read_full_loop size n f : forall acc g b, same_buf g b -> sim (g_read_full_loop rd size f n acc g) (read_full_loop size f n acc b).
Proof.
  induction f as [|f IH]; intros acc g b H; cbn [g_read_full_loop read_full_loop]; (destruct (_ <=? _); [now apply sim_done|]); [reflexivity|].
  apply sim_bind; [now apply sim_read|]. intros g1 b1 [c eo] H1. cbn [fst snd]. destruct eo; [now apply sim_done|now apply IH].
Qed.
Lemma sim_h size X (e : bufR X) g b : same_buf g b ->
  sim (g_h rd (io_bytes d (RPlain i)) (io_steps d (RPlain i)) size X e g) (bufio_h size X e b).
Proof.
  intros H. destruct e; cbn [g_h bufio_h].
  - now apply sim_peek.
  - now apply sim_discard.
  - now apply sim_read_byte.
  - unfold read_full. pose proof H as (A & _ & C & _).
    replace (io_bytes d (RPlain i) (g_w g)) with (length (src_bytes (bsrc b))) by (destruct d; cbn; now rewrite C).
    replace (io_steps d (RPlain i) (g_w g)) with (length (script (bsrc b))) by (destruct d; cbn; now rewrite C).
    rewrite A. now apply sim_read_full_loop.
  - now apply sim_done.
Qed.
End Plain.

(** ** In the world *)
Section World.
Context (w0 : rworld) (k i : nat) (size : Z).

(** In the world [w] the *bufio.Reader [k], on the io.Reader [i], is [b]; everything else is as in [w0]. *)
Definition holds (w : rworld) (b : breader) : Prop :=
  rw_buf w k = mkBO size (bbuf b) (berr b) (RPlain i) /\ rw_src w i = bsrc b /\
  (forall j, j <> i -> rw_src w j = rw_src w0 j) /\ (forall j, j <> k -> rw_buf w j = rw_buf w0 j) /\ rw_next w = rw_next w0.

Definition simw {S S' X} (R : S -> S' -> Prop) (o : outcome S X) (o' : outcome S' X) : Prop :=
  match o, o' with
  | Done s x, Done s' y => x = y /\ R s s'
  | Crashed c, Crashed c' => c = c'
  | _, _ => False
  end.

Lemma holds_step d X (e : bufR X) w b : holds w b -> simw holds (buf_h d k X e w) (bufio_h size X e b).
Proof.
  intros (A & B & C & D & E). unfold buf_h. rewrite A. cbn [bo_size bo_buf bo_err bo_rd].
  pose proof (sim_h i w d size X e (mkG (bbuf b) (berr b) w) b) as H.
  assert (S : same_buf i w (mkG (bbuf b) (berr b) w) b) by (unfold same_buf, kept; cbn; conj; auto). specialize (H S). unfold sim in H.
  destruct (g_h _ _ _ size X e _) as [g x|c], (bufio_h size X e b) as [b' y|c']; try contradiction; [|exact H].
  destruct H as (<- & F1 & F2 & F3 & F4 & F5 & F6). cbn [obind simw]. split; [reflexivity|]. unfold holds, put_buf; cbn. conj.
  - rewrite upd_same. congruence.
  - exact F3.
  - intros j Hj. rewrite F4; auto.
  - intros j Hj. rewrite upd_other, F5; auto.
  - congruence.
Qed.

Lemma holds_run d {A} (p : prog bufR A) : forall w b, holds w b -> simw holds (run (buf_h d k) p w) (run (bufio_h size) p b).
Proof.
  induction p as [a|X e f IH|c]; intros w b H; cbn [run]; [now split| |reflexivity].
  pose proof (holds_step d X e w b H) as G. unfold simw in G.
  destruct (buf_h d k X e w) as [w' x|c], (bufio_h size X e b) as [b' y|c']; try contradiction; [|exact G].
  destruct G as [<- G]. now apply IH.
Qed.

(** A Reader on [k] is the layer of its protocol over Bufio.v. *)
Lemma bin_step d strict X (e : wireR X) w b : holds w b ->
  simw (fun xw (sb : unit * breader) => fst xw = mkRd (SBin strict) k /\ holds (snd xw) (snd sb))
    (reader_h d X e (mkRd (SBin strict) k, w)) (over (bin_reader strict) (bufio_h size) X e (tt, b)).
Proof.
  intros H. unfold reader_h, over, bin_reader. cbn [rd_st rd_buf fst snd]. rewrite run_bind.
  pose proof (holds_run d (bin_read strict e) w b H) as G. unfold simw in G.
  destruct (run (buf_h d k) (bin_read strict e) w) as [w' x|c], (run (bufio_h size) (bin_read strict e) b) as [b' y|c']; try contradiction.
  - destruct G as [<- G]. cbn. auto.
  - cbn. exact G.
Qed.
Lemma cmp_step d st X (e : wireR X) w b : holds w b ->
  simw (fun xw (sb : creader * breader) => fst xw = mkRd (SCmp (fst sb)) k /\ holds (snd xw) (snd sb))
    (reader_h d X e (mkRd (SCmp st) k, w)) (over cmp_reader (bufio_h size) X e (st, b)).
Proof.
  intros H. unfold reader_h, over. cbn [rd_st rd_buf fst snd].
  pose proof (holds_run d (cmp_reader X e st) w b H) as G. unfold simw in G.
  destruct (run (buf_h d k) (cmp_reader X e st) w) as [w' [s x]|c], (run (bufio_h size) (cmp_reader X e st) b) as [b' [s' y]|c']; try contradiction.
  - destruct G as [E G]. injection E as <- <-. cbn. auto.
  - cbn. exact G.
Qed.

(** Where the [j]-th Reader is one of these, what is done with it is done over Bufio.v. *)
Definition place_at {A} (j : nat) (x : A) (l : list A) : list A := firstn j l ++ x :: skipn (S j) l.
Lemma place_nth {A} j : forall (x : A) l, (j < length l)%nat -> nth_error (place_at j x l) j = Some x.
Proof. unfold place_at. intros x l H. rewrite nth_error_app2; rewrite firstn_length_le by lia; [|lia]. now rewrite Nat.sub_diag. Qed.
Lemma place_place {A} j (x y : A) l : (j < length l)%nat -> place_at j y (place_at j x l) = place_at j y l.
Proof.
  intros H. unfold place_at. f_equal; [|f_equal].
  - rewrite firstn_app, firstn_firstn, firstn_length_le, Nat.sub_diag, Nat.min_id by lia. cbn. now rewrite app_nil_r.
  - rewrite skipn_app, firstn_length_le by lia. replace (S j - j)%nat with 1%nat by lia. rewrite skipn_all2 by (rewrite firstn_length_le; lia). reflexivity.
Qed.
Lemma place_self {A} j (x : A) l : nth_error l j = Some x -> place_at j x l = l.
Proof.
  unfold place_at. revert l. induction j as [|j IH]; intros [|y l] H; try discriminate; cbn in *; [congruence|]. f_equal. now apply IH.
Qed.
Lemma place_length {A} j (x : A) l : (j < length l)%nat -> length (place_at j x l) = length l.
Proof. intros H. unfold place_at. rewrite app_length. cbn [length]. rewrite firstn_length_le, skipn_length by lia. lia. Qed.

Lemma on_bin d strict j {A} (p : prog wireR A) : forall xs w b, nth_error xs j = Some (mkRd (SBin strict) k) -> holds w b ->
  simw (fun xw (sb : unit * breader) => fst xw = xs /\ holds (snd xw) (snd sb))
    (run (shared_h d) (on j p) (xs, w)) (run (over (bin_reader strict) (bufio_h size)) p (tt, b)).
Proof.
  induction p as [a|X e f IH|c]; intros xs w b Hj H; cbn [on run]; [cbn; auto| |reflexivity].
  pose proof (bin_step d strict X e w b H) as G. unfold simw in G. unfold shared_h at 1. cbn [fst snd]. rewrite Hj.
  destruct (reader_h d X e _) as [[x w'] y|c], (over (bin_reader strict) (bufio_h size) X e (tt, b)) as [[[] b'] y'|c']; try contradiction; cbn [obind].
  - destruct G as (<- & Ex & G). cbn [fst snd] in *. subst x. fold (place_at j (mkRd (SBin strict) k) xs). rewrite (place_self _ _ _ Hj). now apply IH.
  - exact G.
Qed.
Lemma on_cmp d j {A} (p : prog wireR A) : forall st xs w b, nth_error xs j = Some (mkRd (SCmp st) k) -> holds w b ->
  simw (fun xw (sb : creader * breader) => fst xw = place_at j (mkRd (SCmp (fst sb)) k) xs /\ holds (snd xw) (snd sb))
    (run (shared_h d) (on j p) (xs, w)) (run (over cmp_reader (bufio_h size)) p (st, b)).
Proof.
  induction p as [a|X e f IH|c]; intros st xs w b Hj H; cbn [on run]; [cbn; split; [reflexivity|]; split; [now rewrite place_self|exact H]| |reflexivity].
  pose proof (cmp_step d st X e w b H) as G. unfold simw in G. unfold shared_h at 1. cbn [fst snd]. rewrite Hj.
  destruct (reader_h d X e _) as [[x w'] y|c], (over cmp_reader (bufio_h size) X e (st, b)) as [[st' b'] y'|c']; try contradiction; cbn [obind].
  - destruct G as (<- & Ex & G). cbn [fst snd] in *. subst x. fold (place_at j (mkRd (SCmp st') k) xs).
    assert (Hl : (j < length xs)%nat) by (apply nth_error_Some; congruence).
    specialize (IH y st' (place_at j (mkRd (SCmp st') k) xs) w' b' (place_nth _ _ _ Hl) G). unfold simw in *.
    destruct (run (shared_h d) _ _) as [[xs2 w2] r|], (run (over cmp_reader _) _ _) as [[st2 b2] r'|]; auto.
    cbn [fst snd] in *. rewrite place_place in IH by exact Hl. exact IH.
  - exact G.
Qed.
End World.
