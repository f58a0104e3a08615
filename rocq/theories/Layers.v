(** Layered implementations as plain programs over the bottom interface, and
    the protocol readers over a real buffered reader. *)
From Verif Require Import Base BaseLemmas Prog Bufio BufioProof GoBinary Wire WireProof Binary Compact.

Section Interp.
Context {E F : Type -> Type} {S : Type} (L : layer E F S).

Fixpoint interp {A} (p : prog E A) (s : S) : prog F (S * A) :=
  match p with
  | Ret a => Ret (s, a)
  | Vis e k => '(s', x) <- L _ e s ;; interp (k x) s'
  | Crash c => Crash c
  end.

Definition unpair {B A} (o : outcome B (S * A)) : outcome (S * B) A :=
  match o with Done b (s, a) => Done (s, b) a | Crashed c => Crashed c end.

Lemma run_over {B A} (h : handler F B) (p : prog E A) s b :
  run (over L h) p (s, b) = unpair (run h (interp p s) b).
Proof.
  revert s b. induction p as [a|X e k IH|c]; intros s b; cbn [run interp]; [reflexivity| |reflexivity].
  rewrite run_bind. unfold over at 1. cbn [fst snd].
  destruct (run h (L X e s) b) as [b' [s' x]|c]; cbn [obind]; [apply IH|reflexivity].
Qed.
End Interp.

(** ** Conditions on programs over the buffered reader *)
Lemma full_ok_bind {A B} (p : prog bufR A) (f : A -> prog bufR B) :
  full_ok p -> (forall a, full_ok (f a)) -> full_ok (bind p f).
Proof.
  induction p as [a|X e k IH|c]; cbn [bind full_ok]; intros Hp Hf; [apply Hf| |exact I].
  destruct Hp as [H1 H2]. split; [exact H1|]. intros x. apply IH; auto.
Qed.

Lemma full_ok_interp {E S A} (L : layer E bufR S) (p : prog E A) s :
  (forall X (e : E X) s, full_ok (L X e s)) -> full_ok (interp L p s).
Proof.
  intros HL. revert s. induction p as [a|X e k IH|c]; intros s; cbn [interp full_ok]; try exact I.
  apply full_ok_bind; [apply HL|]. intros [s' x]. apply IH.
Qed.

Lemma full_ok_loop_pos {St R} p (body : St -> prog bufR (St + R)) :
  (forall st, full_ok (body st)) -> forall st, full_ok (loop_pos p body st).
Proof.
  intros Hb. induction p as [q IH|q IH|]; intros st; cbn [loop_pos].
  - apply full_ok_bind; [apply Hb|]. intros [st0|r]; [|exact I].
    apply full_ok_bind; [apply IH|]. intros [st'|r]; [apply IH|exact I].
  - apply full_ok_bind; [apply IH|]. intros [st'|r]; [apply IH|exact I].
  - apply Hb.
Qed.

Lemma full_ok_loop_Z {St R} n (body : St -> prog bufR (St + R)) st :
  (forall st, full_ok (body st)) -> full_ok (loop_Z n body st).
Proof. intros Hb. destruct n; cbn; try exact I. now apply full_ok_loop_pos. Qed.

Ltac fok :=
  repeat match goal with
  | |- full_ok (bind ?p _) => apply full_ok_bind; [|intros]
  | |- full_ok (call _) => split; [exact I || lia|intros; exact I]
  | |- full_ok (Ret _) => exact I
  | |- full_ok (Crash _) => exact I
  | |- full_ok (if ?b then _ else _) => destruct b
  | |- full_ok (match ?x with _ => _ end) => destruct x
  | |- forall _, _ => intros
  end.

Lemma next_fok n : full_ok (next n).
Proof. unfold next. fok. Qed.
Lemma read_chunks_fok n buf : full_ok (read_chunks n buf).
Proof.
  unfold read_chunks. apply full_ok_bind; [|intros; fok]. apply full_ok_loop_Z.
  intros [rem b]. unfold read_chunks_body. fok. apply next_fok.
Qed.
Lemma read_bytes_fok n buf : full_ok (read_bytes n buf).
Proof. unfold read_bytes. fok; [apply next_fok|apply read_chunks_fok]. Qed.
Lemma read_string_fok n : full_ok (read_string n).
Proof. unfold read_string. fok; [apply next_fok|apply read_chunks_fok]. Qed.
Lemma read_uvarint_loop_fok f : forall i s x, full_ok (read_uvarint_loop f i s x).
Proof. induction f as [|f IH]; intros i s x; cbn [read_uvarint_loop]; fok. apply IH. Qed.
Lemma read_uvarint_fok : full_ok read_uvarint.
Proof. apply read_uvarint_loop_fok. Qed.
Lemma read_varint_fok : full_ok read_varint.
Proof. unfold read_varint. fok. apply read_uvarint_fok. Qed.
Lemma tw_read_uvarint_fok : full_ok tw_read_uvarint.
Proof. unfold tw_read_uvarint. fok. apply read_uvarint_fok. Qed.
Lemma tw_read_varint_fok : full_ok tw_read_varint.
Proof. unfold tw_read_varint. fok. apply read_varint_fok. Qed.

#[local] Hint Resolve next_fok read_chunks_fok read_bytes_fok read_string_fok read_uvarint_fok
  read_varint_fok tw_read_uvarint_fok : fok.

Lemma bin_reader_fok strict X (e : wireR X) s : full_ok (bin_reader strict X e s).
Proof.
  unfold bin_reader. fok. destruct e; cbn [bin_read];
  unfold bin_read_message_begin, bin_read_field_begin, bin_read_map_begin, bin_read_set_begin,
    bin_read_bool, bin_read_double, bin_read_i16, bin_read_i64, bin_read_string, bin_read_bytes,
    bin_skip_string, bin_read_size, bin_read_type, bin_read_i32, read_uuid, skip_uuid, bin_read_string,
    bin_read_size, bin_read_i32; fok; eauto with fok.
Qed.

Lemma cmp_reader_fok uv X (e : wireR X) s : full_ok uv -> full_ok (cmp_reader_gen uv X e s).
Proof.
  intros Huv. unfold cmp_reader_gen. destruct e;
  unfold lift, cmp_read_message_begin, cmp_read_field_begin, cmp_read_map_begin, cmp_read_set_begin,
    cmp_read_double, cmp_read_i16, cmp_read_i32, cmp_read_i64, cmp_read_string, cmp_read_bytes,
    cmp_skip_string, cmp_read_size, cmp_hdr_size, read_uuid, skip_uuid; fok; eauto with fok;
  unfold cmp_read_string, cmp_read_size, cmp_read_i16, cmp_read_i64; fok; eauto with fok.
Qed.

(** ** Refinement for a whole protocol reader *)
Definition refines_l {S X} size (o : outcome (S * breader) X) (o' : outcome (S * stream) X) : Prop :=
  match o, o' with
  | Done (s, b) x, Done (s', t) x' => s = s' /\ x = x' /\ abs b = t /\ binv size b
  | Crashed c, Crashed c' => c = c'
  | _, _ => False
  end.

Theorem layer_refines {E S A} size (L : layer E bufR S) (p : prog E A) s b :
  0 < size -> binv size b -> (forall X (e : E X) s, full_ok (L X e s)) ->
  refines_l size (run (over L (bufio_h size)) p (s, b)) (run (over L (stream_h size)) p (s, abs b)).
Proof.
  intros Hs Hb HL. rewrite !run_over.
  pose proof (bufio_refines_stream size (interp L p s) b Hs Hb (full_ok_interp L p s HL)) as H.
  unfold refines, refines_l in *.
  destruct (run (bufio_h size) (interp L p s) b) as [b' [s' x]|c];
    destruct (run (stream_h size) (interp L p s) (abs b)) as [t' [s'' x']|c']; cbn [unpair];
    try contradiction; auto.
  destruct H as (H1 & H2 & H3). injection H1 as -> ->. auto.
Qed.

(** A fresh buffered reader on a well-behaved transport. *)
Lemma binv_new size src : 0 < size -> good_source src -> binv size (new_breader src).
Proof.
  intros Hs Hg. unfold binv, new_breader. cbn. split; [exact Hg|]. split; [lia|].
  intros e H; discriminate.
Qed.
