(** Property C03, continued: exactly what the compact writer writes, and for which values it is the published encoding. *)
From Verif Require Import Base BaseLemmas Prog BufioW BufioWProof GoBinary GoBinaryProof Wire WireProof Spec Clients Compact CompactProof RoundTrip Choices Wraps.

(** The header written for field [id] after field [last]: the published one, but for an id at least 65521 below the previous
    one, where the one-byte form is used as if the ids went on from 32767 to -32768. *)
Inductive written_field (last id t : Z) : list byte -> Prop :=
| wrf_published l : -65521 < id - last -> compact_field last id t l -> written_field last id t l
| wrf_wrapped : id - last <= -65521 -> written_field last id t [z2b (16 * (id - last + 65536) + t)].

(** Every value is written without error, with these headers; and what is written is the published encoding just if no field id
    is 65521 or more below the previous one of its struct. *)
Theorem C03_compact_writer_exact size s v p :
  0 < size -> ok_sink s -> wf (2 ^ 63) v -> with_bytes_w (write_val v) p ->
  exists b st l,
    run (over cmp_writer (bufw_h size)) (p >>! call WFlush) (cw0, new_bwriter s) = Done (st, b) None /\
    received (wsink b) = received s ++ l /\ compact_enc written_field v l /\
    (compact_encoding v l <-> steps (fun last id => -65521 < id - last) v).
Proof.
  intros Hp Hs Hv Hq.
  destruct (cmp_write_any hdrs (fun _ _ => True) size s v cw0 p (fun last id t Hi Hl _ => conj Hi (conj Hl eq_refl)) Hp Hs Hv (steps_true v) eq_refl Hq)
    as (b & st & E & l & L & R).
  exists b, st, l. split; [exact E|]. split; [exact R|]. split; [|split; intros H].
  - revert L. apply compact_enc_mono. intros last id t h (Hi & Hl & ->).
    destruct (Z.le_gt_cases (id - last) (-65521)) as [W|W].
    + unfold field_hdr. rewrite (i16_wraps id last Hi Hl W).
      rewrite (proj2 (Z.gtb_lt (id - last + 65536) 0) ltac:(unfold is_i16 in *; lia)), (proj2 (Z.leb_le (id - last + 65536) 15) ltac:(lia)).
      now apply wrf_wrapped.
    + apply wrf_published; [lia|]. apply field_hdr_spec; auto. unfold no_wrap, is_i16 in *. lia.
  - pose proof (published_steps v l Hv L H) as N. revert Hv N. apply steps_mono_i16. unfold no_wrap. lia.
  - destruct (cmp_write_any compact_field no_wrap size s v cw0 p (fun last id t => field_hdr_spec last id t) Hp Hs Hv) as (b' & st' & E' & l' & L' & R'); auto.
    + revert Hv H. apply steps_mono_i16. unfold no_wrap, is_i16. lia.
    + rewrite E in E'. injection E' as <- <-. rewrite R in R'. apply app_inv_head in R'. subst l'. exact L'.
Qed.
Print Assumptions C03_compact_writer_exact.

(** A value of each kind. *)
Example C03_exact_sample :
  wf (2 ^ 63) (VStruct [(32767, VByte x07); (-32768, VByte x08)]) /\ ~ steps (fun last id => -65521 < id - last) (VStruct [(32767, VByte x07); (-32768, VByte x08)]) /\
  wf (2 ^ 63) (VStruct [(32767, VByte x07); (-32752, VByte x08)]) /\ steps (fun last id => -65521 < id - last) (VStruct [(32767, VByte x07); (-32752, VByte x08)]).
Proof. cbn. unfold is_i16. lia. Qed.
