(** Property C20 (and the end of C19), exactly: the compact writer after Reset. *)
From Verif Require Import Base Prog Bufio BufioW Wire Binary Compact Objects ResetExact.

(** On any io.Writer [j], a Flusher or not, and whatever program [p] was run on it before, a compact Writer behaves after
    Reset just as a new one on the same io.Writer stripped of its Flush method ([no_flush], [hide]): every program [q] has
    the same results, and all io.Writers end up the same. *)
Theorem C20_compact_writer_reset_exact size {A B} (p : prog wireW A) (q : prog wireW B) i j w o w1 x :
  run (wobj_h size cmp_writer) p (cmp_new_writer i, w) = Done (o, w1) x ->
  match run (wobj_h size cmp_writer) q (cmp_new_writer j, hide j w1) with
  | Done (_, w2) y => exists o2 w2', run (wobj_h size cmp_writer) q (cmp_reset_writer j o, w1) = Done (o2, w2') y /\
      (forall k, w2 k = hide j w2' k) /\ s_flusher (w2' j) = s_flusher (w1 j)
  | Crashed c => run (wobj_h size cmp_writer) q (cmp_reset_writer j o, w1) = Crashed c
  end.
Proof. exact (fun _ => cmp_reset_hidden size q j w1 o). Qed.
Print Assumptions C20_compact_writer_reset_exact.

(** After a half-written struct and an error on one io.Writer, a string and Flush on another, which is a Flusher: it gets
    the bytes and no Flush. *)
Example C20_exact_sample :
  let w := fun k : nat => match k with O => mkSink [Some (3, EIO 1)] true [] false [] | _ => mkSink [] true [] false [] end in
  exists o w1 e o2 w2 o3 w3,
    run (wobj_h 16 cmp_writer) (_ <- call (WStructBegin []) ;; _ <- call (WFieldBegin (mkFH [] 11 4)) ;; call (WString (repeat x61 40)))
      (cmp_new_writer 0, w) = Done (o, w1) (Some e) /\
    run (wobj_h 16 cmp_writer) (call (WString [x62; x63]) >>! call WFlush) (cmp_reset_writer 1 o, w1) = Done (o2, w2) None /\
    s_log (w2 1%nat) = [SWrite [x02; x62; x63]] /\ s_flusher (w2 1%nat) = true /\
    run (wobj_h 16 cmp_writer) (call (WString [x62; x63]) >>! call WFlush) (cmp_new_writer 1, hide 1 w1) = Done (o3, w3) None /\
    s_log (w3 1%nat) = [SWrite [x02; x62; x63]] /\ s_flusher (w3 1%nat) = false.
Proof. do 7 eexists. split; [vm_compute; reflexivity|]. split; [vm_compute; reflexivity|]. split; [reflexivity|]. split; [reflexivity|]. split; [vm_compute; reflexivity|]. split; reflexivity. Qed.
