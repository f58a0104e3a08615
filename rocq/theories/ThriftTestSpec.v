From Verif Require Import Base Prog Bufio BufioW Wire Spec GoType Fields Arshal ArshalSpec ArshalTotal MapSpec RemarshalSpec Pipeline ThriftTest.

(** Cases that a protocol with the limit [lim] on lengths has to pass (specification of C60): a value of a struct type on which
    Marshal is meant to work, with no more than [lim] bytes, elements or entries anywhere, and map keys that
    stay apart (C23); its maps are iterated over in any orders; and if it is to be marshalled to the same bytes
    again, then no field is sent and comes back as one that is not sent (C56), and no map has two entries. *)
Definition good_case (env : tenv) (P : rtype -> Prop) (lim : Z) (c : case) : Prop :=
  P (c_type c) /\ (exists s, under env (c_type c) = RtStruct s) /\ has_type env (c_val c) (c_type c) /\
  keys_distinct env (c_val c) (c_type c) /\ fits env lim (c_val c) (c_type c) /\ zlen (c_name c) < lim /\
  (forall i v, shuffled v (c_order c i v)) /\
  (c_has_map c = false -> tidy env (c_val c) (c_type c) /\ forall tv, stands_for env (c_type c) (c_val c) tv -> small_maps tv).

(** What a Writer and a Reader of a protocol [p] are seen to do with one message (specification of what it takes to pass the
    test): a state is that of the protocol together with that of the bufio.Writer or bufio.Reader. *)
Section Seen.
Context (env : tenv) (p : protocol) (wsize rsize : Z) (n : nat).

(** The Writer in the state [w], with nothing in the buffer, writes the message [h] with the value [i], and the bytes are [l]. *)
Definition writes (h : mhdr) (i : rtype * gval) (w w' : p_w p * list byte * option err) (l : list byte) : Prop :=
  let '(s, wb, we) := w in let '(s', wb', we') := w' in
  exists b, run (over (p_writer p) (bufw_h wsize))
    (call (WMessageBegin h) >>! Marshal env n n (Some i) >>! call WMessageEnd >>! call WFlush)
    (s, mkBW wb we (buffer_sink [])) = Done (s', b) None /\ wb' = wbuf b /\ we' = werr b /\ received (wsink b) = l.
(** The Reader in the state [r], with [l] to come, carries out the plan; [l'] is left. *)
Definition reads (plan : (rtype * gval) + Z) (r r' : p_r p * list byte * option err) (l l' : list byte) (x : received_msg) : Prop :=
  let '(s, rb, re) := r in let '(s', rb', re') := r' in
  exists b, run (over (p_reader p) (bufio_h rsize)) (receive env n plan) (s, mkB rb re (buffer_source l)) = Done (s', b) x /\
    rb' = bbuf b /\ re' = berr b /\ src_bytes (bsrc b) = l'.
End Seen.
