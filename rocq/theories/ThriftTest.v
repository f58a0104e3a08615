(** testing/thrifttest/protocol.go: the test that a thriftwire.Protocol is to pass. *)
From Verif Require Import Base Prog Bufio BufioW Wire Binary Compact GoType Fields Arshal ArshalSpec Pipeline.

(** A protocol: what its Writers and Readers do on a bufio.Writer and a bufio.Reader (a layer with a state of
    its own), the states of new ones, and what Reset makes of the state (the bufio.Writer or bufio.Reader is reset as well). *)
Record protocol := mkProtocol {
  p_w : Type;
  p_r : Type;
  p_writer : layer wireW bufW p_w;
  p_reader : layer wireR bufR p_r;
  p_new_writer : p_w;
  p_new_reader : p_r;
  p_reset_writer : p_w -> p_w;
  p_reset_reader : p_r -> p_r
}.

(** encoding/thriftbinary/thriftbinary.go:28-50 protocol and protocolNonStrict; Reset: 402-405, and bufio's for the Reader *)
Definition binary_protocol (strict : bool) : protocol :=
  mkProtocol unit unit (bin_writer strict) (bin_reader strict) tt tt (fun _ => tt) (fun _ => tt).
(** encoding/thriftcompact/thriftcompact.go:24-36 protocol; Reset: 289-295 and 533-539 *)
Definition compact_protocol : protocol :=
  mkProtocol cwriter creader cmp_writer cmp_reader cw0 cr0 (fun _ => mkCW [] 0 fh0 false) (fun _ => mkCR [] 0 BNone).

(** encoding/thriftwire/protocol.go:18-30 JoinProtocol *)
Definition join_protocol (r w : protocol) : protocol :=
  mkProtocol (p_w w) (p_r r) (p_writer w) (p_reader r) (p_new_writer w) (p_new_reader r) (p_reset_writer w) (p_reset_reader r).

(** *bytes.Buffer, the transport, as an io.Writer: takes everything, is an io.StringWriter and no Flusher. *)
Definition buffer_sink (l : list byte) : sink := mkSink [] false [] true [SWrite l].
(** ... and as an io.Reader: gives what there is, io.EOF when there is nothing. *)
Definition buffer_source (l : list byte) : source :=
  mkSource (match l with [] => [] | _ => [(l, None)] end) (FErr EEOF).

(** protocol.go:55-61: a case of the table.  [c_order i v] is [v] with its maps in the orders in which they are
    iterated over when it is marshalled for the [i]th time. *)
Record case := mkCase {
  c_name : list byte;
  c_type : rtype;
  c_val : gval;
  c_has_uuid : bool;
  c_has_map : bool;
  c_order : nat -> gval -> gval
}.

(** What makes the test fail.  t.Errorf does not end the test as t.Fatal does, but it fails all the same; the model
    stops at the first failure. *)
Inductive failure : Type :=
| FFatal (e : err)      (* t.Fatal(err) *)
| FHeader (h : mhdr)    (* the header read is not the one written *)
| FNothing              (* no value (not a case of the code: Unmarshal stored nothing, without an error) *)
| FLeft                 (* message is not fully consumed *)
| FBytes (l : list byte). (* the bytes are not those written the first time *)

(** protocol.go:39-41 isMessageNameEqual *)
Definition is_message_name_equal (x y : list byte) : bool :=
  bytes_eqb x y || match x with [] => true | _ => false end || match y with [] => true | _ => false end.
(** protocol.go:43-45 isMessageHeaderEqual *)
Definition is_message_header_equal (x y : mhdr) : bool :=
  (mh_type x =? mh_type y) && (mh_id x =? mh_id y) && is_message_name_equal (mh_name x) (mh_name y).

Section Test.
Context (env : tenv) (p : protocol) (wsize rsize : Z) (uuid : bool) (n : nat).

(** The variables of TestProtocol (protocol.go:49-53): msg, b, w and r. *)
Record bench := mkBench {
  t_msg : mhdr;
  t_buf : list byte;
  t_w : p_w p; t_wbuf : list byte; t_werr : option err;
  t_r : p_r p; t_rbuf : list byte; t_rerr : option err
}.
Definition new_bench : bench :=
  mkBench (mkMH [] 0 0) [] (p_new_writer p) [] None (p_new_reader p) [] None.

(** b.Reset() and b.Write(l) *)
Definition set_buf (l : list byte) (t : bench) : bench :=
  mkBench (t_msg t) l (t_w t) (t_wbuf t) (t_werr t) (t_r t) (t_rbuf t) (t_rerr t).
(** w.Reset(&b) *)
Definition reset_w (t : bench) : bench :=
  mkBench (t_msg t) (t_buf t) (p_reset_writer p (t_w t)) [] None (t_r t) (t_rbuf t) (t_rerr t).
(** r.Reset(&b) *)
Definition reset_r (t : bench) : bench :=
  mkBench (t_msg t) (t_buf t) (t_w t) (t_wbuf t) (t_werr t) (p_reset_reader p (t_r t)) [] None.
(** protocol.go:172-175: msg.Name = tt.name; msg.Type %= thriftwire.OneWay (which is 4); msg.Type++; msg.ID++ *)
Definition next_msg (name : list byte) (t : bench) : bench :=
  mkBench (mkMH name (u8 (mh_type (t_msg t) mod 4 + 1)) (i32 (mh_id (t_msg t) + 1)))
    (t_buf t) (t_w t) (t_wbuf t) (t_werr t) (t_r t) (t_rbuf t) (t_rerr t).

(** What w is told to do; it writes into b. *)
Definition writing {A} (q : prog wireW A) (t : bench) : outcome bench A :=
  match run (over (p_writer p) (bufw_h wsize)) q (t_w t, mkBW (t_wbuf t) (t_werr t) (buffer_sink (t_buf t))) with
  | Done (s, b) x => Done (mkBench (t_msg t) (received (wsink b)) s (wbuf b) (werr b) (t_r t) (t_rbuf t) (t_rerr t)) x
  | Crashed c => Crashed c
  end.
(** What r is told to do; it reads from b. *)
Definition reading {A} (q : prog wireR A) (t : bench) : outcome bench A :=
  match run (over (p_reader p) (bufio_h rsize)) q (t_r t, mkB (t_rbuf t) (t_rerr t) (buffer_source (t_buf t))) with
  | Done (s, b) x => Done (mkBench (t_msg t) (src_bytes (bsrc b)) (t_w t) (t_wbuf t) (t_werr t) s (bbuf b) (berr b)) x
  | Crashed c => Crashed c
  end.

Definition fatal (e : option err) : option failure := match e with Some e => Some (FFatal e) | None => None end.
(** The next step, if there was no failure. *)
Definition and_next (o : outcome bench (option failure)) (k : bench -> outcome bench (option failure)) : outcome bench (option failure) :=
  obind o (fun t f => match f with Some _ => Done t f | None => k t end).

(** protocol.go:226-240 marshal *)
Definition marshal_msg (i : rtype * gval) (t : bench) : outcome bench (option failure) :=
  obind (writing (call (WMessageBegin (t_msg t)) >>! Marshal env n n (Some i) >>! call WMessageEnd >>! call WFlush) t)
    (fun t e => Done t (fatal e)).

(** protocol.go:181-196: the message is read (Pipeline.v's [receive]), its header looked at, and the value given to [k];
    [thriftwire.Struct] is skipped where there is nothing to unmarshal into.  The header is looked at after the message, not in
    between, which makes no difference to whether the test fails. *)
Definition read_msg (u : rtype) (k : gval -> bench -> outcome bench (option failure)) (t : bench) : outcome bench (option failure) :=
  obind (reading (receive env n (inl (u, zero env u))) t) (fun t '(h, o, e) =>
    match e with
    | Some e => Done t (Some (FFatal e))
    | None =>
        if is_message_header_equal h (t_msg t) then
          match o with Some v => k v t | None => Done t (Some FNothing) end
        else Done t (Some (FHeader h))
    end).
(** protocol.go:209-220: one round of the last loop, after b.Write(want) *)
Definition skip_msg (t : bench) : outcome bench (option failure) :=
  obind (reading (receive env n (inr T_Struct)) t) (fun t '(_, _, e) => Done t (fatal e)).

(** for i := 0; i < k; i++ *)
Fixpoint times (k : nat) (body : nat -> bench -> outcome bench (option failure)) (t : bench) : outcome bench (option failure) :=
  match k with
  | O => Done t None
  | S k' => and_next (times k' body t) (body k')
  end.

(** protocol.go:167-222: one case *)
Definition test_case (c : case) (t : bench) : outcome bench (option failure) :=
  if c_has_uuid c && negb uuid then Done t None
  else
    and_next (marshal_msg (c_type c, c_val c) (reset_w (next_msg (c_name c) t))) (fun t =>
    let want := t_buf t in
    read_msg (c_type c) (fun out t =>
      match t_buf t with
      | _ :: _ => Done t (Some FLeft)
      | [] =>
          and_next
            (if c_has_map c then Done t None
             else times 3 (fun i t =>
                    and_next (marshal_msg (RtPtr (c_type c), GPtr (Some (c_order c i out))) (set_buf [] t)) (fun t =>
                    if bytes_eqb (t_buf t) want then Done t None else Done t (Some (FBytes (t_buf t))))) t)
          (fun t =>
          and_next (times 3 (fun _ t => skip_msg (set_buf (t_buf t ++ want) t)) (reset_r t))
          (fun t => Done (set_buf [] t) None))
      end) (reset_r t)).

(** protocol.go:55-223: the cases, one after the other *)
Fixpoint test_cases (cs : list case) (t : bench) : outcome bench (option failure) :=
  match cs with
  | [] => Done t None
  | c :: r => and_next (test_case c t) (test_cases r)
  end.
(** protocol.go:48-224 TestProtocol *)
Definition test_protocol (cs : list case) : outcome bench (option failure) := test_cases cs new_bench.
End Test.
