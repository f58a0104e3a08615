(** bufio.Writer over an arbitrary io.Writer (Go 1.21 standard library,
    bufio/bufio.go). *)
From Verif Require Import Base Prog.

(** ** The calls the repository makes on a *bufio.Writer and on the io.Writer
    underneath it.  [BWEnsure n] is thriftcompact.go:554-559 (ensureAvailable):
    [if Available() >= n { nil } else { Flush() }], taken as one call so that
    the fill level of the buffer stays inside this file.  [BWUnderFlush] is
    thriftwire.Flush applied to the underlying io.Writer
    (encoding/thriftwire/protocol.go:109-114).  The byte counts returned by
    Write and WriteString are ignored by every caller and not represented. *)
Inductive bufW : Type -> Type :=
| BWWrite (p : list byte) : bufW (option err)
| BWWriteString (s : list byte) : bufW (option err)
| BWWriteByte (c : byte) : bufW (option err)
| BWEnsure (n : Z) : bufW (option err)
| BWFlush : bufW (option err)
| BWUnderFlush : bufW (option err).

(** ** The underlying io.Writer: obeys the io.Writer contract (at most len(p)
    bytes accepted; fewer only together with an error) and is otherwise
    arbitrary. *)

(** What it has seen, in order. *)
Inductive sinkev := SWrite (p : list byte) | SFlush.

(** One response to Write: [None] accepts everything; [Some (k, e)] accepts
    min(k, len(p)) bytes and returns the error [e].  When the list is
    exhausted everything is accepted. *)
Record sink := mkSink {
  s_resp : list (option (Z * err));
  s_flusher : bool;                 (* implements thriftwire.Flusher *)
  s_fresp : list (option err);      (* what its Flush returns *)
  s_strw : bool;                    (* implements io.StringWriter *)
  s_log : list sinkev
}.

Definition sink_write (p : list byte) (s : sink) : sink * (Z * option err) :=
  let log k := s_log s ++ [SWrite (firstn (Z.to_nat k) p)] in
  match s_resp s with
  | [] => (mkSink [] (s_flusher s) (s_fresp s) (s_strw s) (log (zlen p)), (zlen p, None))
  | None :: r => (mkSink r (s_flusher s) (s_fresp s) (s_strw s) (log (zlen p)), (zlen p, None))
  | Some (k, e) :: r =>
      let k := Z.max 0 (Z.min k (zlen p)) in
      (mkSink r (s_flusher s) (s_fresp s) (s_strw s) (log k), (k, Some e))
  end.

(** encoding/thriftwire/protocol.go:109-114 Flush *)
Definition sink_flush (s : sink) : sink * option err :=
  if s_flusher s then
    (mkSink (s_resp s) true (tl (s_fresp s)) (s_strw s) (s_log s ++ [SFlush]),
     match s_fresp s with r :: _ => r | [] => None end)
  else (s, None).

(** ** *bufio.Writer *)
Record bwriter := mkBW { wbuf : list byte; werr : option err; wsink : sink }.

(** bufio.go NewWriterSize / Writer.Reset *)
Definition new_bwriter (s : sink) : bwriter := mkBW [] None s.

(** bufio.go Writer.Flush *)
Definition bw_flush (b : bwriter) : bwriter * option err :=
  match werr b with
  | Some e => (b, Some e)
  | None =>
      match wbuf b with
      | [] => (b, None)
      | _ =>
          let '(s', (n, e)) := sink_write (wbuf b) (wsink b) in
          let e := if (n <? zlen (wbuf b)) && is_none e then Some EShortWrite else e in
          match e with
          | Some _ => (mkBW (skipn (Z.to_nat n) (wbuf b)) e s', e)
          | None => (mkBW [] None s', None)
          end
      end
  end.

(** The loop of bufio.go Writer.Write and Writer.WriteString: while p does not
    fit, either write it directly (buffer empty and [direct]) or fill the
    buffer and flush.  Returns the rest of p. *)
Fixpoint bw_write_loop (size : Z) (direct : bool) (fuel : nat) (p : list byte) (b : bwriter)
  : outcome bwriter (list byte) :=
  if (zlen p >? size - zlen (wbuf b)) && is_none (werr b) then
    match fuel with
    | O => Crashed OutOfFuel
    | S f =>
        if (zlen (wbuf b) =? 0) && direct then
          let '(s', (n, e)) := sink_write p (wsink b) in
          bw_write_loop size direct f (skipn (Z.to_nat n) p) (mkBW (wbuf b) e s')
        else
          let n := Z.min (size - zlen (wbuf b)) (zlen p) in
          let '(b', _) := bw_flush (mkBW (wbuf b ++ firstn (Z.to_nat n) p) (werr b) (wsink b)) in
          bw_write_loop size direct f (skipn (Z.to_nat n) p) b'
    end
  else Done b p.

Definition bw_write_gen (size : Z) (direct : bool) (p : list byte) (b : bwriter)
  : outcome bwriter (option err) :=
  obind (bw_write_loop size direct (3 + length p) p b) (fun b p =>
    match werr b with
    | Some e => Done b (Some e)
    | None => Done (mkBW (wbuf b ++ p) None (wsink b)) None
    end).

(** bufio.go Writer.Write *)
Definition bw_write (size : Z) := bw_write_gen size true.
(** bufio.go Writer.WriteString: direct only if the io.Writer is a StringWriter *)
Definition bw_write_string (size : Z) (p : list byte) (b : bwriter) :=
  bw_write_gen size (s_strw (wsink b)) p b.

(** bufio.go Writer.WriteByte *)
Definition bw_write_byte (size : Z) (c : byte) (b : bwriter) : outcome bwriter (option err) :=
  match werr b with
  | Some e => Done b (Some e)
  | None =>
      let put (b : bwriter) := Done (mkBW (wbuf b ++ [c]) (werr b) (wsink b)) None in
      if size - zlen (wbuf b) <=? 0 then
        let '(b', e) := bw_flush b in
        match e with Some _ => Done b' (werr b') | None => put b' end
      else put b
  end.

Definition bufw_h (size : Z) : handler bufW bwriter :=
  fun X e b =>
    match e in bufW X return outcome bwriter X with
    | BWWrite p => bw_write size p b
    | BWWriteString p => bw_write_string size p b
    | BWWriteByte c => bw_write_byte size c b
    | BWEnsure n =>
        if size - zlen (wbuf b) >=? n then Done b None
        else let '(b', e) := bw_flush b in Done b' e
    | BWFlush => let '(b', e) := bw_flush b in Done b' e
    | BWUnderFlush =>
        let '(s', e) := sink_flush (wsink b) in Done (mkBW (wbuf b) (werr b) s') e
    end.

(** ** The simplest writer: a growing list of bytes that never fails. *)
Definition mem_h : handler bufW (list byte) :=
  fun X e s =>
    match e in bufW X return outcome (list byte) X with
    | BWWrite p => Done (s ++ p) None
    | BWWriteString p => Done (s ++ p) None
    | BWWriteByte c => Done (s ++ [c]) None
    | BWEnsure _ => Done s None
    | BWFlush => Done s None
    | BWUnderFlush => Done s None
    end.

(** All bytes a sink has accepted. *)
Definition ev_bytes (e : sinkev) : list byte :=
  match e with SWrite p => p | SFlush => [] end.
Definition received (s : sink) : list byte := concat (map ev_bytes (s_log s)).
