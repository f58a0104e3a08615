(** The protocol reader and writer objects with all their fields, over a world
    of io.Writers and io.Readers, so that NewWriter, NewReader and Reset can be
    told apart.  Binary.v and Compact.v describe one object attached to one
    io.Writer; [wobj_run] below says when that description is right. *)
From Verif Require Import Base Prog Bufio BufioW Wire Binary Compact.

Section World.
Context {A : Type}.
(** The io.Writers (or io.Readers) of the program, by identity. *)
Definition upd (w : nat -> A) (i : nat) (a : A) : nat -> A :=
  fun j => if Nat.eqb j i then a else w j.
End World.

(** ** Writers *)
(** thriftbinary.go:252-257 writer {Writer, w, buf, strict} and
    thriftcompact.go:297-304 writer {Writer, uw, buf, ...}: the *bufio.Writer
    is its buffer, error and io.Writer; [wo_under] is w / uw (nil is None);
    [wo_st] the remaining fields.  The scratch array buf is overwritten before
    each use and left out. *)
Record wobj (St : Type) := mkWO {
  wo_st : St; wo_buf : list byte; wo_err : option err; wo_wr : nat; wo_under : option nat
}.
Arguments mkWO {St}. Arguments wo_st {St}. Arguments wo_buf {St}. Arguments wo_err {St}.
Arguments wo_wr {St}. Arguments wo_under {St}.

(** What is left of the object below the protocol layer, and the world. *)
Record wbase := mkWB { wb_buf : list byte; wb_err : option err; wb_wr : nat; wb_under : option nat;
                       wb_world : nat -> sink }.

Definition wbase_h (size : Z) : handler bufW wbase :=
  fun X e o =>
    let via (e : bufW X) :=
      match bufw_h size X e (mkBW (wb_buf o) (wb_err o) (wb_world o (wb_wr o))) with
      | Done b x => Done (mkWB (wbuf b) (werr b) (wb_wr o) (wb_under o)
                            (upd (wb_world o) (wb_wr o) (wsink b))) x
      | Crashed c => Crashed c
      end in
    match e in bufW X return (bufW X -> outcome wbase X) -> outcome wbase X with
    | BWWrite p => fun via => via (BWWrite p)
    | BWWriteString p => fun via => via (BWWriteString p)
    | BWWriteByte c => fun via => via (BWWriteByte c)
    | BWEnsure n => fun via => via (BWEnsure n)
    | BWFlush => fun via => via BWFlush
    | BWUnderFlush => fun _ =>
        (* thriftwire/protocol.go:109-114: nil and non-Flushers are left alone *)
        match wb_under o with
        | Some i =>
            if s_flusher (wb_world o i) then
              let '(s', e) := sink_flush (wb_world o i) in
              Done (mkWB (wb_buf o) (wb_err o) (wb_wr o) (wb_under o) (upd (wb_world o) i s')) e
            else Done o None
        | None => Done o None
        end
    end via.

(** The calls of thriftwire.Writer on such an object. *)
Definition wobj_h {St} (size : Z) (L : layer wireW bufW St) : handler wireW (wobj St * (nat -> sink)) :=
  fun X e ow =>
    let '(o, w) := ow in
    match run (wbase_h size) (L X e (wo_st o)) (mkWB (wo_buf o) (wo_err o) (wo_wr o) (wo_under o) w) with
    | Done b (st, x) => Done (mkWO st (wb_buf b) (wb_err b) (wb_wr b) (wb_under b), wb_world b) x
    | Crashed c => Crashed c
    end.

(** thriftbinary.go: [strict] is a field of the object. *)
Definition binw_layer : layer wireW bufW bool :=
  fun X e strict => x <- bin_write strict e ;; Ret (strict, x).
(** thriftbinary.go:259-262 newWriter *)
Definition bin_new_writer (strict : bool) (w : nat) : wobj bool := mkWO strict [] None w (Some w).
(** bufio.go Writer.Reset: b.err = nil; b.n = 0; b.wr = w *)
Definition bw_reset {St} (w : nat) (o : wobj St) : wobj St :=
  mkWO (wo_st o) [] None w (wo_under o).
(** thriftbinary.go:402-405 writer.Reset *)
Definition bin_reset_writer (w : nat) (o : wobj bool) : wobj bool :=
  let o := bw_reset w o in
  mkWO (wo_st o) (wo_buf o) (wo_err o) (wo_wr o) (Some w).

(** thriftcompact.go:30-32 NewWriter *)
Definition cmp_new_writer (w : nat) : wobj cwriter := mkWO cw0 [] None w (Some w).
(** thriftcompact.go:533-539 writer.Reset: every field but Writer and the
    (emptied) lastFieldIDs gets its zero value, and so does uw *)
Definition cmp_reset_writer (w : nat) (o : wobj cwriter) : wobj cwriter :=
  let o := bw_reset w o in
  mkWO (mkCW [] 0 fh0 false) (wo_buf o) (wo_err o) (wo_wr o) None.

(** ** Readers *)
Record robj (St : Type) := mkRO { ro_st : St; ro_buf : list byte; ro_err : option err; ro_rd : nat }.
Arguments mkRO {St}. Arguments ro_st {St}. Arguments ro_buf {St}. Arguments ro_err {St}.
Arguments ro_rd {St}.

Definition robj_h {St} (size : Z) (L : layer wireR bufR St) : handler wireR (robj St * (nat -> source)) :=
  fun X e ow =>
    let '(o, w) := ow in
    match run (bufio_h size) (L X e (ro_st o)) (mkB (ro_buf o) (ro_err o) (w (ro_rd o))) with
    | Done b (st, x) => Done (mkRO st (bbuf b) (berr b) (ro_rd o), upd w (ro_rd o) (bsrc b)) x
    | Crashed c => Crashed c
    end.

Definition binr_layer : layer wireR bufR bool :=
  fun X e strict => x <- bin_read strict e ;; Ret (strict, x).
(** thriftbinary.go:66-68 newReader *)
Definition bin_new_reader (strict : bool) (r : nat) : robj bool := mkRO strict [] None r.
(** bufio.go Reader.Reset: b.reset(b.buf, r); for binary it is promoted and is
    the object's Reset *)
Definition br_reset {St} (r : nat) (o : robj St) : robj St := mkRO (ro_st o) [] None r.
Definition bin_reset_reader (r : nat) (o : robj bool) : robj bool := br_reset r o.

(** thriftcompact.go:26-28 NewReader *)
Definition cmp_new_reader (r : nat) : robj creader := mkRO cr0 [] None r.
(** thriftcompact.go:289-295 reader.Reset: bufio.NewReader(r) and zero values *)
Definition cmp_reset_reader (r : nat) (o : robj creader) : robj creader :=
  let o := br_reset r o in
  mkRO (mkCR [] 0 BNone) [] None (ro_rd o).
