(** Writers on the caller's own *bufio.Writer, as Shared.v for Readers. *)
From Verif Require Import Base Prog BufioW Wire Binary Compact Objects.

(** ** bufio.Writer over any io.Writer *)
(** The functions of BufioW.v, where the io.Writer is part of a world [W], [wr] is
    its Write and [wrs] its WriteString if it has one.  Here Write and
    WriteString also return the number of bytes taken. *)
Section Over.
Context {W : Type} (wr : list byte -> W -> outcome W (Z * option err))
  (wrs : W -> option (list byte -> W -> outcome W (Z * option err))).
Record gwbuf := mkGW { gw_buf : list byte; gw_err : option err; gw_w : W }.

(** bufio.go Writer.Flush *)
Definition gw_flush (b : gwbuf) : outcome gwbuf (option err) :=
  match gw_err b with
  | Some e => Done b (Some e)
  | None =>
      match gw_buf b with
      | [] => Done b None
      | _ =>
          obind (wr (gw_buf b) (gw_w b)) (fun s' x =>
            let '(n, e) := x in
            let e := if (n <? zlen (gw_buf b)) && is_none e then Some EShortWrite else e in
            match e with
            | Some _ => Done (mkGW (skipn (Z.to_nat n) (gw_buf b)) e s') e
            | None => Done (mkGW [] None s') None
            end)
      end
  end.

(** The loop of Writer.Write and Writer.WriteString; returns the rest of p. *)
Fixpoint gw_write_loop (size : Z) (direct : option (list byte -> W -> outcome W (Z * option err))) (fuel : nat)
    (p : list byte) (b : gwbuf) : outcome gwbuf (list byte) :=
  if (zlen p >? size - zlen (gw_buf b)) && is_none (gw_err b) then
    match fuel with
    | O => Crashed OutOfFuel
    | S f =>
        match (if zlen (gw_buf b) =? 0 then direct else None) with
        | Some wr =>
            obind (wr p (gw_w b)) (fun s' x =>
              gw_write_loop size direct f (skipn (Z.to_nat (fst x)) p) (mkGW (gw_buf b) (snd x) s'))
        | None =>
            let n := Z.min (size - zlen (gw_buf b)) (zlen p) in
            obind (gw_flush (mkGW (gw_buf b ++ firstn (Z.to_nat n) p) (gw_err b) (gw_w b))) (fun b' _ =>
              gw_write_loop size direct f (skipn (Z.to_nat n) p) b')
        end
    end
  else Done b p.
Definition gw_write_gen (size : Z) direct (p : list byte) (b : gwbuf) : outcome gwbuf (Z * option err) :=
  obind (gw_write_loop size direct (3 + length p) p b) (fun b r =>
    match gw_err b with
    | Some e => Done b (zlen p - zlen r, Some e)
    | None => Done (mkGW (gw_buf b ++ r) None (gw_w b)) (zlen p, None)
    end).
(** bufio.go Writer.Write, Writer.WriteString *)
Definition gw_write (size : Z) (p : list byte) (b : gwbuf) := gw_write_gen size (Some wr) p b.
Definition gw_write_string (size : Z) (p : list byte) (b : gwbuf) := gw_write_gen size (wrs (gw_w b)) p b.

(** bufio.go Writer.WriteByte *)
Definition gw_write_byte (size : Z) (c : byte) (b : gwbuf) : outcome gwbuf (option err) :=
  match gw_err b with
  | Some e => Done b (Some e)
  | None =>
      let put (b : gwbuf) := Done (mkGW (gw_buf b ++ [c]) (gw_err b) (gw_w b)) None in
      if size - zlen (gw_buf b) <=? 0 then
        obind (gw_flush b) (fun b' e => match e with Some _ => Done b' (gw_err b') | None => put b' end)
      else put b
  end.
End Over.
Arguments mkGW {W}. Arguments gw_buf {W}. Arguments gw_err {W}. Arguments gw_w {W}. Arguments gwbuf : clear implicits.

(** ** The world *)
(** An io.Writer: an arbitrary one, or a *bufio.Writer. *)
Inductive iowriter := WPlain (i : nat) | WBuf (k : nat).
(** A *bufio.Writer: len(buf), buf[:n], err, wr. *)
Record wbo := mkWBO { wbo_size : Z; wbo_buf : list byte; wbo_err : option err; wbo_wr : iowriter }.
Record wworld := mkWW { ww_sink : nat -> sink; ww_buf : nat -> wbo; ww_next : nat }.
Definition put_wbuf (k : nat) (o : wbo) (w : wworld) : wworld := mkWW (ww_sink w) (upd (ww_buf w) k o) (ww_next w).
Definition put_sink (i : nat) (s : sink) (w : wworld) : wworld := mkWW (upd (ww_sink w) i s) (ww_buf w) (ww_next w).

(** Write ([str] = false) or WriteString on an io.Writer; [d] bounds how many *bufio.Writers lie on top of each other.
    io.StringWriter is implemented by *bufio.Writer, and by an arbitrary one if [s_strw] says so. *)
Fixpoint io_write (d : nat) (str : bool) (r : iowriter) (p : list byte) (w : wworld) : outcome wworld (Z * option err) :=
  match r with
  | WPlain i => let '(s', x) := sink_write p (ww_sink w i) in Done (put_sink i s' w) x
  | WBuf k =>
      match d with
      | O => Crashed OutOfFuel
      | S d =>
          let o := ww_buf w k in
          let b := mkGW (wbo_buf o) (wbo_err o) w in
          let has := match wbo_wr o with WPlain i => s_strw (ww_sink w i) | WBuf _ => true end in
          obind (if str then gw_write_string (io_write d false (wbo_wr o)) (fun _ => if has then Some (io_write d true (wbo_wr o)) else None) (wbo_size o) p b
                 else gw_write (io_write d false (wbo_wr o)) (wbo_size o) p b) (fun g x =>
            Done (put_wbuf k (mkWBO (wbo_size o) (gw_buf g) (gw_err g) (wbo_wr o)) (gw_w g)) x)
      end
  end.

(** Flush on the *bufio.Writer [k]. *)
Definition flush_buf (d k : nat) (w : wworld) : outcome wworld (option err) :=
  let o := ww_buf w k in
  obind (gw_flush (io_write d false (wbo_wr o)) (mkGW (wbo_buf o) (wbo_err o) w)) (fun g x =>
    Done (put_wbuf k (mkWBO (wbo_size o) (gw_buf g) (gw_err g) (wbo_wr o)) (gw_w g)) x).

(** The calls on the *bufio.Writer [k]; [under] is the io.Writer that thriftwire.Flush is applied to (nil is None). *)
Definition wbuf_h (d k : nat) (under : option iowriter) : handler bufW wworld :=
  fun X e w =>
    let o := ww_buf w k in
    let b := mkGW (wbo_buf o) (wbo_err o) w in
    let back {Y} (r : outcome (gwbuf wworld) Y) : outcome wworld Y :=
      obind r (fun g x => Done (put_wbuf k (mkWBO (wbo_size o) (gw_buf g) (gw_err g) (wbo_wr o)) (gw_w g)) x) in
    let has := match wbo_wr o with WPlain i => s_strw (ww_sink w i) | WBuf _ => true end in
    match e in bufW X return outcome wworld X with
    | BWWrite p => back (obind (gw_write (io_write d false (wbo_wr o)) (wbo_size o) p b) (fun g x => Done g (snd x)))
    | BWWriteString p =>
        back (obind (gw_write_string (io_write d false (wbo_wr o)) (fun _ => if has then Some (io_write d true (wbo_wr o)) else None) (wbo_size o) p b)
          (fun g x => Done g (snd x)))
    | BWWriteByte c => back (gw_write_byte (io_write d false (wbo_wr o)) (wbo_size o) c b)
    | BWEnsure n => if wbo_size o - zlen (wbo_buf o) >=? n then Done w None else flush_buf d k w
    | BWFlush => flush_buf d k w
    | BWUnderFlush =>
        match under with
        | None => Done w None
        | Some (WPlain i) => if s_flusher (ww_sink w i) then let '(s', e) := sink_flush (ww_sink w i) in Done (put_sink i s' w) e else Done w None
        | Some (WBuf j) => flush_buf d j w
        end
    end.

(** bufio.go NewWriter, NewWriterSize *)
Definition new_wbuf (r : iowriter) (w : wworld) : nat * wworld :=
  let fresh := (ww_next w, mkWW (ww_sink w) (upd (ww_buf w) (ww_next w) (mkWBO 4096 [] None r)) (S (ww_next w))) in
  match r with
  | WBuf k => if wbo_size (ww_buf w k) >=? 4096 then (k, w) else fresh
  | WPlain _ => fresh
  end.
(** bufio.go Writer.Reset: nothing happens if [r] is the *bufio.Writer itself *)
Definition wbuf_reset (k : nat) (r : iowriter) (w : wworld) : wworld :=
  let reset := put_wbuf k (mkWBO (wbo_size (ww_buf w k)) [] None r) w in
  match r with
  | WBuf j => if Nat.eqb j k then w else reset
  | WPlain _ => reset
  end.

(** ** Writers of either protocol *)
(** thriftbinary.go:252-257 and thriftcompact.go:297-304; [wr_under] is the field w, or uw *)
Inductive wstate := SWBin (strict : bool) | SWCmp (st : cwriter).
Record writer := mkWr { wr_st : wstate; wr_buf : nat; wr_under : option iowriter }.

(** thriftbinary.go:259-262 newWriter *)
Definition new_bin_writer (strict : bool) (r : iowriter) (w : wworld) : writer * wworld :=
  let '(k, w) := new_wbuf r w in (mkWr (SWBin strict) k (Some r), w).
(** thriftcompact.go:30-32 NewWriter *)
Definition new_cmp_writer (r : iowriter) (w : wworld) : writer * wworld :=
  let '(k, w) := new_wbuf r w in (mkWr (SWCmp cw0) k (Some r), w).
(** thriftbinary.go:402-405 and thriftcompact.go:533-539 Reset *)
Definition reset_writer (r : iowriter) (x : writer) (w : wworld) : writer * wworld :=
  let w := wbuf_reset (wr_buf x) r w in
  match wr_st x with
  | SWBin strict => (mkWr (SWBin strict) (wr_buf x) (Some r), w)
  | SWCmp _ => (mkWr (SWCmp (mkCW [] 0 fh0 false)) (wr_buf x) None, w)
  end.

(** The calls of thriftwire.Writer on such an object. *)
Definition writer_h (d : nat) : handler wireW (writer * wworld) :=
  fun X e xw =>
    let '(x, w) := xw in
    let h := wbuf_h d (wr_buf x) (wr_under x) in
    match wr_st x with
    | SWBin strict => obind (run h (bin_write strict e) w) (fun w y => Done (x, w) y)
    | SWCmp st => obind (run h (cmp_writer X e st) w) (fun w y => Done (mkWr (SWCmp (fst y)) (wr_buf x) (wr_under x), w) (snd y))
    end.

(** ** A program with several Writers and *bufio.Writers *)
Inductive sharedW : Type -> Type :=
| WCall (j : nat) {X} (e : wireW X) : sharedW X                      (* on the [j]-th Writer *)
| WOwn (k : nat) (p : list byte) : sharedW (option err)              (* Write on the *bufio.Writer [k] *)
| WOwnFlush (k : nat) : sharedW (option err).                        (* and its Flush *)
Definition sharedw_h (d : nat) : handler sharedW (list writer * wworld) :=
  fun X e s =>
    match e in sharedW X return outcome (list writer * wworld) X with
    | WCall j e =>
        match nth_error (fst s) j with
        | Some x => obind (writer_h d _ e (x, snd s)) (fun xw y =>
            Done (firstn j (fst s) ++ fst xw :: skipn (S j) (fst s), snd xw) y)
        | None => Crashed Panicked
        end
    | WOwn k p => obind (wbuf_h d k None _ (BWWrite p) (snd s)) (fun w y => Done (fst s, w) y)
    | WOwnFlush k => obind (flush_buf d k (snd s)) (fun w y => Done (fst s, w) y)
    end.

(** A function given the [j]-th Writer. *)
Fixpoint onw {A} (j : nat) (p : prog wireW A) : prog sharedW A :=
  match p with
  | Ret a => Ret a
  | Vis e k => Vis (WCall j e) (fun x => onw j (k x))
  | Crash c => Crash c
  end.
