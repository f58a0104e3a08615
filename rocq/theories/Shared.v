(** Readers on the caller's own *bufio.Reader.  bufio.NewReader does not wrap a
    *bufio.Reader that is large enough but returns it, so that the object of
    Objects.v and its caller share it; and io.Readers may be *bufio.Readers
    that read from others.  Here *bufio.Readers are objects with identity in a
    world.  A *bufio.Reader that reads, by way of others, from itself is not
    modelled: [io_read] gives it the buffer from before the call. *)
From Verif Require Import Base Prog Bufio Wire Binary Compact Objects.

(** ** bufio.Reader over any io.Reader *)
(** The functions of Bufio.v, function by function, where the io.Reader is part
    of a world [W] and [rd n] is its Read with len(p) = n > 0.  [bytes] and
    [steps] bound the loops. *)
Section Over.
Context {W : Type} (rd : Z -> W -> outcome W (list byte * option err)) (bytes steps : W -> nat).
Record gbuf := mkG { g_buf : list byte; g_err : option err; g_w : W }.

(** bufio.go Reader.fill *)
Fixpoint g_fill_loop (size : Z) (i : nat) (b : gbuf) : outcome gbuf unit :=
  match i with
  | O => Done (mkG (g_buf b) (Some ENoProgress) (g_w b)) tt
  | S i' =>
      match rd (size - zlen (g_buf b)) (g_w b) with
      | Crashed c => Crashed c
      | Done s' (c, eo) =>
          match eo with
          | Some e => Done (mkG (g_buf b ++ c) (Some e) s') tt
          | None =>
              match c with
              | [] => g_fill_loop size i' (mkG (g_buf b) (g_err b) s')
              | _ :: _ => Done (mkG (g_buf b ++ c) (g_err b) s') tt
              end
          end
      end
  end.
Definition g_fill (size : Z) (b : gbuf) : outcome gbuf unit :=
  if size <=? zlen (g_buf b) then Crashed Panicked else g_fill_loop size maxEmpty b.

(** bufio.go Reader.readErr *)
Definition g_clear (b : gbuf) : gbuf := mkG (g_buf b) None (g_w b).

(** bufio.go Reader.Peek *)
Fixpoint g_peek_fill (size : Z) (fuel : nat) (n : Z) (b : gbuf) : outcome gbuf unit :=
  if (zlen (g_buf b) <? n) && (zlen (g_buf b) <? size) && is_none (g_err b) then
    match fuel with
    | O => Crashed OutOfFuel
    | S f => obind (g_fill size b) (fun b' _ => g_peek_fill size f n b')
    end
  else Done b tt.
Definition g_peek (size n : Z) (b : gbuf) : outcome gbuf (list byte * option err) :=
  if n <? 0 then Done b ([], Some ENegativeCount)
  else obind (g_peek_fill size (Z.to_nat size) n b) (fun b _ =>
    if size <? n then Done b (g_buf b, Some EBufferFull)
    else if zlen (g_buf b) <? n then
      Done (g_clear b) (g_buf b, match g_err b with Some e => Some e | None => Some EBufferFull end)
    else Done b (firstn (Z.to_nat n) (g_buf b), None)).

(** bufio.go Reader.Discard *)
Fixpoint g_discard_loop (size : Z) (fuel : nat) (n remain : Z) (b : gbuf) : outcome gbuf (Z * option err) :=
  match fuel with
  | O => Crashed OutOfFuel
  | S f =>
      obind (if zlen (g_buf b) =? 0 then g_fill size b else Done b tt) (fun b _ =>
        let skip := Z.min (zlen (g_buf b)) remain in
        let b := mkG (skipn (Z.to_nat skip) (g_buf b)) (g_err b) (g_w b) in
        let remain := remain - skip in
        if remain =? 0 then Done b (n, None)
        else match g_err b with
             | Some e => Done (g_clear b) (n - remain, Some e)
             | None => g_discard_loop size f n remain b
             end)
  end.
Definition g_discard (size n : Z) (b : gbuf) : outcome gbuf (Z * option err) :=
  if n <? 0 then Done b (0, Some ENegativeCount)
  else if n =? 0 then Done b (0, None)
  else g_discard_loop size (2 + length (g_buf b) + bytes (g_w b)) n n b.

(** bufio.go Reader.ReadByte *)
Fixpoint g_read_byte_loop (size : Z) (fuel : nat) (b : gbuf) : outcome gbuf (byte * option err) :=
  match g_buf b with
  | c :: r => Done (mkG r (g_err b) (g_w b)) (c, None)
  | [] =>
      match g_err b with
      | Some e => Done (g_clear b) (x00, Some e)
      | None =>
          match fuel with
          | O => Crashed OutOfFuel
          | S f => obind (g_fill size b) (fun b' _ => g_read_byte_loop size f b')
          end
      end
  end.

(** bufio.go Reader.Read with len(p) = n > 0 *)
Definition g_read (size n : Z) (b : gbuf) : outcome gbuf (list byte * option err) :=
  let copy (b : gbuf) :=
    Done (mkG (skipn (Z.to_nat n) (g_buf b)) (g_err b) (g_w b)) (firstn (Z.to_nat n) (g_buf b), None) in
  match g_buf b with
  | _ :: _ => copy b
  | [] =>
      match g_err b with
      | Some e => Done (g_clear b) ([], Some e)
      | None =>
          if size <=? n then
            match rd n (g_w b) with
            | Crashed c => Crashed c
            | Done s' (c, eo) => Done (mkG [] None s') (c, eo)
            end
          else
            match rd size (g_w b) with
            | Crashed c => Crashed c
            | Done s' ([], eo) => Done (mkG [] None s') ([], eo)
            | Done s' (c, eo) => copy (mkG c eo s')
            end
      end
  end.

(** io/io.go ReadFull *)
Fixpoint g_read_full_loop (size : Z) (fuel : nat) (n : Z) (acc : list byte) (b : gbuf) : outcome gbuf (list byte * option err) :=
  if n <=? zlen acc then Done b (acc, None)
  else match fuel with
  | O => Crashed OutOfFuel
  | S f =>
      obind (g_read size (n - zlen acc) b) (fun b x =>
        let acc' := acc ++ fst x in
        match snd x with
        | None => g_read_full_loop size f n acc' b
        | Some e =>
            Done b (acc', if n <=? zlen acc' then None
                          else if (0 <? zlen acc') && is_eof (Some e)
                          then Some EUnexpectedEOF else Some e)
        end)
  end.

Definition g_h (size : Z) : handler bufR gbuf :=
  fun X e b =>
    match e in bufR X return outcome gbuf X with
    | BPeek n => g_peek size n b
    | BDiscard n => g_discard size n b
    | BReadByte => g_read_byte_loop size 2 b
    | BReadFull n => g_read_full_loop size (2 + length (g_buf b) + bytes (g_w b) + steps (g_w b)) n [] b
    | BSize => Done b size
    end.
End Over.
Arguments mkG {W}. Arguments g_buf {W}. Arguments g_err {W}. Arguments g_w {W}. Arguments gbuf : clear implicits.

(** ** The world *)
(** An io.Reader: an arbitrary one, or a *bufio.Reader. *)
Inductive ioreader := RPlain (i : nat) | RBuf (k : nat).
(** A *bufio.Reader: len(buf), buf[r:w], err, rd. *)
Record bobj := mkBO { bo_size : Z; bo_buf : list byte; bo_err : option err; bo_rd : ioreader }.
Record rworld := mkRW { rw_src : nat -> source; rw_buf : nat -> bobj; rw_next : nat }.
Definition put_buf (k : nat) (o : bobj) (w : rworld) : rworld := mkRW (rw_src w) (upd (rw_buf w) k o) (rw_next w).
Definition put_src (i : nat) (s : source) (w : rworld) : rworld := mkRW (upd (rw_src w) i s) (rw_buf w) (rw_next w).

(** Read on an io.Reader; [d] bounds how many *bufio.Readers lie on top of each other. *)
Fixpoint io_read (d : nat) (r : ioreader) (n : Z) (w : rworld) : outcome rworld (list byte * option err) :=
  match r with
  | RPlain i => obind (src_read n (rw_src w i)) (fun s x => Done (put_src i s w) x)
  | RBuf k =>
      match d with
      | O => Crashed OutOfFuel
      | S d =>
          let o := rw_buf w k in
          obind (g_read (io_read d (bo_rd o)) (bo_size o) n (mkG (bo_buf o) (bo_err o) w)) (fun g x =>
            Done (put_buf k (mkBO (bo_size o) (g_buf g) (g_err g) (bo_rd o)) (g_w g)) x)
      end
  end.
Fixpoint io_bytes (d : nat) (r : ioreader) (w : rworld) : nat :=
  match r with
  | RPlain i => length (src_bytes (rw_src w i))
  | RBuf k => match d with O => 0 | S d => length (bo_buf (rw_buf w k)) + io_bytes d (bo_rd (rw_buf w k)) w end
  end.
Fixpoint io_steps (d : nat) (r : ioreader) (w : rworld) : nat :=
  match r with
  | RPlain i => length (script (rw_src w i))
  | RBuf k => match d with O => 0 | S d => S (io_steps d (bo_rd (rw_buf w k)) w) end
  end.

(** The calls on the *bufio.Reader [k]. *)
Definition buf_h (d k : nat) : handler bufR rworld :=
  fun X e w =>
    let o := rw_buf w k in
    obind (g_h (io_read d (bo_rd o)) (io_bytes d (bo_rd o)) (io_steps d (bo_rd o)) (bo_size o) X e (mkG (bo_buf o) (bo_err o) w)) (fun g x =>
      Done (put_buf k (mkBO (bo_size o) (g_buf g) (g_err g) (bo_rd o)) (g_w g)) x).

(** bufio.go NewReader, NewReaderSize: [defaultBufSize] is 4096 *)
Definition new_buf (r : ioreader) (w : rworld) : nat * rworld :=
  let fresh := (rw_next w, mkRW (rw_src w) (upd (rw_buf w) (rw_next w) (mkBO 4096 [] None r)) (S (rw_next w))) in
  match r with
  | RBuf k => if bo_size (rw_buf w k) >=? 4096 then (k, w) else fresh
  | RPlain _ => fresh
  end.
(** bufio.go Reader.Reset: nothing happens if [r] is the *bufio.Reader itself *)
Definition buf_reset (k : nat) (r : ioreader) (w : rworld) : rworld :=
  let reset := put_buf k (mkBO (bo_size (rw_buf w k)) [] None r) w in
  match r with
  | RBuf j => if Nat.eqb j k then w else reset
  | RPlain _ => reset
  end.

(** ** Readers of either protocol *)
(** thriftbinary.go:61-64 and thriftcompact.go:38-43 *)
Inductive rstate := SBin (strict : bool) | SCmp (st : creader).
Record reader := mkRd { rd_st : rstate; rd_buf : nat }.

(** thriftbinary.go:66-68 newReader *)
Definition new_bin (strict : bool) (r : ioreader) (w : rworld) : reader * rworld :=
  let '(k, w) := new_buf r w in (mkRd (SBin strict) k, w).
(** thriftcompact.go:26-28 NewReader *)
Definition new_cmp (r : ioreader) (w : rworld) : reader * rworld :=
  let '(k, w) := new_buf r w in (mkRd (SCmp cr0) k, w).
(** Reset.  Binary: that of *bufio.Reader, promoted.  Compact: thriftcompact.go:289-295 *)
Definition reset_reader (r : ioreader) (x : reader) (w : rworld) : reader * rworld :=
  match rd_st x with
  | SBin _ => (x, buf_reset (rd_buf x) r w)
  | SCmp _ =>
      let w := buf_reset (rd_buf x) r w in
      let '(k, w) := new_buf r w in (mkRd (SCmp (mkCR [] 0 BNone)) k, w)
  end.

(** The calls of thriftwire.Reader on such an object. *)
Definition reader_h (d : nat) : handler wireR (reader * rworld) :=
  fun X e xw =>
    let '(x, w) := xw in
    match rd_st x with
    | SBin strict =>
        obind (run (buf_h d (rd_buf x)) (bin_read strict e) w) (fun w y => Done (x, w) y)
    | SCmp st =>
        obind (run (buf_h d (rd_buf x)) (cmp_reader X e st) w) (fun w y => Done (mkRd (SCmp (fst y)) (rd_buf x), w) (snd y))
    end.

(** ** A program with several Readers and *bufio.Readers *)
Inductive sharedR : Type -> Type :=
| SCall (j : nat) {X} (e : wireR X) : sharedR X    (* on the [j]-th Reader *)
| SOwn (k : nat) {X} (e : bufR X) : sharedR X.     (* on the *bufio.Reader [k] *)
Definition shared_h (d : nat) : handler sharedR (list reader * rworld) :=
  fun X e s =>
    match e in sharedR X return outcome (list reader * rworld) X with
    | SCall j e =>
        match nth_error (fst s) j with
        | Some x => obind (reader_h d _ e (x, snd s)) (fun xw y =>
            Done (firstn j (fst s) ++ fst xw :: skipn (S j) (fst s), snd xw) y)
        | None => Crashed Panicked
        end
    | SOwn k e => obind (buf_h d k _ e (snd s)) (fun w y => Done (fst s, w) y)
    end.

(** A function given the [j]-th Reader. *)
Fixpoint on {A} (j : nat) (p : prog wireR A) : prog sharedR A :=
  match p with
  | Ret a => Ret a
  | Vis e k => Vis (SCall j e) (fun x => on j (k x))
  | Crash c => Crash c
  end.
