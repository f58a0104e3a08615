(** bufio.Reader over an arbitrary io.Reader (Go 1.21 standard library,
    bufio/bufio.go), and the abstract byte stream it refines.

    Go's [int] is taken to be 64 bits wide; slices handed out by the standard
    library are modelled by their contents (no aliasing). *)
From Verif Require Import Base Prog.

(** What happens after the last delivered byte: the transport keeps returning
    an error ([io.EOF] or another), or it stays silent forever. *)
Inductive fin : Type := FErr (e : err) | FSilent.

(** ** The calls the repository makes on a *bufio.Reader. *)
Inductive bufR : Type -> Type :=
| BPeek (n : Z) : bufR (list byte * option err)
| BDiscard (n : Z) : bufR (Z * option err)
| BReadByte : bufR (byte * option err)
| BReadFull (n : Z) : bufR (list byte * option err)   (* io.ReadFull(b, buf), len(buf) = n *)
| BSize : bufR Z.

(** ** Abstract stream *)
Record stream := mkStream { sdata : list byte; sfin : fin }.

Definition stream_h (size : Z) : handler bufR stream :=
  fun X e s =>
    match e in bufR X return outcome stream X with
    | BPeek n =>
        if n <? 0 then Done s ([], Some ENegativeCount)
        else if Z.min n size <=? zlen (sdata s)
        then Done s (firstn (Z.to_nat (Z.min n size)) (sdata s),
                     if size <? n then Some EBufferFull else None)
        else match sfin s with
             | FSilent => Crashed Blocked
             | FErr e => Done s (sdata s, if size <? n then Some EBufferFull else Some e)
             end
    | BDiscard n =>
        if n <? 0 then Done s (0, Some ENegativeCount)
        else if n <=? zlen (sdata s)
        then Done (mkStream (skipn (Z.to_nat n) (sdata s)) (sfin s)) (n, None)
        else match sfin s with
             | FSilent => Crashed Blocked
             | FErr e => Done (mkStream [] (sfin s)) (zlen (sdata s), Some e)
             end
    | BReadByte =>
        match sdata s with
        | b :: r => Done (mkStream r (sfin s)) (b, None)
        | [] => match sfin s with
                | FSilent => Crashed Blocked
                | FErr e => Done s (x00, Some e)
                end
        end
    | BReadFull n =>
        if n <=? zlen (sdata s)
        then Done (mkStream (skipn (Z.to_nat n) (sdata s)) (sfin s))
                  (firstn (Z.to_nat n) (sdata s), None)
        else match sfin s with
             | FSilent => Crashed Blocked
             | FErr e =>
                 Done (mkStream [] (sfin s))
                      (sdata s, if (0 <? zlen (sdata s)) && is_eof (Some e)
                                then Some EUnexpectedEOF else Some e)
             end
    | BSize => Done s size
    end.

(** ** Concrete reader *)

(** An io.Reader: successive Read calls return the entries of [script] (an
    entry longer than the caller's slice is delivered piecewise, its error with
    the last piece); after that, [src_fin]. *)
Record source := mkSource {
  script : list (list byte * option err);
  src_fin : fin
}.

(** [rd.Read(p)] with [len(p) = n > 0]. *)
Definition src_read (n : Z) (s : source) : outcome source (list byte * option err) :=
  match script s with
  | [] => match src_fin s with
          | FErr e => Done s ([], Some e)
          | FSilent => Crashed Blocked
          end
  | (c, eo) :: r =>
      if zlen c <=? n then Done (mkSource r (src_fin s)) (c, eo)
      else Done (mkSource ((skipn (Z.to_nat n) c, eo) :: r) (src_fin s))
                (firstn (Z.to_nat n) c, None)
  end.

(** *bufio.Reader: [bbuf] is buf[r:w] (fill slides it to the front, so r itself
    is irrelevant), [berr] the pending error. *)
Record breader := mkB { bbuf : list byte; berr : option err; bsrc : source }.

(** bufio.go maxConsecutiveEmptyReads *)
Definition maxEmpty : nat := 100.

(** bufio.go Reader.fill *)
Fixpoint fill_loop (size : Z) (i : nat) (b : breader) : outcome breader unit :=
  match i with
  | O => Done (mkB (bbuf b) (Some ENoProgress) (bsrc b)) tt
  | S i' =>
      match src_read (size - zlen (bbuf b)) (bsrc b) with
      | Crashed c => Crashed c
      | Done s' (c, eo) =>
          match eo with
          | Some e => Done (mkB (bbuf b ++ c) (Some e) s') tt
          | None =>
              match c with
              | [] => fill_loop size i' (mkB (bbuf b) (berr b) s')
              | _ :: _ => Done (mkB (bbuf b ++ c) (berr b) s') tt
              end
          end
      end
  end.

Definition fill (size : Z) (b : breader) : outcome breader unit :=
  if size <=? zlen (bbuf b) then Crashed Panicked  (* "tried to fill full buffer" *)
  else fill_loop size maxEmpty b.

(** bufio.go Reader.readErr: returns and clears the pending error *)
Definition clear_err (b : breader) : breader := mkB (bbuf b) None (bsrc b).

(** bufio.go Reader.Peek; the filling loop *)
Fixpoint peek_fill (size : Z) (fuel : nat) (n : Z) (b : breader) : outcome breader unit :=
  if (zlen (bbuf b) <? n) && (zlen (bbuf b) <? size) && is_none (berr b) then
    match fuel with
    | O => Crashed OutOfFuel
    | S f => obind (fill size b) (fun b' _ => peek_fill size f n b')
    end
  else Done b tt.

Definition peek (size n : Z) (b : breader) : outcome breader (list byte * option err) :=
  if n <? 0 then Done b ([], Some ENegativeCount)
  else obind (peek_fill size (Z.to_nat size) n b) (fun b _ =>
    if size <? n then Done b (bbuf b, Some EBufferFull)
    else if zlen (bbuf b) <? n then
      Done (clear_err b)
           (bbuf b, match berr b with Some e => Some e | None => Some EBufferFull end)
    else Done b (firstn (Z.to_nat n) (bbuf b), None)).

(** bufio.go Reader.Discard *)
Fixpoint discard_loop (size : Z) (fuel : nat) (n remain : Z) (b : breader)
  : outcome breader (Z * option err) :=
  match fuel with
  | O => Crashed OutOfFuel
  | S f =>
      obind (if zlen (bbuf b) =? 0 then fill size b else Done b tt) (fun b _ =>
        let skip := Z.min (zlen (bbuf b)) remain in
        let b := mkB (skipn (Z.to_nat skip) (bbuf b)) (berr b) (bsrc b) in
        let remain := remain - skip in
        if remain =? 0 then Done b (n, None)
        else match berr b with
             | Some e => Done (clear_err b) (n - remain, Some e)
             | None => discard_loop size f n remain b
             end)
  end.

(** Bytes still to come from a source (bounds the loops below). *)
Definition src_bytes (s : source) : list byte := concat (map fst (script s)).

Definition discard (size n : Z) (b : breader) : outcome breader (Z * option err) :=
  if n <? 0 then Done b (0, Some ENegativeCount)
  else if n =? 0 then Done b (0, None)
  else discard_loop size (2 + length (bbuf b) + length (src_bytes (bsrc b))) n n b.

(** bufio.go Reader.ReadByte *)
Fixpoint read_byte_loop (size : Z) (fuel : nat) (b : breader) : outcome breader (byte * option err) :=
  match bbuf b with
  | c :: r => Done (mkB r (berr b) (bsrc b)) (c, None)
  | [] =>
      match berr b with
      | Some e => Done (clear_err b) (x00, Some e)
      | None =>
          match fuel with
          | O => Crashed OutOfFuel
          | S f => obind (fill size b) (fun b' _ => read_byte_loop size f b')
          end
      end
  end.

Definition read_byte (size : Z) (b : breader) := read_byte_loop size 2 b.

(** bufio.go Reader.Read with [len(p) = n > 0] *)
Definition bread (size n : Z) (b : breader) : outcome breader (list byte * option err) :=
  let copy (b : breader) :=
    Done (mkB (skipn (Z.to_nat n) (bbuf b)) (berr b) (bsrc b))
         (firstn (Z.to_nat n) (bbuf b), None) in
  match bbuf b with
  | _ :: _ => copy b
  | [] =>
      match berr b with
      | Some e => Done (clear_err b) ([], Some e)
      | None =>
          if size <=? n then
            (* large read, empty buffer: read directly into p *)
            match src_read n (bsrc b) with
            | Crashed c => Crashed c
            | Done s' (c, eo) => Done (mkB [] None s') (c, eo)
            end
          else
            match src_read size (bsrc b) with
            | Crashed c => Crashed c
            | Done s' ([], eo) => Done (mkB [] None s') ([], eo)
            | Done s' (c, eo) => copy (mkB c eo s')
            end
      end
  end.

(** io/io.go ReadAtLeast with min = len(buf), i.e. ReadFull *)
Fixpoint read_full_loop (size : Z) (fuel : nat) (n : Z) (acc : list byte) (b : breader)
  : outcome breader (list byte * option err) :=
  if n <=? zlen acc then Done b (acc, None)
  else match fuel with
  | O => Crashed OutOfFuel
  | S f =>
      obind (bread size (n - zlen acc) b) (fun b x =>
        let acc' := acc ++ fst x in
        match snd x with
        | None => read_full_loop size f n acc' b
        | Some e =>
            Done b (acc', if n <=? zlen acc' then None
                          else if (0 <? zlen acc') && is_eof (Some e)
                          then Some EUnexpectedEOF else Some e)
        end)
  end.

Definition read_full (size n : Z) (b : breader) : outcome breader (list byte * option err) :=
  read_full_loop size
    (2 + length (bbuf b) + length (src_bytes (bsrc b)) + length (script (bsrc b))) n [] b.

Definition bufio_h (size : Z) : handler bufR breader :=
  fun X e b =>
    match e in bufR X return outcome breader X with
    | BPeek n => peek size n b
    | BDiscard n => discard size n b
    | BReadByte => read_byte size b
    | BReadFull n => read_full size n b
    | BSize => Done b size
    end.

(** bufio.go NewReaderSize / Reader.Reset: empty buffer, no pending error. *)
Definition new_breader (s : source) : breader := mkB [] None s.

(** What the bytes of a reader are, abstractly. *)
Definition abs (b : breader) : stream :=
  mkStream (bbuf b ++ src_bytes (bsrc b)) (src_fin (bsrc b)).

(** A transport whose error, once returned, persists: no entry but the last
    carries an error, and that one is the final error. *)
Fixpoint persistent (sc : list (list byte * option err)) (f : fin) : Prop :=
  match sc with
  | [] => True
  | (_, None) :: r => persistent r f
  | (_, Some e) :: r => r = [] /\ f = FErr e
  end.

(** Fewer than [maxEmpty] consecutive empty reads without error. *)
Fixpoint few_empty (budget : nat) (sc : list (list byte * option err)) : Prop :=
  match sc with
  | [] => True
  | ([], None) :: r => match budget with O => False | S k => few_empty k r end
  | _ :: r => few_empty 99 r
  end.

Definition good_source (s : source) : Prop :=
  persistent (script s) (src_fin s) /\ few_empty 99 (script s).
