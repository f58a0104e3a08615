(** Go's encoding/binary (standard library) as used by the repository:
    fixed-width integers and varints.  [uint64] values are integers in
    [0, 2^64). *)
From Verif Require Import Base Prog Bufio.

(** ** Fixed width: encoding/binary/binary.go bigEndian / littleEndian *)

(** [BigEndian.PutUintN(buf, v)] with N = 8*n: byte(v>>(8*(n-1))), ..., byte(v) *)
Fixpoint be_bytes (n : nat) (v : Z) : list byte :=
  match n with
  | O => []
  | S m => z2b (Z.shiftr v (8 * Z.of_nat m)) :: be_bytes m v
  end.

(** [LittleEndian.PutUintN(buf, v)]: byte(v), byte(v>>8), ... *)
Fixpoint le_bytes (n : nat) (v : Z) : list byte :=
  match n with
  | O => []
  | S m => z2b v :: le_bytes m (Z.shiftr v 8)
  end.

(** [LittleEndian.UintN(buf)]: buf[0] | buf[1]<<8 | ... (disjoint bits, so [+]) *)
Fixpoint le_value (l : list byte) : Z :=
  match l with
  | [] => 0
  | b :: r => b2z b + 256 * le_value r
  end.

(** [BigEndian.UintN(buf)] *)
Definition be_value (l : list byte) : Z := le_value (rev l).

(** ** Varints: encoding/binary/varint.go *)

Definition MaxVarintLen16 : Z := 3.
Definition MaxVarintLen64 : Z := 10.

(** PutUvarint / AppendUvarint: for x >= 0x80 { byte(x)|0x80; x >>= 7 }; byte(x).
    A uint64 needs at most 9 iterations of the loop. *)
Fixpoint put_uvarint_loop (fuel : nat) (x : Z) : list byte :=
  match fuel with
  | O => [z2b x]
  | S f => if x >=? 0x80
           then z2b (Z.lor x 0x80) :: put_uvarint_loop f (Z.shiftr x 7)
           else [z2b x]
  end.
Definition put_uvarint (x : Z) : list byte := put_uvarint_loop 9 x.

(** PutVarint: ux := uint64(x) << 1; if x < 0 { ux = ^ux } *)
Definition zigzag (x : Z) : Z :=
  let ux := u64 (Z.shiftl (u64 x) 1) in
  if x <? 0 then u64 (Z.lnot ux) else ux.
Definition put_varint (x : Z) : list byte := put_uvarint (zigzag x).

(** Varint / ReadVarint: x := int64(ux >> 1); if ux&1 != 0 { x = ^x } *)
Definition unzigzag (ux : Z) : Z :=
  let x := i64 (Z.shiftr ux 1) in
  if Z.land ux 1 =? 0 then x else Z.lnot x.

(** Uvarint(buf): (value, n); n = 0 buffer too small, n < 0 overflow. *)
Fixpoint uvarint_loop (buf : list byte) (i s x : Z) : Z * Z :=
  match buf with
  | [] => (0, 0)
  | b :: r =>
      if i =? MaxVarintLen64 then (0, - (i + 1))
      else if b2z b <? 0x80 then
        if (i =? MaxVarintLen64 - 1) && (b2z b >? 1) then (0, - (i + 1))
        else (Z.lor x (u64 (Z.shiftl (b2z b) s)), i + 1)
      else uvarint_loop r (i + 1) (s + 7)
             (Z.lor x (u64 (Z.shiftl (Z.land (b2z b) 0x7f) s)))
  end.
Definition uvarint (buf : list byte) : Z * Z := uvarint_loop buf 0 0 0.

(** Varint(buf) *)
Definition varint (buf : list byte) : Z * Z :=
  let '(ux, n) := uvarint buf in (unzigzag ux, n).

(** ReadUvarint(r io.ByteReader); the loop runs MaxVarintLen64 times, [fuel]
    counts the iterations left and [i] those done. *)
Fixpoint read_uvarint_loop (fuel : nat) (i s x : Z) : prog bufR (Z * option err) :=
  match fuel with
  | O => Ret (x, Some EOverflow)
  | S f =>
      '(b, e) <- call BReadByte ;;
      match e with
      | Some e =>
          Ret (x, if (i >? 0) && is_eof (Some e) then Some EUnexpectedEOF else Some e)
      | None =>
          if b2z b <? 0x80 then
            if (i =? MaxVarintLen64 - 1) && (b2z b >? 1) then Ret (x, Some EOverflow)
            else Ret (Z.lor x (u64 (Z.shiftl (b2z b) s)), None)
          else read_uvarint_loop f (i + 1) (s + 7)
                 (Z.lor x (u64 (Z.shiftl (Z.land (b2z b) 0x7f) s)))
      end
  end.
Definition read_uvarint : prog bufR (Z * option err) := read_uvarint_loop 10 0 0 0.

(** ReadVarint(r io.ByteReader) *)
Definition read_varint : prog bufR (Z * option err) :=
  '(ux, e) <- read_uvarint ;; Ret (unzigzag ux, e).
