(** Package thriftbinary (encoding/thriftbinary/thriftbinary.go). *)
From Verif Require Import Base Prog Bufio BufioW GoBinary Wire.

(** thriftbinary.go:16-19 *)
Definition versionMask : Z := 0xffff0000.
Definition bin_version1 : Z := 0x80010000.

(** ** Reader.  The [reader] struct (61-64) adds only [strict] to its
    bufio.Reader, so every method is a program over the buffered reader. *)

(** thriftbinary.go:187-193 ReadI32 *)
Definition bin_read_i32 : prog bufR (Z * option err) :=
  '(buf, e) <- next 4 ;;
  match e with Some _ => Ret (0, e) | None => Ret (i32 (be_value buf), None) end.

(** thriftbinary.go:179-185 ReadI16 *)
Definition bin_read_i16 : prog bufR (Z * option err) :=
  '(buf, e) <- next 2 ;;
  match e with Some _ => Ret (0, e) | None => Ret (i16 (be_value buf), None) end.

(** thriftbinary.go:195-201 ReadI64 *)
Definition bin_read_i64 : prog bufR (Z * option err) :=
  '(buf, e) <- next 8 ;;
  match e with Some _ => Ret (0, e) | None => Ret (i64 (be_value buf), None) end.

(** thriftbinary.go:171-177 ReadDouble (the bit pattern) *)
Definition bin_read_double : prog bufR (Z * option err) :=
  '(buf, e) <- next 8 ;;
  match e with Some _ => Ret (0, e) | None => Ret (be_value buf, None) end.

(** thriftbinary.go:248-251 readSize *)
Definition bin_read_size : prog bufR (Z * option err) := bin_read_i32.

(** thriftbinary.go:243-246 readType, 238-241 readMessageType *)
Definition bin_read_type : prog bufR (Z * option err) :=
  '(b, e) <- call BReadByte ;; Ret (b2z b, e).

(** thriftbinary.go:203-209 ReadString *)
Definition bin_read_string : prog bufR (list byte * option err) :=
  '(n, e) <- bin_read_size ;;
  match e with Some _ => Ret ([], e) | None => read_string n end.

(** thriftbinary.go:211-217 ReadBytes *)
Definition bin_read_bytes (buf : list byte) : prog bufR (list byte * option err) :=
  '(n, e) <- bin_read_size ;;
  match e with Some _ => Ret (buf, e) | None => read_bytes n buf end.

(** thriftbinary.go:224-231 SkipString *)
Definition bin_skip_string : prog bufR (option err) :=
  '(n, e) <- bin_read_size ;;
  match e with
  | Some _ => Ret e
  | None => '(_, e) <- call (BDiscard n) ;; Ret e
  end.

(** thriftbinary.go:219-222 and thriftcompact.go:261-264 ReadUUID:
    io.ReadFull(x.Reader, v[:]); a short read leaves the tail of v. *)
Definition read_uuid (old : list byte) : prog bufR (list byte * option err) :=
  '(c, e) <- call (BReadFull 16) ;; Ret (c ++ skipn (length c) old, e).

(** thriftbinary.go:233-236 and thriftcompact.go:275-278 SkipUUID *)
Definition skip_uuid : prog bufR (option err) :=
  '(_, e) <- call (BDiscard 16) ;; Ret e.

(** thriftbinary.go:70-100 ReadMessageBegin *)
Definition bin_read_message_begin (strict : bool) : prog bufR (mhdr * option err) :=
  '(n, e) <- bin_read_size ;;
  match e with
  | Some _ => Ret (mh0, e)
  | None =>
      if n <? 0 then
        let version := Z.land n versionMask in
        if negb (version =? bin_version1) then Ret (mh0, Some (EBinBadVersion version))
        else
          let t := u8 n in
          '(name, e) <- bin_read_string ;;
          match e with
          | Some _ => Ret (mkMH name t 0, e)
          | None => '(id, e) <- bin_read_i32 ;; Ret (mkMH name t id, e)
          end
      else if strict then Ret (mh0, Some EBinMissingVersion)
      else
        '(name, e) <- read_string n ;;
        match e with
        | Some _ => Ret (mkMH name 0 0, e)
        | None =>
            '(t, e) <- bin_read_type ;;
            match e with
            | Some _ => Ret (mkMH name t 0, e)
            | None => '(id, e) <- bin_read_i32 ;; Ret (mkMH name t id, e)
            end
        end
  end.

(** thriftbinary.go:114-121 ReadFieldBegin *)
Definition bin_read_field_begin : prog bufR (fhdr * option err) :=
  '(t, e) <- bin_read_type ;;
  if negb (is_none e) || (t =? T_Stop) then Ret (mkFH [] t 0, e)
  else '(id, e) <- bin_read_i16 ;; Ret (mkFH [] t id, e).

(** thriftbinary.go:127-138 ReadMapBegin *)
Definition bin_read_map_begin : prog bufR (maphdr * option err) :=
  '(k, e) <- bin_read_type ;;
  match e with
  | Some _ => Ret (mkMapH k T_Stop 0, e)
  | None =>
      '(v, e) <- bin_read_type ;;
      match e with
      | Some _ => Ret (mkMapH k v 0, e)
      | None => '(n, e) <- bin_read_size ;; Ret (mkMapH k v n, e)
      end
  end.

(** thriftbinary.go:144-151 ReadSetBegin, 157-160 ReadListBegin *)
Definition bin_read_set_begin : prog bufR (sethdr * option err) :=
  '(t, e) <- bin_read_type ;;
  match e with
  | Some _ => Ret (mkSetH t 0, e)
  | None => '(n, e) <- bin_read_size ;; Ret (mkSetH t n, e)
  end.

(** thriftbinary.go:166-169 ReadBool *)
Definition bin_read_bool : prog bufR (bool * option err) :=
  '(b, e) <- call BReadByte ;; Ret (negb (b2z b =? 0), e).

(** All Reader methods; 102-112, 123-125, 140-142, 153-155, 162-164 return nil. *)
Definition bin_read (strict : bool) {X} (e : wireR X) : prog bufR X :=
  match e in wireR X return prog bufR X with
  | RMessageBegin => bin_read_message_begin strict
  | RMessageEnd => Ret None
  | RStructBegin => Ret ([], None)
  | RStructEnd => Ret None
  | RFieldBegin => bin_read_field_begin
  | RFieldEnd => Ret None
  | RMapBegin => bin_read_map_begin
  | RMapEnd => Ret None
  | RSetBegin => bin_read_set_begin
  | RSetEnd => Ret None
  | RListBegin => bin_read_set_begin
  | RListEnd => Ret None
  | RBool => bin_read_bool
  | RByte => call BReadByte                     (* promoted from bufio.Reader *)
  | RDouble => bin_read_double
  | RI16 => bin_read_i16
  | RI32 => bin_read_i32
  | RI64 => bin_read_i64
  | RString => bin_read_string
  | RBytes buf => bin_read_bytes buf
  | RUUID old => read_uuid old
  | RSkipString => bin_skip_string
  | RSkipUUID => skip_uuid
  end.

Definition bin_reader (strict : bool) : layer wireR bufR unit :=
  fun X e st => x <- bin_read strict e ;; Ret (st, x).

(** ** Writer.  The [writer] struct (253-258): [strict] is a parameter, the
    scratch array [buf] is always overwritten before use, [w] is the underlying
    io.Writer reached by [BWUnderFlush]. *)

(** thriftbinary.go:360-365 WriteI32 *)
Definition bin_write_i32 (v : Z) : prog bufW (option err) :=
  call (BWWrite (be_bytes 4 (u32 v))).
(** thriftbinary.go:353-358 WriteI16 *)
Definition bin_write_i16 (v : Z) : prog bufW (option err) :=
  call (BWWrite (be_bytes 2 (u16 v))).
(** thriftbinary.go:367-372 WriteI64, 346-351 WriteDouble *)
Definition bin_write_i64 (v : Z) : prog bufW (option err) :=
  call (BWWrite (be_bytes 8 (u64 v))).
(** thriftbinary.go:415-417 writeSize *)
Definition bin_write_size (v : Z) : prog bufW (option err) := bin_write_i32 (i32 v).
(** thriftbinary.go:411-413 writeType, 407-409 writeMessageType *)
Definition bin_write_type (t : Z) : prog bufW (option err) := call (BWWriteByte (z2b t)).

(** thriftbinary.go:374-380 WriteString *)
Definition bin_write_string (v : list byte) : prog bufW (option err) :=
  bin_write_size (zlen v) >>! call (BWWriteString v).
(** thriftbinary.go:382-388 WriteBytes *)
Definition bin_write_bytes (v : list byte) : prog bufW (option err) :=
  bin_write_size (zlen v) >>! call (BWWrite v).

(** thriftbinary.go:264-281 WriteMessageBegin *)
Definition bin_write_message_begin (strict : bool) (h : mhdr) : prog bufW (option err) :=
  if strict then
    bin_write_i32 (i32 (Z.lor (mh_type h) bin_version1)) >>!
    bin_write_string (mh_name h) >>!
    bin_write_i32 (mh_id h)
  else
    bin_write_string (mh_name h) >>!
    bin_write_type (mh_type h) >>!
    bin_write_i32 (mh_id h).

(** thriftbinary.go:320-325 WriteSetBegin, 331-333 WriteListBegin *)
Definition bin_write_set_begin (h : sethdr) : prog bufW (option err) :=
  bin_write_type (set_elem h) >>! bin_write_size (set_size h).

Definition bin_write (strict : bool) {X} (e : wireW X) : prog bufW X :=
  match e in wireW X return prog bufW X with
  | WMessageBegin h => bin_write_message_begin strict h
  | WMessageEnd => Ret None
  | WStructBegin _ => Ret None
  | WStructEnd => bin_write_type T_Stop                           (* 291-293 *)
  | WFieldBegin h =>                                              (* 295-300 *)
      bin_write_type (fh_type h) >>! bin_write_i16 (fh_id h)
  | WFieldEnd => Ret None
  | WMapBegin h =>                                                (* 306-314 *)
      bin_write_type (map_key h) >>! bin_write_type (map_val h) >>! bin_write_size (map_size h)
  | WMapEnd => Ret None
  | WSetBegin h => bin_write_set_begin h
  | WSetEnd => Ret None
  | WListBegin h => bin_write_set_begin h
  | WListEnd => Ret None
  | WBool v => call (BWWriteByte (if v then x01 else x00))        (* 339-344 *)
  | WByte v => call (BWWriteByte v)             (* promoted from bufio.Writer *)
  | WDouble v => bin_write_i64 v
  | WI16 v => bin_write_i16 v
  | WI32 v => bin_write_i32 v
  | WI64 v => bin_write_i64 v
  | WString v => bin_write_string v
  | WBytes v => bin_write_bytes v
  | WUUID v => call (BWWrite v)                                   (* 390-393 *)
  | WFlush => call BWFlush >>! call BWUnderFlush                  (* 395-400 *)
  end.

Definition bin_writer (strict : bool) : layer wireW bufW unit :=
  fun X e st => x <- bin_write strict e ;; Ret (st, x).
