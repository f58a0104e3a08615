(** The thriftwire package: types, headers, the Reader and Writer interfaces,
    the buffered-reading helpers and Skip. *)
From Verif Require Import Base Prog Bufio GoBinary.

(** ** encoding/thriftwire/types.go:27-41 (Type constants; Type is a byte) *)
Definition T_Stop : Z := 0.
Definition T_Bool : Z := 2.
Definition T_Byte : Z := 3.
Definition T_Double : Z := 4.
Definition T_I16 : Z := 6.
Definition T_I32 : Z := 8.
Definition T_I64 : Z := 10.
Definition T_String : Z := 11.
Definition T_Struct : Z := 12.
Definition T_Map : Z := 13.
Definition T_Set : Z := 14.
Definition T_List : Z := 15.
Definition T_UUID : Z := 16.

(** The value types among them (everything a [switch t] in the repository
    distinguishes). *)
Inductive kind : Type :=
| KBool | KByte | KDouble | KI16 | KI32 | KI64 | KString
| KStruct | KMap | KSet | KList | KUUID.

Definition kind_num (k : kind) : Z :=
  match k with
  | KBool => T_Bool | KByte => T_Byte | KDouble => T_Double | KI16 => T_I16
  | KI32 => T_I32 | KI64 => T_I64 | KString => T_String | KStruct => T_Struct
  | KMap => T_Map | KSet => T_Set | KList => T_List | KUUID => T_UUID
  end.

(** The case a [switch] over the Type constants selects ([None]: default). *)
Definition kind_of (t : Z) : option kind :=
  match t with
  | 2 => Some KBool | 3 => Some KByte | 4 => Some KDouble | 6 => Some KI16
  | 8 => Some KI32 | 10 => Some KI64 | 11 => Some KString | 12 => Some KStruct
  | 13 => Some KMap | 14 => Some KSet | 15 => Some KList | 16 => Some KUUID
  | _ => None
  end.

(** ** encoding/thriftwire/types.go:50-85 (headers) *)
Record mhdr := mkMH { mh_name : list byte; mh_type : Z; mh_id : Z }.
Record fhdr := mkFH { fh_name : list byte; fh_type : Z; fh_id : Z }.
Record maphdr := mkMapH { map_key : Z; map_val : Z; map_size : Z }.
(** SetHeader and ListHeader have the same fields. *)
Record sethdr := mkSetH { set_elem : Z; set_size : Z }.

(** The zero values of the headers. *)
Definition mh0 : mhdr := mkMH [] 0 0.
Definition fh0 : fhdr := mkFH [] T_Stop 0.
Definition maph0 : maphdr := mkMapH T_Stop T_Stop 0.
Definition seth0 : sethdr := mkSetH T_Stop 0.

(** ** encoding/thriftwire/protocol.go:39-64 (Reader).
    A float64 is its 64-bit pattern; StructHeader is its Name.  ReadUUID takes
    the array's old contents and returns the new ones.  Reset is modelled on
    the states (see Binary.v and Compact.v). *)
Inductive wireR : Type -> Type :=
| RMessageBegin : wireR (mhdr * option err)
| RMessageEnd : wireR (option err)
| RStructBegin : wireR (list byte * option err)
| RStructEnd : wireR (option err)
| RFieldBegin : wireR (fhdr * option err)
| RFieldEnd : wireR (option err)
| RMapBegin : wireR (maphdr * option err)
| RMapEnd : wireR (option err)
| RSetBegin : wireR (sethdr * option err)
| RSetEnd : wireR (option err)
| RListBegin : wireR (sethdr * option err)
| RListEnd : wireR (option err)
| RBool : wireR (bool * option err)
| RByte : wireR (byte * option err)
| RDouble : wireR (Z * option err)
| RI16 : wireR (Z * option err)
| RI32 : wireR (Z * option err)
| RI64 : wireR (Z * option err)
| RString : wireR (list byte * option err)
| RBytes (buf : list byte) : wireR (list byte * option err)
| RUUID (old : list byte) : wireR (list byte * option err)
| RSkipString : wireR (option err)
| RSkipUUID : wireR (option err).

(** The error a Reader method returned. *)
Definition errR {X} (e : wireR X) : X -> option err :=
  match e in wireR X return X -> option err with
  | RMessageBegin | RStructBegin | RFieldBegin | RMapBegin | RSetBegin | RListBegin
  | RBool | RByte | RDouble | RI16 | RI32 | RI64 | RString | RBytes _ | RUUID _ => snd
  | RMessageEnd | RStructEnd | RFieldEnd | RMapEnd | RSetEnd | RListEnd
  | RSkipString | RSkipUUID => fun x => x
  end.

(** ** encoding/thriftwire/protocol.go:74-98 (Writer) *)
Inductive wireW : Type -> Type :=
| WMessageBegin (h : mhdr) : wireW (option err)
| WMessageEnd : wireW (option err)
| WStructBegin (name : list byte) : wireW (option err)
| WStructEnd : wireW (option err)
| WFieldBegin (h : fhdr) : wireW (option err)
| WFieldEnd : wireW (option err)
| WMapBegin (h : maphdr) : wireW (option err)
| WMapEnd : wireW (option err)
| WSetBegin (h : sethdr) : wireW (option err)
| WSetEnd : wireW (option err)
| WListBegin (h : sethdr) : wireW (option err)
| WListEnd : wireW (option err)
| WBool (v : bool) : wireW (option err)
| WByte (v : byte) : wireW (option err)
| WDouble (v : Z) : wireW (option err)
| WI16 (v : Z) : wireW (option err)
| WI32 (v : Z) : wireW (option err)
| WI64 (v : Z) : wireW (option err)
| WString (v : list byte) : wireW (option err)
| WBytes (v : list byte) : wireW (option err)
| WUUID (v : list byte) : wireW (option err)
| WFlush : wireW (option err).

(** [if err := p; err != nil { return err }; q] *)
Definition and_then {E} (p q : prog E (option err)) : prog E (option err) :=
  e <- p ;; match e with Some _ => Ret e | None => q end.
Notation "p >>! q" := (and_then p q) (at level 101, right associativity) : prog_scope.

(** ** encoding/thriftwire/bufio.go *)

(** bufio.go:12-21 Next *)
Definition next (n : Z) : prog bufR (list byte * option err) :=
  '(buf, e) <- call (BPeek n) ;;
  _ <- call (BDiscard (zlen buf)) ;;
  Ret (buf, if zlen buf =? n then None
            else if (0 <? zlen buf) && is_eof e then Some EUnexpectedEOF
            else e).

(** bufio.go:53-64 (and 31-42): the loop shared by ReadString and ReadBytes;
    state (left, buf), [left] written [rem].  Every iteration reads at least one byte or fails, so at
    most [n] iterations happen; a loop that did not end by then would be
    [OutOfFuel] (never reached, see WireProof.v). *)
Definition read_chunks_body (n : Z) (st : Z * list byte)
  : prog bufR ((Z * list byte) + (list byte * option err)) :=
  let '(rem, buf) := st in
  if rem >? 0 then
    size <- call BSize ;;
    '(c, e) <- next (Z.min rem size) ;;
    let buf := buf ++ c in
    let rem := rem - zlen c in
    match e with
    | Some e =>
        Ret (inr (buf, if negb (rem =? n) && is_eof (Some e)
                       then Some EUnexpectedEOF else Some e))
    | None => Ret (inl (rem, buf))
    end
  else Ret (inr (buf, None)).

Definition read_chunks (n : Z) (buf : list byte) : prog bufR (list byte * option err) :=
  x <- loop_Z n (read_chunks_body n) (n, buf) ;;
  match x with
  | inr r => Ret r
  | inl (rem, buf) => if rem >? 0 then Crash OutOfFuel else Ret (buf, None)
  end.

(** bufio.go:47-65 ReadBytes *)
Definition read_bytes (n : Z) (buf : list byte) : prog bufR (list byte * option err) :=
  size <- call BSize ;;
  if size >=? n then
    '(c, e) <- next n ;; Ret (buf ++ c, e)
  else read_chunks n buf.

(** bufio.go:24-43 ReadString (same code with a strings.Builder) *)
Definition read_string (n : Z) : prog bufR (list byte * option err) :=
  size <- call BSize ;;
  if size >=? n then
    '(c, e) <- next n ;; Ret (c, e)
  else read_chunks n [].

(** ** encoding/thriftwire/varint.go *)

(** varint.go:9-17 ReadUvarint *)
Definition tw_read_uvarint : prog bufR (Z * option err) :=
  '(buf, _) <- call (BPeek MaxVarintLen64) ;;
  let '(x, n) := uvarint buf in
  if (0 <? zlen buf) && (0 <? n) then
    '(_, e) <- call (BDiscard n) ;; Ret (x, e)
  else read_uvarint.

(** varint.go:20-28 ReadVarint *)
Definition tw_read_varint : prog bufR (Z * option err) :=
  '(buf, _) <- call (BPeek MaxVarintLen64) ;;
  let '(x, n) := varint buf in
  if (0 <? zlen buf) && (0 <? n) then
    '(_, e) <- call (BDiscard n) ;; Ret (x, e)
  else read_varint.

(** ** encoding/thriftwire/skip.go:4-82 Skip

    [fuel] bounds the recursion depth and the number of fields of one struct;
    Go has no such bound ([OutOfFuel] stands for exceeding it). *)

(** skip.go:26-40: one iteration of the field loop *)
Definition skip_field (skip : Z -> prog wireR (option err)) (_ : unit)
  : prog wireR (unit + option err) :=
  '(h, e) <- call RFieldBegin ;;
  match e with
  | Some _ => Ret (inr e)
  | None =>
      if fh_type h =? T_Stop then
        (e <- call RStructEnd ;; Ret (inr e))       (* break; skip.go:41 *)
      else
        e <- skip (fh_type h) ;;
        match e with
        | Some _ => Ret (inr e)
        | None =>
            e <- call RFieldEnd ;;
            match e with Some _ => Ret (inr e) | None => Ret (inl tt) end
        end
  end.

(** skip.go:61-65, 72-76: one iteration of an element loop *)
Definition skip_elem (p : prog wireR (option err)) (_ : unit) : prog wireR (unit + option err) :=
  e <- p ;; match e with Some _ => Ret (inr e) | None => Ret (inl tt) end.

(** [for i := 0; i < n; i++ { if err := p; err != nil { return err } }; return q] *)
Definition skip_loop (n : Z) (p q : prog wireR (option err)) : prog wireR (option err) :=
  x <- loop_Z n (skip_elem p) tt ;;
  match x with inr e => Ret e | inl _ => q end.

Fixpoint skip (fuel : nat) (t : Z) : prog wireR (option err) :=
  match fuel with
  | O => Crash OutOfFuel
  | S f =>
      match kind_of t with
      | None => Ret (Some (EInvalidType t))
      | Some KBool => '(_, e) <- call RBool ;; Ret e
      | Some KByte => '(_, e) <- call RByte ;; Ret e
      | Some KDouble => '(_, e) <- call RDouble ;; Ret e
      | Some KI16 => '(_, e) <- call RI16 ;; Ret e
      | Some KI32 => '(_, e) <- call RI32 ;; Ret e
      | Some KI64 => '(_, e) <- call RI64 ;; Ret e
      | Some KString => call RSkipString
      | Some KStruct =>
          '(_, e) <- call RStructBegin ;;
          match e with
          | Some _ => Ret e
          | None =>
              x <- loop_nat fuel (skip_field (skip f)) tt ;;
              match x with inr e => Ret e | inl _ => Crash OutOfFuel end
          end
      | Some KMap =>
          '(h, e) <- call RMapBegin ;;
          match e with
          | Some _ => Ret e
          | None =>
              skip_loop (map_size h) (skip f (map_key h) >>! skip f (map_val h)) (call RMapEnd)
          end
      | Some KSet =>
          '(h, e) <- call RSetBegin ;;
          match e with
          | Some _ => Ret e
          | None => skip_loop (set_size h) (skip f (set_elem h)) (call RSetEnd)
          end
      | Some KList =>
          '(h, e) <- call RListBegin ;;
          match e with
          | Some _ => Ret e
          | None => skip_loop (set_size h) (skip f (set_elem h)) (call RListEnd)
          end
      | Some KUUID => call RSkipUUID
      end
  end.
