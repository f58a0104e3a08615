(** Bytes, fixed-width integers, Go types as data, and error values. *)
From Coq Require Import NArith Strings.String.
From Coq Require Export Strings.Byte.
From Coq Require Export ZArith List Lia Bool.
Export ListNotations.

Global Open Scope Z_scope.
Global Open Scope list_scope.

(** ** Bytes: Go's [byte] is the 256-element type [Byte.byte]. *)

Notation byte := Byte.byte.

(** Value of a byte as an integer in [0, 256). *)
Definition b2z (b : byte) : Z := Z.of_N (Byte.to_N b).

(** Go's conversion [byte(z)]: keeps the low 8 bits. *)
Definition z2b (z : Z) : byte :=
  match Byte.of_N (Z.to_N (z mod 256)) with Some b => b | None => x00 end.

(** [len(l)] of a slice or string as a Go [int]. *)
Definition zlen {A} (l : list A) : Z := Z.of_nat (length l).

(** A Go string literal as bytes. *)
Definition lit (s : string) : list byte := list_byte_of_string s.

(** ** Go's fixed-width integer conversions (two's complement wrap). *)
Definition u8  (z : Z) : Z := z mod 2 ^ 8.
Definition u16 (z : Z) : Z := z mod 2 ^ 16.
Definition u32 (z : Z) : Z := z mod 2 ^ 32.
Definition u64 (z : Z) : Z := z mod 2 ^ 64.
Definition i8  (z : Z) : Z := (z + 2 ^ 7) mod 2 ^ 8 - 2 ^ 7.
Definition i16 (z : Z) : Z := (z + 2 ^ 15) mod 2 ^ 16 - 2 ^ 15.
Definition i32 (z : Z) : Z := (z + 2 ^ 31) mod 2 ^ 32 - 2 ^ 31.
Definition i64 (z : Z) : Z := (z + 2 ^ 63) mod 2 ^ 64 - 2 ^ 63.

(** Ranges of the Go integer types. *)
Definition is_u8  (z : Z) : Prop := 0 <= z < 2 ^ 8.
Definition is_u16 (z : Z) : Prop := 0 <= z < 2 ^ 16.
Definition is_u32 (z : Z) : Prop := 0 <= z < 2 ^ 32.
Definition is_u64 (z : Z) : Prop := 0 <= z < 2 ^ 64.
Definition is_i8  (z : Z) : Prop := - 2 ^ 7 <= z < 2 ^ 7.
Definition is_i16 (z : Z) : Prop := - 2 ^ 15 <= z < 2 ^ 15.
Definition is_i32 (z : Z) : Prop := - 2 ^ 31 <= z < 2 ^ 31.
Definition is_i64 (z : Z) : Prop := - 2 ^ 63 <= z < 2 ^ 63.

(** ** Go types, as data.

    Models [reflect.Type] as far as thrift/arshal_default.go:17-66 and
    thrift/fields.go:34-100 inspect it.  Struct types and other defined
    ("named") types are references into a type environment (see GoType.v), so
    recursive types are expressible.  The element type, direction or signature
    of kinds the code rejects outright (channels, functions, ...) is not
    represented. *)
Inductive rtype : Type :=
| RtBool
| RtInt | RtInt8 | RtInt16 | RtInt32 | RtInt64
| RtUint | RtUint8 | RtUint16 | RtUint32 | RtUint64 | RtUintptr
| RtFloat32 | RtFloat64 | RtComplex64 | RtComplex128
| RtString
| RtUnsafePointer | RtChan | RtFunc | RtInterface
| RtSlice (elem : rtype)
| RtArray (n : Z) (elem : rtype)
| RtMap (key elem : rtype)
| RtPtr (elem : rtype)
| RtStruct (sid : nat)
| RtNamed (id : nat).

(** ** Errors.

    One constructor per error value the code can return.  [EIO n] stands for
    any other error value produced by the transport.  [EWire] is
    thrift/errors.go:12-15 (wireError), [ESemantic] is thrift/errors.go:29-42
    (SemanticError: action, ThriftType, GoType, Err).  [ETag] carries the
    message of the errors built in thrift/fields.go by [fmt.Errorf]; the
    messages are abbreviated to a label (their wording is not modelled). *)
Inductive err : Type :=
| EEOF | EUnexpectedEOF | ENegativeCount | EBufferFull | ENoProgress
| EShortWrite | EOverflow
| EIO (n : nat)
| EInvalidType (t : Z)
| EInvalidCompactType (t : Z)
| EBinBadVersion (v : Z) | EBinMissingVersion
| ECmpBadProtocol (p : Z) | ECmpBadVersion (v : Z)
| EReadStructEnd | EWriteStructEnd
| EBreak
| ENonNilPointer
| ETag (what : string)
| EWire (action : string) (e : err)
| ESemantic (action : string) (ttype : Z) (gotype : option rtype) (e : option err).

(** [err == io.EOF] *)
Definition is_eof (e : option err) : bool :=
  match e with Some EEOF => true | _ => false end.

Definition is_none {A} (o : option A) : bool :=
  match o with None => true | Some _ => false end.

(** How a modelled call can fail to return at all. *)
Inductive crash : Type :=
| Blocked      (* waits forever for the transport *)
| Panicked     (* Go run-time panic *)
| OutOfFuel.   (* model artefact: recursion deeper than the given fuel; in Go,
                  unbounded recursion or looping *)
