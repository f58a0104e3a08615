(** The String methods made by stringer, and the texts of errors. *)
From Coq Require Import Strings.String.
From Verif Require Import Base BaseLemmas Wire Tokens.
Local Open Scope Z_scope.
Local Open Scope list_scope.

(** s[i:j] and a[i] in Go; [None]: run-time panic *)
Definition go_slice (s : list byte) (i j : Z) : option (list byte) :=
  if (0 <=? i) && (i <=? j) && (j <=? zlen s) then Some (slice i j s) else None.
Definition go_index (a : list Z) (i : Z) : option Z := if 0 <=? i then nth_error a (Z.to_nat i) else None.
(** name[index[i]:index[i+1]], with [i] a uint8 *)
Definition entry (name : list byte) (index : list Z) (i : Z) : option (list byte) :=
  match go_index index i, go_index index (u8 (i + 1)) with
  | Some a, Some b => go_slice name a b
  | _, _ => None
  end.
(** "Prefix(" + strconv.FormatInt(int64(i), 10) + ")" *)
Definition numbered (prefix : string) (i : Z) : option (list byte) :=
  Some (lit prefix ++ lit "(" ++ decimal_text i ++ lit ")").

(** encoding/thriftwire/type_string.go:26-56 *)
Definition Type_String (i : Z) : option (list byte) :=
  if i =? 0 then Some (lit "Stop")
  else if (2 <=? i) && (i <=? 4) then entry (lit "BoolByteDouble") [0; 4; 8; 14] (u8 (i - 2))
  else if i =? 6 then Some (lit "I16")
  else if i =? 8 then Some (lit "I32")
  else if (10 <=? i) && (i <=? 16) then entry (lit "I64StringStructMapSetListUUID") [0; 3; 9; 15; 18; 21; 25; 29] (u8 (i - 10))
  else numbered "Type" i.

(** encoding/thriftwire/messagetype_string.go:17-27 *)
Definition MessageType_index : list Z := [0; 4; 9; 18; 24].
Definition MessageType_String (i : Z) : option (list byte) :=
  let i := u8 (i - 1) in
  if u8 (zlen MessageType_index - 1) <=? i then numbered "MessageType" (u8 (i + 1))
  else entry (lit "CallReplyExceptionOneWay") MessageType_index i.

(** encoding/thriftcompact/compacttype_string.go:27-36 *)
Definition compactType_index : list Z := [0; 4; 16; 29; 31; 34; 37; 40; 46; 52; 56; 59; 62; 68; 72].
Definition compactType_String (i : Z) : option (list byte) :=
  if u8 (zlen compactType_index - 1) <=? i then numbered "compactType" i
  else entry (lit "STOPBOOLEAN_TRUEBOOLEAN_FALSEI8I16I32I64DOUBLEBINARYLISTSETMAPSTRUCTUUID") compactType_index i.

(** tools/thriftfile/token_string.go:67-76 *)
Definition token_String (i : Z) : option (list byte) :=
  if u8 (zlen token_index - 1) <=? i then numbered "token" i else entry token_name token_index i.

(** ** Texts of errors *)
(** %x of fmt for a number that is not negative *)
Fixpoint hex_digits (fuel : nat) (n : Z) : list byte :=
  match fuel with
  | O => []
  | S m => (if n <? 16 then [] else hex_digits m (n / 16)) ++
           [z2b (if n mod 16 <? 10 then 48 + n mod 16 else 87 + n mod 16)]
  end.
Definition hex_text (n : Z) : list byte := hex_digits 20 n.
Definition text (o : option (list byte)) : list byte := match o with Some s => s | None => [] end.

(** thrift/errors.go:73-100: the switch over e.ThriftType.  [None]: default. *)
Definition thrift_phrase (t : Z) : option (list byte) :=
  match kind_of t with
  | Some KBool => Some (lit " Thrift bool")
  | Some KByte => Some (lit " Thrift byte")
  | Some KDouble => Some (lit " Thrift double")
  | Some KI16 => Some (lit " Thrift i16")
  | Some KI32 => Some (lit " Thrift i32")
  | Some KI64 => Some (lit " Thrift i64")
  | Some KString => Some (lit " Thrift string")
  | Some KStruct => Some (lit " Thrift struct")
  | Some KMap => Some (lit " Thrift map")
  | Some KSet => Some (lit " Thrift set")
  | Some KList => Some (lit " Thrift list")
  | Some KUUID => Some (lit " Thrift UUID")
  | None => None
  end.

(** thrift/errors.go:44-118 (SemanticError).Error.  [able] says which of the two
    phrases the iteration over the map starts with; [go] is e.GoType.String()
    and [er] is e.Err.Error(), where they are not nil. *)
Definition semantic_text (able : bool) (action : string) (t : Z) (go er : option (list byte)) : list byte :=
  let sb := lit "thrift: " in
  let sb := sb ++ lit (if able then "unable to" else "cannot") in
  let '(sb, preposition) :=
    if String.eqb action "marshal" then (sb ++ lit " marshal", lit " from")
    else if String.eqb action "unmarshal" then (sb ++ lit " unmarshal", lit " into")
    else (sb ++ lit " handle", lit " with") in
  let '(sb, omitPreposition) :=
    match thrift_phrase t with Some p => (sb ++ p, false) | None => (sb, true) end in
  let sb :=
    match go with
    | Some g =>
        let sb := if omitPreposition then sb else sb ++ preposition in
        let sb := sb ++ lit " Go value of type " in
        sb ++ g
    | None => sb
    end in
  match er with Some e => (sb ++ lit ": ") ++ e | None => sb end.

Section Text.
(** reflect.Type's String, and the Error method of errors made elsewhere. *)
Context (go_name : rtype -> list byte) (other : err -> list byte).

(** err.Error(): thrift/errors.go:17-19 and 44-118, thriftwire/types.go:18-20
    and 46-48, thriftcompact/types.go:29-31, the errors.New and fmt.Errorf calls
    at thrift/arshal.go:25 and 57, thriftcompact.go:68, 76, 102, 334,
    thriftbinary.go:78, 88, thriftmemo/memo.go:13, and the standard library's
    io.EOF and the like.  [able n] is the phrase chosen by the [n]th
    SemanticError of the chain. *)
Fixpoint error_text (able : nat -> bool) (e : err) : list byte :=
  match e with
  | EEOF => lit "EOF"
  | EUnexpectedEOF => lit "unexpected EOF"
  | ENegativeCount => lit "bufio: negative count"
  | EBufferFull => lit "bufio: buffer full"
  | ENoProgress => lit "multiple Read calls return no data or error"
  | EShortWrite => lit "short write"
  | EOverflow => lit "binary: varint overflows a 64-bit integer"
  | EInvalidType t => lit "thriftwire: invalid type: " ++ text (Type_String t)
  | EInvalidCompactType t => lit "thriftcompact: invalid type: " ++ text (compactType_String t)
  | EBinBadVersion v => lit "thriftbinary: bad version " ++ hex_text v
  | EBinMissingVersion => lit "thriftbinary: missing version"
  | ECmpBadProtocol p => lit "thriftcompact: bad protocol ID " ++ hex_text p
  | ECmpBadVersion v => lit "thriftcompact: bad version " ++ decimal_text v
  | EReadStructEnd => lit "thriftcompact: ReadStructEnd called without matching ReadStructBegin"
  | EWriteStructEnd => lit "thriftcompact: WriteStructEnd called without matching WriteStructBegin"
  | EBreak => lit "break"
  | ENonNilPointer => lit "value must be passed as a non-nil pointer reference"
  | EIO _ | ETag _ => other e
  | EWire action e' => lit "thrift: " ++ lit action ++ lit ": " ++ error_text able e'
  | ESemantic action t go e' =>
      semantic_text (able O) action t (match go with Some g => Some (go_name g) | None => None end)
        (match e' with Some e' => Some (error_text (fun n => able (S n)) e') | None => None end)
  end.
End Text.

(** errors.Unwrap: thrift/errors.go:21-23 and 120-122.  (An error made by
    fmt.Errorf with %w is [ETag]; what it wraps is not modelled.) *)
Definition unwrap (e : err) : option err :=
  match e with
  | EWire _ e' => Some e'
  | ESemantic _ _ _ e' => e'
  | _ => None
  end.
