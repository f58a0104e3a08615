(** Thrift values, independent of any encoding, and the two encodings as
    published by Apache Thrift (doc/specs/thrift-binary-protocol.md and
    doc/specs/thrift-compact-protocol.md), written from those documents and
    not from the repository. *)
From Verif Require Import Base.

(** ** Values.  A double is its IEEE 754 bit pattern.  Type numbers [t] are
    those of the Thrift IDL runtime (TType). *)
Inductive tval : Type :=
| VBool (b : bool)
| VByte (b : byte)
| VDouble (bits : Z)
| VI16 (z : Z)
| VI32 (z : Z)
| VI64 (z : Z)
| VString (s : list byte)
| VUUID (u : list byte)
| VStruct (fields : list (Z * tval))
| VMap (kt vt : Z) (entries : list (tval * tval))
| VSet (et : Z) (elems : list tval)
| VList (et : Z) (elems : list tval).

(** TType: BOOL 2, I8 3, DOUBLE 4, I16 6, I32 8, I64 10, STRING/BINARY 11,
    STRUCT 12, MAP 13, SET 14, LIST 15, UUID 16. *)
Definition val_type (v : tval) : Z :=
  match v with
  | VBool _ => 2 | VByte _ => 3 | VDouble _ => 4 | VI16 _ => 6 | VI32 _ => 8
  | VI64 _ => 10 | VString _ => 11 | VStruct _ => 12 | VMap _ _ _ => 13
  | VSet _ _ => 14 | VList _ _ => 15 | VUUID _ => 16
  end.

(** The type numbers of values. *)
Definition value_types : list Z := [2; 3; 4; 6; 8; 10; 11; 12; 13; 14; 15; 16].

(** A value of the Thrift data model: numbers in range, a UUID has 16 bytes,
    collections are homogeneous and have fewer than [lim] elements, their
    element types are types of values.  An empty map may give any types. *)
Fixpoint wf (lim : Z) (v : tval) : Prop :=
  match v with
  | VBool _ => True
  | VByte _ => True
  | VDouble z => is_u64 z
  | VI16 z => is_i16 z
  | VI32 z => is_i32 z
  | VI64 z => is_i64 z
  | VString s => zlen s < lim
  | VUUID u => length u = 16%nat
  | VStruct fs =>
      (fix fields (fs : list (Z * tval)) : Prop :=
         match fs with
         | [] => True
         | (id, v) :: r => (is_i16 id /\ wf lim v) /\ fields r
         end) fs
  | VMap kt vt es =>
      zlen es < lim /\ is_u8 kt /\ is_u8 vt /\
      (fix entries (es : list (tval * tval)) : Prop :=
         match es with
         | [] => True
         | (k, v) :: r =>
             (val_type k = kt /\ val_type v = vt /\ wf lim k /\ wf lim v) /\ entries r
         end) es
  | VSet et es | VList et es =>
      zlen es < lim /\ In et value_types /\
      (fix elems (es : list tval) : Prop :=
         match es with
         | [] => True
         | v :: r => (val_type v = et /\ wf lim v) /\ elems r
         end) es
  end.

(** ** Binary protocol *)

(** [n]-byte big-endian two's complement. *)
Fixpoint big_endian (n : nat) (z : Z) : list byte :=
  match n with
  | O => []
  | S m => big_endian m (z / 256) ++ [z2b z]
  end.

Fixpoint binary_encoding (v : tval) : list byte :=
  match v with
  | VBool b => [if b then x01 else x00]
  | VByte b => [b]
  | VDouble z => big_endian 8 z
  | VI16 z => big_endian 2 z
  | VI32 z => big_endian 4 z
  | VI64 z => big_endian 8 z
  | VString s => big_endian 4 (zlen s) ++ s
  | VUUID u => u
  | VStruct fs =>
      flat_map (fun f => let '(id, v) := f in
                  [z2b (val_type v)] ++ big_endian 2 id ++ binary_encoding v) fs
      ++ [x00]
  | VMap kt vt es =>
      [z2b kt; z2b vt] ++ big_endian 4 (zlen es)
      ++ flat_map (fun e => let '(k, v) := e in binary_encoding k ++ binary_encoding v) es
  | VSet et es | VList et es =>
      [z2b et] ++ big_endian 4 (zlen es) ++ flat_map binary_encoding es
  end.

(** Message headers: strict (versioned) and old (non-strict). *)
Definition binary_message_strict (name : list byte) (mtype id : Z) : list byte :=
  [x80; x01; x00; z2b mtype] ++ big_endian 4 (zlen name) ++ name ++ big_endian 4 id.
Definition binary_message_old (name : list byte) (mtype id : Z) : list byte :=
  big_endian 4 (zlen name) ++ name ++ [z2b mtype] ++ big_endian 4 id.

(** ** Compact protocol *)

(** ULEB128: 7 bits per byte, least significant group first, high bit set on
    all but the last byte. *)
Inductive uleb128 : Z -> list byte -> Prop :=
| uleb_last z : 0 <= z < 128 -> uleb128 z [z2b z]
| uleb_more z l : 128 <= z -> uleb128 (z / 128) l -> uleb128 z (z2b (128 + z mod 128) :: l).

(** What a varint means, canonical or not: the byte string [l] is one complete
    varint with value [v] (no bound on its length). *)
Inductive leb_value : list byte -> Z -> Prop :=
| lv_last b : b2z b < 128 -> leb_value [b] (b2z b)
| lv_more b l v : 128 <= b2z b -> leb_value l v -> leb_value (b :: l) (b2z b - 128 + 128 * v).

(** Zigzag: 0, -1, 1, -2, 2, ... become 0, 1, 2, 3, 4, ... *)
Definition zigzag_spec (z : Z) : Z := if z <? 0 then -2 * z - 1 else 2 * z.

(** Type numbers used in compact list, set, map and field headers. *)
Definition compact_type (t : Z) : Z :=
  match t with
  | 2 => 2    (* BOOL in collections; in fields see below *)
  | 3 => 3 | 6 => 4 | 8 => 5 | 10 => 6 | 4 => 7 | 11 => 8 | 15 => 9
  | 14 => 10 | 13 => 11 | 12 => 12 | 16 => 13
  | _ => 0
  end.

(** A field header: type in the low nibble (booleans carry their value: 1 true,
    2 false) and the id delta in the high nibble if it is 1..15, else a zero
    high nibble and the zigzag varint of the id. *)
Definition field_type (v : tval) : Z :=
  match v with
  | VBool true => 1
  | VBool false => 2
  | _ => compact_type (val_type v)
  end.

Inductive compact_field (last id t : Z) : list byte -> Prop :=
| cf_short : 1 <= id - last <= 15 ->
    compact_field last id t [z2b (16 * (id - last) + t)]
| cf_long l : ~ (1 <= id - last <= 15) -> uleb128 (zigzag_spec id) l ->
    compact_field last id t (z2b t :: l).

(** A list or set header: size in the high nibble if below 15, else 15 there
    and the size as a varint. *)
Inductive compact_seq (n t : Z) : list byte -> Prop :=
| cs_short : n < 15 -> compact_seq n t [z2b (16 * n + t)]
| cs_long l : 15 <= n -> uleb128 n l -> compact_seq n t (z2b (240 + t) :: l).

(** An empty map is a single zero byte; otherwise the size and the two types. *)
Inductive compact_map (n kt vt : Z) : list byte -> Prop :=
| cm_empty : n = 0 -> compact_map n kt vt [x00]
| cm_some l : 0 < n -> uleb128 n l ->
    compact_map n kt vt (l ++ [z2b (16 * compact_type kt + compact_type vt)]).

Fixpoint little_endian (n : nat) (z : Z) : list byte :=
  match n with
  | O => []
  | S m => z2b z :: little_endian m (z / 256)
  end.

(** The field header is a parameter ([field_header last id t l]: field [id] of
    compact type [t] after field [last] is announced by [l]); the published
    protocol is [compact_encoding] below. *)
Section CompactValues.
Variable field_header : Z -> Z -> Z -> list byte -> Prop.

(** [compact_enc v l]: outside of a struct field, [v] is encoded as [l]. *)
Inductive compact_enc : tval -> list byte -> Prop :=
| ce_bool b : compact_enc (VBool b) [if b then x01 else x00]
| ce_byte b : compact_enc (VByte b) [b]
| ce_double z : compact_enc (VDouble z) (little_endian 8 z)
| ce_i16 z l : uleb128 (zigzag_spec z) l -> compact_enc (VI16 z) l
| ce_i32 z l : uleb128 (zigzag_spec z) l -> compact_enc (VI32 z) l
| ce_i64 z l : uleb128 (zigzag_spec z) l -> compact_enc (VI64 z) l
| ce_string s l : uleb128 (zlen s) l -> compact_enc (VString s) (l ++ s)
| ce_uuid u : compact_enc (VUUID u) u
| ce_struct fs l : compact_fields 0 fs l -> compact_enc (VStruct fs) l
| ce_map kt vt es h l :
    compact_map (zlen es) kt vt h -> compact_entries es l ->
    compact_enc (VMap kt vt es) (h ++ l)
| ce_set et es h l :
    compact_seq (zlen es) (compact_type et) h -> compact_elems es l ->
    compact_enc (VSet et es) (h ++ l)
| ce_list et es h l :
    compact_seq (zlen es) (compact_type et) h -> compact_elems es l ->
    compact_enc (VList et es) (h ++ l)
(** the fields after the one with id [last] *)
with compact_fields : Z -> list (Z * tval) -> list byte -> Prop :=
| cfs_stop last : compact_fields last [] [x00]
| cfs_field last id v r h l m :
    field_header last id (field_type v) h -> compact_field_value v l ->
    compact_fields id r m -> compact_fields last ((id, v) :: r) (h ++ l ++ m)
(** the value of a field: empty for booleans *)
with compact_field_value : tval -> list byte -> Prop :=
| cfv_bool b : compact_field_value (VBool b) []
| cfv_other v l : val_type v <> 2 -> compact_enc v l -> compact_field_value v l
with compact_elems : list tval -> list byte -> Prop :=
| cel_nil : compact_elems [] []
| cel_cons v r l m : compact_enc v l -> compact_elems r m -> compact_elems (v :: r) (l ++ m)
with compact_entries : list (tval * tval) -> list byte -> Prop :=
| cen_nil : compact_entries [] []
| cen_cons k v r a b m :
    compact_enc k a -> compact_enc v b -> compact_entries r m ->
    compact_entries ((k, v) :: r) (a ++ b ++ m).
End CompactValues.

Definition compact_encoding : tval -> list byte -> Prop := compact_enc compact_field.

(** Message header: protocol id 0x82, version 1 in the low five bits and the
    message type in the high three, the sequence id as a varint of its 32-bit
    unsigned value, the name. *)
Inductive compact_message (name : list byte) (mtype id : Z) : list byte -> Prop :=
| cmsg l m : uleb128 (id mod 2 ^ 32) l -> uleb128 (zlen name) m ->
    compact_message name mtype id ([x82; z2b (1 + 32 * mtype)] ++ l ++ m ++ name).

(** ** Induction over values *)
Section Ind.
Variable P : tval -> Prop.
Hypothesis Hbool : forall b, P (VBool b).
Hypothesis Hbyte : forall b, P (VByte b).
Hypothesis Hdouble : forall z, P (VDouble z).
Hypothesis Hi16 : forall z, P (VI16 z).
Hypothesis Hi32 : forall z, P (VI32 z).
Hypothesis Hi64 : forall z, P (VI64 z).
Hypothesis Hstring : forall s, P (VString s).
Hypothesis Huuid : forall u, P (VUUID u).
Hypothesis Hstruct : forall fs, Forall (fun f => P (snd f)) fs -> P (VStruct fs).
Hypothesis Hmap : forall kt vt es,
  Forall (fun e => P (fst e) /\ P (snd e)) es -> P (VMap kt vt es).
Hypothesis Hset : forall et es, Forall P es -> P (VSet et es).
Hypothesis Hlist : forall et es, Forall P es -> P (VList et es).

Fixpoint tval_ind' (v : tval) : P v :=
  match v with
  | VBool b => Hbool b
  | VByte b => Hbyte b
  | VDouble z => Hdouble z
  | VI16 z => Hi16 z
  | VI32 z => Hi32 z
  | VI64 z => Hi64 z
  | VString s => Hstring s
  | VUUID u => Huuid u
  | VStruct fs =>
      Hstruct fs ((fix go fs : Forall (fun f => P (snd f)) fs :=
                     match fs with
                     | [] => Forall_nil _
                     | f :: r => Forall_cons f (tval_ind' (snd f)) (go r)
                     end) fs)
  | VMap kt vt es =>
      Hmap kt vt es ((fix go es : Forall (fun e => P (fst e) /\ P (snd e)) es :=
                        match es with
                        | [] => Forall_nil _
                        | e :: r =>
                            Forall_cons e (conj (tval_ind' (fst e)) (tval_ind' (snd e))) (go r)
                        end) es)
  | VSet et es =>
      Hset et es ((fix go es : Forall P es :=
                     match es with
                     | [] => Forall_nil _
                     | e :: r => Forall_cons e (tval_ind' e) (go r)
                     end) es)
  | VList et es =>
      Hlist et es ((fix go es : Forall P es :=
                     match es with
                     | [] => Forall_nil _
                     | e :: r => Forall_cons e (tval_ind' e) (go r)
                     end) es)
  end.
End Ind.

(** ** Values up to the types of empty maps

    The compact encoding of an empty map does not mention its key and value
    types; [canon] replaces them by 0 throughout. *)
Fixpoint canon (v : tval) : tval :=
  match v with
  | VStruct fs => VStruct (map (fun f => (fst f, canon (snd f))) fs)
  | VMap kt vt [] => VMap 0 0 []
  | VMap kt vt es => VMap kt vt (map (fun e => (canon (fst e), canon (snd e))) es)
  | VSet et es => VSet et (map canon es)
  | VList et es => VList et (map canon es)
  | _ => v
  end.

(** In every struct inside [v], [C prev id] holds of consecutive field ids (the
    first one's predecessor counts as 0). *)
Section Steps.
Variable C : Z -> Z -> Prop.
Fixpoint steps (v : tval) : Prop :=
  match v with
  | VStruct fs =>
      (fix fields (prev : Z) (fs : list (Z * tval)) : Prop :=
         match fs with
         | [] => True
         | (id, v) :: r => C prev id /\ steps v /\ fields id r
         end) 0 fs
  | VMap _ _ es =>
      (fix entries (es : list (tval * tval)) : Prop :=
         match es with [] => True | (k, v) :: r => steps k /\ steps v /\ entries r end) es
  | VSet _ es | VList _ es =>
      (fix elems (es : list tval) : Prop :=
         match es with [] => True | v :: r => steps v /\ elems r end) es
  | _ => True
  end.
End Steps.

(** Does a string occur in the value? *)
Fixpoint has_string (v : tval) : Prop :=
  match v with
  | VString _ => True
  | VStruct fs =>
      (fix fields (fs : list (Z * tval)) : Prop :=
         match fs with [] => False | (_, v) :: r => has_string v \/ fields r end) fs
  | VMap _ _ es =>
      (fix entries (es : list (tval * tval)) : Prop :=
         match es with [] => False | (k, v) :: r => has_string k \/ has_string v \/ entries r end) es
  | VSet _ es | VList _ es =>
      (fix elems (es : list tval) : Prop :=
         match es with [] => False | v :: r => has_string v \/ elems r end) es
  | _ => False
  end.
