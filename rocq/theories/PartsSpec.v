(** The parts of an encoding: the pieces its reader asks the transport for one at a
    time, and what it says when the transport ends in one of them (property C73). *)
From Verif Require Import Base Spec.

(** A piece of an encoding; a [Body] is the contents of a string or a UUID. *)
Inductive part := Part (l : list byte) | Body (l : list byte).
Definition pbytes (p : part) : list byte := match p with Part l | Body l => l end.
Definition bytes_of (ps : list part) : list byte := flat_map pbytes ps.

(** io.EOF after some of the bytes asked for is io.ErrUnexpectedEOF; other errors stay. *)
Definition unexpected (e : err) : err := match e with EEOF => EUnexpectedEOF | _ => e end.

(** [cut_off skipping e ps d er]: of the parts [ps] only the bytes [d] come before the
    transport ends with [e]; [er] is said.  Between two parts it is [e] itself, inside
    of one [unexpected e], but [e] again for whoever skips the contents of a string. *)
Inductive cut_off (skipping : bool) (e : err) : list part -> list byte -> err -> Prop :=
| cut_between a p b : pbytes p <> [] -> cut_off skipping e (a ++ p :: b) (bytes_of a) e
| cut_part a x y b : x <> [] -> y <> [] ->
    cut_off skipping e (a ++ Part (x ++ y) :: b) (bytes_of a ++ x) (unexpected e)
| cut_body a x y b : x <> [] -> y <> [] ->
    cut_off skipping e (a ++ Body (x ++ y) :: b) (bytes_of a ++ x) (if skipping then e else unexpected e).

(** ** Binary protocol: sizes, ids and type bytes are parts of their own. *)
Fixpoint binary_parts (v : tval) : list part :=
  match v with
  | VString s => [Part (big_endian 4 (zlen s)); Body s]
  | VUUID u => [Body u]
  | VStruct fs =>
      flat_map (fun f => let '(id, v) := f in
                  [Part [z2b (val_type v)]; Part (big_endian 2 id)] ++ binary_parts v) fs
      ++ [Part [x00]]
  | VMap kt vt es =>
      [Part [z2b kt]; Part [z2b vt]; Part (big_endian 4 (zlen es))]
      ++ flat_map (fun e => let '(k, v) := e in binary_parts k ++ binary_parts v) es
  | VSet et es | VList et es =>
      [Part [z2b et]; Part (big_endian 4 (zlen es))] ++ flat_map binary_parts es
  | VBool _ | VByte _ | VDouble _ | VI16 _ | VI32 _ | VI64 _ => [Part (binary_encoding v)]
  end.

Definition binary_strict_parts (name : list byte) (mtype id : Z) : list part :=
  [Part [x80; x01; x00; z2b mtype]; Part (big_endian 4 (zlen name)); Body name; Part (big_endian 4 id)].
Definition binary_old_parts (name : list byte) (mtype id : Z) : list part :=
  [Part (big_endian 4 (zlen name)); Body name; Part [z2b mtype]; Part (big_endian 4 id)].

(** ** Compact protocol: each varint is a part, and each byte beside one. *)
Inductive compact_field_parts (last id t : Z) : list part -> Prop :=
| pf_short : 1 <= id - last <= 15 ->
    compact_field_parts last id t [Part [z2b (16 * (id - last) + t)]]
| pf_long l : ~ (1 <= id - last <= 15) -> uleb128 (zigzag_spec id) l ->
    compact_field_parts last id t [Part [z2b t]; Part l].

Inductive compact_seq_parts (n t : Z) : list part -> Prop :=
| ps_short : n < 15 -> compact_seq_parts n t [Part [z2b (16 * n + t)]]
| ps_long l : 15 <= n -> uleb128 n l -> compact_seq_parts n t [Part [z2b (240 + t)]; Part l].

Inductive compact_map_parts (n kt vt : Z) : list part -> Prop :=
| pm_empty : n = 0 -> compact_map_parts n kt vt [Part [x00]]
| pm_some l : 0 < n -> uleb128 n l ->
    compact_map_parts n kt vt [Part l; Part [z2b (16 * compact_type kt + compact_type vt)]].

Inductive compact_parts : tval -> list part -> Prop :=
| cp_bool b : compact_parts (VBool b) [Part [if b then x01 else x00]]
| cp_byte b : compact_parts (VByte b) [Part [b]]
| cp_double z : compact_parts (VDouble z) [Part (little_endian 8 z)]
| cp_i16 z l : uleb128 (zigzag_spec z) l -> compact_parts (VI16 z) [Part l]
| cp_i32 z l : uleb128 (zigzag_spec z) l -> compact_parts (VI32 z) [Part l]
| cp_i64 z l : uleb128 (zigzag_spec z) l -> compact_parts (VI64 z) [Part l]
| cp_string s l : uleb128 (zlen s) l -> compact_parts (VString s) [Part l; Body s]
| cp_uuid u : compact_parts (VUUID u) [Body u]
| cp_struct fs l : compact_fields_parts 0 fs l -> compact_parts (VStruct fs) l
| cp_map kt vt es h l :
    compact_map_parts (zlen es) kt vt h -> compact_entries_parts es l ->
    compact_parts (VMap kt vt es) (h ++ l)
| cp_set et es h l :
    compact_seq_parts (zlen es) (compact_type et) h -> compact_elems_parts es l ->
    compact_parts (VSet et es) (h ++ l)
| cp_list et es h l :
    compact_seq_parts (zlen es) (compact_type et) h -> compact_elems_parts es l ->
    compact_parts (VList et es) (h ++ l)
with compact_fields_parts : Z -> list (Z * tval) -> list part -> Prop :=
| cfp_stop last : compact_fields_parts last [] [Part [x00]]
| cfp_field last id v r h l m :
    compact_field_parts last id (field_type v) h -> compact_value_parts v l ->
    compact_fields_parts id r m -> compact_fields_parts last ((id, v) :: r) (h ++ l ++ m)
(** a boolean is in the header of its field *)
with compact_value_parts : tval -> list part -> Prop :=
| cvp_bool b : compact_value_parts (VBool b) []
| cvp_other v l : val_type v <> 2 -> compact_parts v l -> compact_value_parts v l
with compact_elems_parts : list tval -> list part -> Prop :=
| cep_nil : compact_elems_parts [] []
| cep_cons v r l m : compact_parts v l -> compact_elems_parts r m -> compact_elems_parts (v :: r) (l ++ m)
with compact_entries_parts : list (tval * tval) -> list part -> Prop :=
| cnp_nil : compact_entries_parts [] []
| cnp_cons k v r a b m :
    compact_parts k a -> compact_parts v b -> compact_entries_parts r m ->
    compact_entries_parts ((k, v) :: r) (a ++ b ++ m).

Inductive compact_message_parts (name : list byte) (mtype id : Z) : list part -> Prop :=
| pmsg l m : uleb128 (id mod 2 ^ 32) l -> uleb128 (zlen name) m ->
    compact_message_parts name mtype id [Part [x82]; Part [z2b (1 + 32 * mtype)]; Part l; Part m; Body name].
