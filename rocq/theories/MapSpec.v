(** Which Thrift value a Go value stands for (specification), stated without the
    codecs. *)
From Coq Require Import Strings.String Sorting.Sorted.
From Verif Require Import Base Wire Spec GoFloat Utf8 GoType Fields ArshalSpec TagProof.

Section Map.
Context (env : tenv).

(** The Go field is declared as the Thrift field [id]: it is exported and its
    tag is an id and options; [req]: "required" is among them. *)
Definition declares (sf : sfield) (id : Z) (req : bool) : Prop :=
  sf_exported sf = true /\
  exists opts, well_formed_tag (te_uni env) (tag_text sf) id opts /\ (req = true <-> In (lit "required") opts).

(** Such a field is sent unless it is zero and not required. *)
Definition sent (sf : sfield) (v : gval) : Prop :=
  exists id req, declares sf id req /\ (req = true \/ zero_field env sf v = false).

(** A slice of bytes, and neither a thrift.Set nor a thrift.List. *)
Definition byte_slice (t : rtype) : Prop :=
  under env t = RtSlice RtUint8 /\ implements_set env t = false /\ implements_list env t = false.

(** The Thrift type of a Go type. *)
Inductive thrift_type : rtype -> Z -> Prop :=
| tt_bool t : under env t = RtBool -> thrift_type t T_Bool
| tt_byte t : under env t = RtInt8 \/ under env t = RtUint8 -> thrift_type t T_Byte
| tt_i16 t : under env t = RtInt16 \/ under env t = RtUint16 -> thrift_type t T_I16
| tt_i32 t : under env t = RtInt32 \/ under env t = RtUint32 -> thrift_type t T_I32
| tt_i64 t : under env t = RtInt64 \/ under env t = RtUint64 -> thrift_type t T_I64
| tt_double t : under env t = RtFloat32 \/ under env t = RtFloat64 -> thrift_type t T_Double
| tt_string t : under env t = RtString -> thrift_type t T_String
| tt_bytes t : byte_slice t -> thrift_type t T_String
| tt_uuid : thrift_type (RtArray 16 RtUint8) T_UUID
| tt_list t e : under env t = RtSlice e -> ~ byte_slice t -> implements_set env t = false -> thrift_type t T_List
| tt_set t e : under env t = RtSlice e -> implements_set env t = true -> thrift_type t T_Set
| tt_map t k e : under env t = RtMap k e -> thrift_type t T_Map
| tt_struct t s : under env t = RtStruct s -> thrift_type t T_Struct
| tt_ptr t e k : under env t = RtPtr e -> thrift_type e k -> thrift_type t k.

(** The signed number with the same bits. *)
Definition as_signed (bits z : Z) : Z := if z <? 2 ^ (bits - 1) then z else z - 2 ^ bits.

(** [stands_for t v tv]: the value [v] of type [t] is the Thrift value [tv]. *)
Inductive stands_for : rtype -> gval -> tval -> Prop :=
| sf_bool t b : under env t = RtBool -> stands_for t (GBool b) (VBool b)
| sf_int8 t z : under env t = RtInt8 \/ under env t = RtUint8 -> stands_for t (GInt z) (VByte (z2b z))
| sf_int16 t z : under env t = RtInt16 -> stands_for t (GInt z) (VI16 z)
| sf_int32 t z : under env t = RtInt32 -> stands_for t (GInt z) (VI32 z)
| sf_int64 t z : under env t = RtInt64 -> stands_for t (GInt z) (VI64 z)
| sf_uint16 t z : under env t = RtUint16 -> stands_for t (GInt z) (VI16 (as_signed 16 z))
| sf_uint32 t z : under env t = RtUint32 -> stands_for t (GInt z) (VI32 (as_signed 32 z))
| sf_uint64 t z : under env t = RtUint64 -> stands_for t (GInt z) (VI64 (as_signed 64 z))
| sf_float32 t x : under env t = RtFloat32 -> stands_for t (GF32 x) (VDouble (f32_to_f64 x))
| sf_float64 t x : under env t = RtFloat64 -> stands_for t (GF64 x) (VDouble x)
| sf_string t s : under env t = RtString -> stands_for t (GString s) (VString s)
| sf_bytes t nl s sp : byte_slice t -> stands_for t (GBytes nl s sp) (VString s)
| sf_uuid u : stands_for (RtArray 16 RtUint8) (GUUID u) (VUUID u)
| sf_list t e k nl es sp tvs : under env t = RtSlice e -> ~ byte_slice t -> implements_set env t = false ->
    thrift_type e k -> Forall2 (stands_for e) es tvs -> stands_for t (GSlice nl es sp) (VList k tvs)
| sf_set t e k nl es sp tvs : under env t = RtSlice e -> implements_set env t = true ->
    thrift_type e k -> Forall2 (stands_for e) es tvs -> stands_for t (GSlice nl es sp) (VSet k tvs)
| sf_map t k e kk ke o tvs : under env t = RtMap k e -> thrift_type k kk -> thrift_type e ke ->
    Forall2 (fun p q => stands_for k (fst p) (fst q) /\ stands_for e (snd p) (snd q))
      (match o with Some es => es | None => [] end) tvs ->
    stands_for t (GMap o) (VMap kk ke tvs)
| sf_ptr t e v tv : under env t = RtPtr e -> stands_for e v tv -> stands_for t (GPtr (Some v)) tv
| sf_nil t e tv : under env t = RtPtr e -> stands_for e (zero env e) tv -> stands_for t (GPtr None) tv
(* the fields that are sent, each once, in the order of their ids *)
| sf_struct t s vs js l : under env t = RtStruct s ->
    NoDup js ->
    (forall j, In j js <-> exists sf v, nth_error (te_struct env s) j = Some sf /\ nth_error vs j = Some v /\ sent sf v) ->
    Forall2 (fun j p => exists sf v req, nth_error (te_struct env s) j = Some sf /\ nth_error vs j = Some v /\
                          declares sf (fst p) req /\ stands_for (sf_type sf) v (snd p)) js l ->
    StronglySorted Z.le (map fst l) ->
    stands_for t (GStruct vs) (VStruct l).
End Map.
