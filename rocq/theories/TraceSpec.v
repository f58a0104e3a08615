(** Which calls a Writer gets for a Go value (specification), stated without the
    codecs. *)
From Coq Require Import Strings.String Sorting.Sorted.
From Verif Require Import Base Wire Spec GoFloat Utf8 GoType Fields ArshalSpec ArshalEnc TagProof MapSpec.
Local Open Scope list_scope.

Section Trace.
Context (env : tenv).

(** [says t v cs]: the value [v] of type [t] is written with the calls [cs]. *)
Inductive says : rtype -> gval -> list wcall -> Prop :=
| sy_bool t b : under env t = RtBool -> says t (GBool b) [CBool b]
| sy_int8 t z : under env t = RtInt8 \/ under env t = RtUint8 -> says t (GInt z) [CByte (z2b z)]
| sy_int16 t z : under env t = RtInt16 -> says t (GInt z) [CI16 z]
| sy_int32 t z : under env t = RtInt32 -> says t (GInt z) [CI32 z]
| sy_int64 t z : under env t = RtInt64 -> says t (GInt z) [CI64 z]
| sy_uint16 t z : under env t = RtUint16 -> says t (GInt z) [CI16 (as_signed 16 z)]
| sy_uint32 t z : under env t = RtUint32 -> says t (GInt z) [CI32 (as_signed 32 z)]
| sy_uint64 t z : under env t = RtUint64 -> says t (GInt z) [CI64 (as_signed 64 z)]
| sy_float32 t x : under env t = RtFloat32 -> says t (GF32 x) [CDouble (f32_to_f64 x)]
| sy_float64 t x : under env t = RtFloat64 -> says t (GF64 x) [CDouble x]
| sy_string t s : under env t = RtString -> says t (GString s) [CString s]
| sy_bytes t nl s sp : byte_slice env t -> says t (GBytes nl s sp) [CBytes s]
| sy_uuid u : says (RtArray 16 RtUint8) (GUUID u) [CUUID u]
| sy_list t e k nl es sp css : under env t = RtSlice e -> ~ byte_slice env t -> implements_set env t = false ->
    thrift_type env e k -> Forall2 (says e) es css ->
    says t (GSlice nl es sp) (CListBegin (mkSetH k (zlen es)) :: concat css ++ [CListEnd])
| sy_set t e k nl es sp css : under env t = RtSlice e -> implements_set env t = true ->
    thrift_type env e k -> Forall2 (says e) es css ->
    says t (GSlice nl es sp) (CSetBegin (mkSetH k (zlen es)) :: concat css ++ [CSetEnd])
(* each key before its value; [o] is the order in which Go visits the map *)
| sy_map t k e kk ke o css : under env t = RtMap k e -> thrift_type env k kk -> thrift_type env e ke ->
    let es := match o with Some es => es | None => [] end in
    Forall2 (fun p q => says k (fst p) (fst q) /\ says e (snd p) (snd q)) es css ->
    says t (GMap o) (CMapBegin (mkMapH kk ke (zlen es)) :: concat (map (fun q => fst q ++ snd q) css) ++ [CMapEnd])
| sy_ptr t e v cs : under env t = RtPtr e -> says e v cs -> says t (GPtr (Some v)) cs
| sy_nil t e cs : under env t = RtPtr e -> says e (zero env e) cs -> says t (GPtr None) cs
(* the name of the Go type; the fields that are sent, each once, with the name,
   the type and the ID of the field, in the order of their ids *)
| sy_struct t s vs js l : under env t = RtStruct s ->
    NoDup js ->
    (forall j, In j js <-> exists sf v, nth_error (te_struct env s) j = Some sf /\ nth_error vs j = Some v /\ sent env sf v) ->
    Forall2 (fun j p => exists sf v req k, nth_error (te_struct env s) j = Some sf /\ nth_error vs j = Some v /\
               declares env sf (fh_id (fst p)) req /\ thrift_type env (sf_type sf) k /\
               fst p = mkFH (sf_name sf) k (fh_id (fst p)) /\ says (sf_type sf) v (snd p)) js l ->
    StronglySorted Z.le (map (fun p => fh_id (fst p)) l) ->
    says t (GStruct vs)
      (CStructBegin (type_name env t) :: concat (map (fun p => CFieldBegin (fst p) :: snd p ++ [CFieldEnd]) l) ++ [CStructEnd]).
End Trace.
