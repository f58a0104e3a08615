(** What Unmarshal stores for a Thrift value (specification), stated without the
    codecs. *)
From Coq Require Import Strings.String.
From Verif Require Import Base Wire Spec GoFloat Utf8 GoType Fields ArshalSpec TagProof MapSpec.

Section Store.
Context (env : tenv).

Definition scalar (tv : tval) : Prop :=
  match tv with VStruct _ | VMap _ _ _ | VSet _ _ | VList _ _ => False | _ => True end.

(** The Thrift value [tv] can be read as type [t]: the types agree, except in
    struct fields that [t] does not declare. *)
Inductive conforms : rtype -> tval -> Prop :=
| cf_scalar t tv : scalar tv -> thrift_type env t (val_type tv) -> conforms t tv
| cf_list t e k tvs : under env t = RtSlice e -> ~ byte_slice env t -> implements_set env t = false ->
    Forall (conforms e) tvs -> conforms t (VList k tvs)
| cf_set t e k tvs : under env t = RtSlice e -> implements_set env t = true ->
    Forall (conforms e) tvs -> conforms t (VSet k tvs)
| cf_map t k e kk ke tvs : under env t = RtMap k e ->
    Forall (fun p => conforms k (fst p) /\ conforms e (snd p)) tvs -> conforms t (VMap kk ke tvs)
| cf_struct t s l : under env t = RtStruct s ->
    Forall (fun p => forall sf req, In sf (te_struct env s) -> declares env sf (fst p) req -> conforms (sf_type sf) (snd p)) l ->
    conforms t (VStruct l)
| cf_ptr t e tv : under env t = RtPtr e -> conforms e tv -> conforms t tv.

(** [stores t old tv new]: reading [tv] into a variable of type [t] that holds
    [old] leaves [new] in it. *)
Inductive stores : rtype -> gval -> tval -> gval -> Prop :=
| st_bool t d b : under env t = RtBool -> stores t d (VBool b) (GBool b)
| st_int8 t d b : under env t = RtInt8 -> stores t d (VByte b) (GInt (as_signed 8 (b2z b)))
| st_uint8 t d b : under env t = RtUint8 -> stores t d (VByte b) (GInt (b2z b))
| st_int16 t d z : under env t = RtInt16 -> stores t d (VI16 z) (GInt z)
| st_uint16 t d z : under env t = RtUint16 -> stores t d (VI16 z) (GInt (z mod 2 ^ 16))
| st_int32 t d z : under env t = RtInt32 -> stores t d (VI32 z) (GInt z)
| st_uint32 t d z : under env t = RtUint32 -> stores t d (VI32 z) (GInt (z mod 2 ^ 32))
| st_int64 t d z : under env t = RtInt64 -> stores t d (VI64 z) (GInt z)
| st_uint64 t d z : under env t = RtUint64 -> stores t d (VI64 z) (GInt (z mod 2 ^ 64))
| st_float32 t d x : under env t = RtFloat32 -> stores t d (VDouble x) (GF32 (f64_to_f32 x))
| st_float64 t d x : under env t = RtFloat64 -> stores t d (VDouble x) (GF64 x)
| st_string t d s : under env t = RtString -> stores t d (VString s) (GString s)
(* a nil slice that receives nothing stays nil *)
| st_bytes t nl s0 sp0 s : byte_slice env t -> stores t (GBytes nl s0 sp0) (VString s) (GBytes (nl && is_nil s) s [])
| st_uuid d u : stores (RtArray 16 RtUint8) d (VUUID u) (GUUID u)
(* the old elements are gone; nothing is said about spare capacity *)
| st_list t e k nl es0 sp0 tvs es sp : under env t = RtSlice e -> ~ byte_slice env t -> implements_set env t = false ->
    Forall2 (stores e (zero env e)) tvs es ->
    stores t (GSlice nl es0 sp0) (VList k tvs) (GSlice (nl && is_nil tvs) es sp)
| st_set t e k nl es0 sp0 tvs es sp : under env t = RtSlice e -> implements_set env t = true ->
    Forall2 (stores e (zero env e)) tvs es ->
    stores t (GSlice nl es0 sp0) (VSet k tvs) (GSlice (nl && is_nil tvs) es sp)
(* entries are added to the old ones *)
| st_map_empty t k e kk ke o : under env t = RtMap k e -> stores t (GMap o) (VMap kk ke []) (GMap o)
| st_map t k e kk ke o tvs es : under env t = RtMap k e -> tvs <> [] ->
    stores_entries k e (match o with Some es => es | None => [] end) tvs es ->
    stores t (GMap o) (VMap kk ke tvs) (GMap (Some es))
(* a pointer is followed, or set to a new variable if nil *)
| st_ptr t e v tv v' : under env t = RtPtr e -> stores e v tv v' -> stores t (GPtr (Some v)) tv (GPtr (Some v'))
| st_nil t e tv v' : under env t = RtPtr e -> stores e (zero env e) tv v' -> stores t (GPtr None) tv (GPtr (Some v'))
| st_struct t s vs l vs' : under env t = RtStruct s -> stores_fields s vs l vs' ->
    stores t (GStruct vs) (VStruct l) (GStruct vs')
(* the key is read into a new variable, the value over the one the map has for
   this key *)
with stores_entries : rtype -> rtype -> list (gval * gval) -> list (tval * tval) -> list (gval * gval) -> Prop :=
| se_nil k e es : stores_entries k e es [] es
| se_cons k e es tk tv r key v es' :
    stores k (zero env k) tk key ->
    stores e (match map_get es key with Some old => old | None => zero env e end) tv v ->
    stores_entries k e (map_set es key v) r es' ->
    stores_entries k e es ((tk, tv) :: r) es'
(* one field after the other; fields not received keep their values *)
with stores_fields : nat -> list gval -> list (Z * tval) -> list gval -> Prop :=
| sf_none s vs : stores_fields s vs [] vs
| sf_unknown s vs id tv r vs' :
    (forall sf req, In sf (te_struct env s) -> ~ declares env sf id req) ->
    stores_fields s vs r vs' -> stores_fields s vs ((id, tv) :: r) vs'
| sf_known s vs id tv r vs' j sf req v v' :
    nth_error (te_struct env s) j = Some sf -> declares env sf id req ->
    nth_error vs j = Some v -> stores (sf_type sf) v tv v' ->
    stores_fields s (set_nth j v' vs) r vs' -> stores_fields s vs ((id, tv) :: r) vs'.
End Store.

(** A value without what lies between the length and the capacity of its
    slices. *)
Fixpoint visible (v : gval) : gval :=
  match v with
  | GBytes nl s _ => GBytes nl s []
  | GSlice nl es _ => GSlice nl (map visible es) []
  | GArray es => GArray (map visible es)
  | GMap o => GMap (option_map (map (fun p => (visible (fst p), visible (snd p)))) o)
  | GPtr o => GPtr (option_map visible o)
  | GStruct vs => GStruct (map visible vs)
  | _ => v
  end.

(** Two types agree if they are the same Thrift type apart from struct fields
    that only one of them declares.  [R] relates their parts. *)
Inductive agree (env : tenv) (R : rtype -> rtype -> Prop) : rtype -> rtype -> Prop :=
| ag_scalar a b k : thrift_type env a k -> thrift_type env b k -> ~ In k [T_Struct; T_Map; T_Set; T_List] -> agree env R a b
| ag_slice a b x y : under env a = RtSlice x -> under env b = RtSlice y -> ~ byte_slice env a -> ~ byte_slice env b ->
    implements_set env a = implements_set env b -> R x y -> agree env R a b
| ag_map a b k x l y : under env a = RtMap k x -> under env b = RtMap l y -> R k l -> R x y -> agree env R a b
| ag_struct a b s u : under env a = RtStruct s -> under env b = RtStruct u ->
    (forall f g id r q, In f (te_struct env s) -> In g (te_struct env u) -> declares env f id r -> declares env g id q ->
       R (sf_type f) (sf_type g)) -> agree env R a b
| ag_left a b x : under env a = RtPtr x -> agree env R x b -> agree env R a b
| ag_right a b y : under env b = RtPtr y -> agree env R a y -> agree env R a b.

(** Types may be recursive, so this is the greatest such relation. *)
Definition compatible (env : tenv) (a b : rtype) : Prop :=
  exists R : rtype -> rtype -> Prop, R a b /\ forall x y, R x y -> agree env R x y.
