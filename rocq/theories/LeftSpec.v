(** What is in a variable after an Unmarshal that was cut off (specification),
    stated without the codecs. *)
From Verif Require Import Base Wire Spec GoFloat Utf8 GoType Fields ArshalSpec TagProof MapSpec StoreSpec.

(** How much of a value has come. *)
Inductive place : Type :=
| Start            (* not the whole of a scalar or string, or of the header of a map, set or list *)
| Uuid (k : nat)   (* the first [k] bytes of a UUID *)
| Between          (* not the next field header *)
| Inside (p : place)(* [p] of the next element, or of the value of the next field *)
| InKey (p : place) | InValue (p : place)   (* [p] of the next key; the next key and [p] of its value *)
| Next (p : place). (* one field, element or entry, and [p] of the others *)

(** ** In bytes *)
Record format := mkFormat {
  fm_enc : tval -> list byte -> Prop;
  fm_field : Z -> Z -> tval -> list byte -> Prop;   (* header of a field: last id, id, value *)
  fm_value : tval -> list byte -> Prop;             (* value of a field *)
  fm_map : Z -> Z -> Z -> list byte -> Prop;        (* header of a map: size, types *)
  fm_seq : Z -> Z -> list byte -> Prop }.           (* header of a set or list: size, type *)

Definition binary_format : format := mkFormat
  (fun v l => l = binary_encoding v)
  (fun _ id v h => h = [z2b (val_type v)] ++ big_endian 2 id)
  (fun v l => l = binary_encoding v)
  (fun n kt vt h => h = [z2b kt; z2b vt] ++ big_endian 4 n)
  (fun n et h => h = [z2b et] ++ big_endian 4 n).
Definition compact_format : format := mkFormat
  compact_encoding
  (fun last id v h => compact_field last id (field_type v) h)
  (compact_field_value compact_field)
  compact_map
  (fun n et h => compact_seq n (compact_type et) h).

(** [d] is a beginning of [l], not all of it. *)
Definition begins (d l : list byte) : Prop := exists q, q <> [] /\ l = d ++ q.

Section Came.
Variable F : format.
(** [came p v d]: of the bytes of [v] only [d] have come, which is [p] of it. *)
Inductive came : place -> tval -> list byte -> Prop :=
| cm_scalar v l d : scalar v -> val_type v <> T_UUID -> fm_enc F v l -> begins d l -> came Start v d
| cm_uuid u d : begins d u -> came (Uuid (length d)) (VUUID u) d
| cm_map0 kt vt es h d : fm_map F (zlen es) kt vt h -> begins d h -> came Start (VMap kt vt es) d
| cm_map p kt vt es h d : fm_map F (zlen es) kt vt h -> came_entries p es d -> came p (VMap kt vt es) (h ++ d)
| cm_set0 et es h d : fm_seq F (zlen es) et h -> begins d h -> came Start (VSet et es) d
| cm_set p et es h d : fm_seq F (zlen es) et h -> came_elems p es d -> came p (VSet et es) (h ++ d)
| cm_list0 et es h d : fm_seq F (zlen es) et h -> begins d h -> came Start (VList et es) d
| cm_list p et es h d : fm_seq F (zlen es) et h -> came_elems p es d -> came p (VList et es) (h ++ d)
| cm_struct p fs d : came_fields p 0 fs d -> came p (VStruct fs) d
with came_fields : place -> Z -> list (Z * tval) -> list byte -> Prop :=
| cmf_stop last : came_fields Between last [] []
| cmf_header last id v r h d : fm_field F last id v h -> begins d h -> came_fields Between last ((id, v) :: r) d
| cmf_in p last id v r h l d : fm_field F last id v h -> fm_value F v l -> begins d l -> came p v d ->
    came_fields (Inside p) last ((id, v) :: r) (h ++ d)
| cmf_next p last id v r h l d : fm_field F last id v h -> fm_value F v l -> came_fields p id r d ->
    came_fields (Next p) last ((id, v) :: r) (h ++ l ++ d)
with came_entries : place -> list (tval * tval) -> list byte -> Prop :=
| cme_key p k v r d : came p k d -> came_entries (InKey p) ((k, v) :: r) d
| cme_value p k v r l d : fm_enc F k l -> came p v d -> came_entries (InValue p) ((k, v) :: r) (l ++ d)
| cme_next p k v r l m d : fm_enc F k l -> fm_enc F v m -> came_entries p r d ->
    came_entries (Next p) ((k, v) :: r) (l ++ m ++ d)
with came_elems : place -> list tval -> list byte -> Prop :=
| cml_in p v r d : came p v d -> came_elems (Inside p) (v :: r) d
| cml_next p v r l d : fm_enc F v l -> came_elems p r d -> came_elems (Next p) (v :: r) (l ++ d).
Scheme came_m := Minimality for came Sort Prop
  with came_fields_m := Minimality for came_fields Sort Prop
  with came_entries_m := Minimality for came_entries Sort Prop
  with came_elems_m := Minimality for came_elems Sort Prop.
Combined Scheme came_mut from came_m, came_fields_m, came_entries_m, came_elems_m.
End Came.

(** ** In the variable *)
Section Left.
Context (env : tenv).

(** [partly p t old tv new]: a variable of type [t] held [old]; after [p] of
    [tv] has been read into it, it holds [new]. *)
Inductive partly : place -> rtype -> gval -> tval -> gval -> Prop :=
(* nothing is stored *)
| pt_start t d tv : (forall e, under env t <> RtPtr e) -> ~ byte_slice env t -> partly Start t d tv d
(* a byte slice keeps its length, but its bytes may be overwritten *)
| pt_bytes t nl s s' sp sp' tv : byte_slice env t -> length s' = length s ->
    partly Start t (GBytes nl s sp) tv (GBytes nl s' sp')
| pt_uuid k old u : partly (Uuid k) (RtArray 16 RtUint8) (GUUID old) (VUUID u) (GUUID (firstn k u ++ skipn k old))
(* the elements that have come, and what has been made of the next *)
| pt_list p t e k nl es0 sp0 tvs es sp : under env t = RtSlice e -> ~ byte_slice env t -> implements_set env t = false ->
    partly_elems p e tvs es -> partly p t (GSlice nl es0 sp0) (VList k tvs) (GSlice false es sp)
| pt_set p t e k nl es0 sp0 tvs es sp : under env t = RtSlice e -> implements_set env t = true ->
    partly_elems p e tvs es -> partly p t (GSlice nl es0 sp0) (VSet k tvs) (GSlice false es sp)
| pt_map p t k e kk ke o tvs es : under env t = RtMap k e ->
    partly_entries p k e (match o with Some es => es | None => [] end) tvs es ->
    partly p t (GMap o) (VMap kk ke tvs) (GMap (Some es))
(* a nil pointer has been set *)
| pt_ptr p t e v tv v' : under env t = RtPtr e -> partly p e v tv v' -> partly p t (GPtr (Some v)) tv (GPtr (Some v'))
| pt_nil p t e tv v' : under env t = RtPtr e -> partly p e (zero env e) tv v' -> partly p t (GPtr None) tv (GPtr (Some v'))
| pt_struct p t s vs l vs' : under env t = RtStruct s -> partly_fields p s vs l vs' -> partly p t (GStruct vs) (VStruct l) (GStruct vs')
with partly_fields : place -> nat -> list gval -> list (Z * tval) -> list gval -> Prop :=
| pf_between s vs l : partly_fields Between s vs l vs
| pf_unknown p s vs id tv r :
    (forall sf req, In sf (te_struct env s) -> ~ declares env sf id req) ->
    partly_fields (Inside p) s vs ((id, tv) :: r) vs
| pf_known p s vs id tv r j sf req v v' :
    nth_error (te_struct env s) j = Some sf -> declares env sf id req ->
    nth_error vs j = Some v -> partly p (sf_type sf) v tv v' ->
    partly_fields (Inside p) s vs ((id, tv) :: r) (set_nth j v' vs)
| pf_next_unknown p s vs id tv r vs' :
    (forall sf req, In sf (te_struct env s) -> ~ declares env sf id req) ->
    partly_fields p s vs r vs' -> partly_fields (Next p) s vs ((id, tv) :: r) vs'
| pf_next p s vs id tv r vs' j sf req v v' :
    nth_error (te_struct env s) j = Some sf -> declares env sf id req ->
    nth_error vs j = Some v -> stores env (sf_type sf) v tv v' ->
    partly_fields p s (set_nth j v' vs) r vs' -> partly_fields (Next p) s vs ((id, tv) :: r) vs'
with partly_entries : place -> rtype -> rtype -> list (gval * gval) -> list (tval * tval) -> list (gval * gval) -> Prop :=
| pe_key p k e es tk tv r : partly_entries (InKey p) k e es ((tk, tv) :: r) es
| pe_value p k e es tk tv r key v :
    stores env k (zero env k) tk key ->
    partly p e (match map_get es key with Some old => old | None => zero env e end) tv v ->
    partly_entries (InValue p) k e es ((tk, tv) :: r) (map_set es key v)
| pe_next p k e es tk tv r key v es' :
    stores env k (zero env k) tk key ->
    stores env e (match map_get es key with Some old => old | None => zero env e end) tv v ->
    partly_entries p k e (map_set es key v) r es' ->
    partly_entries (Next p) k e es ((tk, tv) :: r) es'
with partly_elems : place -> rtype -> list tval -> list gval -> Prop :=
| pl_in p e tv r v : partly p e (zero env e) tv v -> partly_elems (Inside p) e (tv :: r) [v]
| pl_next p e tv r v es : stores env e (zero env e) tv v -> partly_elems p e r es -> partly_elems (Next p) e (tv :: r) (v :: es).
End Left.
