(** What a Go value may look like after a trip through Marshal and Unmarshal
    (specification), and the components of a value. *)
From Verif Require Import Base Wire GoFloat Utf8 GoType Fields.

Section Spec.
Context (env : tenv).

(** The struct field [sf] is serialised, with options [o]. *)
Definition tagged (sf : sfield) (o : fieldOptions) : Prop :=
  parse_field_options (te_uni env) sf = (o, false, None).

(** A nil pointer, or a nil interface. *)
Definition nil_ref (t : rtype) (v : gval) : bool :=
  match under env t, v with
  | RtPtr _, GPtr None | RtInterface, GOther O => true
  | _, _ => false
  end.
(** The field is zero.  When its type has an IsZero method, that method decides,
    but it is not called for nil; when only the pointer to the field has one, it
    decides; otherwise the field must hold the zero value of its type. *)
Definition zero_field (sf : sfield) (v : gval) : bool :=
  match te_iszero env (sf_type sf) with
  | Some m => nil_ref (sf_type sf) v || m v
  | None =>
      match te_iszero env (RtPtr (sf_type sf)) with
      | Some m => m (GPtr (Some v))
      | None => is_zero env false v
      end
  end.

(** Marshal includes the field. *)
Definition written (sf : sfield) (v : gval) : Prop :=
  exists o, tagged sf o /\ (fo_required o = true \/ zero_field sf v = false).

Definition is_nil {A} (l : list A) : bool := match l with [] => true | _ => false end.

(** [trip t v v']: the value [v] of type [t] may come back as [v']. *)
Inductive trip : rtype -> gval -> gval -> Prop :=
(* scalars come back as they were, except that a signalling NaN becomes quiet *)
| trip_bool t b : trip t (GBool b) (GBool b)
| trip_int t z : trip t (GInt z) (GInt z)
| trip_f64 t x : trip t (GF64 x) (GF64 x)
| trip_f32 t x : trip t (GF32 x) (GF32 (if f32_snan x then x + 2 ^ 22 else x))
| trip_string t s : trip t (GString s) (GString s)
| trip_uuid t u : trip t (GUUID u) (GUUID u)
(* empty slices and maps come back nil *)
| trip_bytes t nl s sp sp' : trip t (GBytes nl s sp) (GBytes (is_nil s) s sp')
| trip_slice t e nl es sp es' sp' : under env t = RtSlice e -> Forall2 (trip e) es es' ->
    trip t (GSlice nl es sp) (GSlice (is_nil es) es' sp')
| trip_map_nil t : trip t (GMap None) (GMap None)
| trip_map_empty t : trip t (GMap (Some [])) (GMap None)
| trip_map t k e es es' : under env t = RtMap k e -> es <> [] ->
    Forall2 (fun p q => trip k (fst p) (fst q) /\ trip e (snd p) (snd q)) es es' ->
    trip t (GMap (Some es)) (GMap (Some es'))
(* a pointer comes back as a new pointer; a nil pointer that is written comes
   back as a pointer to a zero value *)
| trip_ptr t e v v' : under env t = RtPtr e -> trip e v v' -> trip t (GPtr (Some v)) (GPtr (Some v'))
| trip_nil t e v' : under env t = RtPtr e -> trip e (zero env e) v' -> trip t (GPtr None) (GPtr (Some v'))
(* fields that are not written come back zero *)
| trip_struct t s vs vs' : under env t = RtStruct s ->
    length vs' = length vs ->
    (forall i sf v v', nth_error (te_struct env s) i = Some sf ->
       nth_error vs i = Some v -> nth_error vs' i = Some v' ->
       (written sf v -> trip (sf_type sf) v v') /\
       (~ written sf v -> v' = zero env (sf_type sf))) ->
    trip t (GStruct vs) (GStruct vs').

(** [inside v t x u]: [x], of type [u], is a component of [v], of type [t]. *)
Inductive inside : gval -> rtype -> gval -> rtype -> Prop :=
| in_self v t : inside v t v t
| in_slice t e nl es sp w x u : under env t = RtSlice e -> In w es -> inside w e x u ->
    inside (GSlice nl es sp) t x u
| in_key t kt e es k w x u : under env t = RtMap kt e -> In (k, w) es -> inside k kt x u ->
    inside (GMap (Some es)) t x u
| in_val t kt e es k w x u : under env t = RtMap kt e -> In (k, w) es -> inside w e x u ->
    inside (GMap (Some es)) t x u
| in_ptr t e w x u : under env t = RtPtr e -> inside w e x u -> inside (GPtr (Some w)) t x u
| in_field t s i sf vs w x u : under env t = RtStruct s -> nth_error (te_struct env s) i = Some sf ->
    nth_error vs i = Some w -> inside w (sf_type sf) x u -> inside (GStruct vs) t x u.

(** Strings and containers are shorter than [lim]. *)
Definition fits (lim : Z) (v : gval) (t : rtype) : Prop :=
  forall x u, inside v t x u ->
    match x with
    | GString s | GBytes _ s _ => zlen s < lim
    | GSlice _ es _ => zlen es < lim
    | GMap (Some es) => zlen es < lim
    | _ => True
    end.

(** No two keys of a map come back equal. *)
Definition keys_distinct (v : gval) (t : rtype) : Prop :=
  forall es u k e, inside v t (GMap (Some es)) u -> under env u = RtMap k e ->
    ForallOrdPairs (fun p q => forall kp kq, trip k (fst p) kp -> trip k (fst q) kq ->
                                 key_eq kq kp = false) es.

(** No struct type serialises two fields under one id. *)
Definition unique_ids : Prop :=
  forall s i j sf sf' o o', nth_error (te_struct env s) i = Some sf -> nth_error (te_struct env s) j = Some sf' ->
    tagged sf o -> tagged sf' o' -> fo_id o = fo_id o' -> i = j.
End Spec.
