(** Go types and Go values as thrift/arshal_default.go and thrift/fields.go see
    them through package reflect. *)
From Coq Require Import Sorting.Permutation.
From Verif Require Import Base Prog Wire GoFloat Utf8.

(** ** Values

    A value is a tree: pointers and slices own what they refer to.  Sharing
    between two pointers or two slices, and cyclic values, are not represented.
    - A slice has its elements (up to len) and the old contents of its spare
      capacity (from len to cap); a nil slice has neither.
    - A map is nil or has a list of entries, in the order in which this
      particular call will iterate over it (Go's order is unspecified, so
      theorems range over all orders).
    - [GBytes] is a slice the code treats as raw bytes, [GUUID] a [16]byte.
    - [GOther n] is a value of a kind the code never looks into (channels,
      functions, interfaces, complex numbers, ...); n = 0 is the zero value. *)
Inductive gval : Type :=
| GBool (b : bool)
| GInt (z : Z)
| GF32 (bits : Z)
| GF64 (bits : Z)
| GString (s : list byte)
| GBytes (nil : bool) (s spare : list byte)
| GUUID (u : list byte)
| GArray (es : list gval)
| GSlice (nil : bool) (es spare : list gval)
| GMap (o : option (list (gval * gval)))
| GPtr (o : option gval)
| GStruct (fs : list gval)
| GOther (n : nat).

(** A struct field as reflect.StructField: [sf_tag] is [Tag.Lookup("thrift")].
    The parsing of the whole tag string by reflect is not modelled. *)
Record sfield := mkSF {
  sf_name : list byte; sf_exported : bool; sf_tag : option (list byte); sf_type : rtype }.

(** A defined type: its name, its underlying type, and whether it has the
    methods set() / list() of thrift/doc.go:10-17 (only thrift.Set[T] and
    thrift.List[T] do). *)
Record ndef := mkND { nd_name : list byte; nd_under : rtype; nd_set : bool; nd_list : bool }.

(** ** Codecs (thrift/arshal.go:83-87), as data: which make*Arshaler built the
    closure, and the codecs it captured.  A struct's fields are looked up when
    it is first used (thrift/arshal_default.go:258-267). *)
Inductive width := W8 | W16 | W32 | W64.
Inductive arsh : Type :=
| AInvalid (t : rtype)
| ABool (t : rtype)
| ADouble (t : rtype) (single : bool)   (* single: Go kind Float32 *)
| AInt (t : rtype) (w : width)
| AUint (t : rtype) (w : width)
| AString (t : rtype)
| ABytes (t : rtype)
| AUUID (t : rtype)
| AStruct (t : rtype)
| AMap (t : rtype) (k v : arsh)
| ASeq (t : rtype) (set : bool) (e : arsh)
| APtr (t : rtype) (e : arsh).

(** The fncs.wireType set by each constructor function; Stop (the zero value)
    for invalid types (arshal_default.go:619-628). *)
Definition width_type (w : width) : Z :=
  match w with W8 => T_Byte | W16 => T_I16 | W32 => T_I32 | W64 => T_I64 end.
Fixpoint wire_type (a : arsh) : Z :=
  match a with
  | AInvalid _ => T_Stop
  | ABool _ => T_Bool
  | ADouble _ _ => T_Double
  | AInt _ w | AUint _ w => width_type w
  | AString _ | ABytes _ => T_String
  | AUUID _ => T_UUID
  | AStruct _ => T_Struct
  | AMap _ _ _ => T_Map
  | ASeq _ set _ => if set then T_Set else T_List
  | APtr _ e => wire_type e
  end.

(** thrift/fields.go:26-32 structField.  sf.Index always has length one for
    reflect.Type.Field, so [f_index] is one number. *)
Record structField := mkField {
  f_index : nat;
  f_typ : rtype;
  f_fncs : arsh;
  f_isZero : option (gval -> bool);
  f_id : Z;
  f_name : list byte;
  f_required : bool }.

(** ** The program's types and the run-time's unspecified choices *)
Record tenv := mkEnv {
  te_struct : nat -> list sfield;
  te_named : nat -> ndef;
  (* [t.Implements(isZeroerType)], with what the IsZero method computes; user
     code, assumed to return and to have no effects *)
  te_iszero : rtype -> option (gval -> bool);
  (* whether reflect.Value.IsZero holds of a floating-point -0; the argument
     tells whether it is inside an array or struct (the answers changed between
     Go 1.20 and Go 1.22) *)
  te_negzero : bool -> bool;
  (* a bound on the nesting of a type in itself by value: Go rejects types
     containing themselves by value *)
  te_rank : rtype -> nat;
  (* sort.Slice by id (not stable) *)
  te_sort : list structField -> list structField;
  (* how many slots beyond one reflect.Value.Grow(1) adds to a full slice *)
  te_grow : nat -> nat;
  te_uni : unicode }.

Section Env.
Context (env : tenv).

(** What [t.Kind()] and [t.Elem()] look at. *)
Definition under (t : rtype) : rtype :=
  match t with RtNamed i => nd_under (te_named env i) | _ => t end.

(** [t.Name()] *)
Definition type_name (t : rtype) : list byte :=
  match t with RtNamed i => nd_name (te_named env i) | _ => [] end.

Definition implements_set (t : rtype) : bool :=
  match t with RtNamed i => nd_set (te_named env i) | _ => false end.
Definition implements_list (t : rtype) : bool :=
  match t with RtNamed i => nd_list (te_named env i) | _ => false end.

(** A slice the code reads and writes with Bytes/SetBytes
    (arshal_default.go:45-55). *)
Definition as_bytes (t : rtype) : bool :=
  match under t with
  | RtSlice RtUint8 => negb (implements_set t) && negb (implements_list t)
  | _ => false
  end.

Definition zero_uuid : list byte := repeat x00 16.

(** [reflect.Zero(t)] *)
Fixpoint zero_n (n : nat) (t : rtype) : gval :=
  match n with
  | O => GOther 0
  | S m =>
      match under t with
      | RtBool => GBool false
      | RtInt | RtInt8 | RtInt16 | RtInt32 | RtInt64
      | RtUint | RtUint8 | RtUint16 | RtUint32 | RtUint64 | RtUintptr => GInt 0
      | RtFloat32 => GF32 0
      | RtFloat64 => GF64 0
      | RtString => GString []
      | RtSlice _ => if as_bytes t then GBytes true [] [] else GSlice true [] []
      | RtArray 16 RtUint8 => GUUID zero_uuid
      | RtArray k e => GArray (repeat (zero_n m e) (Z.to_nat k))
      | RtMap _ _ => GMap None
      | RtPtr _ => GPtr None
      | RtStruct s => GStruct (map (fun f => zero_n m (sf_type f)) (te_struct env s))
      | RtComplex64 | RtComplex128 | RtUnsafePointer | RtChan | RtFunc | RtInterface
      | RtNamed _ => GOther 0
      end
  end.
Definition zero (t : rtype) : gval := zero_n (S (te_rank env t)) t.

(** reflect.Value.IsZero; [inner]: inside an array or struct. *)
Fixpoint is_zero (inner : bool) (v : gval) : bool :=
  match v with
  | GBool b => negb b
  | GInt z => z =? 0
  | GF32 x => (x =? 0) || ((x =? 2 ^ 31) && te_negzero env inner)
  | GF64 x => (x =? 0) || ((x =? 2 ^ 63) && te_negzero env inner)
  | GString s => match s with [] => true | _ => false end
  | GBytes nl _ _ | GSlice nl _ _ => nl
  | GUUID u => forallb (fun b => b2z b =? 0) u
  | GArray es => forallb (is_zero true) es
  | GMap o => is_none o
  | GPtr o => is_none o
  | GStruct fs => forallb (is_zero true) fs
  | GOther n => Nat.eqb n 0
  end.

(** ** Which values a type has *)
Fixpoint has_type (v : gval) (t : rtype) {struct v} : Prop :=
  match v, under t with
  | GBool _, RtBool => True
  | GInt z, RtInt8 => is_i8 z
  | GInt z, RtInt16 => is_i16 z
  | GInt z, RtInt32 => is_i32 z
  | GInt z, (RtInt64 | RtInt) => is_i64 z
  | GInt z, RtUint8 => is_u8 z
  | GInt z, RtUint16 => is_u16 z
  | GInt z, RtUint32 => is_u32 z
  | GInt z, (RtUint64 | RtUint | RtUintptr) => is_u64 z
  | GF32 x, RtFloat32 => is_u32 x
  | GF64 x, RtFloat64 => is_u64 x
  | GString _, RtString => True
  | GBytes nl s sp, RtSlice _ => as_bytes t = true /\ (nl = true -> s = [] /\ sp = [])
  | GUUID u, RtArray 16 RtUint8 => length u = 16%nat
  | GArray es, RtArray k e =>
      under t <> RtArray 16 RtUint8 /\ length es = Z.to_nat k /\
      (fix all l := match l with [] => True | v :: r => has_type v e /\ all r end) es
  | GSlice nl es sp, RtSlice e =>
      as_bytes t = false /\ (nl = true -> es = [] /\ sp = []) /\
      (fix all l := match l with [] => True | v :: r => has_type v e /\ all r end) es /\
      (fix all l := match l with [] => True | v :: r => has_type v e /\ all r end) sp
  | GMap None, RtMap _ _ => True
  | GMap (Some es), RtMap kt vt =>
      (fix all l := match l with
                    | [] => True
                    | (k, v) :: r => (has_type k kt /\ has_type v vt) /\ all r
                    end) es
  | GPtr None, RtPtr _ => True
  | GPtr (Some v), RtPtr e => has_type v e
  | GStruct vs, RtStruct s =>
      (fix all l fs := match l, fs with
                       | [], [] => True
                       | v :: r, f :: fr => has_type v (sf_type f) /\ all r fr
                       | _, _ => False
                       end) vs (te_struct env s)
  | GOther _, (RtComplex64 | RtComplex128 | RtUnsafePointer | RtChan | RtFunc | RtInterface) => True
  | _, _ => False
  end.

(** The environment is one a Go program can have: underlying types are not
    themselves defined types, no type contains itself by value, sort.Slice
    sorts. *)
Definition sorted_by_id (l : list structField) : Prop :=
  forall i j f g, (i < j)%nat -> nth_error l i = Some f -> nth_error l j = Some g -> f_id f <= f_id g.

Record env_ok : Prop := mkEnvOk {
  ok_under : forall i j, nd_under (te_named env i) <> RtNamed j;
  ok_array_rank : forall t k e, under t = RtArray k e -> (te_rank env e < te_rank env t)%nat;
  ok_struct_rank : forall t s f, under t = RtStruct s -> In f (te_struct env s) ->
    (te_rank env (sf_type f) < te_rank env t)%nat;
  ok_sort_perm : forall l, Permutation l (te_sort env l);
  ok_sort : forall l, sorted_by_id (te_sort env l) }.
End Env.

(** ** Map keys *)
Fixpoint bytes_eqb (a b : list byte) : bool :=
  match a, b with
  | [], [] => true
  | x :: r, y :: s => (b2z x =? b2z y) && bytes_eqb r s
  | _, _ => false
  end.

(** Go's [==] between a key just unmarshalled into a zeroed variable and a key
    already in the map.  Pointers in the former were freshly allocated, so they
    differ from all others.  Slices and maps cannot occur in keys. *)
Fixpoint key_eq (k1 k2 : gval) {struct k1} : bool :=
  match k1, k2 with
  | GBool a, GBool b => Bool.eqb a b
  | GInt a, GInt b => a =? b
  | GF32 a, GF32 b => f32_eqb a b
  | GF64 a, GF64 b => f64_eqb a b
  | GString a, GString b => bytes_eqb a b
  | GUUID a, GUUID b => bytes_eqb a b
  | GPtr None, GPtr None => true
  | GOther a, GOther b => Nat.eqb a b
  | GArray a, GArray b | GStruct a, GStruct b =>
      (fix all l m := match l, m with
                      | [], [] => true
                      | x :: r, y :: s => key_eq x y && all r s
                      | _, _ => false
                      end) a b
  | _, _ => false
  end.

(** reflect.Value.MapIndex *)
Fixpoint map_get (es : list (gval * gval)) (k : gval) : option gval :=
  match es with
  | [] => None
  | (k', v) :: r => if key_eq k k' then Some v else map_get r k
  end.

(** reflect.Value.SetMapIndex.  The key is overwritten too, as Go's map
    assignment does for the key types where equal keys can differ. *)
Fixpoint map_set (es : list (gval * gval)) (k v : gval) : list (gval * gval) :=
  match es with
  | [] => [(k, v)]
  | (k', v') :: r => if key_eq k k' then (k, v) :: r else (k', v') :: map_set r k v
  end.

(** [l[i] = x] *)
Fixpoint set_nth {A} (i : nat) (x : A) (l : list A) : list A :=
  match l, i with
  | [], _ => []
  | _ :: r, O => x :: r
  | y :: r, S j => y :: set_nth j x r
  end.
