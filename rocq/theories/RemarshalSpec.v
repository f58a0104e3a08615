(** Marshalling again what Unmarshal stored (specification). *)
From Coq Require Import Sorting.Permutation.
From Verif Require Import Base Wire Spec GoFloat Utf8 GoType Fields ArshalSpec MapSpec.

(** No type has an IsZero method (its answers are the user's). *)
Definition no_methods (env : tenv) : Prop := forall t, te_iszero env t = None.
(** A -0 that reflect.Value.IsZero takes for zero by itself, it takes for zero inside a struct too. *)
Definition negzero_ok (env : tenv) : Prop := te_negzero env false = true -> te_negzero env true = true.

(** No field of a struct inside [v] is sent and comes back as a value that is not sent. *)
Definition tidy (env : tenv) (v : gval) (t : rtype) : Prop :=
  forall vs u s j sf w w', inside env v t (GStruct vs) u -> under env u = RtStruct s ->
    nth_error (te_struct env s) j = Some sf -> nth_error vs j = Some w ->
    sent env sf w -> trip env (sf_type sf) w w' -> sent env sf w'.

(** The same Go value, its maps iterated over in other orders: the order of the entries of a Go map
    is chosen anew each time. *)
Inductive shuffled : gval -> gval -> Prop :=
| sh_same v : shuffled v v
| sh_slice nl es es' sp : Forall2 shuffled es es' -> shuffled (GSlice nl es sp) (GSlice nl es' sp)
| sh_map es es1 es2 : Forall2 (fun p q => shuffled (fst p) (fst q) /\ shuffled (snd p) (snd q)) es es1 ->
    Permutation es1 es2 -> shuffled (GMap (Some es)) (GMap (Some es2))
| sh_ptr v v' : shuffled v v' -> shuffled (GPtr (Some v)) (GPtr (Some v'))
| sh_struct vs vs' : Forall2 shuffled vs vs' -> shuffled (GStruct vs) (GStruct vs').

(** [lasting b t v]: [v] comes back as a value that is not zero ([b]: inside a struct); enough for a field to be sent again. *)
Inductive lasting (env : tenv) : bool -> rtype -> gval -> Prop :=
| la_scalar b t v : match v with GBool _ | GInt _ | GF32 _ | GF64 _ | GString _ | GUUID _ => True | _ => False end ->
    is_zero env b v = false -> lasting env b t v
| la_bytes b t nl x s sp : lasting env b t (GBytes nl (x :: s) sp)
| la_slice b t nl x es sp : lasting env b t (GSlice nl (x :: es) sp)
| la_map b t p es : lasting env b t (GMap (Some (p :: es)))
| la_ptr b t v : lasting env b t (GPtr (Some v))
| la_struct b t s vs j sf w : under env t = RtStruct s -> nth_error (te_struct env s) j = Some sf -> nth_error vs j = Some w ->
    sent env sf w -> lasting env true (sf_type sf) w -> lasting env b t (GStruct vs).

(** The same Thrift value, the entries of its maps in other orders. *)
Inductive reordered : tval -> tval -> Prop :=
| ro_same v : reordered v v
| ro_list k es es' : Forall2 reordered es es' -> reordered (VList k es) (VList k es')
| ro_set k es es' : Forall2 reordered es es' -> reordered (VSet k es) (VSet k es')
| ro_map k e es es1 es2 : Forall2 (fun p q => reordered (fst p) (fst q) /\ reordered (snd p) (snd q)) es es1 ->
    Permutation es1 es2 -> reordered (VMap k e es) (VMap k e es2)
| ro_struct l l' : Forall2 (fun p q => fst p = fst q /\ reordered (snd p) (snd q)) l l' -> reordered (VStruct l) (VStruct l').

(** No map in the Thrift value has two entries. *)
Fixpoint small_maps (v : tval) : Prop :=
  match v with
  | VList _ es | VSet _ es => (fix all l := match l with [] => True | x :: r => small_maps x /\ all r end) es
  | VMap _ _ es => (length es <= 1)%nat /\
      (fix all l := match l with [] => True | p :: r => (small_maps (fst p) /\ small_maps (snd p)) /\ all r end) es
  | VStruct l => (fix all l := match l with [] => True | p :: r => small_maps (snd p) /\ all r end) l
  | _ => True
  end.
