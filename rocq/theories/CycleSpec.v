(** Which values go on for ever: independently of the code. *)
From Verif Require Import Base Prog Wire GoType Fields Arshal ArshalSpec Heap HeapSpec AnySpec.

Section Env.
Context (env : tenv).
(** [isz t H cs]: what the IsZero method of type [t] answers about the cells
    [cs]; of interest for types that have one. *)
Context (isz : rtype -> heap -> list cell -> bool).

(** A field of type [t] with cells [c] counts as zero. *)
Definition zero_field (H : heap) (t : rtype) (c : list cell) : bool :=
  match field_is_zero env t with None => cells_zero env c | Some _ => isz t H c end.

(** [written H x y]: the value [x], a type and cells, has the value [y] right
    inside it, in a place that is to be written: what a pointer points to (a zero
    value if it is nil), the elements of a slice, the keys and elements of a map,
    and the tagged fields of a struct, except zero ones that are not required. *)
Inductive written (H : heap) : rtype * list cell -> rtype * list cell -> Prop :=
| w_ptr t e b : under env t = RtPtr e -> written H (t, [CPtr (Some b)]) (e, Heap.peek H b (size env e))
| w_nil t e : under env t = RtPtr e -> written H (t, [CPtr None]) (e, zcells env e)
| w_elem t e nl base len cap i : under env t = RtSlice e -> as_bytes env t = false -> (i < len)%nat ->
    written H (t, [CSlice nl base len cap]) (e, Heap.peek H (base + i * size env e) (size env e))
| w_key t k e m ads x y : under env t = RtMap k e -> mem H m = CEntries ads -> In (x, y) ads ->
    written H (t, [CMap (Some m)]) (k, Heap.peek H x (size env k))
| w_val t k e m ads x y : under env t = RtMap k e -> mem H m = CEntries ads -> In (x, y) ads ->
    written H (t, [CMap (Some m)]) (e, Heap.peek H y (size env e))
| w_field t s j sf o c1 c c2 : under env t = RtStruct s -> nth_error (te_struct env s) j = Some sf -> tagged env sf o ->
    length c1 = sizes env (map sf_type (firstn j (te_struct env s))) -> length c = size env (sf_type sf) ->
    fo_required o = true \/ zero_field H (sf_type sf) c = false ->
    written H (t, CHead :: c1 ++ c ++ c2) (sf_type sf, c).

(** From the value one can go on for ever to values within values; as when it
    contains itself. *)
Definition endless (H : heap) (t : rtype) (cs : list cell) : Prop :=
  exists f : nat -> rtype * list cell, f O = (t, cs) /\ forall i, written H (f i) (f (S i)).

(** Constructively the opposite: no way from the value to values within values
    goes on for ever. *)
Definition finite (H : heap) (t : rtype) (cs : list cell) : Prop := Acc (fun y x => written H x y) (t, cs).

(** The IsZero methods look at nothing but the value and what it refers to. *)
Definition steady : Prop := forall T H H' t cs,
  sound env T H -> Forall2 (cell_ok env T) (layout env t) cs -> (forall x k, T x = Some k -> mem H' x = mem H x) ->
  isz t H' cs = isz t H cs.

(** As a model of Marshal needs them: by the address of the value. *)
Definition at_address (t : rtype) (H : heap) (a : nat) : bool := isz t H (Heap.peek H a (size env t)).
End Env.
