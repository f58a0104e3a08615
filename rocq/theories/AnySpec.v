(** Memory as a Go program can have it, shared and cyclic in any way: every
    variable holds a value of its type, and what it refers to are variables of
    the right types. *)
From Verif Require Import Base Prog Wire GoType Heap HeapSpec.

(** [v] is of the sort of values that underlying type [u] has; ranges of
    numbers are left out. *)
Definition of_sort (u : rtype) (v : gval) : Prop :=
  match v, u with
  | GBool _, RtBool => True
  | GInt _, (RtInt8 | RtInt16 | RtInt32 | RtInt64 | RtInt) => True
  | GInt _, (RtUint8 | RtUint16 | RtUint32 | RtUint64 | RtUint | RtUintptr) => True
  | GF32 _, RtFloat32 => True
  | GF64 _, RtFloat64 => True
  | GString _, RtString => True
  | GUUID x, RtArray k e => k = 16 /\ e = RtUint8 /\ length x = 16%nat
  | GArray _, RtArray k e => RtArray k e <> RtArray 16 RtUint8
  | GOther _, (RtComplex64 | RtComplex128 | RtUnsafePointer | RtChan | RtFunc | RtInterface) => True
  | _, _ => False
  end.

(** What a cell is for.  [KLeaf u]: a value with underlying type [u] that
    refers to no other memory; [KSlice e], [KMap k e], [KPtr e]: a slice, map
    or pointer, by the types of its elements; [KBytes]: a []byte, [KByte]: a
    byte of its array; [KEntries k e]: the entries of a map; [KHead]: the start
    of a struct. *)
Inductive kind : Type :=
| KLeaf (u : rtype)
| KHead
| KByte
| KBytes
| KSlice (e : rtype)
| KMap (k e : rtype)
| KEntries (k e : rtype)
| KPtr (e : rtype).

Section Env.
Context (env : tenv).

(** The cells of a variable of type [t]. *)
Fixpoint layout_n (n : nat) (t : rtype) : list kind :=
  match n with
  | O => []
  | S m =>
      match under env t with
      | RtStruct s => KHead :: flat_map (fun f => layout_n m (sf_type f)) (te_struct env s)
      | RtSlice e => [if as_bytes env t then KBytes else KSlice e]
      | RtMap k e => [KMap k e]
      | RtPtr e => [KPtr e]
      | u => [KLeaf u]
      end
  end.
Definition layout (t : rtype) : list kind := layout_n (S (te_rank env t)) t.

(** [T] says what the cells of memory are for; those it says nothing about are
    not looked at. *)
Section Kinds.
Context (T : nat -> option kind).

(** There is a variable of type [t] at [a]. *)
Definition fits (a : nat) (t : rtype) : Prop :=
  forall i k, nth_error (layout t) i = Some k -> T (a + i) = Some k.

(** The cell [c] has what one of kind [k] may have. *)
Definition cell_ok (k : kind) (c : cell) : Prop :=
  match k, c with
  | KLeaf u, CLeaf v => of_sort u v
  | KHead, CHead => True
  | KByte, CByte _ => True
  | KBytes, CSlice nl base len cap =>
      (len <= cap)%nat /\ (nl = true -> cap = O) /\ forall i, (i < cap)%nat -> T (base + i) = Some KByte
  | KSlice e, CSlice nl base len cap =>
      (len <= cap)%nat /\ (nl = true -> cap = O) /\ forall i, (i < cap)%nat -> fits (base + i * size env e) e
  | KMap _ _, CMap None => True
  | KMap k e, CMap (Some m) => T m = Some (KEntries k e)
  | KEntries k e, CEntries ads => Forall (fun p => fits (fst p) k /\ fits (snd p) e) ads
  | KPtr _, CPtr None => True
  | KPtr e, CPtr (Some b) => fits b e
  | _, _ => False
  end.

Definition sound (H : heap) : Prop :=
  forall x k, T x = Some k -> (x < next H)%nat /\ cell_ok k (mem H x).
End Kinds.

(** From memory [H] to [H']: what was there is there for the same as before,
    new memory may be added, and of the old only cells that are for something in
    [W] are written to; ones [T] says nothing about are not. *)
Definition evolves (W : kind -> Prop) (T : nat -> option kind) (H : heap) (T' : nat -> option kind) (H' : heap) : Prop :=
  sound T' H' /\ (next H <= next H')%nat /\
  (forall x, (x < next H)%nat -> T' x = T x) /\
  (forall x, (x < next H)%nat -> (forall k, T x = Some k -> ~ W k) -> mem H' x = mem H x).

(** What the memory is for that a variable of type [t] consists of or may refer
    to, directly or through other memory. *)
Inductive reaches : rtype -> kind -> Prop :=
| r_own t k : In k (layout t) -> reaches t k
| r_byte t : reaches t KBytes -> reaches t KByte
| r_elem t e k : reaches t (KSlice e) -> reaches e k -> reaches t k
| r_entries t kt et : reaches t (KMap kt et) -> reaches t (KEntries kt et)
| r_key t kt et k : reaches t (KMap kt et) -> reaches kt k -> reaches t k
| r_val t kt et k : reaches t (KMap kt et) -> reaches et k -> reaches t k
| r_ptr t e k : reaches t (KPtr e) -> reaches e k -> reaches t k.

(** No slice is reached from an element of such a slice, and no map from a key
    or element of such a map. *)
Definition tame (t : rtype) : Prop :=
  (forall e, reaches t (KSlice e) -> ~ reaches e (KSlice e)) /\
  (forall k e, reaches t (KMap k e) -> ~ reaches k (KMap k e) /\ ~ reaches e (KMap k e)).
End Env.

(** A Reader whose ReadUUID does the same whatever was in the array it fills. *)
Definition fills {S} (h : handler wireR S) : Prop :=
  forall u w s, length u = 16%nat -> length w = 16%nat ->
  match h _ (RUUID u) s, h _ (RUUID w) s with
  | Done s1 (x, e), Done s2 (y, e') => s1 = s2 /\ e = e' /\ length x = 16%nat /\ length y = 16%nat
  | Crashed c, Crashed c' => c = c'
  | _, _ => False
  end.
