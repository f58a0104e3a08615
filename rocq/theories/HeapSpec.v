(** Which values memory holds: independently of the code. *)
From Verif Require Import Base Prog Wire GoType Fields Arshal Heap.

(** A value that occupies one cell and refers to no other memory. *)
Definition leaf (v : gval) : Prop :=
  match v with
  | GBytes _ _ _ | GSlice _ _ _ | GMap _ | GPtr _ | GStruct _ => False
  | _ => True
  end.

Section Env.
Context (env : tenv).

(** The types of such values. *)
Definition plain (t : rtype) : Prop :=
  match under env t with RtStruct _ | RtSlice _ | RtMap _ _ | RtPtr _ => False | _ => True end.

Section Holds.
Context (exact : bool) (H : heap).

(** [holds t cs v G]: the cells [cs], of a variable of type [t], hold the value
    [v], and [G] lists, with repetitions, every address the variable refers to,
    directly or through other memory.  So if [G] has no repetitions, no memory
    is referred to twice.  What is in the spare capacity of slices is left
    open, but that memory belongs to [G].  If not [exact], the bytes in a
    []byte are left open too (but not how many they are). *)
Inductive holds : rtype -> list cell -> gval -> list nat -> Prop :=
| h_leaf t v : plain t -> leaf v -> holds t [CLeaf v] v []
| h_bytes t nl base s sp cap : as_bytes env t = true ->
    (length s <= cap)%nat ->
    (exact = true -> peek H base (length s) = map CByte s) ->
    holds t [CSlice nl base (length s) cap] (GBytes nl s sp) (seq base cap)
| h_slice t e nl base es sp G : under env t = RtSlice e -> as_bytes env t = false ->
    (nl = true -> es = [] /\ sp = []) ->
    all_hold (repeat e (length es)) (peek H base (length es * size env e)) es G ->
    holds t [CSlice nl base (length es) (length es + length sp)] (GSlice nl es sp)
      (seq base ((length es + length sp) * size env e) ++ G)
| h_nilmap t k e : under env t = RtMap k e -> holds t [CMap None] (GMap None) []
| h_map t k e m ads es G : under env t = RtMap k e ->
    mem H m = CEntries ads -> entries_hold k e ads es G ->
    holds t [CMap (Some m)] (GMap (Some es)) (m :: G)
| h_nilptr t e : under env t = RtPtr e -> holds t [CPtr None] (GPtr None) []
| h_ptr t e b v G : under env t = RtPtr e ->
    holds e (peek H b (size env e)) v G ->
    holds t [CPtr (Some b)] (GPtr (Some v)) (seq b (size env e) ++ G)
| h_struct t s cs vs G : under env t = RtStruct s ->
    all_hold (map sf_type (te_struct env s)) cs vs G ->
    holds t (CHead :: cs) (GStruct vs) G
with all_hold : list rtype -> list cell -> list gval -> list nat -> Prop :=
| hs_nil : all_hold [] [] [] []
| hs_cons t ts c cs v vs G Gs : holds t c v G -> all_hold ts cs vs Gs ->
    all_hold (t :: ts) (c ++ cs) (v :: vs) (G ++ Gs)
with entries_hold : rtype -> rtype -> list (nat * nat) -> list (gval * gval) -> list nat -> Prop :=
| he_nil k e : entries_hold k e [] [] []
| he_cons k e a b ads x y es Gx Gy G :
    holds k (peek H a (size env k)) x Gx -> holds e (peek H b (size env e)) y Gy ->
    entries_hold k e ads es G ->
    entries_hold k e ((a, b) :: ads) ((x, y) :: es)
      ((seq a (size env k) ++ Gx) ++ (seq b (size env e) ++ Gy) ++ G).
End Holds.

(** The variable of type [t] at address [a] holds [v], and the addresses in
    [F] are its own cells and all it refers to. *)
Definition variable (exact : bool) (H : heap) (t : rtype) (a : nat) (v : gval) (F : list nat) : Prop :=
  exists G, holds exact H t (peek H a (size env t)) v G /\ F = seq a (size env t) ++ G.

(** ... and no part of it is shared: no address is referred to twice. *)
Definition unshared (exact : bool) (H : heap) (t : rtype) (a : nat) (v : gval) (F : list nat) : Prop :=
  variable exact H t a v F /\ NoDup F /\ Forall (fun x => (x < next H)%nat) F.

(** From [H] to [H'], memory outside [F] is untouched, and the addresses in
    [F'] are in [F] or new. *)
Definition confined (H H' : heap) (F F' : list nat) : Prop :=
  (next H <= next H')%nat /\
  (forall x, (x < next H)%nat -> ~ In x F -> mem H' x = mem H x) /\
  (forall x, In x F' -> In x F \/ (next H <= x)%nat).
End Env.
