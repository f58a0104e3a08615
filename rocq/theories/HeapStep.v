(** Marshal, one access to memory at a time, so that goroutines can be
    interleaved between them.  The code is that of [hmarshal] in Heap.v
    (thrift/arshal.go and arshal_default.go), which does the accesses in one go. *)
From Coq Require Import Strings.String.
From Verif Require Import Base Prog Wire GoFloat Utf8 GoType Fields Arshal Heap.

(** What a goroutine in Marshal does: read or write one cell of memory, get new
    memory with given contents, call an IsZero method (user code) on the
    variable of type [t] at [a], call its Writer. *)
Inductive memE : Type -> Type :=
| MRead (a : nat) : memE cell
| MWrite (a : nat) (c : cell) : memE unit
| MAlloc (cs : list cell) : memE nat
| MZero (t : rtype) (a : nat) : memE bool
| MWire X (e : wireW X) : memE X.
Arguments MWire {X} e.

(** A program that only calls its Writer. *)
Fixpoint embed {A} (p : prog wireW A) : prog memE A :=
  match p with
  | Ret a => Ret a
  | Vis e k => Vis (MWire e) (fun x => embed (k x))
  | Crash c => Crash c
  end.

Fixpoint rd_cells (a n : nat) : prog memE (list cell) :=
  match n with
  | O => Ret []
  | S m => c <- call (MRead a) ;; r <- rd_cells (S a) m ;; Ret (c :: r)
  end.
Fixpoint wr_cells (a : nat) (cs : list cell) : prog memE unit :=
  match cs with
  | [] => Ret tt
  | c :: r => _ <- call (MWrite a c) ;; wr_cells (S a) r
  end.

Section Step.
Context (env : tenv) (ln : nat).
Notation size := (size env).
Notation zcells := (zcells env).

Definition swr (action : string) (wt : Z) (t : rtype) (e : wireW (option err)) : prog memE (option err) :=
  embed (wr action wt t e).

(** arshal_default.go:295 *)
Definition sfield_zero (f : structField) (a : nat) : prog memE bool :=
  match f_isZero f with
  | None => cs <- rd_cells a (size (f_typ f)) ;; Ret (cells_zero env cs)
  | Some _ => call (MZero (f_typ f) a)
  end.

Section Rec.
Context (rec : arsh -> nat -> prog memE (option err)).

(** arshal_default.go:283-319 *)
Fixpoint smarshal_fields (t : rtype) (va : nat) (fs : list structField) : prog memE (option err) :=
  match fs with
  | [] => swr "WriteStructEnd" T_Struct t WStructEnd
  | f :: r =>
      if wire_type (f_fncs f) =? T_Stop
      then Ret (Some (ESemantic "marshal" 0 (Some (f_typ f)) None))
      else
        match nth_error (field_types env t) (f_index f) with
        | None => Crash Panicked
        | Some _ =>
            let v := field_addr env t (f_index f) va in
            z <- (if f_required f then Ret false else sfield_zero f v) ;;
            if z then smarshal_fields t va r
            else
              swr "WriteFieldBegin" T_Struct t
                 (WFieldBegin (mkFH (f_name f) (wire_type (f_fncs f)) (f_id f))) >>!
              rec (f_fncs f) v >>!
              swr "WriteFieldEnd" T_Struct t WFieldEnd >>!
              smarshal_fields t va r
        end
  end.

(** arshal_default.go:416-428, for the variables [k] and [v], into which the key
    and the element are copied *)
Fixpoint smarshal_entries (t : rtype) (ka ea : arsh) (k v : nat) (es : list (nat * nat)) : prog memE (option err) :=
  match es with
  | [] => swr "WriteMapEnd" T_Map t WMapEnd
  | (a, b) :: r =>
      (cs <- rd_cells a (size (key_type env t)) ;; _ <- wr_cells k cs ;; rec ka k) >>!
      (cs <- rd_cells b (size (elem_type env t)) ;; _ <- wr_cells v cs ;; rec ea v) >>!
      smarshal_entries t ka ea k v r
  end.

(** arshal_default.go:508-518 *)
Fixpoint smarshal_elems (t : rtype) (set : bool) (ea : arsh) (a n : nat) : prog memE (option err) :=
  match n with
  | O => if set then swr "WriteSetEnd" T_Set t WSetEnd else swr "WriteListEnd" T_List t WListEnd
  | S n' => rec ea a >>! smarshal_elems t set ea (a + size (elem_type env t)) n'
  end.
End Rec.

(** The marshal closures of arshal_default.go:68-628.  The entries of a map and
    the bytes of a []byte are read before the Writer is called (in the Go code a
    map is read as the loop goes on, and a []byte by the Writer).  As in Heap.v,
    [k] and [v] are made even if the map is empty. *)
Fixpoint smarshal (n : nat) (a : arsh) (va : nat) : prog memE (option err) :=
  match n with
  | O => Crash OutOfFuel
  | S m =>
      match a with
      | ABool t =>
          c <- call (MRead va) ;;
          match c with CLeaf (GBool b) => swr "WriteBool" T_Bool t (WBool b) | _ => Crash Panicked end
      | ADouble t single =>
          c <- call (MRead va) ;;
          match c, single with
          | CLeaf (GF32 x), true => swr "WriteDouble" T_Double t (WDouble (f32_to_f64 x))
          | CLeaf (GF64 x), false => swr "WriteDouble" T_Double t (WDouble x)
          | _, _ => Crash Panicked
          end
      | AInt t w | AUint t w =>
          c <- call (MRead va) ;;
          match c with
          | CLeaf (GInt z) => swr (write_action w) (width_type w) t (width_write w z)
          | _ => Crash Panicked
          end
      | AString t =>
          c <- call (MRead va) ;;
          match c with CLeaf (GString s) => swr "WriteString" T_String t (WString s) | _ => Crash Panicked end
      | ABytes t =>
          c <- call (MRead va) ;;
          match c with
          | CSlice _ base len _ =>
              cs <- rd_cells base len ;; swr "WriteBytes" T_String t (WBytes (map byte_of cs))
          | _ => Crash Panicked
          end
      | AUUID t =>
          c <- call (MRead va) ;;
          match c with CLeaf (GUUID u) => swr "WriteUUID" T_UUID t (WUUID u) | _ => Crash Panicked end
      | AStruct t =>
          match make_struct_fields env ln t with
          | None => Crash OutOfFuel
          | Some (inr e) => Ret (Some (with_action "marshal" e))
          | Some (inl fs) =>
              swr "WriteStructBegin" T_Struct t (WStructBegin (type_name env t)) >>!
              smarshal_fields (smarshal m) t va fs
          end
      | AMap t ka ea =>
          if (wire_type ka =? T_Stop) || (wire_type ea =? T_Stop)
          then Ret (Some (sem "marshal" T_Map t None))
          else
            c <- call (MRead va) ;;
            match c with
            | CMap o =>
                es <- match o with
                      | Some mp => d <- call (MRead mp) ;; Ret (match d with CEntries es => es | _ => [] end)
                      | None => Ret []
                      end ;;
                (swr "WriteMapBegin" T_Map t (WMapBegin (mkMapH (wire_type ka) (wire_type ea) (zlen es))) >>!
                 (k <- call (MAlloc (zcells (key_type env t))) ;;
                  v <- call (MAlloc (zcells (elem_type env t))) ;;
                  smarshal_entries (smarshal m) t ka ea k v es))
            | _ => Crash Panicked
            end
      | ASeq t set ea =>
          if wire_type ea =? T_Stop
          then Ret (Some (sem "marshal" (if set then T_Set else T_List) t None))
          else
            c <- call (MRead va) ;;
            match c with
            | CSlice _ base len _ =>
                (if set
                 then swr "WriteSetBegin" T_Set t (WSetBegin (mkSetH (wire_type ea) (Z.of_nat len)))
                 else swr "WriteListBegin" T_List t (WListBegin (mkSetH (wire_type ea) (Z.of_nat len)))) >>!
                smarshal_elems (smarshal m) t set ea base len
            | _ => Crash Panicked
            end
      | APtr t ea =>
          c <- call (MRead va) ;;
          match c with
          | CPtr None => b <- call (MAlloc (zcells (elem_type env t))) ;; smarshal m ea b
          | CPtr (Some b) => smarshal m ea b
          | _ => Crash Panicked
          end
      | AInvalid t => Ret (Some (ESemantic "marshal" 0 (Some t) None))
      end
  end.

(** thrift/arshal.go:14-38 Marshal, of a value that is not a nil interface *)
Definition sMarshal (n : nat) (t : rtype) (cs : list cell) : prog memE (option err) :=
  if is_ptr env t then
    match cs with
    | [CPtr None] => Ret (Some (ESemantic "marshal" 0 (Some (elem_type env t)) (Some ENonNilPointer)))
    | [CPtr (Some p)] =>
        match lookup env ln (elem_type env t) with
        | None => Crash OutOfFuel
        | Some a => smarshal n a p
        end
    | _ => Crash Panicked
    end
  else
    match lookup env ln t with
    | None => Crash OutOfFuel
    | Some a => v <- call (MAlloc cs) ;; smarshal n a v
    end.

(** ** Goroutines *)
Context (isZero : rtype -> heap -> nat -> bool) {S : Type}.

(** What an access does to memory and to the state of the goroutine's Writer,
    which [h] implements. *)
Definition act (h : handler wireW S) : handler memE (heap * S) := fun X e =>
  match e in memE X return heap * S -> outcome (heap * S) X with
  | MRead a => fun s => Done s (mem (fst s) a)
  | MWrite a c => fun s => Done (poke (fst s) a [c], snd s) tt
  | MAlloc cs => fun s => let '(H, b) := alloc (fst s) cs in Done (H, snd s) b
  | MZero t a => fun s => Done s (isZero t (fst s) a)
  | MWire e => fun s => match h _ e (snd s) with Done w x => Done (fst s, w) x | Crashed c => Crashed c end
  end.

(** Memory, and of each goroutine what it has yet to do and the state of its
    Writer. *)
Definition system : Type := heap * (nat -> prog memE (option err) * S).
Definition put {X} (f : nat -> X) (i : nat) (x : X) : nat -> X := fun j => if Nat.eqb j i then x else f j.

(** Goroutine [i] does the next thing. *)
Inductive moves (h : nat -> handler wireW S) : system -> system -> Prop :=
| moves_on H g i X (e : memE X) k w H' w' x : g i = (Vis e k, w) -> act (h i) X e (H, w) = Done (H', w') x ->
    moves h (H, g) (H', put g i (k x, w'))
| moves_crash H g i X (e : memE X) k w c : g i = (Vis e k, w) -> act (h i) X e (H, w) = Crashed c ->
    moves h (H, g) (H, put g i (Crash c, w)).
Inductive reaches_system (h : nat -> handler wireW S) (x : system) : system -> Prop :=
| rs_start : reaches_system h x x
| rs_step y z : reaches_system h x y -> moves h y z -> reaches_system h x z.
End Step.

(** The access to memory that comes next: the address, and whether it writes. *)
Definition about_to {A} (p : prog memE A) : option (nat * bool) :=
  match p with
  | Vis e _ => match e with MRead a => Some (a, false) | MWrite a _ => Some (a, true) | _ => None end
  | _ => None
  end.
