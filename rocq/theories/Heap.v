(** thrift/arshal.go and thrift/arshal_default.go once more, on memory instead
    of on values: pointers, slices and maps are addresses, so that two of them
    can refer to the same memory.  Arshal.v is the same code on values as
    trees. *)
From Coq Require Import Strings.String.
From Verif Require Import Base Prog Wire GoFloat Utf8 GoType Fields Arshal.

(** ** Memory

    Memory is a function from addresses to cells; [next] is the first address
    never allocated.  Garbage collection is not modelled: an address is never
    reused.  A variable of a type occupies consecutive cells:
    - a struct has one cell [CHead] followed by the cells of its fields (the
      cell of its own makes distinct variables have distinct addresses, also
      for struct{});
    - a slice is one cell with the address of its array, length and capacity;
      the elements, or the bytes of a []byte, are consecutive;
    - a map is one cell with the address of a cell [CEntries], which lists the
      addresses of the keys and elements;
    - a pointer is one cell;
    - everything else ([CLeaf]) is one cell: booleans, numbers, strings (Go's
      strings are immutable, so sharing them cannot be observed), [16]byte, and
      what the code never looks into (arrays, interfaces, ...). *)
Inductive cell : Type :=
| CLeaf (v : gval)
| CHead
| CByte (b : byte)
| CSlice (nil : bool) (base len cap : nat)
| CMap (o : option nat)
| CEntries (es : list (nat * nat))
| CPtr (o : option nat).

Record heap := mkHeap { mem : nat -> cell; next : nat }.

(** The [n] cells from [a]. *)
Definition peek (H : heap) (a n : nat) : list cell := map (mem H) (seq a n).
(** The cells [cs] stored from [a]. *)
Definition poke (H : heap) (a : nat) (cs : list cell) : heap :=
  mkHeap (fun x => if Nat.leb a x then nth (x - a) cs (mem H x) else mem H x) (next H).
(** New memory with contents [cs]: the memory after, and its address. *)
Definition alloc (H : heap) (cs : list cell) : heap * nat :=
  (poke (mkHeap (mem H) (next H + length cs)) (next H) cs, next H).

Section Heap.
Context (env : tenv) (ln : nat).

(** The cells of [reflect.Zero(t)]. *)
Fixpoint zcells_n (n : nat) (t : rtype) : list cell :=
  match n with
  | O => []
  | S m =>
      match under env t with
      | RtStruct s => CHead :: flat_map (fun f => zcells_n m (sf_type f)) (te_struct env s)
      | RtSlice _ => [CSlice true 0 0 0]
      | RtMap _ _ => [CMap None]
      | RtPtr _ => [CPtr None]
      | _ => [CLeaf (zero env t)]
      end
  end.
Definition zcells (t : rtype) : list cell := zcells_n (S (te_rank env t)) t.
(** The number of cells of a variable of type [t]. *)
Definition size (t : rtype) : nat := length (zcells t).
Definition sizes (ts : list rtype) : nat := list_sum (map size ts).

(** The types of the Go fields of a struct type. *)
Definition field_types (t : rtype) : list rtype :=
  match under env t with RtStruct s => map sf_type (te_struct env s) | _ => [] end.

(** [va.Field(i)] *)
Definition field_addr (t : rtype) (i a : nat) : nat := (a + S (sizes (firstn i (field_types t))))%nat.

(** Go's [==] on the cells of two keys of one type.  Pointers are equal when
    their addresses are. *)
Definition cell_eq (c d : cell) : bool :=
  match c, d with
  | CLeaf v, CLeaf w => key_eq v w
  | CHead, CHead => true
  | CPtr None, CPtr None => true
  | CPtr (Some a), CPtr (Some b) => Nat.eqb a b
  | _, _ => false
  end.
Fixpoint cells_eq (cs ds : list cell) : bool :=
  match cs, ds with
  | [], [] => true
  | c :: cr, d :: dr => cell_eq c d && cells_eq cr dr
  | _, _ => false
  end.

(** The entry of a map whose key is the variable at [k]. *)
Fixpoint find_entry (H : heap) (kt : rtype) (k : nat) (es : list (nat * nat)) : option (nat * nat) :=
  match es with
  | [] => None
  | (ka, va) :: r =>
      if cells_eq (peek H k (size kt)) (peek H ka (size kt)) then Some (ka, va) else find_entry H kt k r
  end.

(** [if v2 := va.MapIndex(k.Value); v2.IsValid() { v.Set(v2) } else { v.SetZero() }]
    (arshal_default.go:457-461), for the map at [m] and the variables [k], [v] *)
Definition map_index (H : heap) (m : nat) (kt et : rtype) (k v : nat) : heap :=
  match mem H m with
  | CEntries es =>
      match find_entry H kt k es with
      | Some (_, a) => poke H v (peek H a (size et))
      | None => poke H v (zcells et)
      end
  | _ => H
  end.

(** [va.SetMapIndex(k.Value, v.Value)] (arshal_default.go:464): the key and
    the element are copied into the map *)
Definition set_map_index (H : heap) (m : nat) (kt et : rtype) (k v : nat) : heap :=
  match mem H m with
  | CEntries es =>
      match find_entry H kt k es with
      | Some (ka, va) => poke (poke H ka (peek H k (size kt))) va (peek H v (size et))
      | None =>
          let '(H1, ka) := alloc H (peek H k (size kt)) in
          let '(H2, va) := alloc H1 (peek H1 v (size et)) in
          poke H2 m [CEntries (es ++ [(ka, va)])]
      end
  | _ => H
  end.

(** [va.SetLen(i)]; it panics if the capacity is less *)
Definition set_len (H : heap) (va i : nat) : heap :=
  match mem H va with CSlice nl base _ cap => poke H va [CSlice nl base i cap] | _ => H end.
Definition can_set_len (H : heap) (va i : nat) : bool :=
  match mem H va with CSlice _ _ _ cap => Nat.leb i cap | _ => false end.

(** [va.Grow(1); cap = va.Cap(); va.SetLen(cap)] (arshal_default.go:540-542):
    on a slice with len = cap a new array, with the elements copied and the
    rest zero *)
Definition grow (H : heap) (et : rtype) (va : nat) : heap :=
  match mem H va with
  | CSlice nl base len cap =>
      if Nat.ltb len cap then poke H va [CSlice nl base cap cap] else
      let '(H, b) := alloc H (peek H base (len * size et) ++
                              concat (repeat (zcells et) (S (te_grow env cap)))) in
      poke H va [CSlice false b (len + S (te_grow env cap)) (cap + S (te_grow env cap))]
  | _ => H
  end.

(** What [append(buf[:0], x...)] does, piece by piece as in
    thriftwire/bufio.go: with enough capacity the array is overwritten; else a
    new array is made, after some prefix of [x] may have been written into the
    old one.  [prefix] is the length of that prefix, [room] the spare capacity
    of the new array: unspecified choices of the reader and of append. *)
Context (prefix : nat -> nat -> nat) (room : nat -> nat).

Definition append (H : heap) (nl : bool) (base cap : nat) (x : list byte) : heap * cell :=
  if Nat.leb (length x) cap
  then (poke H base (map CByte x), CSlice (match x with [] => nl | _ => false end) base (length x) cap)
  else
    let H := poke H base (map CByte (firstn (Nat.min (prefix (length x) cap) cap) x)) in
    let '(H, b) := alloc H (map CByte x ++ repeat (CByte x00) (room (length x))) in
    (H, CSlice false b (length x) (length x + room (length x))).

Notation hres := (heap * option err)%type.

Definition hcheck (wt want : Z) (t : rtype) (H : heap) (k : prog wireR hres) : prog wireR hres :=
  if wt =? want then k else Ret (H, Some (sem "unmarshal" wt t None)).

(** A scalar: read, and set if there was no error. *)
Definition hscalar {X} (action : string) (wt : Z) (t : rtype) (e : wireR (X * option err))
  (H : heap) (va : nat) (f : X -> gval) : prog wireR hres :=
  rdu action wt t e (fun _ er => (H, Some er)) (fun x => Ret (poke H va [CLeaf (f x)], None)).

Section Unmarshal.
Context (rec : arsh -> nat -> heap -> Z -> prog wireR hres).

(** arshal_default.go:336-369: one iteration of the field loop *)
Definition hunmarshal_field (skip : Z -> prog wireR (option err)) (t : rtype)
  (fs : list structField) (va : nat) (H : heap) : prog wireR (heap + hres) :=
  rdu "ReadFieldBegin" T_Struct t RFieldBegin (fun _ er => inr (H, Some er)) (fun h =>
  if fh_type h =? T_Stop then
    rdu0 "ReadStructEnd" T_Struct t RStructEnd (fun er => inr (H, Some er)) (Ret (inr (H, None)))
  else
    let field_end H :=
      rdu0 "ReadFieldEnd" T_Struct t RFieldEnd (fun er => inr (H, Some er)) (Ret (inl H)) in
    match by_id fs (fh_id h) with
    | None =>
        e <- skip (fh_type h) ;;
        match e with
        | Some _ => Ret (inr (H, e))
        | None => field_end H
        end
    | Some f =>
        match nth_error (field_types t) (f_index f) with
        | None => Crash Panicked
        | Some _ =>
            '(H, e) <- rec (f_fncs f) (field_addr t (f_index f) va) H (fh_type h) ;;
            match e with
            | Some _ => Ret (inr (H, e))
            | None => field_end H
            end
        end
    end).

(** arshal_default.go:453-468: one iteration, for the map variable at [va] and
    the variables [k] and [v] of arshal_default.go:451-452.  What [va] is at
    that time decides: SetMapIndex panics if it is nil. *)
Definition hunmarshal_entry (t : rtype) (ka ea : arsh) (h : maphdr) (va k v : nat) (H : heap)
  : prog wireR (heap + hres) :=
  let kt := key_type env t in
  let et := elem_type env t in
  '(H, e) <- rec ka k (poke H k (zcells kt)) (map_key h) ;;
  match e with
  | Some _ => Ret (inr (H, e))
  | None =>
      match mem H va with
      | CMap o =>
          '(H, e) <- rec ea v (match o with
                               | Some m => map_index H m kt et k v
                               | None => poke H v (zcells et)
                               end) (map_val h) ;;
          match mem H va with
          | CMap (Some m) =>
              let H := set_map_index H m kt et k v in
              match e with
              | Some _ => Ret (inr (H, e))
              | None => Ret (inl H)
              end
          | _ => Crash Panicked
          end
      | _ => Crash Panicked
      end
  end.

(** arshal_default.go:538-554: one iteration; state: memory, the number of
    elements done, cap, mustZero.  [va.Index(i)] panics if the length of [va] at
    that time is not more. *)
Definition hunmarshal_elem (t : rtype) (ea : arsh) (wt : Z) (va : nat) (st : heap * nat * nat * bool)
  : prog wireR ((heap * nat * nat * bool) + hres) :=
  let et := elem_type env t in
  let '(H, i, cap, mz) := st in
  let '(H, cap, mz) :=
    if Nat.eqb i cap then
      let H := grow H et va in (H, match mem H va with CSlice _ _ _ cap => cap | _ => cap end, false)
    else (H, cap, mz) in
  match mem H va with
  | CSlice _ base len _ =>
      if Nat.ltb i len then
        let a := (base + i * size et)%nat in
        let H := if mz then poke H a (zcells et) else H in
        '(H, e) <- rec ea a H wt ;;
        match e with
        | Some _ => if can_set_len H va (S i) then Ret (inr (set_len H va (S i), e)) else Crash Panicked
        | None => Ret (inl (H, S i, cap, mz))
        end
      else Crash Panicked
  | _ => Crash Panicked
  end.
End Unmarshal.

(** The unmarshal closures of arshal_default.go:68-628, on the variable at
    [va]; [n] as in Arshal.v.  A variable that does not have the codec's type
    makes reflect panic. *)
Fixpoint hunmarshal (n : nat) (a : arsh) (va : nat) (H : heap) (wt : Z) : prog wireR hres :=
  match n with
  | O => Crash OutOfFuel
  | S m =>
      match a with
      | ABool t => hcheck wt T_Bool t H (hscalar "ReadBool" T_Bool t RBool H va GBool)
      | ADouble t single =>
          hcheck wt T_Double t H
            (hscalar "ReadDouble" T_Double t RDouble H va
               (fun y => if single then GF32 (f64_to_f32 y) else GF64 y))
      | AInt t w | AUint t w =>
          let conv := match a with AInt _ _ => width_signed w | _ => width_unsigned w end in
          hcheck wt (width_type w) t H
            (match w with
             | W8 => hscalar "ReadByte" T_Byte t RByte H va (fun b => GInt (conv (b2z b)))
             | W16 => hscalar "ReadI16" T_I16 t RI16 H va (fun z => GInt (conv z))
             | W32 => hscalar "ReadI32" T_I32 t RI32 H va (fun z => GInt (conv z))
             | W64 => hscalar "ReadI64" T_I64 t RI64 H va (fun z => GInt (conv z))
             end)
      | AString t => hcheck wt T_String t H (hscalar "ReadString" T_String t RString H va GString)
      | ABytes t =>
          hcheck wt T_String t H
            (match mem H va with
             | CSlice nl base _ cap =>
                 rdu "ReadBytes" T_String t (RBytes [])
                   (fun x er => (fst (append H nl base cap x), Some er))
                   (fun x => let '(H, c) := append H nl base cap x in Ret (poke H va [c], None))
             | _ => Crash Panicked
             end)
      | AUUID t =>
          hcheck wt T_UUID t H
            (match mem H va with
             | CLeaf (GUUID old) =>
                 rdu "ReadUUID" T_UUID t (RUUID old) (fun u er => (poke H va [CLeaf (GUUID u)], Some er))
                   (fun u => Ret (poke H va [CLeaf (GUUID u)], None))
             | _ => Crash Panicked
             end)
      | AStruct t =>
          match make_struct_fields env ln t with
          | None => Crash OutOfFuel
          | Some (inr e) => Ret (H, Some (with_action "unmarshal" e))
          | Some (inl fs) =>
              hcheck wt T_Struct t H
                (match mem H va with
                 | CHead =>
                     rdu "ReadStructBegin" T_Struct t RStructBegin (fun _ er => (H, Some er)) (fun _ =>
                     x <- loop_nat n (hunmarshal_field (hunmarshal m) (skip m) t fs va) H ;;
                     match x with inr r => Ret r | inl _ => Crash OutOfFuel end)
                 | _ => Crash Panicked
                 end)
          end
      | AMap t ka ea =>
          hcheck wt T_Map t H
            (match mem H va with
             | CMap o =>
                 rdu "ReadMapBegin" T_Map t RMapBegin (fun _ er => (H, Some er)) (fun h =>
                 let fin H :=
                   rdu0 "ReadMapEnd" T_Map t RMapEnd (fun er => (H, Some er)) (Ret (H, None)) in
                 if map_size h >? 0 then
                   let H :=
                     match o with
                     | Some _ => H
                     | None =>
                         let '(H, mp) := alloc H [CEntries []] in poke H va [CMap (Some mp)]
                     end in
                   let '(H, k) := alloc H (zcells (key_type env t)) in
                   let '(H, v) := alloc H (zcells (elem_type env t)) in
                   x <- loop_Z (map_size h) (hunmarshal_entry (hunmarshal m) t ka ea h va k v) H ;;
                   match x with
                   | inr r => Ret r
                   | inl H => fin H
                   end
                 else fin H)
             | _ => Crash Panicked
             end)
      | ASeq t set ea =>
          let wt' := if set then T_Set else T_List in
          hcheck wt wt' t H
            (match mem H va with
             | CSlice _ _ _ cap =>
                 rdu (if set then "ReadSetBegin" else "ReadListBegin") wt' t
                   (if set then RSetBegin else RListBegin) (fun _ er => (H, Some er)) (fun h =>
                 let fin H :=
                   rdu0 (if set then "ReadSetEnd" else "ReadListEnd") wt' t
                     (if set then RSetEnd else RListEnd) (fun er => (H, Some er)) (Ret (H, None)) in
                 if set_size h >? 0 then
                   x <- loop_Z (set_size h) (hunmarshal_elem (hunmarshal m) t ea (set_elem h) va)
                          (set_len H va cap, O, cap, true) ;;
                   match x with
                   | inr r => Ret r
                   | inl (H, i, _, _) => if can_set_len H va i then fin (set_len H va i) else Crash Panicked
                   end
                 else fin (set_len H va 0))
             | _ => Crash Panicked
             end)
      | APtr t ea =>
          match mem H va with
          | CPtr (Some b) => hunmarshal m ea b H wt
          | CPtr None =>
              let '(H, b) := alloc H (zcells (elem_type env t)) in
              hunmarshal m ea b (poke H va [CPtr (Some b)]) wt
          | _ => Crash Panicked
          end
      | AInvalid t => Ret (H, Some (sem "unmarshal" wt t None))
      end
  end.

(** thrift/arshal.go:43-63 Unmarshal: [out] is a nil interface, or a dynamic
    type with the pointer it holds if that type is a pointer type. *)
Definition hUnmarshal (n : nat) (out : option (rtype * option nat)) (H : heap) : prog wireR hres :=
  match out with
  | None => Ret (H, Some (ESemantic "unmarshal" 0 None (Some ENonNilPointer)))
  | Some (t, p) =>
      if is_ptr env t then
        match p with
        | None => Ret (H, Some (ESemantic "unmarshal" 0 (Some (elem_type env t)) (Some ENonNilPointer)))
        | Some p =>
            match lookup env ln (elem_type env t) with
            | None => Crash OutOfFuel
            | Some a => hunmarshal n a p H (wire_type a)
            end
        end
      else Ret (H, Some (ESemantic "unmarshal" 0 (Some t) (Some ENonNilPointer)))
  end.

(** ** Marshal, on the variable at [va].  It also needs memory of its own: the
    variables [k] and [v] for a map's entries, and a zero value for a nil
    pointer (the former are made here even when the map is empty).
    [isZero t H a]: what the function of fields.go:57-74, which calls an IsZero
    method (user code), answers about the variable of type [t] at [a]. *)
Context (isZero : rtype -> heap -> nat -> bool).

(** reflect.Value.IsZero *)
Definition cell_zero (inner : bool) (c : cell) : bool :=
  match c with
  | CLeaf v => is_zero env inner v
  | CHead => true
  | CSlice nl _ _ _ => nl
  | CMap o | CPtr o => is_none o
  | _ => false
  end.
Definition cells_zero (cs : list cell) : bool :=
  match cs with
  | CHead :: r => forallb (cell_zero true) r
  | _ => forallb (cell_zero false) cs
  end.
(** arshal_default.go:295 *)
Definition hfield_zero (f : structField) (H : heap) (a : nat) : bool :=
  match f_isZero f with
  | None => cells_zero (peek H a (size (f_typ f)))
  | Some _ => isZero (f_typ f) H a
  end.

Definition hwr (action : string) (wt : Z) (t : rtype) (e : wireW (option err)) (H : heap)
  : prog wireW hres :=
  r <- wr action wt t e ;; Ret (H, r).
(** [if err := p; err != nil { return err }; k] *)
Definition hthen (p : prog wireW hres) (k : heap -> prog wireW hres) : prog wireW hres :=
  '(H, e) <- p ;; match e with None => k H | Some _ => Ret (H, e) end.

Section Marshal.
Context (rec : arsh -> nat -> heap -> prog wireW hres).

(** arshal_default.go:283-319 *)
Fixpoint hmarshal_fields (t : rtype) (va : nat) (fs : list structField) (H : heap) : prog wireW hres :=
  match fs with
  | [] => hwr "WriteStructEnd" T_Struct t WStructEnd H
  | f :: r =>
      if wire_type (f_fncs f) =? T_Stop
      then Ret (H, Some (ESemantic "marshal" 0 (Some (f_typ f)) None))
      else
        match nth_error (field_types t) (f_index f) with
        | None => Crash Panicked
        | Some _ =>
            let v := field_addr t (f_index f) va in
            if negb (f_required f) && hfield_zero f H v then hmarshal_fields t va r H
            else
              hthen (hwr "WriteFieldBegin" T_Struct t
                       (WFieldBegin (mkFH (f_name f) (wire_type (f_fncs f)) (f_id f))) H) (fun H =>
              hthen (rec (f_fncs f) v H) (fun H =>
              hthen (hwr "WriteFieldEnd" T_Struct t WFieldEnd H) (fun H =>
              hmarshal_fields t va r H)))
        end
  end.

(** arshal_default.go:416-428, for the variables [k] and [v] *)
Fixpoint hmarshal_entries (t : rtype) (ka ea : arsh) (k v : nat) (es : list (nat * nat)) (H : heap)
  : prog wireW hres :=
  match es with
  | [] => hwr "WriteMapEnd" T_Map t WMapEnd H
  | (a, b) :: r =>
      hthen (rec ka k (poke H k (peek H a (size (key_type env t))))) (fun H =>
      hthen (rec ea v (poke H v (peek H b (size (elem_type env t))))) (fun H =>
      hmarshal_entries t ka ea k v r H))
  end.

(** arshal_default.go:508-518: the [n] elements from [a] *)
Fixpoint hmarshal_elems (t : rtype) (set : bool) (ea : arsh) (a n : nat) (H : heap) : prog wireW hres :=
  match n with
  | O => if set then hwr "WriteSetEnd" T_Set t WSetEnd H else hwr "WriteListEnd" T_List t WListEnd H
  | S n' =>
      hthen (rec ea a H) (fun H => hmarshal_elems t set ea (a + size (elem_type env t)) n' H)
  end.
End Marshal.

Definition byte_of (c : cell) : byte := match c with CByte b => b | _ => x00 end.

Fixpoint hmarshal (n : nat) (a : arsh) (va : nat) (H : heap) : prog wireW hres :=
  match n with
  | O => Crash OutOfFuel
  | S m =>
      match a with
      | ABool t =>
          match mem H va with CLeaf (GBool b) => hwr "WriteBool" T_Bool t (WBool b) H | _ => Crash Panicked end
      | ADouble t single =>
          match mem H va, single with
          | CLeaf (GF32 x), true => hwr "WriteDouble" T_Double t (WDouble (f32_to_f64 x)) H
          | CLeaf (GF64 x), false => hwr "WriteDouble" T_Double t (WDouble x) H
          | _, _ => Crash Panicked
          end
      | AInt t w | AUint t w =>
          match mem H va with
          | CLeaf (GInt z) => hwr (write_action w) (width_type w) t (width_write w z) H
          | _ => Crash Panicked
          end
      | AString t =>
          match mem H va with
          | CLeaf (GString s) => hwr "WriteString" T_String t (WString s) H
          | _ => Crash Panicked
          end
      | ABytes t =>
          match mem H va with
          | CSlice _ base len _ =>
              hwr "WriteBytes" T_String t (WBytes (map byte_of (peek H base len))) H
          | _ => Crash Panicked
          end
      | AUUID t =>
          match mem H va with
          | CLeaf (GUUID u) => hwr "WriteUUID" T_UUID t (WUUID u) H
          | _ => Crash Panicked
          end
      | AStruct t =>
          match make_struct_fields env ln t with
          | None => Crash OutOfFuel
          | Some (inr e) => Ret (H, Some (with_action "marshal" e))
          | Some (inl fs) =>
              match mem H va with
              | CHead =>
                  hthen (hwr "WriteStructBegin" T_Struct t (WStructBegin (type_name env t)) H) (fun H =>
                  hmarshal_fields (hmarshal m) t va fs H)
              | _ => Crash Panicked
              end
          end
      | AMap t ka ea =>
          if (wire_type ka =? T_Stop) || (wire_type ea =? T_Stop)
          then Ret (H, Some (sem "marshal" T_Map t None))
          else
            match mem H va with
            | CMap o =>
                let es := match o with
                          | Some mp => match mem H mp with CEntries es => es | _ => [] end
                          | None => []
                          end in
                hthen (hwr "WriteMapBegin" T_Map t
                         (WMapBegin (mkMapH (wire_type ka) (wire_type ea) (zlen es))) H) (fun H =>
                let '(H, k) := alloc H (zcells (key_type env t)) in
                let '(H, v) := alloc H (zcells (elem_type env t)) in
                hmarshal_entries (hmarshal m) t ka ea k v es H)
            | _ => Crash Panicked
            end
      | ASeq t set ea =>
          if wire_type ea =? T_Stop
          then Ret (H, Some (sem "marshal" (if set then T_Set else T_List) t None))
          else
            match mem H va with
            | CSlice _ base len _ =>
                hthen (if set
                       then hwr "WriteSetBegin" T_Set t (WSetBegin (mkSetH (wire_type ea) (Z.of_nat len))) H
                       else hwr "WriteListBegin" T_List t (WListBegin (mkSetH (wire_type ea) (Z.of_nat len))) H)
                (fun H => hmarshal_elems (hmarshal m) t set ea base len H)
            | _ => Crash Panicked
            end
      | APtr t ea =>
          match mem H va with
          | CPtr None => let '(H, b) := alloc H (zcells (elem_type env t)) in hmarshal m ea b H
          | CPtr (Some b) => hmarshal m ea b H
          | _ => Crash Panicked
          end
      | AInvalid t => Ret (H, Some (ESemantic "marshal" 0 (Some t) None))
      end
  end.

(** thrift/arshal.go:14-38 Marshal: [in] is a nil interface, or a dynamic type
    and the cells of the value; a value that is not a pointer is copied into a
    new variable (arshal.go:26-29). *)
Definition hMarshal (n : nat) (i : option (rtype * list cell)) (H : heap) : prog wireW hres :=
  match i with
  | None => Ret (H, Some (ESemantic "marshal" 0 None (Some ENonNilPointer)))
  | Some (t, cs) =>
      if is_ptr env t then
        match cs with
        | [CPtr None] => Ret (H, Some (ESemantic "marshal" 0 (Some (elem_type env t)) (Some ENonNilPointer)))
        | [CPtr (Some p)] =>
            match lookup env ln (elem_type env t) with
            | None => Crash OutOfFuel
            | Some a => hmarshal n a p H
            end
        | _ => Crash Panicked
        end
      else
        match lookup env ln t with
        | None => Crash OutOfFuel
        | Some a => let '(H, v) := alloc H cs in hmarshal n a v H
        end
  end.
End Heap.
