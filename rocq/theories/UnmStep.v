(** Unmarshal, one access to memory at a time, so that goroutines can be
    interleaved between them.  The code is that of [hunmarshal] in Heap.v
    (thrift/arshal.go and arshal_default.go), which does the accesses in one go. *)
From Coq Require Import Strings.String.
From Verif Require Import Base Prog Wire GoFloat Utf8 GoType Fields Arshal Heap HeapStep.

(** What a goroutine in Unmarshal does: read or write one cell of memory, get
    new memory with given contents, call its Reader. *)
Inductive memU : Type -> Type :=
| URead (a : nat) : memU cell
| UWrite (a : nat) (c : cell) : memU unit
| UAlloc (cs : list cell) : memU nat
| UWire X (e : wireR X) : memU X.
Arguments UWire {X} e.

(** A program that only calls its Reader. *)
Fixpoint uembed {A} (p : prog wireR A) : prog memU A :=
  match p with
  | Ret a => Ret a
  | Vis e k => Vis (UWire e) (fun x => uembed (k x))
  | Crash c => Crash c
  end.

Fixpoint urd (a n : nat) : prog memU (list cell) :=
  match n with
  | O => Ret []
  | S m => c <- call (URead a) ;; r <- urd (S a) m ;; Ret (c :: r)
  end.
Fixpoint uwr (a : nat) (cs : list cell) : prog memU unit :=
  match cs with
  | [] => Ret tt
  | c :: r => _ <- call (UWrite a c) ;; uwr (S a) r
  end.

(** [rdu] and [rdu0] of Arshal.v *)
Definition urdu {X A} (action : string) (wt : Z) (t : rtype) (e : wireR (X * option err))
  (fail : X -> err -> prog memU A) (k : X -> prog memU A) : prog memU A :=
  '(x, er) <- call (UWire e) ;;
  match er with
  | Some er => fail x (sem "unmarshal" wt t (Some (EWire action er)))
  | None => k x
  end.
Definition urdu0 {A} (action : string) (wt : Z) (t : rtype) (e : wireR (option err))
  (fail : err -> A) (k : prog memU A) : prog memU A :=
  er <- call (UWire e) ;;
  match er with
  | Some er => Ret (fail (sem "unmarshal" wt t (Some (EWire action er))))
  | None => k
  end.

Section Step.
Context (env : tenv) (ln : nat).
Notation size := (size env).
Notation zcells := (zcells env).

(** The entry of a map whose key has the cells [cs]. *)
Fixpoint sfind (kt : rtype) (cs : list cell) (es : list (nat * nat)) : prog memU (option (nat * nat)) :=
  match es with
  | [] => Ret None
  | (ka, va) :: r =>
      ds <- urd ka (size kt) ;;
      if cells_eq cs ds then Ret (Some (ka, va)) else sfind kt cs r
  end.

(** arshal_default.go:457-461 *)
Definition smap_index (m : nat) (kt et : rtype) (k v : nat) : prog memU unit :=
  d <- call (URead m) ;;
  match d with
  | CEntries es =>
      cs <- urd k (size kt) ;;
      f <- sfind kt cs es ;;
      match f with
      | Some (_, a) => ds <- urd a (size et) ;; uwr v ds
      | None => uwr v (zcells et)
      end
  | _ => Ret tt
  end.

(** arshal_default.go:464 *)
Definition sset_map_index (m : nat) (kt et : rtype) (k v : nat) : prog memU unit :=
  d <- call (URead m) ;;
  match d with
  | CEntries es =>
      cs <- urd k (size kt) ;;
      f <- sfind kt cs es ;;
      match f with
      | Some (ka, va) => ds <- urd v (size et) ;; _ <- uwr ka cs ;; uwr va ds
      | None =>
          ka <- call (UAlloc cs) ;;
          ds <- urd v (size et) ;;
          va <- call (UAlloc ds) ;;
          call (UWrite m (CEntries (es ++ [(ka, va)])))
      end
  | _ => Ret tt
  end.

(** [va.SetLen(i)]; it panics if the capacity is less *)
Definition sset_len (va i : nat) : prog memU unit :=
  c <- call (URead va) ;;
  match c with
  | CSlice nl base _ cap => if Nat.leb i cap then call (UWrite va (CSlice nl base i cap)) else Crash Panicked
  | _ => Crash Panicked
  end.

(** arshal_default.go:540-542; the result is the new capacity *)
Definition sgrow (et : rtype) (va : nat) : prog memU nat :=
  c <- call (URead va) ;;
  match c with
  | CSlice nl base len cap =>
      if Nat.ltb len cap then _ <- call (UWrite va (CSlice nl base cap cap)) ;; Ret cap else
      cs <- urd base (len * size et) ;;
      b <- call (UAlloc (cs ++ concat (repeat (zcells et) (S (te_grow env cap))))) ;;
      _ <- call (UWrite va (CSlice false b (len + S (te_grow env cap)) (cap + S (te_grow env cap)))) ;;
      Ret (cap + S (te_grow env cap))%nat
  | _ => Crash Panicked
  end.

(** [append] of Heap.v: what ReadBytes does to the memory of the slice.  It is
    modelled as done after the bytes have been read. *)
Context (prefix : nat -> nat -> nat) (room : nat -> nat).
Definition sappend (nl : bool) (base cap : nat) (x : list byte) : prog memU cell :=
  if Nat.leb (length x) cap
  then _ <- uwr base (map CByte x) ;; Ret (CSlice (match x with [] => nl | _ => false end) base (length x) cap)
  else
    _ <- uwr base (map CByte (firstn (Nat.min (prefix (length x) cap) cap) x)) ;;
    b <- call (UAlloc (map CByte x ++ repeat (CByte x00) (room (length x)))) ;;
    Ret (CSlice false b (length x) (length x + room (length x))).

Definition scheck (wt want : Z) (t : rtype) (k : prog memU (option err)) : prog memU (option err) :=
  if wt =? want then k else Ret (Some (sem "unmarshal" wt t None)).
Definition sscalar {X} (action : string) (wt : Z) (t : rtype) (e : wireR (X * option err))
  (va : nat) (f : X -> gval) : prog memU (option err) :=
  urdu action wt t e (fun _ er => Ret (Some er)) (fun x => _ <- call (UWrite va (CLeaf (f x))) ;; Ret None).

Section Rec.
Context (rec : arsh -> nat -> Z -> prog memU (option err)).

(** arshal_default.go:336-369: one iteration of the field loop *)
Definition sunmarshal_field (skip : Z -> prog wireR (option err)) (t : rtype)
  (fs : list structField) (va : nat) (_ : unit) : prog memU (unit + option err) :=
  urdu "ReadFieldBegin" T_Struct t RFieldBegin (fun _ er => Ret (inr (Some er))) (fun h =>
  if fh_type h =? T_Stop then
    urdu0 "ReadStructEnd" T_Struct t RStructEnd (fun er => inr (Some er)) (Ret (inr None))
  else
    let field_end := urdu0 "ReadFieldEnd" T_Struct t RFieldEnd (fun er => inr (Some er)) (Ret (inl tt)) in
    e <- match by_id fs (fh_id h) with
         | None => uembed (skip (fh_type h))
         | Some f =>
             match nth_error (field_types env t) (f_index f) with
             | None => Crash Panicked
             | Some _ => rec (f_fncs f) (field_addr env t (f_index f) va) (fh_type h)
             end
         end ;;
    match e with
    | Some _ => Ret (inr e)
    | None => field_end
    end).

(** arshal_default.go:453-468: one iteration *)
Definition sunmarshal_entry (t : rtype) (ka ea : arsh) (h : maphdr) (va k v : nat) (_ : unit)
  : prog memU (unit + option err) :=
  let kt := key_type env t in
  let et := elem_type env t in
  _ <- uwr k (zcells kt) ;;
  e <- rec ka k (map_key h) ;;
  match e with
  | Some _ => Ret (inr e)
  | None =>
      c <- call (URead va) ;;
      match c with
      | CMap o =>
          _ <- match o with
               | Some m => smap_index m kt et k v
               | None => uwr v (zcells et)
               end ;;
          e <- rec ea v (map_val h) ;;
          c <- call (URead va) ;;
          match c with
          | CMap (Some m) =>
              _ <- sset_map_index m kt et k v ;;
              match e with
              | Some _ => Ret (inr e)
              | None => Ret (inl tt)
              end
          | _ => Crash Panicked
          end
      | _ => Crash Panicked
      end
  end.

(** arshal_default.go:538-554: one iteration; state: the number of elements
    done, cap, mustZero *)
Definition sunmarshal_elem (t : rtype) (ea : arsh) (wt : Z) (va : nat) (st : nat * nat * bool)
  : prog memU ((nat * nat * bool) + option err) :=
  let et := elem_type env t in
  let '(i, cap, mz) := st in
  '(cap, mz) <- (if Nat.eqb i cap then c <- sgrow et va ;; Ret (c, false) else Ret (cap, mz)) ;;
  c <- call (URead va) ;;
  match c with
  | CSlice _ base len _ =>
      if Nat.ltb i len then
        let a := (base + i * size et)%nat in
        _ <- (if mz : bool then uwr a (zcells et) else Ret tt) ;;
        e <- rec ea a wt ;;
        match e with
        | Some _ => _ <- sset_len va (S i) ;; Ret (inr e)
        | None => Ret (inl (S i, cap, mz))
        end
      else Crash Panicked
  | _ => Crash Panicked
  end.
End Rec.

(** The unmarshal closures of arshal_default.go:68-628 *)
Fixpoint sunmarshal (n : nat) (a : arsh) (va : nat) (wt : Z) : prog memU (option err) :=
  match n with
  | O => Crash OutOfFuel
  | S m =>
      match a with
      | ABool t => scheck wt T_Bool t (sscalar "ReadBool" T_Bool t RBool va GBool)
      | ADouble t single =>
          scheck wt T_Double t
            (sscalar "ReadDouble" T_Double t RDouble va
               (fun y => if single then GF32 (f64_to_f32 y) else GF64 y))
      | AInt t w | AUint t w =>
          let conv := match a with AInt _ _ => width_signed w | _ => width_unsigned w end in
          scheck wt (width_type w) t
            (match w with
             | W8 => sscalar "ReadByte" T_Byte t RByte va (fun b => GInt (conv (b2z b)))
             | W16 => sscalar "ReadI16" T_I16 t RI16 va (fun z => GInt (conv z))
             | W32 => sscalar "ReadI32" T_I32 t RI32 va (fun z => GInt (conv z))
             | W64 => sscalar "ReadI64" T_I64 t RI64 va (fun z => GInt (conv z))
             end)
      | AString t => scheck wt T_String t (sscalar "ReadString" T_String t RString va GString)
      | ABytes t =>
          scheck wt T_String t
            (c <- call (URead va) ;;
             match c with
             | CSlice nl base _ cap =>
                 urdu "ReadBytes" T_String t (RBytes [])
                   (fun x er => _ <- sappend nl base cap x ;; Ret (Some er))
                   (fun x => c <- sappend nl base cap x ;; _ <- call (UWrite va c) ;; Ret None)
             | _ => Crash Panicked
             end)
      | AUUID t =>
          scheck wt T_UUID t
            (c <- call (URead va) ;;
             match c with
             | CLeaf (GUUID old) =>
                 urdu "ReadUUID" T_UUID t (RUUID old)
                   (fun u er => _ <- call (UWrite va (CLeaf (GUUID u))) ;; Ret (Some er))
                   (fun u => _ <- call (UWrite va (CLeaf (GUUID u))) ;; Ret None)
             | _ => Crash Panicked
             end)
      | AStruct t =>
          match make_struct_fields env ln t with
          | None => Crash OutOfFuel
          | Some (inr e) => Ret (Some (with_action "unmarshal" e))
          | Some (inl fs) =>
              scheck wt T_Struct t
                (urdu "ReadStructBegin" T_Struct t RStructBegin (fun _ er => Ret (Some er)) (fun _ =>
                 x <- loop_nat n (sunmarshal_field (sunmarshal m) (skip m) t fs va) tt ;;
                 match x with inr r => Ret r | inl _ => Crash OutOfFuel end))
          end
      | AMap t ka ea =>
          scheck wt T_Map t
            (urdu "ReadMapBegin" T_Map t RMapBegin (fun _ er => Ret (Some er)) (fun h =>
             let fin := urdu0 "ReadMapEnd" T_Map t RMapEnd (fun er => Some er) (Ret None) in
             if map_size h >? 0 then
               c <- call (URead va) ;;
               match c with
               | CMap o =>
                   _ <- match o with
                        | Some _ => Ret tt
                        | None => mp <- call (UAlloc [CEntries []]) ;; call (UWrite va (CMap (Some mp)))
                        end ;;
                   k <- call (UAlloc (zcells (key_type env t))) ;;
                   v <- call (UAlloc (zcells (elem_type env t))) ;;
                   x <- loop_Z (map_size h) (sunmarshal_entry (sunmarshal m) t ka ea h va k v) tt ;;
                   match x with
                   | inr r => Ret r
                   | inl _ => fin
                   end
               | _ => Crash Panicked
               end
             else fin))
      | ASeq t set ea =>
          let wt' := if set then T_Set else T_List in
          scheck wt wt' t
            (urdu (if set then "ReadSetBegin" else "ReadListBegin") wt' t
               (if set then RSetBegin else RListBegin) (fun _ er => Ret (Some er)) (fun h =>
             let fin := urdu0 (if set then "ReadSetEnd" else "ReadListEnd") wt' t
                          (if set then RSetEnd else RListEnd) (fun er => Some er) (Ret None) in
             if set_size h >? 0 then
               c <- call (URead va) ;;
               match c with
               | CSlice _ _ _ cap =>
                   _ <- sset_len va cap ;;
                   x <- loop_Z (set_size h) (sunmarshal_elem (sunmarshal m) t ea (set_elem h) va) (O, cap, true) ;;
                   match x with
                   | inr r => Ret r
                   | inl (i, _, _) => _ <- sset_len va i ;; fin
                   end
               | _ => Crash Panicked
               end
             else _ <- sset_len va 0 ;; fin))
      | APtr t ea =>
          c <- call (URead va) ;;
          match c with
          | CPtr (Some b) => sunmarshal m ea b wt
          | CPtr None =>
              b <- call (UAlloc (zcells (elem_type env t))) ;;
              _ <- call (UWrite va (CPtr (Some b))) ;;
              sunmarshal m ea b wt
          | _ => Crash Panicked
          end
      | AInvalid t => Ret (Some (sem "unmarshal" wt t None))
      end
  end.

(** thrift/arshal.go:43-63 Unmarshal, into the variable of type [t] at [p] (a
    non-nil pointer is given) *)
Definition sUnmarshal (n : nat) (t : rtype) (p : nat) : prog memU (option err) :=
  match lookup env ln t with
  | None => Crash OutOfFuel
  | Some a => sunmarshal n a p (wire_type a)
  end.

(** ** Goroutines *)
Context {S : Type}.

(** What an access does to memory and to the state of the goroutine's Reader,
    which [h] implements. *)
Definition uact (h : handler wireR S) : handler memU (heap * S) := fun X e =>
  match e in memU X return heap * S -> outcome (heap * S) X with
  | URead a => fun s => Done s (mem (fst s) a)
  | UWrite a c => fun s => Done (poke (fst s) a [c], snd s) tt
  | UAlloc cs => fun s => let '(H, b) := alloc (fst s) cs in Done (H, snd s) b
  | UWire e => fun s => match h _ e (snd s) with Done w x => Done (fst s, w) x | Crashed c => Crashed c end
  end.

(** Memory, and of each goroutine what it has yet to do and the state of its
    Reader. *)
Definition usystem : Type := heap * (nat -> prog memU (option err) * S).

(** Goroutine [i] does the next thing. *)
Inductive umoves (h : nat -> handler wireR S) (i : nat) : usystem -> usystem -> Prop :=
| umoves_on H g X (e : memU X) k w H' w' x : g i = (Vis e k, w) -> uact (h i) X e (H, w) = Done (H', w') x ->
    umoves h i (H, g) (H', put g i (k x, w'))
| umoves_crash H g X (e : memU X) k w c : g i = (Vis e k, w) -> uact (h i) X e (H, w) = Crashed c ->
    umoves h i (H, g) (H, put g i (Crash c, w)).
Inductive ureaches (h : nat -> handler wireR S) (x : usystem) : usystem -> Prop :=
| us_start : ureaches h x x
| us_step i y z : ureaches h x y -> umoves h i y z -> ureaches h x z.
End Step.

(** The access to memory that comes next: the address, and whether it writes. *)
Definition uabout_to {A} (p : prog memU A) : option (nat * bool) :=
  match p with
  | Vis e _ => match e with URead a => Some (a, false) | UWrite a _ => Some (a, true) | _ => None end
  | _ => None
  end.
