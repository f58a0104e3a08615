(** thrift/arshal.go and thrift/arshal_default.go: Marshal and Unmarshal. *)
From Coq Require Import Strings.String.
From Verif Require Import Base Prog Wire GoFloat Utf8 GoType Fields.

(** &SemanticError{action, ThriftType, GoType, Err} *)
Definition sem (action : string) (wt : Z) (t : rtype) (e : option err) : err :=
  ESemantic action wt (Some t) e.

(** [err.action = action] on a copy (arshal_default.go:272-274, 324-326) *)
Definition with_action (action : string) (e : err) : err :=
  match e with ESemantic _ wt t e => ESemantic action wt t e | _ => e end.

(** [err := w.X(...); if err != nil { return &SemanticError{... wireError ...} }] *)
Definition wr (action : string) (wt : Z) (t : rtype) (e : wireW (option err))
  : prog wireW (option err) :=
  r <- call e ;;
  match r with
  | None => Ret None
  | Some er => Ret (Some (sem "marshal" wt t (Some (EWire action er))))
  end.

(** arshal_default.go:23-38, 146-165: the integer codecs *)
Definition width_write (w : width) (z : Z) : wireW (option err) :=
  match w with
  | W8 => WByte (z2b z)
  | W16 => WI16 (i16 z)
  | W32 => WI32 (i32 z)
  | W64 => WI64 (i64 z)
  end.
Definition write_action (w : width) : string :=
  match w with W8 => "WriteByte" | W16 => "WriteI16" | W32 => "WriteI32" | W64 => "WriteI64" end.
Definition read_action (w : width) : string :=
  match w with W8 => "ReadByte" | W16 => "ReadI16" | W32 => "ReadI32" | W64 => "ReadI64" end.
(** SetInt(int64(v)) on an intN and SetUint(uint64(v)) on a uintN *)
Definition width_signed (w : width) (z : Z) : Z :=
  match w with W8 => i8 z | W16 => i16 z | W32 => i32 z | W64 => i64 z end.
Definition width_unsigned (w : width) (z : Z) : Z :=
  match w with W8 => u8 (u64 z) | W16 => u16 (u64 z) | W32 => u32 (u64 z) | W64 => u64 z end.

Section Arshal.
Context (env : tenv) (ln : nat).   (* [ln]: depth allowed to codec lookups *)

(** arshal_default.go:295 *)
Definition field_zero (f : structField) (v : gval) : bool :=
  match f_isZero f with None => is_zero env false v | Some z => z v end.

(** t.Elem() and t.Key() *)
Definition elem_type (t : rtype) : rtype :=
  match under env t with RtSlice e | RtArray _ e | RtMap _ e | RtPtr e => e | _ => t end.
Definition key_type (t : rtype) : rtype :=
  match under env t with RtMap k _ => k | _ => t end.

Section Marshal.
Context (rec : arsh -> gval -> prog wireW (option err)).

(** arshal_default.go:283-319: the fields still to be written, then the end *)
Fixpoint marshal_fields (t : rtype) (vs : list gval) (fs : list structField)
  : prog wireW (option err) :=
  match fs with
  | [] => wr "WriteStructEnd" T_Struct t WStructEnd
  | f :: r =>
      if wire_type (f_fncs f) =? T_Stop
      then Ret (Some (ESemantic "marshal" 0 (Some (f_typ f)) None))
      else
        match nth_error vs (f_index f) with
        | None => Crash Panicked
        | Some v =>
            if negb (f_required f) && field_zero f v then marshal_fields t vs r
            else
              wr "WriteFieldBegin" T_Struct t
                 (WFieldBegin (mkFH (f_name f) (wire_type (f_fncs f)) (f_id f))) >>!
              rec (f_fncs f) v >>!
              wr "WriteFieldEnd" T_Struct t WFieldEnd >>!
              marshal_fields t vs r
        end
  end.

(** arshal_default.go:420-435 *)
Fixpoint marshal_entries (t : rtype) (ka va : arsh) (es : list (gval * gval))
  : prog wireW (option err) :=
  match es with
  | [] => wr "WriteMapEnd" T_Map t WMapEnd
  | (k, v) :: r => rec ka k >>! rec va v >>! marshal_entries t ka va r
  end.

(** arshal_default.go:508-518 *)
Fixpoint marshal_elems (t : rtype) (set : bool) (ea : arsh) (es : list gval)
  : prog wireW (option err) :=
  match es with
  | [] => if set then wr "WriteSetEnd" T_Set t WSetEnd else wr "WriteListEnd" T_List t WListEnd
  | v :: r => rec ea v >>! marshal_elems t set ea r
  end.
End Marshal.

(** The marshal closures of arshal_default.go:68-628.  [n] bounds the recursion
    depth; Go has no such bound.  A value that does not have the codec's type
    makes reflect panic. *)
Fixpoint marshal (n : nat) (a : arsh) (v : gval) : prog wireW (option err) :=
  match n with
  | O => Crash OutOfFuel
  | S m =>
      match a with
      | ABool t =>
          match v with GBool b => wr "WriteBool" T_Bool t (WBool b) | _ => Crash Panicked end
      | ADouble t single =>
          match v, single with
          | GF32 x, true => wr "WriteDouble" T_Double t (WDouble (f32_to_f64 x))
          | GF64 x, false => wr "WriteDouble" T_Double t (WDouble x)
          | _, _ => Crash Panicked
          end
      | AInt t w | AUint t w =>
          match v with
          | GInt z => wr (write_action w) (width_type w) t (width_write w z)
          | _ => Crash Panicked
          end
      | AString t =>
          match v with GString s => wr "WriteString" T_String t (WString s) | _ => Crash Panicked end
      | ABytes t =>
          match v with GBytes _ s _ => wr "WriteBytes" T_String t (WBytes s) | _ => Crash Panicked end
      | AUUID t =>
          match v with GUUID u => wr "WriteUUID" T_UUID t (WUUID u) | _ => Crash Panicked end
      | AStruct t =>
          match make_struct_fields env ln t with
          | None => Crash OutOfFuel
          | Some (inr e) => Ret (Some (with_action "marshal" e))
          | Some (inl fs) =>
              match v with
              | GStruct vs =>
                  wr "WriteStructBegin" T_Struct t (WStructBegin (type_name env t)) >>!
                  marshal_fields (marshal m) t vs fs
              | _ => Crash Panicked
              end
          end
      | AMap t ka va =>
          if (wire_type ka =? T_Stop) || (wire_type va =? T_Stop)
          then Ret (Some (sem "marshal" T_Map t None))
          else
            match v with
            | GMap o =>
                let es := match o with Some es => es | None => [] end in
                wr "WriteMapBegin" T_Map t
                   (WMapBegin (mkMapH (wire_type ka) (wire_type va) (zlen es))) >>!
                marshal_entries (marshal m) t ka va es
            | _ => Crash Panicked
            end
      | ASeq t set ea =>
          if wire_type ea =? T_Stop
          then Ret (Some (sem "marshal" (if set then T_Set else T_List) t None))
          else
            match v with
            | GSlice _ es _ =>
                (if set
                 then wr "WriteSetBegin" T_Set t (WSetBegin (mkSetH (wire_type ea) (zlen es)))
                 else wr "WriteListBegin" T_List t (WListBegin (mkSetH (wire_type ea) (zlen es)))) >>!
                marshal_elems (marshal m) t set ea es
            | _ => Crash Panicked
            end
      | APtr t ea =>
          match v with
          | GPtr None => marshal m ea (zero env (elem_type t))
          | GPtr (Some w) => marshal m ea w
          | _ => Crash Panicked
          end
      | AInvalid t => Ret (Some (ESemantic "marshal" 0 (Some t) None))
      end
  end.

(** ** Unmarshal: from the destination's old value to its new value, which is
    also given when there is an error. *)
Notation ures := (gval * option err)%type.

(** [v, err := r.X(...); if err != nil { return &SemanticError{... wireError ...} }] *)
Definition rdu {X A} (action : string) (wt : Z) (t : rtype) (e : wireR (X * option err))
  (fail : X -> err -> A) (k : X -> prog wireR A) : prog wireR A :=
  '(x, er) <- call e ;;
  match er with
  | Some er => Ret (fail x (sem "unmarshal" wt t (Some (EWire action er))))
  | None => k x
  end.
Definition rdu0 {A} (action : string) (wt : Z) (t : rtype) (e : wireR (option err))
  (fail : err -> A) (k : prog wireR A) : prog wireR A :=
  er <- call e ;;
  match er with
  | Some er => Ret (fail (sem "unmarshal" wt t (Some (EWire action er))))
  | None => k
  end.

(** [if wt != want { return &SemanticError{ThriftType: wt, GoType: t} }] *)
Definition check (wt want : Z) (t : rtype) (dst : gval) (k : prog wireR ures) : prog wireR ures :=
  if wt =? want then k else Ret (dst, Some (sem "unmarshal" wt t None)).

(** A scalar: read, and set if there was no error. *)
Definition scalar {X} (action : string) (wt : Z) (t : rtype) (e : wireR (X * option err))
  (dst : gval) (f : X -> gval) : prog wireR ures :=
  rdu action wt t e (fun _ er => (dst, Some er)) (fun x => Ret (f x, None)).

Section Unmarshal.
Context (rec : arsh -> gval -> Z -> prog wireR ures).

(** arshal_default.go:336-369: one iteration of the field loop, on the values
    of the Go fields *)
Definition unmarshal_field (skip : Z -> prog wireR (option err)) (t : rtype)
  (fs : list structField) (vs : list gval) : prog wireR (list gval + ures) :=
  rdu "ReadFieldBegin" T_Struct t RFieldBegin (fun _ er => inr (GStruct vs, Some er)) (fun h =>
  if fh_type h =? T_Stop then
    rdu0 "ReadStructEnd" T_Struct t RStructEnd (fun er => inr (GStruct vs, Some er))
      (Ret (inr (GStruct vs, None)))
  else
    let field_end vs :=
      rdu0 "ReadFieldEnd" T_Struct t RFieldEnd (fun er => inr (GStruct vs, Some er))
        (Ret (inl vs)) in
    match by_id fs (fh_id h) with
    | None =>
        e <- skip (fh_type h) ;;
        match e with
        | Some _ => Ret (inr (GStruct vs, e))
        | None => field_end vs
        end
    | Some f =>
        match nth_error vs (f_index f) with
        | None => Crash Panicked
        | Some v =>
            '(v', e) <- rec (f_fncs f) v (fh_type h) ;;
            let vs := set_nth (f_index f) v' vs in
            match e with
            | Some _ => Ret (inr (GStruct vs, e))
            | None => field_end vs
            end
        end
    end).

(** arshal_default.go:453-468: one iteration, on the map's entries *)
Definition unmarshal_entry (t : rtype) (ka va : arsh) (h : maphdr) (es : list (gval * gval))
  : prog wireR (list (gval * gval) + ures) :=
  '(k, e) <- rec ka (zero env (key_type t)) (map_key h) ;;
  match e with
  | Some _ => Ret (inr (GMap (Some es), e))
  | None =>
      let v0 := match map_get es k with Some v => v | None => zero env (elem_type t) end in
      '(v, e) <- rec va v0 (map_val h) ;;
      let es := map_set es k v in
      match e with
      | Some _ => Ret (inr (GMap (Some es), e))
      | None => Ret (inl es)
      end
  end.

(** arshal_default.go:538-554: one iteration; state: the number of elements
    done, the slice up to its capacity, mustZero *)
Definition unmarshal_elem (t : rtype) (ea : arsh) (et : Z) (st : nat * list gval * bool)
  : prog wireR ((nat * list gval * bool) + ures) :=
  let '(i, arr, mz) := st in
  let '(arr, mz) :=
    if Nat.eqb i (length arr)
    then (arr ++ repeat (zero env (elem_type t)) (S (te_grow env (length arr))), false)
    else (arr, mz) in
  let v := if mz then zero env (elem_type t) else nth i arr (GOther 0) in
  '(v', e) <- rec ea v et ;;
  let arr := set_nth i v' arr in
  match e with
  | Some _ => Ret (inr (GSlice false (firstn (S i) arr) (skipn (S i) arr), e))
  | None => Ret (inl (S i, arr, mz))
  end.
End Unmarshal.

(** The unmarshal closures.  [n] bounds the recursion depth and the number of
    fields read for one struct. *)
Fixpoint unmarshal (n : nat) (a : arsh) (dst : gval) (wt : Z) : prog wireR ures :=
  match n with
  | O => Crash OutOfFuel
  | S m =>
      match a with
      | ABool t => check wt T_Bool t dst (scalar "ReadBool" T_Bool t RBool dst GBool)
      | ADouble t single =>
          check wt T_Double t dst
            (scalar "ReadDouble" T_Double t RDouble dst
               (fun y => if single then GF32 (f64_to_f32 y) else GF64 y))
      | AInt t w | AUint t w =>
          let conv := match a with AInt _ _ => width_signed w | _ => width_unsigned w end in
          check wt (width_type w) t dst
            (match w with
             | W8 => scalar "ReadByte" T_Byte t RByte dst (fun b => GInt (conv (b2z b)))
             | W16 => scalar "ReadI16" T_I16 t RI16 dst (fun z => GInt (conv z))
             | W32 => scalar "ReadI32" T_I32 t RI32 dst (fun z => GInt (conv z))
             | W64 => scalar "ReadI64" T_I64 t RI64 dst (fun z => GInt (conv z))
             end)
      | AString t => check wt T_String t dst (scalar "ReadString" T_String t RString dst GString)
      | ABytes t =>
          (* the slice is cut to length 0 and appended to; on an error the
             destination keeps its header (its bytes may have been overwritten
             in place: see Heap.v) *)
          check wt T_String t dst
            (scalar "ReadBytes" T_String t (RBytes []) dst
               (fun s => GBytes (match dst, s with GBytes true _ _, [] => true | _, _ => false end) s []))
      | AUUID t =>
          check wt T_UUID t dst
            (match dst with
             | GUUID old =>
                 rdu "ReadUUID" T_UUID t (RUUID old) (fun u er => (GUUID u, Some er))
                   (fun u => Ret (GUUID u, None))
             | _ => Crash Panicked
             end)
      | AStruct t =>
          match make_struct_fields env ln t with
          | None => Crash OutOfFuel
          | Some (inr e) => Ret (dst, Some (with_action "unmarshal" e))
          | Some (inl fs) =>
              check wt T_Struct t dst
                (match dst with
                 | GStruct vs =>
                     rdu "ReadStructBegin" T_Struct t RStructBegin (fun _ er => (dst, Some er)) (fun _ =>
                     x <- loop_nat n (unmarshal_field (unmarshal m) (skip m) t fs) vs ;;
                     match x with inr r => Ret r | inl _ => Crash OutOfFuel end)
                 | _ => Crash Panicked
                 end)
          end
      | AMap t ka va =>
          check wt T_Map t dst
            (match dst with
             | GMap o =>
                 rdu "ReadMapBegin" T_Map t RMapBegin (fun _ er => (dst, Some er)) (fun h =>
                 let fin dst :=
                   rdu0 "ReadMapEnd" T_Map t RMapEnd (fun er => (dst, Some er)) (Ret (dst, None)) in
                 if map_size h >? 0 then
                   let es := match o with Some es => es | None => [] end in
                   x <- loop_Z (map_size h) (unmarshal_entry (unmarshal m) t ka va h) es ;;
                   match x with
                   | inr r => Ret r
                   | inl es => fin (GMap (Some es))
                   end
                 else fin dst)
             | _ => Crash Panicked
             end)
      | ASeq t set ea =>
          let wt' := if set then T_Set else T_List in
          check wt wt' t dst
            (match dst with
             | GSlice nl es sp =>
                 rdu (if set then "ReadSetBegin" else "ReadListBegin") wt' t
                   (if set then RSetBegin else RListBegin) (fun _ er => (dst, Some er)) (fun h =>
                 let fin dst :=
                   rdu0 (if set then "ReadSetEnd" else "ReadListEnd") wt' t
                     (if set then RSetEnd else RListEnd) (fun er => (dst, Some er)) (Ret (dst, None)) in
                 if set_size h >? 0 then
                   x <- loop_Z (set_size h) (unmarshal_elem (unmarshal m) t ea (set_elem h))
                          (O, es ++ sp, true) ;;
                   match x with
                   | inr r => Ret r
                   | inl (i, arr, _) => fin (GSlice false (firstn i arr) (skipn i arr))
                   end
                 else fin (GSlice nl [] (es ++ sp)))
             | _ => Crash Panicked
             end)
      | APtr t ea =>
          match dst with
          | GPtr o =>
              let v := match o with Some v => v | None => zero env (elem_type t) end in
              '(v', e) <- unmarshal m ea v wt ;;
              Ret (GPtr (Some v'), e)
          | _ => Crash Panicked
          end
      | AInvalid t => Ret (dst, Some (sem "unmarshal" wt t None))
      end
  end.

(** ** thrift/arshal.go:14-38 Marshal and 43-63 Unmarshal.
    [in any] is [None] for a nil interface, else a dynamic type and a value. *)
Definition is_ptr (t : rtype) : bool := match under env t with RtPtr _ => true | _ => false end.

Definition Marshal (n : nat) (i : option (rtype * gval)) : prog wireW (option err) :=
  match i with
  | None => Ret (Some (ESemantic "marshal" 0 None (Some ENonNilPointer)))
  | Some (t, v) =>
      if is_ptr t then
        match v with
        | GPtr None => Ret (Some (ESemantic "marshal" 0 (Some (elem_type t)) (Some ENonNilPointer)))
        | GPtr (Some v) =>
            match lookup env ln (elem_type t) with
            | None => Crash OutOfFuel
            | Some a => marshal n a v
            end
        | _ => Crash Panicked
        end
      else
        match lookup env ln t with
        | None => Crash OutOfFuel
        | Some a => marshal n a v
        end
  end.

(** The result is what the pointer passed in points to afterwards ([None] when
    there is no such pointer). *)
Definition Unmarshal (n : nat) (o : option (rtype * gval)) : prog wireR (option gval * option err) :=
  match o with
  | None => Ret (None, Some (ESemantic "unmarshal" 0 None (Some ENonNilPointer)))
  | Some (t, v) =>
      if is_ptr t then
        match v with
        | GPtr None =>
            Ret (None, Some (ESemantic "unmarshal" 0 (Some (elem_type t)) (Some ENonNilPointer)))
        | GPtr (Some v) =>
            match lookup env ln (elem_type t) with
            | None => Crash OutOfFuel
            | Some a =>
                '(v', e) <- unmarshal n a v (wire_type a) ;; Ret (Some v', e)
            end
        | _ => Crash Panicked
        end
      else Ret (None, Some (ESemantic "unmarshal" 0 (Some t) (Some ENonNilPointer)))
  end.
End Arshal.
