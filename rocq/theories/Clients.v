(** The programs a user of thriftwire.Writer and thriftwire.Reader writes to
    send or receive one complete value.  These are specification devices; they
    call nothing but the interface methods, in the order the Thrift data model
    dictates. *)
From Verif Require Import Base Prog Wire Spec.

Fixpoint write_val (v : tval) : prog wireW (option err) :=
  match v with
  | VBool b => call (WBool b)
  | VByte b => call (WByte b)
  | VDouble z => call (WDouble z)
  | VI16 z => call (WI16 z)
  | VI32 z => call (WI32 z)
  | VI64 z => call (WI64 z)
  | VString s => call (WString s)
  | VUUID u => call (WUUID u)
  | VStruct fs =>
      call (WStructBegin []) >>!
      (fix fields (fs : list (Z * tval)) : prog wireW (option err) :=
         match fs with
         | [] => call WStructEnd
         | (id, v) :: r =>
             call (WFieldBegin (mkFH [] (val_type v) id)) >>!
             write_val v >>! call WFieldEnd >>! fields r
         end) fs
  | VMap kt vt es =>
      call (WMapBegin (mkMapH kt vt (zlen es))) >>!
      (fix entries (es : list (tval * tval)) : prog wireW (option err) :=
         match es with
         | [] => call WMapEnd
         | (k, v) :: r => write_val k >>! write_val v >>! entries r
         end) es
  | VSet et es =>
      call (WSetBegin (mkSetH et (zlen es))) >>!
      (fix elems (es : list tval) : prog wireW (option err) :=
         match es with
         | [] => call WSetEnd
         | v :: r => write_val v >>! elems r
         end) es
  | VList et es =>
      call (WListBegin (mkSetH et (zlen es))) >>!
      (fix elems (es : list tval) : prog wireW (option err) :=
         match es with
         | [] => call WListEnd
         | v :: r => write_val v >>! elems r
         end) es
  end.

(** Reading: a value or the error that stopped it. *)
Notation rres := (tval + err)%type.

(** [x, err := op; if err != nil { return err }; k x] *)
Definition rd {X A} (e : wireR (X * option err)) (k : X -> prog wireR (A + err))
  : prog wireR (A + err) :=
  '(x, o) <- call e ;; match o with Some er => Ret (inr er) | None => k x end.
Definition rd0 {A} (e : wireR (option err)) (k : prog wireR (A + err)) : prog wireR (A + err) :=
  o <- call e ;; match o with Some er => Ret (inr er) | None => k end.
Definition rdp {A B} (p : prog wireR (A + err)) (k : A -> prog wireR (B + err))
  : prog wireR (B + err) :=
  x <- p ;; match x with inr er => Ret (inr er) | inl a => k a end.

(** A loop body: [inl] continues with a longer list, [inr] returns. *)
Definition rd_step {A B} (p : prog wireR (A + err)) (acc : list A)
  : prog wireR (list A + (B + err)) :=
  x <- p ;; match x with inr er => Ret (inr (inr er)) | inl a => Ret (inl (acc ++ [a])) end.

(** [n] elements read by [p], then [fin]. *)
Definition rd_loop {A B} (n : Z) (p : prog wireR (A + err)) (fin : list A -> prog wireR (B + err))
  : prog wireR (B + err) :=
  x <- loop_Z n (rd_step p) [] ;;
  match x with inr r => Ret r | inl l => fin l end.

(** The fields of a struct, until the stop field. *)
Definition rd_field (rv : Z -> prog wireR rres) (acc : list (Z * tval))
  : prog wireR (list (Z * tval) + rres) :=
  '(h, o) <- call RFieldBegin ;;
  match o with
  | Some er => Ret (inr (inr er))
  | None =>
      if fh_type h =? T_Stop then
        (o <- call RStructEnd ;;
         Ret (inr (match o with Some er => inr er | None => inl (VStruct acc) end)))
      else
        x <- rv (fh_type h) ;;
        match x with
        | inr er => Ret (inr (inr er))
        | inl v =>
            o <- call RFieldEnd ;;
            match o with
            | Some er => Ret (inr (inr er))
            | None => Ret (inl (acc ++ [(fh_id h, v)]))
            end
        end
  end.

Definition uuid0 : list byte := repeat x00 16.

(** [fuel] bounds the nesting and the number of fields of a struct, as in
    [skip]. *)
Fixpoint read_val (fuel : nat) (t : Z) : prog wireR rres :=
  match fuel with
  | O => Crash OutOfFuel
  | S f =>
      match kind_of t with
      | None => Ret (inr (EInvalidType t))
      | Some KBool => rd RBool (fun b => Ret (inl (VBool b)))
      | Some KByte => rd RByte (fun b => Ret (inl (VByte b)))
      | Some KDouble => rd RDouble (fun z => Ret (inl (VDouble z)))
      | Some KI16 => rd RI16 (fun z => Ret (inl (VI16 z)))
      | Some KI32 => rd RI32 (fun z => Ret (inl (VI32 z)))
      | Some KI64 => rd RI64 (fun z => Ret (inl (VI64 z)))
      | Some KString => rd RString (fun s => Ret (inl (VString s)))
      | Some KUUID => rd (RUUID uuid0) (fun u => Ret (inl (VUUID u)))
      | Some KStruct =>
          rd RStructBegin (fun _ =>
            x <- loop_nat fuel (rd_field (read_val f)) [] ;;
            match x with inr r => Ret r | inl _ => Crash OutOfFuel end)
      | Some KMap =>
          rd RMapBegin (fun h =>
            rd_loop (map_size h)
              (rdp (read_val f (map_key h)) (fun k =>
               rdp (read_val f (map_val h)) (fun v => Ret (inl (k, v)))))
              (fun es => rd0 RMapEnd (Ret (inl (VMap (map_key h) (map_val h) es)))))
      | Some KSet =>
          rd RSetBegin (fun h =>
            rd_loop (set_size h) (read_val f (set_elem h))
              (fun es => rd0 RSetEnd (Ret (inl (VSet (set_elem h) es)))))
      | Some KList =>
          rd RListBegin (fun h =>
            rd_loop (set_size h) (read_val f (set_elem h))
              (fun es => rd0 RListEnd (Ret (inl (VList (set_elem h) es)))))
      end
  end.

(** Nesting depth and width of a value: fuel enough to read it. *)
Fixpoint vsize (v : tval) : nat :=
  match v with
  | VStruct fs => S (length fs + list_max (map (fun f => vsize (snd f)) fs))
  | VMap _ _ es => S (list_max (map (fun e => Nat.max (vsize (fst e)) (vsize (snd e))) es))
  | VSet _ es | VList _ es => S (list_max (map vsize es))
  | _ => 1%nat
  end.

(** Sequences of calls in which every StructBegin has its StructEnd and nothing
    else does: [b_other] any other call, [b_nest] a complete struct. *)
Definition struct_call {X} (e : wireR X) : Prop :=
  match e with RStructBegin | RStructEnd => True | _ => False end.
Inductive balanced_r : list {X & wireR X} -> Prop :=
| br_nil : balanced_r []
| br_other X (e : wireR X) l : ~ struct_call e -> balanced_r l -> balanced_r (existT _ X e :: l)
| br_nest l m : balanced_r l -> balanced_r m ->
    balanced_r (existT _ _ RStructBegin :: l ++ existT _ _ RStructEnd :: m).

Definition struct_call_w {X} (e : wireW X) : Prop :=
  match e with WStructBegin _ | WStructEnd => True | _ => False end.
Inductive balanced_w : list {X & wireW X} -> Prop :=
| bw_nil : balanced_w []
| bw_other X (e : wireW X) l : ~ struct_call_w e -> balanced_w l -> balanced_w (existT _ X e :: l)
| bw_nest nm l m : balanced_w l -> balanced_w m ->
    balanced_w (existT _ _ (WStructBegin nm) :: l ++ existT _ _ WStructEnd :: m).
