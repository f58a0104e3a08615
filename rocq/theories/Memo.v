(** internal/thriftmemo: a Reader and a Writer that record and replay steps. *)
From Coq Require Import Strings.String.
From Verif Require Import Base BaseLemmas Prog Wire.
Local Open Scope string_scope.
Local Open Scope Z_scope.
Local Open Scope list_scope.

(** A value held in an [any]: its dynamic type and contents. *)
Inductive any : Type :=
| AMessage (h : mhdr) | AStruct (name : list byte) | AField (h : fhdr) | AMap (h : maphdr)
| ASet (h : sethdr) | AList (h : sethdr)
| ABool (v : bool) | AByte (v : byte) | ADouble (v : Z) | AI16 (v : Z) | AI32 (v : Z) | AI64 (v : Z)
| AString (v : list byte) | ABytes (v : list byte) | AUUID (v : list byte).

(** ** internal/thriftmemo/memo.go:16-22 (Memo).
    [r] and [w] only count up from 0.  A slice kept by WriteBytes is its
    contents: later changes the caller makes to it are not modelled. *)
Record memo := mkMemo {
  m_break : Z;
  m_r : nat;
  m_w : nat;
  m_steps : list string;
  m_values : list (list any)
}.
(** [var m Memo] with its Breakpoint set *)
Definition new_memo (bp : Z) : memo := mkMemo bp 0 0 [] [].
(** [m.Breakpoint = bp] *)
Definition set_break (bp : Z) (m : memo) : memo := mkMemo bp (m_r m) (m_w m) (m_steps m) (m_values m).
(** memo.go:25-30 (Reset) *)
Definition memo_reset (m : memo) : memo := mkMemo 0 0 0 [] [].
(** memo.go:33-35 (Steps) *)
Definition memo_Steps (m : memo) : list string := m_steps m.

(** memo.go:69-75 (advance), for a counter [p]; [None] is ErrBreak. *)
Definition advance (m : memo) (p : nat) : option nat :=
  if (0 <? m_break m) && (m_break m <=? Z.of_nat p + 1) then None else Some (S p).
Definition advance_r (m : memo) : option memo :=
  match advance m (m_r m) with
  | None => None
  | Some r => Some (mkMemo (m_break m) r (m_w m) (m_steps m) (m_values m))
  end.
Definition advance_w (m : memo) : option memo :=
  match advance m (m_w m) with
  | None => None
  | Some w => Some (mkMemo (m_break m) (m_r m) w (m_steps m) (m_values m))
  end.

(** memo.go:53-62 (read).  [set] is the loop over [values]: given
    [m.values[r]], if there is one, it stores the value; [None]: it panics
    (index out of range, or reflect's Set with another type). *)
Definition memo_read {X} (step : string) (set : option (list any) -> option X) (m : memo) : outcome memo X :=
  let m := mkMemo (m_break m) (m_r m) (m_w m) (m_steps m ++ [step]) (m_values m) in
  let r := (m_r m - 1)%nat in
  match nth_error (m_steps m) r with
  | None => Crashed Panicked
  | Some want =>
      if String.eqb step want then
        match set (nth_error (m_values m) r) with Some x => Done m x | None => Crashed Panicked end
      else Crashed Panicked
  end.

(** memo.go:64-67 (write) *)
Definition memo_write (step : string) (values : list any) (m : memo) : memo :=
  mkMemo (m_break m) (m_r m) (m_w m) (m_steps m ++ [step]) (m_values m ++ [values]).

(** ** internal/thriftmemo/zmemo.go:11-199 (the Reader's methods).
    Every method is [advance] and then [read] with these arguments.  The step
    name: *)
Definition read_step {X} (e : wireR X) : string :=
  match e with
  | RMessageBegin => "MessageBegin" | RMessageEnd => "MessageEnd"
  | RStructBegin => "StructBegin" | RStructEnd => "StructEnd"
  | RFieldBegin => "FieldBegin" | RFieldEnd => "FieldEnd"
  | RMapBegin => "MapBegin" | RMapEnd => "MapEnd"
  | RSetBegin => "SetBegin" | RSetEnd => "SetEnd"
  | RListBegin => "ListBegin" | RListEnd => "ListEnd"
  | RBool => "Bool" | RByte => "Byte" | RDouble => "Double"
  | RI16 => "I16" | RI32 => "I32" | RI64 => "I64"
  | RString => "String" | RBytes _ => "Bytes" | RUUID _ => "UUID"
  | RSkipString => "String" | RSkipUUID => "UUID"
  end.

(** [reflect.ValueOf(&o0).Elem().Set(reflect.ValueOf(values[r][0]))] *)
Definition one {X} (take : any -> option X) (vs : option (list any)) : option X :=
  match vs with Some (v :: _) => take v | _ => None end.
(** A variable of the dynamic type it must have, then the nil error. *)
Definition got {X} (x : X) : option (X * option err) := Some (x, None).
Definition read_set {X} (e : wireR X) : option (list any) -> option X :=
  match e in wireR X return option (list any) -> option X with
  | RMessageBegin => one (fun v => match v with AMessage h => got h | _ => None end)
  | RStructBegin => one (fun v => match v with AStruct n => got n | _ => None end)
  | RFieldBegin => one (fun v => match v with AField h => got h | _ => None end)
  | RMapBegin => one (fun v => match v with AMap h => got h | _ => None end)
  | RSetBegin => one (fun v => match v with ASet h => got h | _ => None end)
  | RListBegin => one (fun v => match v with AList h => got h | _ => None end)
  | RBool => one (fun v => match v with ABool x => got x | _ => None end)
  | RByte => one (fun v => match v with AByte x => got x | _ => None end)
  | RDouble => one (fun v => match v with ADouble x => got x | _ => None end)
  | RI16 => one (fun v => match v with AI16 x => got x | _ => None end)
  | RI32 => one (fun v => match v with AI32 x => got x | _ => None end)
  | RI64 => one (fun v => match v with AI64 x => got x | _ => None end)
  | RString => one (fun v => match v with AString x => got x | _ => None end)
  | RBytes _ => one (fun v => match v with ABytes x => got x | _ => None end)
  | RUUID _ => one (fun v => match v with AUUID x => got x | _ => None end)
  | RSkipString => one (fun v => match v with AString _ => Some None | _ => None end)
  | RSkipUUID => one (fun v => match v with AUUID _ => Some None | _ => None end)
  | RMessageEnd | RStructEnd | RFieldEnd | RMapEnd | RSetEnd | RListEnd => fun _ => Some None
  end.
(** What it returns when [advance] returns ErrBreak: zero values, and the array
    given to ReadUUID as it was. *)
Definition read_break {X} (e : wireR X) : X :=
  match e in wireR X return X with
  | RMessageBegin => (mh0, Some EBreak) | RStructBegin => ([], Some EBreak) | RFieldBegin => (fh0, Some EBreak)
  | RMapBegin => (maph0, Some EBreak) | RSetBegin => (seth0, Some EBreak) | RListBegin => (seth0, Some EBreak)
  | RBool => (false, Some EBreak) | RByte => (Byte.x00, Some EBreak) | RDouble => (0%Z, Some EBreak)
  | RI16 => (0%Z, Some EBreak) | RI32 => (0%Z, Some EBreak) | RI64 => (0%Z, Some EBreak)
  | RString => ([], Some EBreak) | RBytes _ => ([], Some EBreak) | RUUID old => (old, Some EBreak)
  | RSkipString | RSkipUUID | RMessageEnd | RStructEnd | RFieldEnd | RMapEnd | RSetEnd | RListEnd => Some EBreak
  end.
Definition memoR : handler wireR memo := fun X e m =>
  match advance_r m with
  | None => Done m (read_break e)
  | Some m => memo_read (read_step e) (read_set e) m
  end.

(** ** zmemo.go:201-379 (the Writer's methods) *)
Definition write1 (step : string) (values : list any) (m : memo) : outcome memo (option err) :=
  match advance_w m with
  | None => Done m (Some EBreak)
  | Some m => Done (memo_write step values m) None
  end.
Definition memoW : handler wireW memo := fun X e m =>
  match e in wireW X return outcome memo X with
  | WMessageBegin h => write1 "MessageBegin" [AMessage h] m
  | WMessageEnd => write1 "MessageEnd" [] m
  | WStructBegin n => write1 "StructBegin" [AStruct n] m
  | WStructEnd =>
      (* zmemo.go:361-371 *)
      match advance_w m with
      | None => Done m (Some EBreak)
      | Some m => write1 "StructEnd" [] (memo_write "FieldBegin" [AField fh0] m)
      end
  | WFieldBegin h => write1 "FieldBegin" [AField h] m
  | WFieldEnd => write1 "FieldEnd" [] m
  | WMapBegin h => write1 "MapBegin" [AMap h] m
  | WMapEnd => write1 "MapEnd" [] m
  | WSetBegin h => write1 "SetBegin" [ASet h] m
  | WSetEnd => write1 "SetEnd" [] m
  | WListBegin h => write1 "ListBegin" [AList h] m
  | WListEnd => write1 "ListEnd" [] m
  | WBool v => write1 "Bool" [ABool v] m
  | WByte v => write1 "Byte" [AByte v] m
  | WDouble v => write1 "Double" [ADouble v] m
  | WI16 v => write1 "I16" [AI16 v] m
  | WI32 v => write1 "I32" [AI32 v] m
  | WI64 v => write1 "I64" [AI64 v] m
  | WString v => write1 "String" [AString v] m
  | WBytes v => write1 "Bytes" [ABytes v] m
  | WUUID v => write1 "UUID" [AUUID v] m
  | WFlush => Crashed Panicked (* zmemo.go:201-203 *)
  end.
