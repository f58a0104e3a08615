(** Package thriftcompact (encoding/thriftcompact/thriftcompact.go, types.go). *)
From Verif Require Import Base Prog Bufio BufioW GoBinary Wire Binary.

(** thriftcompact.go:16-19 *)
Definition protocolID : Z := 0x082.
Definition cmp_version1 : Z := 1.

(** ** types.go:10-25 (compactType constants) *)
Definition C_STOP : Z := 0.
Definition C_BOOLEAN_TRUE : Z := 1.
Definition C_BOOLEAN_FALSE : Z := 2.
Definition C_I8 : Z := 3.
Definition C_I16 : Z := 4.
Definition C_I32 : Z := 5.
Definition C_I64 : Z := 6.
Definition C_DOUBLE : Z := 7.
Definition C_BINARY : Z := 8.
Definition C_LIST : Z := 9.
Definition C_SET : Z := 10.
Definition C_MAP : Z := 11.
Definition C_STRUCT : Z := 12.
Definition C_UUID : Z := 13.

(** types.go:33-64 typeCompact *)
Definition type_compact (t : Z) : Z * option err :=
  match kind_of t with
  | Some KBool => (C_BOOLEAN_FALSE, None)
  | Some KByte => (C_I8, None)
  | Some KI16 => (C_I16, None)
  | Some KI32 => (C_I32, None)
  | Some KI64 => (C_I64, None)
  | Some KDouble => (C_DOUBLE, None)
  | Some KString => (C_BINARY, None)
  | Some KList => (C_LIST, None)
  | Some KSet => (C_SET, None)
  | Some KMap => (C_MAP, None)
  | Some KStruct => (C_STRUCT, None)
  | Some KUUID => (C_UUID, None)
  | None => (C_STOP, Some (EInvalidType t))
  end.

(** types.go:66-96 compactType.wire *)
Definition compact_wire (t : Z) : Z * option err :=
  match t with
  | 0 => (T_Stop, None)
  | 1 | 2 => (T_Bool, None)
  | 3 => (T_Byte, None)
  | 4 => (T_I16, None)
  | 5 => (T_I32, None)
  | 6 => (T_I64, None)
  | 7 => (T_Double, None)
  | 8 => (T_String, None)
  | 9 => (T_List, None)
  | 10 => (T_Set, None)
  | 11 => (T_Map, None)
  | 12 => (T_Struct, None)
  | 13 => (T_UUID, None)
  | _ => (T_Stop, Some (EInvalidCompactType t))
  end.

(** ** Reader *)

(** thriftcompact.go:45-51 boolField *)
Inductive boolfield := BNone | BTrue | BFalse.

(** thriftcompact.go:53-60 boolField.set: other types leave it unchanged *)
Definition bf_set (f : boolfield) (t : Z) : boolfield :=
  if t =? C_BOOLEAN_TRUE then BTrue
  else if t =? C_BOOLEAN_FALSE then BFalse
  else f.

(** thriftcompact.go:38-43 reader; [cr_ids] is lastFieldIDs, top first *)
Record creader := mkCR { cr_ids : list Z; cr_last : Z; cr_bool : boolfield }.

(** thriftcompact.go:26-28 NewReader; 289-295 Reset *)
Definition cr0 : creader := mkCR [] 0 BNone.

Section Reader.

(** The uvarint decoder used by the unexported method readUvarint
    (thriftcompact.go:280-282); the repository's is [tw_read_uvarint], see
    [cmp_reader] below. *)
Variable uv : prog bufR (Z * option err).

(** thriftcompact.go:284-287 reader.readSize: int(v) *)
Definition cmp_read_size : prog bufR (Z * option err) :=
  '(v, e) <- uv ;; Ret (i64 v, e).

(** thriftcompact.go:137-140 readSize(b) *)
Definition cmp_hdr_size : prog bufR (Z * option err) :=
  '(v, e) <- read_uvarint ;; Ret (i64 v, e).

(** thriftcompact.go:241-243 ReadI64, 236-239 ReadI32, 231-234 ReadI16 *)
Definition cmp_read_i64 : prog bufR (Z * option err) := read_varint.
Definition cmp_read_i32 : prog bufR (Z * option err) :=
  '(v, e) <- cmp_read_i64 ;; Ret (i32 v, e).
Definition cmp_read_i16 : prog bufR (Z * option err) :=
  '(v, e) <- cmp_read_i64 ;; Ret (i16 v, e).

(** thriftcompact.go:223-229 ReadDouble *)
Definition cmp_read_double : prog bufR (Z * option err) :=
  '(buf, e) <- next 8 ;;
  match e with Some _ => Ret (0, e) | None => Ret (le_value buf, None) end.

(** thriftcompact.go:245-251 ReadString *)
Definition cmp_read_string : prog bufR (list byte * option err) :=
  '(n, e) <- cmp_read_size ;;
  match e with Some _ => Ret ([], e) | None => read_string n end.

(** thriftcompact.go:253-259 ReadBytes *)
Definition cmp_read_bytes (buf : list byte) : prog bufR (list byte * option err) :=
  '(n, e) <- cmp_read_size ;;
  match e with Some _ => Ret (buf, e) | None => read_bytes n buf end.

(** thriftcompact.go:266-273 SkipString *)
Definition cmp_skip_string : prog bufR (option err) :=
  '(n, e) <- cmp_read_size ;;
  match e with
  | Some _ => Ret e
  | None => '(_, e) <- call (BDiscard n) ;; Ret e
  end.

(** thriftcompact.go:62-88 ReadMessageBegin *)
Definition cmp_read_message_begin : prog bufR (mhdr * option err) :=
  '(p, e) <- call BReadByte ;;
  match e with
  | Some _ => Ret (mh0, e)
  | None =>
      if negb (b2z p =? protocolID) then Ret (mh0, Some (ECmpBadProtocol (b2z p)))
      else
        '(vt, e) <- call BReadByte ;;
        match e with
        | Some _ => Ret (mh0, e)
        | None =>
            let version := Z.land (b2z vt) 0x1f in
            if negb (version =? cmp_version1) then Ret (mh0, Some (ECmpBadVersion version))
            else
              let t := Z.shiftr (b2z vt) 5 in
              '(id, e) <- uv ;;
              match e with
              | Some _ => Ret (mkMH [] t (i32 id), e)
              | None =>
                  '(name, e) <- cmp_read_string ;;
                  Ret (mkMH name t (i32 id), e)
              end
        end
  end.

(** thriftcompact.go:109-131 ReadFieldBegin *)
Definition cmp_read_field_begin (st : creader) : prog bufR (creader * (fhdr * option err)) :=
  '(dt, e) <- call BReadByte ;;
  match e with
  | Some _ => Ret (st, (fh0, e))
  | None =>
      let t := Z.land (b2z dt) 15 in
      let '(ty, e) := compact_wire t in
      if negb (is_none e) || (ty =? T_Stop) then Ret (st, (mkFH [] ty 0, e))
      else
        let modifier := Z.shiftr (b2z dt) 4 in
        if modifier =? 0 then
          '(id, e) <- cmp_read_i16 ;;
          match e with
          | Some _ => Ret (st, (mkFH [] ty id, e))
          | None => Ret (mkCR (cr_ids st) id (bf_set (cr_bool st) t), (mkFH [] ty id, None))
          end
        else
          let id := i16 (cr_last st + modifier) in
          Ret (mkCR (cr_ids st) id (bf_set (cr_bool st) t), (mkFH [] ty id, None))
  end.

(** thriftcompact.go:143-161 ReadMapHeader, 163-165 ReadMapBegin *)
Definition cmp_read_map_begin : prog bufR (maphdr * option err) :=
  '(n, e) <- cmp_hdr_size ;;
  if negb (is_none e) || (n =? 0) then Ret (mkMapH T_Stop T_Stop n, e)
  else
    '(kv, e) <- call BReadByte ;;
    match e with
    | Some _ => Ret (mkMapH T_Stop T_Stop n, e)
    | None =>
        let '(k, e) := compact_wire (Z.shiftr (b2z kv) 4) in
        match e with
        | Some _ => Ret (mkMapH k T_Stop n, e)
        | None =>
            let '(v, e) := compact_wire (Z.land (b2z kv) 15) in
            Ret (mkMapH k v n, e)
        end
    end.

(** thriftcompact.go:172-189 ReadSetHeader; 191-193, 200-207 *)
Definition cmp_read_set_begin : prog bufR (sethdr * option err) :=
  '(st, e) <- call BReadByte ;;
  match e with
  | Some _ => Ret (seth0, e)
  | None =>
      let '(t, e) := compact_wire (Z.land (b2z st) 15) in
      match e with
      | Some _ => Ret (mkSetH t 0, e)
      | None =>
          let n := Z.shiftr (b2z st) 4 in
          if n =? 15 then '(n, e) <- cmp_hdr_size ;; Ret (mkSetH t n, e)
          else Ret (mkSetH t n, None)
      end
  end.

(** A method that does not touch the reader's own fields. *)
Definition lift {F X} (st : creader) (p : prog F X) : prog F (creader * X) :=
  x <- p ;; Ret (st, x).

Definition cmp_reader_gen : layer wireR bufR creader :=
  fun X e st =>
    match e in wireR X return prog bufR (creader * X) with
    | RMessageBegin => lift st cmp_read_message_begin
    | RMessageEnd => Ret (st, None)                                   (* 90-92 *)
    | RStructBegin =>                                                 (* 94-98 *)
        Ret (mkCR (cr_last st :: cr_ids st) 0 (cr_bool st), ([], None))
    | RStructEnd =>                                                   (* 100-107 *)
        match cr_ids st with
        | [] => Ret (st, Some EReadStructEnd)
        | id :: ids => Ret (mkCR ids id (cr_bool st), None)
        end
    | RFieldBegin => cmp_read_field_begin st
    | RFieldEnd => Ret (st, None)                                     (* 133-135 *)
    | RMapBegin => lift st cmp_read_map_begin
    | RMapEnd => Ret (st, None)                                       (* 167-169 *)
    | RSetBegin => lift st cmp_read_set_begin
    | RSetEnd => Ret (st, None)                                       (* 195-197 *)
    | RListBegin => lift st cmp_read_set_begin
    | RListEnd => Ret (st, None)                                      (* 209-211 *)
    | RBool =>                                                        (* 213-221 *)
        match cr_bool st with
        | BNone => '(b, e) <- call BReadByte ;; Ret (st, (negb (b2z b =? 0), e))
        | BTrue => Ret (mkCR (cr_ids st) (cr_last st) BNone, (true, None))
        | BFalse => Ret (mkCR (cr_ids st) (cr_last st) BNone, (false, None))
        end
    | RByte => lift st (call BReadByte)         (* promoted from bufio.Reader *)
    | RDouble => lift st cmp_read_double
    | RI16 => lift st cmp_read_i16
    | RI32 => lift st cmp_read_i32
    | RI64 => lift st cmp_read_i64
    | RString => lift st cmp_read_string
    | RBytes buf => lift st (cmp_read_bytes buf)
    | RUUID old => lift st (read_uuid old)
    | RSkipString => lift st cmp_skip_string
    | RSkipUUID => lift st skip_uuid
    end.

End Reader.

Definition cmp_reader : layer wireR bufR creader := cmp_reader_gen tw_read_uvarint.

(** ** Writer *)

(** thriftcompact.go:297-304 writer; [cw_ids] is lastFieldIDs, top first;
    [cw_uw] says whether [uw] is set (it is nil after Reset). *)
Record cwriter := mkCW { cw_ids : list Z; cw_last : Z; cw_bool : fhdr; cw_uw : bool }.

(** thriftcompact.go:30-32 NewWriter *)
Definition cw0 : cwriter := mkCW [] 0 fh0 true.
(** thriftcompact.go:342, 399, 428, 445 *)
Definition MaxFieldHeaderSize : Z := 1 + MaxVarintLen16.
Definition MaxMapHeaderSize : Z := MaxVarintLen64 + 1.
Definition MaxSetHeaderSize : Z := 1 + MaxVarintLen64.
Definition MaxListHeaderSize : Z := MaxSetHeaderSize.

(** thriftcompact.go:350-370 appendFieldHeader, 373-375 AppendFieldHeader.
    [byte(delta<<4)|byte(t)]; the subtraction is on int16. *)
Definition append_field_header (buf : list byte) (h : fhdr) (is_true : bool) (last : Z)
  : list byte * option err :=
  let '(t, e) :=
    if fh_type h =? T_Bool
    then ((if is_true then C_BOOLEAN_TRUE else C_BOOLEAN_FALSE), None)
    else type_compact (fh_type h) in
  match e with
  | Some _ => (buf, e)
  | None =>
      let delta := i16 (fh_id h - last) in
      if (delta >? 0) && (delta <=? 15)
      then (buf ++ [z2b (Z.lor (Z.shiftl delta 4) t)], None)
      else (buf ++ [z2b t] ++ put_varint (fh_id h), None)
  end.

(** thriftcompact.go:402-417 AppendMapHeader.  [byte(k<<4)|byte(v)] *)
Definition append_map_header (buf : list byte) (h : maphdr) : list byte * option err :=
  if map_size h <=? 0 then (buf ++ [x00], None)
  else
    let '(k, e) := type_compact (map_key h) in
    match e with
    | Some _ => (buf, e)
    | None =>
        let '(v, e) := type_compact (map_val h) in
        match e with
        | Some _ => (buf, e)
        | None =>
            (buf ++ put_uvarint (u64 (map_size h)) ++ [z2b (Z.lor (Z.shiftl k 4) v)], None)
        end
    end.

(** thriftcompact.go:431-442 AppendSetHeader, 448-450 AppendListHeader *)
Definition append_set_header (buf : list byte) (h : sethdr) : list byte * option err :=
  let '(t, e) := type_compact (set_elem h) in
  match e with
  | Some _ => (buf, e)
  | None =>
      if (set_size h >=? 0) && (set_size h <? 15)
      then (buf ++ [z2b (Z.lor (Z.shiftl (set_size h) 4) t)], None)
      else (buf ++ [z2b (Z.lor 0xf0 t)] ++ put_uvarint (u64 (set_size h)), None)
  end.

(** thriftcompact.go:541-552 appendWrite (AvailableBuffer is an empty slice) *)
Definition append_write (max : Z) (r : list byte * option err) : prog bufW (option err) :=
  call (BWEnsure max) >>!
  match snd r with
  | Some _ => Ret (snd r)
  | None => call (BWWrite (fst r))
  end.

(** thriftcompact.go:561-566 writeUvarint *)
Definition cmp_write_uvarint (v : Z) : prog bufW (option err) :=
  call (BWWrite (put_uvarint v)).
(** thriftcompact.go:568-570 writeSize *)
Definition cmp_write_size (v : Z) : prog bufW (option err) := cmp_write_uvarint (u64 v).
(** thriftcompact.go:498-503 WriteI64; 490-496 WriteI16, WriteI32 *)
Definition cmp_write_i64 (v : Z) : prog bufW (option err) :=
  call (BWWrite (put_varint v)).
(** thriftcompact.go:505-511 WriteString *)
Definition cmp_write_string (v : list byte) : prog bufW (option err) :=
  cmp_write_size (zlen v) >>! call (BWWriteString v).
(** thriftcompact.go:513-519 WriteBytes *)
Definition cmp_write_bytes (v : list byte) : prog bufW (option err) :=
  cmp_write_size (zlen v) >>! call (BWWrite v).

(** thriftcompact.go:306-320 WriteMessageBegin; [byte(h.Type)<<5] keeps 8 bits,
    [uint64(h.ID)] sign-extends *)
Definition cmp_write_message_begin (h : mhdr) : prog bufW (option err) :=
  call (BWWriteByte (z2b protocolID)) >>!
  call (BWWriteByte (z2b (Z.lor cmp_version1 (Z.shiftl (mh_type h) 5)))) >>!
  cmp_write_uvarint (u64 (mh_id h)) >>!
  cmp_write_string (mh_name h).

(** thriftcompact.go:377-384 writeFieldHeader *)
Definition cmp_write_field_header (st : cwriter) (h : fhdr) (is_true : bool)
  : prog bufW (cwriter * option err) :=
  e <- append_write MaxFieldHeaderSize (append_field_header [] h is_true (cw_last st)) ;;
  match e with
  | Some _ => Ret (st, e)
  | None => Ret (mkCW (cw_ids st) (fh_id h) (cw_bool st) (cw_uw st), None)
  end.

Definition liftw {F X} (st : cwriter) (p : prog F X) : prog F (cwriter * X) :=
  x <- p ;; Ret (st, x).

Definition cmp_writer : layer wireW bufW cwriter :=
  fun X e st =>
    match e in wireW X return prog bufW (cwriter * X) with
    | WMessageBegin h => liftw st (cmp_write_message_begin h)
    | WMessageEnd => Ret (st, None)
    | WStructBegin _ =>                                               (* 326-330 *)
        Ret (mkCW (cw_last st :: cw_ids st) 0 (cw_bool st) (cw_uw st), None)
    | WStructEnd =>                                                   (* 332-339 *)
        match cw_ids st with
        | [] => Ret (st, Some EWriteStructEnd)
        | id :: ids =>
            liftw (mkCW ids id (cw_bool st) (cw_uw st)) (call (BWWriteByte (z2b C_STOP)))
        end
    | WFieldBegin h =>                                                (* 386-392 *)
        if fh_type h =? T_Bool
        then Ret (mkCW (cw_ids st) (cw_last st) h (cw_uw st), None)
        else cmp_write_field_header st h false
    | WFieldEnd => Ret (st, None)
    | WMapBegin h => liftw st (append_write MaxMapHeaderSize (append_map_header [] h))
    | WMapEnd => Ret (st, None)
    | WSetBegin h => liftw st (append_write MaxSetHeaderSize (append_set_header [] h))
    | WSetEnd => Ret (st, None)
    | WListBegin h => liftw st (append_write MaxSetHeaderSize (append_set_header [] h))
    | WListEnd => Ret (st, None)
    | WBool v =>                                                      (* 468-481 *)
        if negb (fh_type (cw_bool st) =? T_Stop) then
          '(st', e) <- cmp_write_field_header st (cw_bool st) v ;;
          match e with
          | Some _ => Ret (st', e)
          | None =>
              let h := cw_bool st' in
              Ret (mkCW (cw_ids st') (cw_last st')
                        (mkFH (fh_name h) T_Stop (fh_id h)) (cw_uw st'), None)
          end
        else liftw st (call (BWWriteByte (if v then x01 else x00)))
    | WByte v => liftw st (call (BWWriteByte v))  (* promoted from bufio.Writer *)
    | WDouble v => liftw st (call (BWWrite (le_bytes 8 v)))           (* 483-488 *)
    | WI16 v => liftw st (cmp_write_i64 v)
    | WI32 v => liftw st (cmp_write_i64 v)
    | WI64 v => liftw st (cmp_write_i64 v)
    | WString v => liftw st (cmp_write_string v)
    | WBytes v => liftw st (cmp_write_bytes v)
    | WUUID v => liftw st (call (BWWrite v))                          (* 521-524 *)
    | WFlush =>                                                       (* 526-531 *)
        liftw st (call BWFlush >>! if cw_uw st then call BWUnderFlush else Ret None)
    end.
