(** thrift/fields.go (struct tags and field tables) and the codec lookup of
    thrift/arshal.go:89-101 and thrift/arshal_default.go:17-66. *)
From Coq Require Import Strings.String.
From Verif Require Import Base Prog Wire GoFloat Utf8 GoType.

(** ** strconv.ParseInt(s, 10, 16): an optional sign and at least one decimal
    digit, in the range of int16.  Its two error kinds (syntax, range) are not
    distinguished. *)
Definition digit_val (b : byte) : option Z :=
  if in_range 48 57 (b2z b) then Some (b2z b - 48) else None.
Fixpoint parse_digits (acc : Z) (s : list byte) : option Z :=
  match s with
  | [] => Some acc
  | b :: r => match digit_val b with Some d => parse_digits (10 * acc + d) r | None => None end
  end.
Definition parse_int16 (s : list byte) : option Z :=
  let '(neg, digits) :=
    match s with
    | x2d :: r => (true, r)       (* '-' *)
    | x2b :: r => (false, r)      (* '+' *)
    | _ => (false, s)
    end in
  match digits with
  | [] => None
  | _ =>
      match parse_digits 0 digits with
      | Some n =>
          if neg then (if n <=? 2 ^ 15 then Some (- n) else None)
          else (if n <? 2 ^ 15 then Some n else None)
      | None => None
      end
  end.

(** strings.IndexByte(s, ','), or len(s) *)
Fixpoint comma_index (s : list byte) : nat :=
  match s with
  | [] => O
  | b :: r => if b2z b =? 44 then O else S (comma_index r)
  end.

Section Uni.
Context (u : unicode).

(** fields.go:206-208 isLetterOrDigit *)
Definition letter_or_digit (r : Z) : bool := (r =? 95) || is_letter u r || is_number u r.

(** [len(in) - len(strings.TrimLeftFunc(in, isLetterOrDigit))] *)
Fixpoint ident_len_n (n : nat) (s : list byte) : nat :=
  match n, s with
  | S m, _ :: _ =>
      let '(r, w) := decode_rune s in
      if letter_or_digit r then (w + ident_len_n m (skipn w s))%nat else O
  | _, _ => O
  end.
Definition ident_len (s : list byte) : nat := ident_len_n (length s) s.

(** fields.go:188-204 consumeTagOption *)
Definition consume_option (s : list byte) : list byte * nat * option err :=
  let i := comma_index s in
  let r := fst (decode_rune s) in
  if (r =? 95) || is_letter u r then
    let n := ident_len s in (firstn n s, n, None)
  else match s with
       | [] => (firstn i s, i, Some EUnexpectedEOF)
       | _ => (firstn i s, i, Some (ETag "invalid character at start of option"))
       end.

(** fields.go:166-168: [strings.ReplaceAll(strings.ToLower(opt), "_", "")],
    compared with "required", rune by rune. *)
Definition required_runes : list Z := map b2z (lit "required").
Definition looks_required (opt : list byte) : bool :=
  let l := filter (fun r => negb (r =? 95)) (map (to_lower u) (runes opt)) in
  if list_eq_dec Z.eq_dec l required_runes then true else false.

(** thrift/errors.go:124-131 firstError *)
Definition first_error (a b : option err) : option err :=
  match a with Some _ => a | None => b end.

Definition seen_opt (seen : list (list byte)) (opt : list byte) : bool :=
  existsb (bytes_eqb opt) seen.

(** fields.go:139-184: the option loop.  State: the rest of the tag,
    out.required, err, seenOpts.  Each iteration consumes at least one byte, so
    the fuel, the length of the tag, is never exhausted. *)
Fixpoint parse_options (n : nat) (tag : list byte) (req : bool) (e : option err)
  (seen : list (list byte)) : bool * option err :=
  match n, tag with
  | O, _ | _, [] => (req, e)
  | S m, c :: rest =>
      let step tag e :=
        let '(opt, n, e2) := consume_option tag in
        let e := match e2 with
                 | Some _ => first_error e (Some (ETag "malformed option"))
                 | None => e
                 end in
        let tag := skipn n tag in
        let is_req := bytes_eqb opt (lit "required") in
        let req := if is_req then true else req in
        let e := if negb is_req && looks_required opt
                 then first_error e (Some (ETag "invalid appearance")) else e in
        let e := if seen_opt seen opt
                 then first_error e (Some (ETag "duplicate appearance")) else e in
        parse_options m tag req e (opt :: seen) in
      if negb (b2z c =? 44) then
        step tag (first_error e (Some (ETag "invalid character before next option")))
      else
        match rest with
        | [] => (req, first_error e (Some (ETag "invalid trailing comma")))   (* break *)
        | _ => step rest e
        end
  end.

(** fields.go:102-106 fieldOptions *)
Record fieldOptions := mkFO { fo_id : Z; fo_name : list byte; fo_required : bool }.
Definition fo0 : fieldOptions := mkFO 0 [] false.

(** fields.go:108-186 parseFieldOptions: (options, ignored, err) *)
Definition parse_field_options (sf : sfield) : fieldOptions * bool * option err :=
  let tag := match sf_tag sf with Some t => t | None => [] end in
  if bytes_eqb tag (lit "-") then (fo0, true, None)
  else if negb (sf_exported sf) then
    (fo0, true, match sf_tag sf with
                | Some _ => Some (ETag "unexported field has a tag")
                | None => None
                end)
  else
    let i := comma_index tag in
    match parse_int16 (firstn i tag) with
    | None => (fo0, true, Some (ETag "invalid field ID"))
    | Some id =>
        let tag := skipn i tag in
        let '(req, e) := parse_options (length tag) tag false None [] in
        (mkFO id (sf_name sf) req, false, e)
    end.
End Uni.

Section Lookup.
Context (env : tenv).

(** thrift/arshal_default.go:17-66 makeDefaultArshaler with the recursive
    lookups it makes (arshal_default.go:400-401, 493, 599).  [None]: the
    recursion is deeper than [n]; Go has no such bound.  The cache of
    thrift/arshal.go:89-101 is left out here: a codec depends on nothing but
    the type (see Cache.v). *)
Fixpoint lookup (n : nat) (t : rtype) : option arsh :=
  match n with
  | O => None
  | S m =>
      match under env t with
      | RtBool => Some (ABool t)
      | RtFloat32 => Some (ADouble t true)
      | RtFloat64 => Some (ADouble t false)
      | RtInt8 => Some (AInt t W8)
      | RtInt16 => Some (AInt t W16)
      | RtInt32 => Some (AInt t W32)
      | RtInt64 => Some (AInt t W64)
      | RtUint8 => Some (AUint t W8)
      | RtUint16 => Some (AUint t W16)
      | RtUint32 => Some (AUint t W32)
      | RtUint64 => Some (AUint t W64)
      | RtString => Some (AString t)
      | RtStruct _ => Some (AStruct t)
      | RtMap k e =>
          match lookup m k, lookup m e with
          | Some ka, Some ea => Some (AMap t ka ea)
          | _, _ => None
          end
      | RtSlice e =>
          if implements_set env t then option_map (ASeq t true) (lookup m e)
          else if implements_list env t then option_map (ASeq t false) (lookup m e)
          else if as_bytes env t then Some (ABytes t)
          else option_map (ASeq t false) (lookup m e)
      | RtArray 16 RtUint8 =>
          match t with RtArray _ _ => Some (AUUID t) | _ => Some (AInvalid t) end
      | RtPtr e => option_map (APtr t) (lookup m e)
      | _ => Some (AInvalid t)
      end
  end.

(** fields.go:57-74: the isZero function of a field *)
Definition field_is_zero (t : rtype) : option (gval -> bool) :=
  match under env t, te_iszero env t, te_iszero env (RtPtr t) with
  | RtInterface, Some m, _ => Some (fun v => match v with GOther O => true | _ => m v end)
  | RtPtr _, Some m, _ => Some (fun v => match v with GPtr None => true | _ => m v end)
  | _, Some m, _ => Some m
  | _, None, Some m => Some (fun v => m (GPtr (Some v)))
  | _, None, None => None
  end.

(** fields.go:39-78: the loop over the Go fields.  [None]: a lookup does not
    return.  Result: the fields, or the error; and whether any field has a tag. *)
Fixpoint collect_fields (ln : nat) (t : rtype) (i : nat) (fs : list sfield)
  : option (list structField + err) :=
  match fs with
  | [] => Some (inl [])
  | sf :: r =>
      match parse_field_options (te_uni env) sf with
      | (_, _, Some e) => Some (inr (ESemantic "" 0 (Some t) (Some e)))
      | (_, true, None) => collect_fields ln t (S i) r
      | (o, false, None) =>
          match lookup ln (sf_type sf) with
          | None => None
          | Some a =>
              match collect_fields ln t (S i) r with
              | None => None
              | Some (inr e) => Some (inr e)
              | Some (inl l) =>
                  Some (inl (mkField i (sf_type sf) a (field_is_zero (sf_type sf))
                               (fo_id o) (fo_name o) (fo_required o) :: l))
              end
          end
      end
  end.

Definition struct_def (t : rtype) : list sfield :=
  match under env t with RtStruct s => te_struct env s | _ => [] end.

Definition has_tag (sf : sfield) : bool := negb (is_none (sf_tag sf)).

(** fields.go:34-100 makeStructFields.  Result: the sorted fields. *)
Definition make_struct_fields (ln : nat) (t : rtype) : option (list structField + err) :=
  let fs := struct_def t in
  match collect_fields ln t 0 fs with
  | None => None
  | Some (inr e) => Some (inr e)
  | Some (inl all) =>
      match fs, all with
      | _ :: _, [] =>
          if existsb has_tag fs then Some (inl (te_sort env all))
          else Some (inr (ESemantic "" 0 (Some t) (Some (ETag "Go struct has no exported fields"))))
      | _, _ => Some (inl (te_sort env all))
      end
  end.

(** fields.go:90-97 byID: the last field with the id *)
Definition by_id (fs : list structField) (id : Z) : option structField :=
  find (fun f => f_id f =? id) (rev fs).
End Lookup.
