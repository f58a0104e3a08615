(** reflect.StructTag.Lookup and strconv.Unquote of Go's standard library, which
    thrift/fields.go:41 and :111 call on the whole struct tag. *)
From Coq Require Import Strings.String.
From Verif Require Import Base Prog Wire GoFloat Utf8 GoType.

(** ** strconv.UnquoteChar(s, quote), for a double quote: the character, whether it is to be written as
    UTF-8, and the rest; [None] is ErrSyntax. *)

(** strconv unhex *)
Definition unhex (b : byte) : option Z :=
  let c := b2z b in
  if in_range 48 57 c then Some (c - 48)
  else if in_range 97 102 c then Some (c - 97 + 10)
  else if in_range 65 70 c then Some (c - 65 + 10)
  else None.

(** The loop over [n] hexadecimal digits; [v << 4 | x] *)
Fixpoint hex_run (n : nat) (v : Z) (s : list byte) : option (Z * list byte) :=
  match n with
  | O => Some (v, s)
  | S m => match s with
           | [] => None
           | b :: r => match unhex b with Some x => hex_run m (v * 16 + x) r | None => None end
           end
  end.

(** utf8.ValidRune *)
Definition valid_rune (r : Z) : bool := ((0 <=? r) && (r <? 0xD800)) || ((0xDFFF <? r) && (r <=? 0x10FFFF)).

Definition oct_digit (b : byte) : option Z := if in_range 48 55 (b2z b) then Some (b2z b - 48) else None.

Definition unquote_char (s : list byte) : option (Z * bool * list byte) :=
  match s with
  | [] => None
  | b :: r =>
      let c := b2z b in
      if c =? 34 then None
      else if 0x80 <=? c then let '(v, w) := decode_rune s in Some (v, true, skipn w s)
      else if negb (c =? 92) then Some (c, false, r)
      else
        match r with
        | [] => None
        | e :: t =>
            let c := b2z e in
            if c =? 97 then Some (7, false, t)          (* \a *)
            else if c =? 98 then Some (8, false, t)     (* \b *)
            else if c =? 102 then Some (12, false, t)   (* \f *)
            else if c =? 110 then Some (10, false, t)   (* \n *)
            else if c =? 114 then Some (13, false, t)   (* \r *)
            else if c =? 116 then Some (9, false, t)    (* \t *)
            else if c =? 118 then Some (11, false, t)   (* \v *)
            else if c =? 120 then                       (* \x *)
              match hex_run 2 0 t with Some (v, t) => Some (v, false, t) | None => None end
            else if c =? 117 then                       (* \u *)
              match hex_run 4 0 t with
              | Some (v, t) => if valid_rune v then Some (v, true, t) else None
              | None => None
              end
            else if c =? 85 then                        (* \U *)
              match hex_run 8 0 t with
              | Some (v, t) => if valid_rune v then Some (v, true, t) else None
              | None => None
              end
            else
              match oct_digit e with
              | Some v0 =>
                  match t with
                  | a :: b :: t =>
                      match oct_digit a, oct_digit b with
                      | Some x, Some y =>
                          let v := (v0 * 8 + x) * 8 + y in
                          if 255 <? v then None else Some (v, false, t)
                      | _, _ => None
                      end
                  | _ => None
                  end
              | None =>
                  if c =? 92 then Some (92, false, t)
                  else if c =? 34 then Some (34, false, t)
                  else None
              end
        end
  end.

(** ** strconv.Unquote of a string in double quotes, from after the first quote.
    Each round uses up at least one byte. *)
Fixpoint unquote_loop (n : nat) (s buf : list byte) : option (list byte * list byte) :=
  match s with
  | [] => None                                   (* no closing quote *)
  | b :: r =>
      if b2z b =? 34 then Some (buf, r)
      else match n with
           | O => None
           | S m =>
               match unquote_char s with
               | Some (v, multi, rem) =>
                   if b2z b =? 10 then None
                   else unquote_loop m rem (buf ++ (if (v <? 0x80) || negb multi then [z2b v] else encode_rune v))
               | None => None
               end
           end
  end.

(** utf8.ValidString *)
Fixpoint valid_utf8_n (n : nat) (s : list byte) : bool :=
  match n, s with
  | S m, b :: _ =>
      let '(r, w) := decode_rune s in
      if (r =? RuneError) && Nat.eqb w 1 then false else valid_utf8_n m (skipn w s)
  | _, _ => true
  end.
Definition valid_utf8 (s : list byte) : bool := valid_utf8_n (length s) s.

Fixpoint upto_quote (s : list byte) : option (list byte) :=
  match s with
  | [] => None
  | b :: r => if b2z b =? 34 then Some [] else option_map (cons b) (upto_quote r)
  end.
Definition contains (c : Z) (s : list byte) : bool := existsb (fun b => b2z b =? c) s.

(** strconv.Unquote(in), for [in] = a double quote and [s]: the shortcut for plain
    strings and the general loop; nothing may follow the closing quote. *)
Definition unquote (s : list byte) : option (list byte) :=
  match upto_quote s with
  | None => None
  | Some body =>
      let '(out, rem) :=
        if negb (contains 92 body) && negb (contains 10 body) && valid_utf8 body
        then (Some body, skipn (S (length body)) s)
        else match unquote_loop (length s) s [] with
             | Some (v, rem) => (Some v, rem)
             | None => (None, [])
             end in
      match rem with [] => out | _ => None end
  end.

(** ** reflect.StructTag.Lookup *)
Fixpoint skip_spaces (s : list byte) : list byte :=
  match s with
  | [] => []
  | b :: r => if b2z b =? 32 then skip_spaces r else s
  end.

(** [tag[i] > ' ' && tag[i] != ':', not a double quote, tag[i] != 0x7f] *)
Definition name_byte (b : byte) : bool :=
  (32 <? b2z b) && negb (b2z b =? 58) && negb (b2z b =? 34) && negb (b2z b =? 127).
Fixpoint scan_name (s : list byte) : list byte * list byte :=
  match s with
  | [] => ([], [])
  | b :: r => if name_byte b then let '(n, t) := scan_name r in (b :: n, t) else ([], s)
  end.

(** From after the first quote: up to and with the closing quote, and the rest. *)
Fixpoint scan_quoted (s : list byte) : option (list byte * list byte) :=
  match s with
  | [] => None
  | b :: r =>
      if b2z b =? 34 then Some ([b], r)
      else if b2z b =? 92 then
        match r with
        | [] => None
        | c :: t => match scan_quoted t with Some (q, t) => Some (b :: c :: q, t) | None => None end
        end
      else match scan_quoted r with Some (q, t) => Some (b :: q, t) | None => None end
  end.

(** Each round uses up at least four bytes. *)
Fixpoint lookup_loop (n : nat) (tag key : list byte) : option (list byte) :=
  match n with
  | O => None
  | S m =>
      match skip_spaces tag with
      | [] => None
      | tag =>
          match scan_name tag with
          | (b :: name, x3a :: x22 :: t) =>                  (* colon, quote *)
              match scan_quoted t with
              | None => None
              | Some (q, rest) =>
                  if bytes_eqb key (b :: name) then unquote q
                  else lookup_loop m rest key
              end
          | _ => None
          end
      end
  end.
Definition tag_lookup (tag key : list byte) : option (list byte) := lookup_loop (S (length tag)) tag key.

(** A field as declared, with its whole tag (thrift/fields.go:41, 111). *)
Definition declared (name : list byte) (exported : bool) (tag : list byte) (t : rtype) : sfield :=
  mkSF name exported (tag_lookup tag (lit "thrift")) t.
