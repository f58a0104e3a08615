(** tools/thriftfile/scanner.go: the scanner. *)
From Coq Require Import Strings.String.
From Verif Require Import Base GoType Utf8 Tokens.

(** scanner.go:10-13 *)
Definition bom : Z := 0xFEFF.
Definition eof : Z := -1.

(** What the error callback receives: a go/token Position (the file name is
    the same throughout) and the message (parser.go:21-24 error_). *)
Record perr := mkPErr {
  pe_off : nat;
  pe_line : nat;
  pe_col : nat;
  pe_msg : list byte }.

(** scanner.go:15-27 and the parser's error list.  [src] is a parameter.
    Positions are offsets (go/token adds the file's base).  [s_lines] is the
    line table of the go/token File, latest line first.  lineOffset is never
    read and is left out. *)
Record sstate := mkS {
  s_ch : Z;
  s_off : nat;
  s_rd : nat;
  s_lines : list nat;
  s_tok : Z;
  s_pos : nat;
  s_errs : list perr }.

(** go/token File.AddLine: kept only if it is past the last line start
    and inside the file. *)
Definition add_line (size offset : nat) (lines : list nat) : list nat :=
  match lines with
  | l :: _ => if (l <? offset)%nat && (offset <? size)%nat then offset :: lines else lines
  | [] => lines
  end.

(** go/token File.Position: line and column of an offset: the last line
    that starts at or before it. *)
Fixpoint position (lines : list nat) (offset : nat) : nat * nat :=
  match lines with
  | [] => (O, O)
  | l :: r => if (l <=? offset)%nat then (S (length r), S (offset - l)) else position r offset
  end.

Definition set_ch (s : sstate) (c : Z) (off rd : nat) (lines : list nat) : sstate :=
  mkS c off rd lines (s_tok s) (s_pos s) (s_errs s).
Definition set_tok (k : Z) (s : sstate) : sstate :=
  mkS (s_ch s) (s_off s) (s_rd s) (s_lines s) k (s_pos s) (s_errs s).
Definition set_pos (p : nat) (s : sstate) : sstate :=
  mkS (s_ch s) (s_off s) (s_rd s) (s_lines s) (s_tok s) p (s_errs s).

(** scanner.go:49-53 error, with the callback of parser.go:84-92: it turns
    the position back into an offset, looks the position up again and
    appends to the list. *)
Definition s_error (off : nat) (msg : list byte) (s : sstate) : sstate :=
  let '(line, col) := position (s_lines s) off in
  mkS (s_ch s) (s_off s) (s_rd s) (s_lines s) (s_tok s) (s_pos s)
      (s_errs s ++ [mkPErr off line col msg]).

(** scanner.go:382-385.  lower is [0x20 | ch]. *)
Definition lower (c : Z) : Z := Z.lor 32 c.
Definition isLetter (c : Z) : bool := in_range 97 122 (lower c) || (c =? 95).
Definition isDecimal (c : Z) : bool := in_range 48 57 c.
Definition isHex (c : Z) : bool := isDecimal c || in_range 97 102 (lower c).

Section scanner.
Context (u : unicode) (src : list byte).

(** scanner.go:45-47 lit *)
Definition s_lit (s : sstate) : list byte :=
  firstn (s_off s - s_pos s) (skipn (s_pos s) src).

(** scanner.go:59-89 nextch *)
Definition nextch (s : sstate) : sstate :=
  match skipn (s_rd s) src with
  | b :: _ =>
      let off := s_rd s in
      let lines := if s_ch s =? 10 then add_line (length src) off (s_lines s) else s_lines s in
      let s := set_ch s (s_ch s) off (s_rd s) lines in
      let c := b2z b in
      if c =? 0 then
        let s := s_error off (lit "illegal character NUL") s in
        set_ch s c off (off + 1) lines
      else if 0x80 <=? c then
        let '(r, w) := decode_rune (skipn (s_rd s) src) in
        let s :=
          if (r =? RuneError) && (w =? 1)%nat then s_error off (lit "illegal UTF-8 encoding") s
          else if (r =? bom) && (0 <? off)%nat then s_error off (lit "illegal byte order mark") s
          else s in
        set_ch s r off (off + w) lines
      else set_ch s c off (off + 1) lines
  | [] =>
      let off := length src in
      let lines := if s_ch s =? 10 then add_line (length src) off (s_lines s) else s_lines s in
      set_ch s eof off (s_rd s) lines
  end.

(** [for cond(s.ch) { s.nextch() }].  [None] means the fuel ran out, which
    is proved not to happen. *)
Fixpoint scan_while (n : nat) (cond : Z -> bool) (s : sstate) : option sstate :=
  if cond (s_ch s) then
    match n with
    | O => None
    | S m => scan_while m cond (nextch s)
    end
  else Some s.

Definition fuel : nat := S (length src).

(** scanner.go:29-43 init *)
Definition s_init : sstate :=
  let s := nextch (mkS 32 0 0 [O] K_ILLEGAL 0 []) in
  if s_ch s =? bom then nextch s else s.

(** scanner.go:258-270 atIdent *)
Definition atIdent (first : bool) (s : sstate) : bool * sstate :=
  let c := s_ch s in
  if is_letter u c || (c =? 95) then (true, s)
  else if is_digit u c || (c =? 46) then
    (true, if first then s_error (s_off s) (lit "identifier cannot begin with " ++ fmt_U u c) s else s)
  else (false, s).

(** scanner.go:240-256 ident.  The second loop's condition has no effect
    when it is not the first character, so it is a plain loop. *)
Definition s_ident (s : sstate) : option sstate :=
  match scan_while fuel (fun c => isLetter c || isDecimal c || (c =? 46)) s with
  | None => None
  | Some s =>
      match
        (if 0x80 <=? s_ch s then
           scan_while fuel (fun c => is_letter u c || (c =? 95) || (is_digit u c || (c =? 46))) s
         else Some s)
      with
      | None => None
      | Some s =>
          let text := s_lit s in
          Some (set_tok (if (2 <? length text)%nat
                         then match keywords text with Some k => k | None => K_IDENT end
                         else K_IDENT) s)
      end
  end.

(** scanner.go:304-316: the exponent and the end of number *)
Definition s_exponent (k : Z) (s : sstate) : option sstate :=
  if lower (s_ch s) =? 101 then
    let s := nextch s in
    let s := if (s_ch s =? 43) || (s_ch s =? 45) then nextch s else s in
    option_map (set_tok K_FLOAT) (scan_while fuel isDecimal s)
  else Some (set_tok k s).

(** scanner.go:288-302: digits, point, digits *)
Definition s_decimal (s : sstate) : option sstate :=
  match scan_while fuel isDecimal s with
  | None => None
  | Some s =>
      if s_ch s =? 46 then
        match scan_while fuel isDecimal (nextch s) with
        | None => None
        | Some s => s_exponent K_FLOAT s
        end
      else s_exponent K_INT s
  end.

(** scanner.go:272-316 number; every caller passes seenPoint = false. *)
Definition s_number (s : sstate) : option sstate :=
  if s_ch s =? 48 then
    let s := nextch s in
    if lower (s_ch s) =? 120 then
      option_map (set_tok K_INT) (scan_while fuel isHex (nextch s))
    else s_decimal s
  else s_decimal s.

(** scanner.go:346-358 escape *)
Definition s_escape (quote : Z) (s : sstate) : bool * sstate :=
  let c := s_ch s in
  if (c =? quote) || (c =? 92) || (c =? 110) || (c =? 114) || (c =? 116) then (true, nextch s)
  else if c <? 0 then (true, s)
  else (false, s_error (s_off s) (lit "unknown escape") s).

(** scanner.go:321-344: the loop of string, after the opening quote.  The
    two early returns leave s.tok as it was. *)
Fixpoint s_string_loop (n : nat) (quote : Z) (s : sstate) : option sstate :=
  match n with
  | O => None
  | S m =>
      let c := s_ch s in
      if c =? quote then Some (set_tok K_STRING (nextch s))
      else if c =? 92 then
        let '(ok, s) := s_escape quote (nextch s) in
        if ok then s_string_loop m quote s else Some s
      else if c =? 10 then Some (s_error (s_off s) (lit "newline in string") s)
      else if c <? 0 then Some (set_tok K_STRING (s_error (s_off s) (lit "string not terminated") s))
      else s_string_loop m quote (nextch s)
  end.

(** scanner.go:318-344 string *)
Definition s_string (s : sstate) : option sstate :=
  let quote := s_ch s in
  s_string_loop (S fuel) quote (nextch s).

(** scanner.go:360-365 lineComment *)
Definition s_line_comment (s : sstate) : option sstate :=
  scan_while fuel (fun c => (0 <=? c) && negb (c =? 10)) (set_tok K_COMMENT s).

(** scanner.go:370-376: the inner loop of fullComment; true if it returns *)
Fixpoint s_stars (n : nat) (s : sstate) : option (bool * sstate) :=
  if s_ch s =? 42 then
    match n with
    | O => None
    | S m =>
        let s := nextch s in
        if s_ch s =? 47 then Some (true, nextch s) else s_stars m s
    end
  else Some (false, s).

(** scanner.go:369-379: the outer loop of fullComment *)
Fixpoint s_full_loop (n : nat) (s : sstate) : option sstate :=
  if 0 <=? s_ch s then
    match n with
    | O => None
    | S m =>
        match s_stars fuel s with
        | None => None
        | Some (true, s) => Some s
        | Some (false, s) => s_full_loop m (nextch s)
        end
    end
  else Some (s_error (s_off s) (lit "comment not terminated") s).

(** scanner.go:367-380 fullComment *)
Definition s_full_comment (s : sstate) : option sstate := s_full_loop fuel (set_tok K_COMMENT s).

(** scanner.go:130-132, 152-166, 177-227: the tokens of one character that no
    other token starts with. *)
Definition single (c : Z) : option Z :=
  if c =? 42 then Some K_MUL
  else if c =? 37 then Some K_REM
  else if c =? 38 then Some K_AND
  else if c =? 124 then Some K_OR
  else if c =? 94 then Some K_XOR
  else if c =? 60 then Some K_LSS
  else if c =? 62 then Some K_GTR
  else if c =? 33 then Some K_NOT
  else if c =? 40 then Some K_LPAREN
  else if c =? 91 then Some K_LBRACK
  else if c =? 123 then Some K_LBRACE
  else if c =? 44 then Some K_COMMA
  else if c =? 46 then Some K_PERIOD
  else if c =? 41 then Some K_RPAREN
  else if c =? 93 then Some K_RBRACK
  else if c =? 125 then Some K_RBRACE
  else if c =? 59 then Some K_SEMICOLON
  else if c =? 58 then Some K_COLON
  else None.

Definition is_white (c : Z) : bool := (c =? 10) || (c =? 13) || (c =? 9) || (c =? 32).

(** scanner.go:104-237: the switch; [redo] is what [goto redo] runs. *)
Definition s_switch (redo : sstate -> option sstate) (s : sstate) : option sstate :=
  let c := s_ch s in
  if c =? eof then Some (set_tok K_EOF s)
  else if isDecimal c then s_number s
  else if (c =? 34) || (c =? 39) then s_string s
  else if c =? 43 then
    let s := nextch s in
    if isDecimal (s_ch s) then s_number s else Some (set_tok K_ADD s)
  else if c =? 45 then
    let s := nextch s in
    if isDecimal (s_ch s) then s_number s else Some (set_tok K_SUB s)
  else if c =? 47 then
    let s := nextch s in
    if s_ch s =? 47 then s_line_comment (nextch s)
    else if s_ch s =? 42 then s_full_comment (nextch s)
    else Some (set_tok K_QUO s)
  else if c =? 61 then
    let s := nextch s in
    if s_ch s =? 61 then Some (set_tok K_EQL (nextch s)) else Some (set_tok K_ASSIGN s)
  else if c =? 35 then s_line_comment (nextch s)
  else
    match single c with
    | Some k => Some (set_tok k (nextch s))
    | None => redo (nextch (s_error (s_off s) (lit "invalid character " ++ fmt_U u c) s))
    end.

(** scanner.go:91-238 next.  [for cond { ...; return }] is an if. *)
Fixpoint s_next_n (n : nat) (s : sstate) : option sstate :=
  match n with
  | O => None
  | S m =>
      match scan_while fuel is_white s with
      | None => None
      | Some s =>
          let s := set_pos (s_off s) s in
          let '(id, s) :=
            if isLetter (s_ch s) then (true, s)
            else if 0x80 <=? s_ch s then atIdent true s
            else (false, s) in
          if id then s_ident (nextch s)
          else s_switch (s_next_n m) s
      end
  end.
Definition s_next (s : sstate) : option sstate := s_next_n fuel s.

End scanner.
