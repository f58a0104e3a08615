(** The parts of Go's unicode/utf8 and unicode packages the repository uses.
    The character tables of package unicode are data this model does not
    include: they are a parameter ([unicode]) outside ASCII. *)
From Verif Require Import Base.

Definition RuneError : Z := 0xFFFD.

Definition cont_in (lo hi : Z) (b : byte) : bool := (lo <=? b2z b) && (b2z b <=? hi).

(** utf8.DecodeRuneInString / DecodeRune: the first rune and its width. *)
Definition decode_rune (s : list byte) : Z * nat :=
  match s with
  | [] => (RuneError, 0%nat)
  | b0 :: r =>
      let c0 := b2z b0 in
      if c0 <? 0x80 then (c0, 1%nat)
      else if (0xC2 <=? c0) && (c0 <=? 0xDF) then
        match r with
        | b1 :: _ =>
            if cont_in 0x80 0xBF b1 then ((c0 - 0xC0) * 64 + (b2z b1 - 0x80), 2%nat)
            else (RuneError, 1%nat)
        | _ => (RuneError, 1%nat)
        end
      else if (0xE0 <=? c0) && (c0 <=? 0xEF) then
        match r with
        | b1 :: b2 :: _ =>
            let lo := if c0 =? 0xE0 then 0xA0 else 0x80 in
            let hi := if c0 =? 0xED then 0x9F else 0xBF in
            if cont_in lo hi b1 && cont_in 0x80 0xBF b2
            then ((c0 - 0xE0) * 4096 + (b2z b1 - 0x80) * 64 + (b2z b2 - 0x80), 3%nat)
            else (RuneError, 1%nat)
        | _ => (RuneError, 1%nat)
        end
      else if (0xF0 <=? c0) && (c0 <=? 0xF4) then
        match r with
        | b1 :: b2 :: b3 :: _ =>
            let lo := if c0 =? 0xF0 then 0x90 else 0x80 in
            let hi := if c0 =? 0xF4 then 0x8F else 0xBF in
            if cont_in lo hi b1 && cont_in 0x80 0xBF b2 && cont_in 0x80 0xBF b3
            then ((c0 - 0xF0) * 262144 + (b2z b1 - 0x80) * 4096
                  + (b2z b2 - 0x80) * 64 + (b2z b3 - 0x80), 4%nat)
            else (RuneError, 1%nat)
        | _ => (RuneError, 1%nat)
        end
      else (RuneError, 1%nat)
  end.

(** [for _, r := range s]: the runes with their bytes.  The fuel is the length. *)
Fixpoint runes_n (n : nat) (s : list byte) : list Z :=
  match n, s with
  | S m, _ :: _ => let '(r, w) := decode_rune s in r :: runes_n m (skipn w s)
  | _, _ => []
  end.
Definition runes (s : list byte) : list Z := runes_n (length s) s.

(** The tables of package unicode above ASCII. *)
Record unicode := mkUnicode {
  uni_letter : Z -> bool;     (* unicode.IsLetter *)
  uni_number : Z -> bool;     (* unicode.IsNumber *)
  uni_digit : Z -> bool;      (* unicode.IsDigit *)
  uni_space : Z -> bool;      (* unicode.IsSpace *)
  uni_lower : Z -> Z;         (* unicode.ToLower *)
  uni_print : Z -> bool }.    (* strconv.IsPrint *)

Definition in_range (lo hi r : Z) : bool := (lo <=? r) && (r <=? hi).

Definition is_letter (u : unicode) (r : Z) : bool :=
  if r <? 128 then in_range 65 90 r || in_range 97 122 r else uni_letter u r.
Definition is_number (u : unicode) (r : Z) : bool :=
  if r <? 128 then in_range 48 57 r else uni_number u r.
Definition is_digit (u : unicode) (r : Z) : bool :=
  if r <? 128 then in_range 48 57 r else uni_digit u r.
Definition to_lower (u : unicode) (r : Z) : Z :=
  if r <? 128 then (if in_range 65 90 r then r + 32 else r) else uni_lower u r.
Definition is_print (u : unicode) (r : Z) : bool :=
  if r <? 128 then in_range 32 126 r else uni_print u r.

(** utf8.AppendRune, for a code point that is not a surrogate *)
Definition encode_rune (r : Z) : list byte :=
  if r <? 0x80 then [z2b r]
  else if r <? 0x800 then [z2b (0xC0 + r / 64); z2b (0x80 + r mod 64)]
  else if r <? 0x10000 then
    [z2b (0xE0 + r / 4096); z2b (0x80 + (r / 64) mod 64); z2b (0x80 + r mod 64)]
  else [z2b (0xF0 + r / 262144); z2b (0x80 + (r / 4096) mod 64);
        z2b (0x80 + (r / 64) mod 64); z2b (0x80 + r mod 64)].

(** The hexadecimal digits fmt prints, upper case, at least [width] of them. *)
Definition hex_digit (d : Z) : byte := z2b (if d <? 10 then 48 + d else 55 + d).
Fixpoint hex_digits (fuel : nat) (n : Z) : list byte :=
  match fuel with
  | O => []
  | S m => (if n <? 16 then [] else hex_digits m (n / 16)) ++ [hex_digit (n mod 16)]
  end.
Definition pad_left (width : nat) (pad : byte) (l : list byte) : list byte :=
  repeat pad (width - length l) ++ l.

(** fmt's [%#U] on a rune (fmt/format.go fmtUnicode) *)
Definition fmt_U (u : unicode) (r : Z) : list byte :=
  [z2b 85; z2b 43] ++ pad_left 4 (z2b 48) (hex_digits 8 r)
  ++ (if is_print u r then [z2b 32; z2b 39] ++ encode_rune r ++ [z2b 39] else []).

(** An ASCII-only table, for examples. *)
Definition ascii_only : unicode :=
  mkUnicode (fun _ => false) (fun _ => false) (fun _ => false) (fun _ => false) (fun r => r) (fun _ => true).
