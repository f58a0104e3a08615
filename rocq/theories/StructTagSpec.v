(** The grammar of Go struct tags: pairs [name:"string"], after any number of
    spaces, the strings written as Go's interpreted string literals. *)
From Coq Require Import Strings.String.
From Verif Require Import Base Utf8.
Local Open Scope list_scope.

(** Unicode scalar values *)
Definition scalar_value (r : Z) : Prop := 0 <= r < 0xD800 \/ 0xE000 <= r <= 0x10FFFF.

(** [digit_in alphabet b v]: [b] is the digit of value [v] *)
Definition digit_in (digits : list byte) (b : byte) (v : Z) : Prop := 0 <= v /\ nth_error digits (Z.to_nat v) = Some b.
Definition hex_digit_of (b : byte) (v : Z) : Prop :=
  digit_in (lit "0123456789abcdef") b v \/ digit_in (lit "0123456789ABCDEF") b v.
Definition oct_digit_of (b : byte) (v : Z) : Prop := digit_in (lit "01234567") b v.

(** [numeral base digit ds v]: the digits [ds] are a numeral of [v]. *)
Inductive numeral (base : Z) (digit : byte -> Z -> Prop) : list byte -> Z -> Prop :=
| num_nil : numeral base digit [] 0
| num_snoc ds v b x : numeral base digit ds v -> digit b x -> numeral base digit (ds ++ [b]) (base * v + x).

(** \a \b \f \n \r \t \v, backslash and double quote *)
Definition simple_escapes : list (byte * byte) :=
  [(x61, x07); (x62, x08); (x66, x0c); (x6e, x0a); (x72, x0d); (x74, x09); (x76, x0b); (x5c, x5c); (x22, x22)].

(** [literal s v]: between double quotes, [s] stands for the bytes [v].  Bytes that
    are not UTF-8 are allowed by strconv.Unquote and become U+FFFD. *)
Inductive literal : list byte -> list byte -> Prop :=
| lit_nil : literal [] []
| lit_char r s v : scalar_value r -> r <> 34 -> r <> 92 -> r <> 10 ->
    literal s v -> literal (encode_rune r ++ s) (encode_rune r ++ v)
| lit_bad b s v : (forall r s', scalar_value r -> b :: s <> encode_rune r ++ s') ->
    literal s v -> literal (b :: s) (encode_rune 0xFFFD ++ v)
| lit_simple c x s v : In (c, x) simple_escapes -> literal s v -> literal (x5c :: c :: s) (x :: v)
| lit_x ds x s v : length ds = 2%nat -> numeral 16 hex_digit_of ds x ->
    literal s v -> literal (lit "\x" ++ ds ++ s) (z2b x :: v)
| lit_oct ds x s v : length ds = 3%nat -> numeral 8 oct_digit_of ds x -> x <= 255 ->
    literal s v -> literal (lit "\" ++ ds ++ s) (z2b x :: v)
| lit_u ds x s v : length ds = 4%nat -> numeral 16 hex_digit_of ds x -> scalar_value x ->
    literal s v -> literal (lit "\u" ++ ds ++ s) (encode_rune x ++ v)
| lit_U ds x s v : length ds = 8%nat -> numeral 16 hex_digit_of ds x -> scalar_value x ->
    literal s v -> literal (lit "\U" ++ ds ++ s) (encode_rune x ++ v).

(** Quoted text as the tag scanner sees it: a backslash hides the next byte. *)
Inductive quoted_text : list byte -> Prop :=
| qt_nil : quoted_text []
| qt_plain b s : b <> x22 -> b <> x5c -> quoted_text s -> quoted_text (b :: s)
| qt_escape c s : quoted_text s -> quoted_text (x5c :: c :: s).

(** Names: not empty, no control characters, space, quote or colon. *)
Definition tag_name (n : list byte) : Prop :=
  n <> [] /\ Forall (fun b => 32 < b2z b /\ b <> x3a /\ b <> x22 /\ b <> x7f) n.

Definition spaces (s : list byte) : Prop := Forall (fun b => b = x20) s.

(** [tag_value key tag v]: the first pair in [tag] with the name [key] has the value [v]. *)
Inductive tag_value (key : list byte) : list byte -> list byte -> Prop :=
| tv_here sp s v rest : spaces sp -> literal s v ->
    tag_value key (sp ++ key ++ [x3a; x22] ++ s ++ [x22] ++ rest) v
| tv_later sp name s rest v : spaces sp -> tag_name name -> name <> key -> quoted_text s ->
    tag_value key rest v -> tag_value key (sp ++ name ++ [x3a; x22] ++ s ++ [x22] ++ rest) v.
