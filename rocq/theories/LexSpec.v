(** What a .thrift source means as a sequence of tokens: the lexical grammar,
    stated without reference to the scanner. *)
From Coq Require Import Strings.String.
From Verif Require Import Base GoType Utf8 Tokens.

(** ** Characters *)

(** A character is a code point with the bytes that encode it. *)
Definition char : Type := (Z * list byte)%type.
Definition text (cs : list char) : list byte := concat (map snd cs).
Definition codes (cs : list char) : list Z := map fst cs.

(** The characters of a byte sequence.  A byte that is not part of a valid
    UTF-8 encoding is a character of its own, with code U+FFFD. *)
Fixpoint chars_n (n : nat) (s : list byte) : list char :=
  match n, s with
  | S m, _ :: _ => let '(r, w) := decode_rune s in (r, firstn w s) :: chars_n m (skipn w s)
  | _, _ => []
  end.
Definition chars (s : list byte) : list char := chars_n (length s) s.

Definition byte_order_mark : Z := 0xFEFF.

(** Characters a source may contain: no NUL, no invalid encoding, no byte
    order mark. *)
Definition ok_char (c : char) : Prop :=
  fst c <> 0 /\ ~ (fst c = RuneError /\ length (snd c) = 1%nat) /\ fst c <> byte_order_mark.

(** A byte order mark at the very start is ignored. *)
Definition drop_bom (cs : list char) : list char :=
  match cs with
  | c :: r => if fst c =? byte_order_mark then r else cs
  | [] => []
  end.

(** ** The lexical classes *)

Definition white (c : Z) : Prop := c = 10 \/ c = 13 \/ c = 9 \/ c = 32.
Definition decimal (c : Z) : Prop := 48 <= c <= 57.
Definition hexadecimal (c : Z) : Prop := decimal c \/ 65 <= c <= 70 \/ 97 <= c <= 102.
Definition digits : list Z -> Prop := Forall decimal.
Definition sign (l : list Z) : Prop := l = [] \/ l = [43] \/ l = [45].

(** Numbers: hexadecimal, decimal, with a point, with an exponent.  (There
    may be no digits after 0x, the point or the exponent.) *)
Inductive number : Z -> list Z -> Prop :=
| num_hex sg x l : sign sg -> x = 120 \/ x = 88 -> Forall hexadecimal l ->
    number K_INT (sg ++ 48 :: x :: l)
| num_dec sg d l : sign sg -> digits (d :: l) ->
    number K_INT (sg ++ d :: l)
| num_point sg d l m : sign sg -> digits (d :: l) -> digits m ->
    number K_FLOAT (sg ++ d :: l ++ 46 :: m)
| num_exp sg d l p e g m : sign sg -> digits (d :: l) ->
    (p = [] \/ exists q, p = 46 :: q /\ digits q) ->
    e = 101 \/ e = 69 -> sign g -> digits m ->
    number K_FLOAT (sg ++ d :: l ++ p ++ e :: g ++ m).

(** What may stand between the quotes [q]. *)
Inductive string_body (q : Z) : list Z -> Prop :=
| sb_nil : string_body q []
| sb_char c l : c <> q -> c <> 92 -> c <> 10 -> string_body q l -> string_body q (c :: l)
| sb_escape e l : In e [q; 92; 110; 114; 116] -> string_body q l -> string_body q (92 :: e :: l).

Definition string_text (t : list Z) : Prop :=
  exists q b, (q = 34 \/ q = 39) /\ string_body q b /\ t = q :: b ++ [q].

(** A line comment runs up to the newline. *)
Definition line_comment (t : list Z) : Prop :=
  exists l, ~ In 10 l /\ (t = 35 :: l \/ t = 47 :: 47 :: l).

(** A full comment ends at the first */ after its start. *)
Definition full_comment (t : list Z) : Prop :=
  exists b, t = 47 :: 42 :: b ++ [42; 47] /\
            forall x y, b ++ [42; 47] = x ++ 42 :: 47 :: y -> y = [].

Definition punctuation : list (Z * list Z) :=
  [(K_ADD, [43]); (K_SUB, [45]); (K_MUL, [42]); (K_QUO, [47]); (K_REM, [37]); (K_AND, [38]);
   (K_OR, [124]); (K_XOR, [94]); (K_EQL, [61; 61]); (K_LSS, [60]); (K_GTR, [62]); (K_ASSIGN, [61]);
   (K_NOT, [33]); (K_LPAREN, [40]); (K_LBRACK, [91]); (K_LBRACE, [123]); (K_COMMA, [44]);
   (K_PERIOD, [46]); (K_RPAREN, [41]); (K_RBRACK, [93]); (K_RBRACE, [125]); (K_SEMICOLON, [59]);
   (K_COLON, [58])].

(** The keywords of the Thrift IDL. *)
Definition thrift_keywords : list (string * Z) :=
  [("include", K_INCLUDE); ("namespace", K_NAMESPACE); ("const", K_CONST); ("typedef", K_TYPEDEF);
   ("enum", K_ENUM); ("struct", K_STRUCT); ("union", K_UNION); ("exception", K_EXCEPTION);
   ("service", K_SERVICE); ("required", K_REQUIRED); ("optional", K_OPTIONAL); ("extends", K_EXTENDS);
   ("oneway", K_ONEWAY); ("void", K_VOID); ("throws", K_THROWS); ("map", K_MAP); ("set", K_SET);
   ("list", K_LIST)]%string.

(** Two further words the implementation takes for keywords. *)
Definition stray_keywords : list (string * Z) :=
  [("definition_beg", K_definition_beg); ("definition_end", K_definition_end)]%string.

Definition reserved : list (string * Z) := thrift_keywords ++ stray_keywords.

Definition word_kind (w : list byte) (k : Z) : Prop :=
  (exists x, In (x, k) reserved /\ w = lit x) \/
  ((forall x k', In (x, k') reserved -> w <> lit x) /\ k = K_IDENT).

Section lexemes.
Context (u : unicode).

Definition starts_word (c : Z) : Prop := is_letter u c = true \/ c = 95.
Definition in_word (c : Z) : Prop :=
  is_letter u c = true \/ c = 95 \/ is_digit u c = true \/ c = 46.

(** [lexeme k t]: the characters [t] make up a token of kind [k]. *)
Inductive lexeme : Z -> list char -> Prop :=
| lx_word k c r : starts_word (fst c) -> Forall in_word (codes r) -> word_kind (text (c :: r)) k ->
    lexeme k (c :: r)
| lx_number k t : number k (codes t) -> lexeme k t
| lx_string t : string_text (codes t) -> lexeme K_STRING t
| lx_line t : line_comment (codes t) -> lexeme K_COMMENT t
| lx_full t : full_comment (codes t) -> lexeme K_COMMENT t
| lx_punct k t : In (k, codes t) punctuation -> lexeme k t.

(** [lexes cs k t rest]: the first token of [cs] is [t], of kind [k], and
    [rest] follows it.  It could not be made one character longer, and a
    slash is not the start of a full comment. *)
Definition lexes (cs : list char) (k : Z) (t rest : list char) : Prop :=
  exists ws, cs = ws ++ t ++ rest /\ Forall (fun c => white (fst c)) ws /\ lexeme k t /\
    forall c r, rest = c :: r ->
      (forall k', ~ lexeme k' (t ++ [c])) /\ ~ (codes t = [47] /\ fst c = 42).

(** [tokens cs toks]: the whole of [cs] is the tokens [toks] (kind and text)
    with white space between them. *)
Inductive tokens : list char -> list (Z * list byte) -> Prop :=
| tk_end cs : Forall (fun c => white (fst c)) cs -> tokens cs []
| tk_cons cs k t rest toks : lexes cs k t rest -> tokens rest toks ->
    tokens cs ((k, text t) :: toks).

(** The tokens of a source file. *)
Definition source_tokens (src : list byte) (toks : list (Z * list byte)) : Prop :=
  Forall ok_char (drop_bom (chars src)) /\ tokens (drop_bom (chars src)) toks.

End lexemes.
