(** tools/thriftfile/tokens.go and token_string.go: token kinds and keywords. *)
From Coq Require Import Strings.String.
From Verif Require Import Base GoType.

(** tokens.go:6-79.  A token is its number (type token uint8). *)
Definition K_ILLEGAL : Z := 0.
Definition K_EOF : Z := 1.
Definition K_COMMENT : Z := 2.
Definition K_literal_beg : Z := 3.
Definition K_IDENT : Z := 4.
Definition K_INT : Z := 5.
Definition K_FLOAT : Z := 6.
Definition K_STRING : Z := 7.
Definition K_literal_end : Z := 8.
Definition K_ADD : Z := 9.
Definition K_SUB : Z := 10.
Definition K_MUL : Z := 11.
Definition K_QUO : Z := 12.
Definition K_REM : Z := 13.
Definition K_AND : Z := 14.
Definition K_OR : Z := 15.
Definition K_XOR : Z := 16.
Definition K_EQL : Z := 17.
Definition K_LSS : Z := 18.
Definition K_GTR : Z := 19.
Definition K_ASSIGN : Z := 20.
Definition K_NOT : Z := 21.
Definition K_LPAREN : Z := 22.
Definition K_LBRACK : Z := 23.
Definition K_LBRACE : Z := 24.
Definition K_COMMA : Z := 25.
Definition K_PERIOD : Z := 26.
Definition K_RPAREN : Z := 27.
Definition K_RBRACK : Z := 28.
Definition K_RBRACE : Z := 29.
Definition K_SEMICOLON : Z := 30.
Definition K_COLON : Z := 31.
Definition K_keyword_beg : Z := 32.
Definition K_INCLUDE : Z := 33.
Definition K_NAMESPACE : Z := 34.
Definition K_definition_beg : Z := 35.
Definition K_CONST : Z := 36.
Definition K_TYPEDEF : Z := 37.
Definition K_ENUM : Z := 38.
Definition K_STRUCT : Z := 39.
Definition K_UNION : Z := 40.
Definition K_EXCEPTION : Z := 41.
Definition K_SERVICE : Z := 42.
Definition K_definition_end : Z := 43.
Definition K_REQUIRED : Z := 44.
Definition K_OPTIONAL : Z := 45.
Definition K_EXTENDS : Z := 46.
Definition K_ONEWAY : Z := 47.
Definition K_VOID : Z := 48.
Definition K_THROWS : Z := 49.
Definition K_MAP : Z := 50.
Definition K_SET : Z := 51.
Definition K_LIST : Z := 52.
Definition K_keyword_end : Z := 53.

(** token_string.go:67 _token_name and 69 _token_index *)
Definition token_name : list byte := lit
  "ILLEGALEOFCOMMENTliteral_begIDENTINTFLOATSTRINGliteral_end+-*/%&|^==<>=!([{,.)]};:keyword_begincludenamespacedefinition_begconsttypedefenumstructunionexceptionservicedefinition_endrequiredoptionalextendsonewayvoidthrowsmapsetlistkeyword_end".
Definition token_index : list Z :=
  [0; 7; 10; 17; 28; 33; 36; 41; 47; 58; 59; 60; 61; 62; 63; 64; 65; 66; 68; 69; 70; 71; 72; 73; 74; 75; 76; 77; 78;
   79; 80; 81; 82; 93; 100; 109; 123; 128; 135; 139; 145; 150; 159; 166; 180; 188; 196; 203; 209; 213; 219; 222; 225;
   229; 240].

(** strconv.FormatInt(n, 10) for 0 <= n *)
Fixpoint dec_digits (fuel : nat) (n : Z) : list byte :=
  match fuel with
  | O => []
  | S m => (if n <? 10 then [] else dec_digits m (n / 10)) ++ [z2b (48 + n mod 10)]
  end.
Definition decimal_text (n : Z) : list byte :=
  if n <? 0 then z2b 45 :: dec_digits 40 (- n) else dec_digits 40 n.

(** s[i:j] *)
Definition slice {A} (i j : Z) (s : list A) : list A := firstn (Z.to_nat (j - i)) (skipn (Z.to_nat i) s).

(** token_string.go:71-76 (token).String.  The case structure of stringer's
    output: [name] and [index] are its tables. *)
Definition stringer (prefix : string) (name : list byte) (index : list Z) (i : Z) : list byte :=
  if (zlen index - 1) <=? i then lit prefix ++ [z2b 40] ++ decimal_text i ++ [z2b 41]
  else slice (nth (Z.to_nat i) index 0) (nth (Z.to_nat i + 1) index 0) name.
Definition token_string (i : Z) : list byte := stringer "token" token_name token_index i.

(** tokens.go:81-88: the keyword map.  No two names are equal, so it does not
    matter which entry a search finds first. *)
Definition keyword_kinds : list Z := map Z.of_nat (seq 33 20).
Definition keywords (text : list byte) : option Z :=
  find (fun i => bytes_eqb (token_string i) text) keyword_kinds.

(** tokens.go:90-92 *)
Definition isLiteral (k : Z) : bool := (K_literal_beg <? k) && (k <? K_literal_end).
Definition isKeyword (k : Z) : bool := (K_keyword_beg <? k) && (k <? K_keyword_end).
Definition isDefinition (k : Z) : bool := (K_definition_beg <? k) && (k <? K_definition_end).
