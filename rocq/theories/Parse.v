(** tools/thriftfile/parser.go and nodes.go: the syntax trees and the parser. *)
From Coq Require Import Strings.String.
From Verif Require Import Base GoType Utf8 Tokens Scan.

(** ** Syntax trees *)

(** nodes.go:239-261: Ident, Int, Float and String nodes carry their text. *)
Definition word := list byte.

(** nodes.go:263-275.  A nil list pointer is [None]. *)
Record annotation := mkAnn { an_name : word; an_value : option word }.
Definition annots := option (list annotation).

(** nodes.go:166-205 *)
Inductive ty :=
| TMap (key value : ty) (a : annots)
| TSet (element : ty) (a : annots)
| TList (element : ty) (a : annots)
| TRef (name : word) (a : annots).

(** nodes.go:207-261 *)
Inductive value :=
| VIdent (w : word)
| VInt (w : word)
| VFloat (w : word)
| VString (w : word)
| VList (l : list value)
| VMap (l : list (value * value)).

(** nodes.go:93-99 *)
Record enum_value := mkEnumValue { ev_name : word; ev_value : option word; ev_ann : annots }.

(** nodes.go:118-129 *)
Record field := mkField {
  f_id : option word;
  f_required : bool;
  f_optional : bool;
  f_type : ty;
  f_ref : bool;
  f_name : word;
  f_default : option value;
  f_ann : annots }.

(** nodes.go:147-157 *)
Record method := mkMethod {
  m_oneway : bool;
  m_void : bool;
  m_return : option ty;
  m_name : word;
  m_args : list field;
  m_throws : option (list field);
  m_ann : annots }.

(** nodes.go:23-47 *)
Inductive header :=
| Include (path : word)
| Namespace (scope : option word) (name : word) (a : annots).

(** nodes.go:49-145 *)
Inductive def :=
| BadDef (from to : nat)
| Const (t : ty) (name : word) (v : value)
| Typedef (t : ty) (name : word) (a : annots)
| Enum (name : word) (values : list enum_value) (a : annots)
| Struct (union exception : bool) (name : word) (fields : list field) (a : annots)
| Service (name : word) (extends : option word) (methods : list method) (a : annots).

(** nodes.go:16-21 *)
Record file := mkFile { file_headers : list header; file_defs : list def }.

(** ** The parser

    A parsing method runs on the scanner's state.  It returns, or panics with
    badDef, or (in the model only, and proved not to happen) runs out of fuel. *)
Inductive res (A : Type) : Type :=
| Ret (a : A) (s : sstate)
| Bad (s : sstate)
| Stuck.
Arguments Ret {A} a s.
Arguments Bad {A} s.
Arguments Stuck {A}.

Definition parser (A : Type) : Type := sstate -> res A.
Definition pret {A} (a : A) : parser A := fun s => Ret a s.
Definition pbind {A B} (m : parser A) (k : A -> parser B) : parser B := fun s =>
  match m s with
  | Ret a s' => k a s'
  | Bad s' => Bad s'
  | Stuck => Stuck
  end.
Declare Scope parser_scope.
Notation "x <- m ;; k" := (pbind m (fun x => k)) (at level 61, m at next level, right associativity) : parser_scope.
Notation "m ;;; k" := (pbind m (fun _ => k)) (at level 61, right associativity) : parser_scope.
Open Scope parser_scope.

(** What p.tok is. *)
Definition p_tok : parser Z := fun s => Ret (s_tok s) s.
(** panic(badDef{}) *)
Definition p_panic {A} : parser A := fun s => Bad s.

Section parser.
Context (u : unicode) (src : list byte).

(** parser.go:126-131 next (next0 is scanner.next): comments are skipped. *)
Fixpoint p_next_n (n : nat) : parser unit := fun s =>
  match s_next u src s with
  | None => Stuck
  | Some s =>
      if s_tok s =? K_COMMENT then
        match n with O => Stuck | S m => p_next_n m s end
      else Ret tt s
  end.
Definition p_next : parser unit := p_next_n (fuel src).

(** parser.go:90-92 error *)
Definition p_error (pos : nat) (msg : list byte) : parser unit := fun s => Ret tt (s_error pos msg s).

(** parser.go:94-105 errorExpected *)
Definition p_errorExpected (pos : nat) (msg : list byte) : parser unit := fun s =>
  let msg := lit "expected " ++ msg in
  let msg :=
    if (pos =? s_pos s)%nat then
      if isLiteral (s_tok s) then msg ++ lit ", found " ++ s_lit src s
      else msg ++ lit ", found '" ++ token_string (s_tok s) ++ lit "'"
    else msg in
  p_error pos msg s.

(** errorExpected(p.pos, msg), the only way it is called *)
Definition p_expected (msg : list byte) : parser unit := fun s => p_errorExpected (s_pos s) msg s.

(** parser.go:107-113 got *)
Definition p_got (k : Z) : parser bool := fun s =>
  if s_tok s =? k then (p_next ;;; pret true) s else Ret false s.

(** parser.go:115-120 want *)
Definition p_want (k : Z) : parser unit :=
  ok <- p_got k ;;
  if ok : bool then pret tt
  else p_expected (lit "'" ++ token_string k ++ lit "'") ;;; p_next.

(** parser.go:133-142 gotAssign *)
Definition p_gotAssign : parser bool :=
  ok <- p_got K_ASSIGN ;;
  if ok : bool then pret true
  else
    k <- p_tok ;;
    if k =? K_EQL then p_want K_ASSIGN ;;; pret true else pret false.

(** parser.go:522-526 separator *)
Fixpoint p_separator_n (n : nat) : parser unit := fun s =>
  if (s_tok s =? K_COMMA) || (s_tok s =? K_SEMICOLON) then
    match n with O => Stuck | S m => (p_next ;;; p_separator_n m) s end
  else Ret tt s.
Definition p_separator : parser unit := p_separator_n (fuel src).

(** parser.go:144-151 list.  The closures all append what one call of [f]
    returns, so the list is the result. *)
Fixpoint p_items {A} (n : nat) (close : Z) (f : parser A) : parser (list A) := fun s =>
  if negb (s_tok s =? K_EOF) && negb (s_tok s =? close) then
    match n with
    | O => Stuck
    | S m => (x <- f ;; p_separator ;;; l <- p_items m close f ;; pret (x :: l)) s
    end
  else Ret [] s.
Definition p_list {A} (open close : Z) (f : parser A) : parser (list A) :=
  p_want open ;;; l <- p_items (fuel src) close f ;; p_want close ;;; pret l.

(** parser.go:153-162 lit *)
Definition p_lit (k : Z) : parser word := fun s =>
  if s_tok s =? k then (p_next ;;; pret (s_lit src s)) s
  else (p_want k ;;; pret []) s.

(** parser.go:164-186 *)
Definition p_ident : parser word := p_lit K_IDENT.
Definition p_int : parser word := p_lit K_INT.
Definition p_float : parser word := p_lit K_FLOAT.
Definition p_string : parser word := p_lit K_STRING.

(** parser.go:502-509 annotation *)
Definition p_annotation : parser annotation :=
  name <- p_ident ;;
  has <- p_gotAssign ;;
  v <- (if has : bool then w <- p_string ;; pret (Some w) else pret None) ;;
  pret (mkAnn name v).

(** parser.go:511-520 annotations *)
Definition p_annotations : parser annots :=
  k <- p_tok ;;
  if negb (k =? K_LPAREN) then pret None
  else l <- p_list K_LPAREN K_RPAREN p_annotation ;; pret (Some l).

(** parser.go:403-456 type_, typeRef, map_, set, list_ *)
Fixpoint p_type (n : nat) : parser ty :=
  k <- p_tok ;;
  match n with
  | O => fun _ => Stuck
  | S m =>
      if k =? K_MAP then
        p_want K_MAP ;;; p_want K_LSS ;;; key <- p_type m ;; p_want K_COMMA ;;; val <- p_type m ;;
        p_want K_GTR ;;; a <- p_annotations ;; pret (TMap key val a)
      else if k =? K_SET then
        p_want K_SET ;;; p_want K_LSS ;;; e <- p_type m ;; p_want K_GTR ;;; a <- p_annotations ;; pret (TSet e a)
      else if k =? K_LIST then
        p_want K_LIST ;;; p_want K_LSS ;;; e <- p_type m ;; p_want K_GTR ;;; a <- p_annotations ;; pret (TList e a)
      else if k =? K_IDENT then
        name <- p_ident ;; a <- p_annotations ;; pret (TRef name a)
      else p_expected (lit "type") ;;; p_panic
  end.

(** parser.go:486-492 keyValuePair *)
Definition p_keyValuePair (value : parser value) : parser (Parse.value * Parse.value) :=
  k <- value ;; p_want K_COLON ;;; v <- value ;; pret (k, v).

(** parser.go:458-500 value, values, keyValuePairs *)
Fixpoint p_value (n : nat) : parser value :=
  k <- p_tok ;;
  match n with
  | O => fun _ => Stuck
  | S m =>
      if k =? K_IDENT then w <- p_ident ;; pret (VIdent w)
      else if k =? K_INT then w <- p_int ;; pret (VInt w)
      else if k =? K_FLOAT then w <- p_float ;; pret (VFloat w)
      else if k =? K_STRING then w <- p_string ;; pret (VString w)
      else if k =? K_LBRACK then l <- p_list K_LBRACK K_RBRACK (p_value m) ;; pret (VList l)
      else if k =? K_LBRACE then l <- p_list K_LBRACE K_RBRACE (p_keyValuePair (p_value m)) ;; pret (VMap l)
      else p_expected (lit "value") ;;; p_panic
  end.

(** Fuel for types and values. *)
Definition p_type_ : parser ty := p_type (S (fuel src)).
Definition p_value_ : parser value := p_value (S (fuel src)).

(** parser.go:210-215 include *)
Definition p_include : parser header :=
  p_want K_INCLUDE ;;; path <- p_string ;; pret (Include path).

(** parser.go:217-226 namespace *)
Definition p_namespace : parser header :=
  p_want K_NAMESPACE ;;;
  all <- p_got K_MUL ;;
  scope <- (if all : bool then pret None else w <- p_ident ;; pret (Some w)) ;;
  name <- p_ident ;;
  a <- p_annotations ;;
  pret (Namespace scope name a).

(** parser.go:199-208 header *)
Definition p_header : parser (option header) :=
  k <- p_tok ;;
  if k =? K_INCLUDE then h <- p_include ;; pret (Some h)
  else if k =? K_NAMESPACE then h <- p_namespace ;; pret (Some h)
  else pret None.

(** parser.go:264-273 const_ *)
Definition p_const : parser def :=
  p_want K_CONST ;;; t <- p_type_ ;; name <- p_ident ;; p_want K_ASSIGN ;;; v <- p_value_ ;;
  p_separator ;;; pret (Const t name v).

(** parser.go:275-283 typedef *)
Definition p_typedef : parser def :=
  p_want K_TYPEDEF ;;; t <- p_type_ ;; name <- p_ident ;; a <- p_annotations ;;
  p_separator ;;; pret (Typedef t name a).

(** parser.go:294-302 enumValue *)
Definition p_enumValue : parser enum_value :=
  name <- p_ident ;;
  has <- p_gotAssign ;;
  v <- (if has : bool then i <- p_int ;; pret (Some i) else pret None) ;;
  a <- p_annotations ;;
  pret (mkEnumValue name v a).

(** parser.go:285-292, 304-310 enum, enumValues *)
Definition p_enum : parser def :=
  p_want K_ENUM ;;; name <- p_ident ;; l <- p_list K_LBRACE K_RBRACE p_enumValue ;;
  a <- p_annotations ;; pret (Enum name l a).

(** parser.go:323-332 fieldName *)
Definition p_fieldName : parser word := fun s =>
  if (s_tok s =? K_IDENT) || isKeyword (s_tok s) then (p_next ;;; pret (s_lit src s)) s
  else (p_want K_IDENT ;;; pret []) s.

(** parser.go:334-354 field *)
Definition p_field : parser field :=
  k <- p_tok ;;
  id <- (if k =? K_INT then i <- p_int ;; p_want K_COLON ;;; pret (Some i) else pret None) ;;
  req <- p_got K_REQUIRED ;;
  opt <- (if req : bool then pret false else p_got K_OPTIONAL) ;;
  t <- p_type_ ;;
  ref <- p_got K_AND ;;
  name <- p_fieldName ;;
  has <- p_gotAssign ;;
  d <- (if has : bool then v <- p_value_ ;; pret (Some v) else pret None) ;;
  a <- p_annotations ;;
  pret (mkField id req opt t ref name d a).

(** parser.go:356-362 fields *)
Definition p_fields (open close : Z) : parser (list field) := p_list open close p_field.

(** parser.go:312-321 struct_ *)
Definition p_struct (k : Z) : parser def :=
  p_want k ;;; name <- p_ident ;; l <- p_fields K_LBRACE K_RBRACE ;; a <- p_annotations ;;
  pret (Struct (k =? K_UNION) (k =? K_EXCEPTION) name l a).

(** parser.go:376-393 method *)
Definition p_method : parser method :=
  oneway <- p_got K_ONEWAY ;;
  void <- p_got K_VOID ;;
  ret <- (if void : bool then pret None else t <- p_type_ ;; pret (Some t)) ;;
  name <- p_ident ;;
  args <- p_fields K_LPAREN K_RPAREN ;;
  has <- p_got K_THROWS ;;
  throws <- (if has : bool then l <- p_fields K_LPAREN K_RPAREN ;; pret (Some l) else pret None) ;;
  a <- p_annotations ;;
  pret (mkMethod oneway void ret name args throws a).

(** parser.go:364-374, 395-401 service, methods *)
Definition p_service : parser def :=
  p_want K_SERVICE ;;;
  name <- p_ident ;;
  has <- p_got K_EXTENDS ;;
  ext <- (if has : bool then w <- p_ident ;; pret (Some w) else pret None) ;;
  l <- p_list K_LBRACE K_RBRACE p_method ;;
  a <- p_annotations ;;
  pret (Service name ext l a).

(** parser.go:247-261: the switch of def *)
Definition p_def_switch : parser def :=
  k <- p_tok ;;
  if k =? K_CONST then p_const
  else if k =? K_TYPEDEF then p_typedef
  else if k =? K_ENUM then p_enum
  else if (k =? K_STRUCT) || (k =? K_UNION) || (k =? K_EXCEPTION) then p_struct k
  else if k =? K_SERVICE then p_service
  else p_expected (lit "definition") ;;; p_panic.

(** parser.go:237-239: the loop of the recovery *)
Fixpoint p_recover_n (n : nat) : parser unit := fun s =>
  if negb (s_tok s =? K_EOF) && negb (isDefinition (s_tok s)) then
    match n with O => Stuck | S m => (p_next ;;; p_recover_n m) s end
  else Ret tt s.

(** parser.go:230-262 def *)
Definition p_def : parser def := fun s =>
  match p_def_switch s with
  | Bad s' => (p_recover_n (fuel src) ;;; fun s'' => Ret (BadDef (s_pos s) (s_pos s'')) s'') s'
  | r => r
  end.

(** parser.go:190-192 *)
Fixpoint p_headers (n : nat) : parser (list header) :=
  match n with
  | O => fun _ => Stuck
  | S m =>
      h <- p_header ;;
      match h with
      | None => pret []
      | Some h => l <- p_headers m ;; pret (h :: l)
      end
  end.

(** parser.go:193-195 *)
Fixpoint p_defs (n : nat) : parser (list def) := fun s =>
  if negb (s_tok s =? K_EOF) then
    match n with
    | O => Stuck
    | S m => (d <- p_def ;; l <- p_defs m ;; pret (d :: l)) s
    end
  else Ret [] s.

(** parser.go:188-197 file_ *)
Definition p_file : parser file :=
  h <- p_headers (S (fuel src)) ;; d <- p_defs (fuel src) ;; pret (mkFile h d).

(** parser.go:83-88 init and 16-17; the result carries the errors met. *)
Definition p_run : res file := (p_next ;;; p_file) (s_init src).

End parser.

(** parser.go:50-66 Less; the file name is the same for all errors of a parse. *)
Fixpoint bytes_lt (a b : list byte) : bool :=
  match a, b with
  | _, [] => false
  | [], _ :: _ => true
  | x :: a, y :: b => (b2z x <? b2z y) || ((b2z x =? b2z y) && bytes_lt a b)
  end.
Definition perr_less (e f : perr) : bool :=
  if negb (pe_line e =? pe_line f)%nat then (pe_line e <? pe_line f)%nat
  else if negb (pe_col e =? pe_col f)%nat then (pe_col e <? pe_col f)%nat
  else bytes_lt (pe_msg e) (pe_msg f).

(** parser.go:9-19 Parse: the tree and the errors.  The error returned is nil
    if there are none (parser.go:36-41).  [sort] is package sort's Sort with
    Less above; the theorems hold for every function that sorts.  [None] would
    be a panic other than badDef, a badDef outside def, or an endless loop. *)
Definition parse (sort : list perr -> list perr) (u : unicode) (src : list byte) : option (file * list perr) :=
  match p_run u src with
  | Ret f s => Some (f, sort (s_errs s))
  | _ => None
  end.
