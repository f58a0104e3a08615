(** The grammar of .thrift files that Parse implements, as relations between
    syntax trees and sequences of tokens.  A token is its kind and its text;
    the texts of keywords and punctuation are fixed by their kinds and left
    open here. *)
From Verif Require Import Base Tokens Parse.

Definition tok : Type := (Z * list byte)%type.

(** Commas and semicolons separate, and any number of them will do. *)
Definition separators (l : list tok) : Prop :=
  Forall (fun t => fst t = K_COMMA \/ fst t = K_SEMICOLON) l.

(** A sequence of things, each followed by separators. *)
Inductive items {A} (G : A -> list tok -> Prop) : list A -> list tok -> Prop :=
| it_nil : items G [] []
| it_cons a l ta sep tl : G a ta -> separators sep -> items G l tl ->
    items G (a :: l) (ta ++ sep ++ tl).

(** The same between brackets. *)
Inductive bracketed {A} (open close : Z) (G : A -> list tok -> Prop) : list A -> list tok -> Prop :=
| br l t x y : items G l t -> bracketed open close G l ((open, x) :: t ++ [(close, y)]).

(** Something that may be left out. *)
Inductive optional {A} (G : A -> list tok -> Prop) : option A -> list tok -> Prop :=
| op_none : optional G None []
| op_some a t : G a t -> optional G (Some a) t.

(** A keyword or mark that may be left out. *)
Inductive flag (k : Z) : bool -> list tok -> Prop :=
| fl_no : flag k false []
| fl_yes x : flag k true [(k, x)].

(** A token whose text matters. *)
Inductive lexical (k : Z) : word -> list tok -> Prop :=
| lex w : lexical k w [(k, w)].

(** Something after a token. *)
Inductive after {A} (k : Z) (G : A -> list tok -> Prop) : A -> list tok -> Prop :=
| af a t x : G a t -> after k G a ((k, x) :: t).

(** name [= "text"] *)
Inductive g_annotation : annotation -> list tok -> Prop :=
| ga w o to : optional (after K_ASSIGN (lexical K_STRING)) o to ->
    g_annotation (mkAnn w o) ((K_IDENT, w) :: to).

(** ( annotations ), if any *)
Definition g_annots : annots -> list tok -> Prop := optional (bracketed K_LPAREN K_RPAREN g_annotation).

(** map< , >, set< >, list< > or a name *)
Inductive g_type : ty -> list tok -> Prop :=
| gt_map k tk v tv a ta x1 x2 x3 x4 : g_type k tk -> g_type v tv -> g_annots a ta ->
    g_type (TMap k v a) ((K_MAP, x1) :: (K_LSS, x2) :: tk ++ (K_COMMA, x3) :: tv ++ (K_GTR, x4) :: ta)
| gt_set e te a ta x1 x2 x3 : g_type e te -> g_annots a ta ->
    g_type (TSet e a) ((K_SET, x1) :: (K_LSS, x2) :: te ++ (K_GTR, x3) :: ta)
| gt_list e te a ta x1 x2 x3 : g_type e te -> g_annots a ta ->
    g_type (TList e a) ((K_LIST, x1) :: (K_LSS, x2) :: te ++ (K_GTR, x3) :: ta)
| gt_ref w a ta : g_annots a ta -> g_type (TRef w a) ((K_IDENT, w) :: ta).

(** name, number, string, [ values ] or { value : value pairs } *)
Inductive g_pair {V} (G : V -> list tok -> Prop) : V * V -> list tok -> Prop :=
| gp k tk v tv x : G k tk -> G v tv -> g_pair G (k, v) (tk ++ (K_COLON, x) :: tv).
Inductive g_value : value -> list tok -> Prop :=
| gv_ident w : g_value (VIdent w) [(K_IDENT, w)]
| gv_int w : g_value (VInt w) [(K_INT, w)]
| gv_float w : g_value (VFloat w) [(K_FLOAT, w)]
| gv_string w : g_value (VString w) [(K_STRING, w)]
| gv_list l t : bracketed K_LBRACK K_RBRACK g_value l t -> g_value (VList l) t
| gv_map l t : bracketed K_LBRACE K_RBRACE (g_pair g_value) l t -> g_value (VMap l) t.

(** name [= number] annotations *)
Inductive g_enum_value : enum_value -> list tok -> Prop :=
| gev w o to a ta : optional (after K_ASSIGN (lexical K_INT)) o to -> g_annots a ta ->
    g_enum_value (mkEnumValue w o a) ((K_IDENT, w) :: to ++ ta).

(** number : *)
Inductive g_field_id : word -> list tok -> Prop :=
| gfi w x : g_field_id w [(K_INT, w); (K_COLON, x)].

(** required, optional or neither *)
Inductive g_requiredness : bool -> bool -> list tok -> Prop :=
| gr_default : g_requiredness false false []
| gr_required x : g_requiredness true false [(K_REQUIRED, x)]
| gr_optional x : g_requiredness false true [(K_OPTIONAL, x)].

(** A field may be named by an identifier or a keyword. *)
Inductive g_field_name : word -> list tok -> Prop :=
| gfn k w : k = K_IDENT \/ isKeyword k = true -> g_field_name w [(k, w)].

(** [number :] [required | optional] type [&] name [= value] annotations *)
Inductive g_field : field -> list tok -> Prop :=
| gf id tid rq op tr t tt rf trf nm tn d td a ta :
    optional g_field_id id tid -> g_requiredness rq op tr -> g_type t tt -> flag K_AND rf trf ->
    g_field_name nm tn -> optional (after K_ASSIGN g_value) d td -> g_annots a ta ->
    g_field (mkField id rq op t rf nm d a) (tid ++ tr ++ tt ++ trf ++ tn ++ td ++ ta).

(** void or a type *)
Inductive g_return : bool -> option ty -> list tok -> Prop :=
| grt_void x : g_return true None [(K_VOID, x)]
| grt_type t tt : g_type t tt -> g_return false (Some t) tt.

(** [oneway] (void | type) name ( fields ) [throws ( fields )] annotations *)
Inductive g_method : method -> list tok -> Prop :=
| gm ow to v r tr w args targs th tth a ta :
    flag K_ONEWAY ow to -> g_return v r tr -> bracketed K_LPAREN K_RPAREN g_field args targs ->
    optional (after K_THROWS (bracketed K_LPAREN K_RPAREN g_field)) th tth -> g_annots a ta ->
    g_method (mkMethod ow v r w args th a) (to ++ tr ++ (K_IDENT, w) :: targs ++ tth ++ ta).

(** include "path" or namespace ( * | scope ) name annotations *)
Inductive g_header : header -> list tok -> Prop :=
| gh_include w x : g_header (Include w) [(K_INCLUDE, x); (K_STRING, w)]
| gh_all w a ta x y : g_annots a ta ->
    g_header (Namespace None w a) ((K_NAMESPACE, x) :: (K_MUL, y) :: (K_IDENT, w) :: ta)
| gh_scope sc w a ta x : g_annots a ta ->
    g_header (Namespace (Some sc) w a) ((K_NAMESPACE, x) :: (K_IDENT, sc) :: (K_IDENT, w) :: ta).

(** struct, union or exception *)
Inductive g_struct_kind : Z -> bool -> bool -> Prop :=
| gsk_struct : g_struct_kind K_STRUCT false false
| gsk_union : g_struct_kind K_UNION true false
| gsk_exception : g_struct_kind K_EXCEPTION false true.

(** There is no production for [BadDef]. *)
Inductive g_def : def -> list tok -> Prop :=
| gd_const t tt w v tv sep x y : g_type t tt -> g_value v tv -> separators sep ->
    g_def (Const t w v) ((K_CONST, x) :: tt ++ (K_IDENT, w) :: (K_ASSIGN, y) :: tv ++ sep)
| gd_typedef t tt w a ta sep x : g_type t tt -> g_annots a ta -> separators sep ->
    g_def (Typedef t w a) ((K_TYPEDEF, x) :: tt ++ (K_IDENT, w) :: ta ++ sep)
| gd_enum w l tl a ta x : bracketed K_LBRACE K_RBRACE g_enum_value l tl -> g_annots a ta ->
    g_def (Enum w l a) ((K_ENUM, x) :: (K_IDENT, w) :: tl ++ ta)
| gd_struct k un ex w l tl a ta x : g_struct_kind k un ex -> bracketed K_LBRACE K_RBRACE g_field l tl -> g_annots a ta ->
    g_def (Struct un ex w l a) ((k, x) :: (K_IDENT, w) :: tl ++ ta)
| gd_service w e te l tl a ta x : optional (after K_EXTENDS (lexical K_IDENT)) e te ->
    bracketed K_LBRACE K_RBRACE g_method l tl -> g_annots a ta ->
    g_def (Service w e l a) ((K_SERVICE, x) :: (K_IDENT, w) :: te ++ tl ++ ta).

Inductive many {A} (G : A -> list tok -> Prop) : list A -> list tok -> Prop :=
| mn_nil : many G [] []
| mn_cons a l ta tl : G a ta -> many G l tl -> many G (a :: l) (ta ++ tl).

(** Headers, then definitions. *)
Inductive g_file : file -> list tok -> Prop :=
| gfile hs ths ds tds : many g_header hs ths -> many g_def ds tds ->
    g_file (mkFile hs ds) (ths ++ tds).

(** Comments may stand anywhere. *)
Definition no_comments (l : list tok) : list tok := filter (fun t => negb (fst t =? K_COMMENT)) l.
