(** Properties C44 and C45: names and error messages. *)
From Coq Require Import Strings.String.
From Verif Require Import Base BaseLemmas Wire Tokens Names GoType Fields GoTypeProof Arshal ArshalSpec ArshalErr.
Local Open Scope Z_scope.
Local Open Scope list_scope.

(** ** C44 *)
(** The documented names.  Every other value is shown as its number. *)
Definition named (table : list (Z * string)) (kind : string) (i : Z) : list byte :=
  match find (fun p => fst p =? i) table with
  | Some p => lit (snd p)
  | None => lit kind ++ lit "(" ++ decimal_text i ++ lit ")"
  end.
Definition type_names : list (Z * string) :=
  [(T_Stop, "Stop"); (T_Bool, "Bool"); (T_Byte, "Byte"); (T_Double, "Double"); (T_I16, "I16"); (T_I32, "I32");
   (T_I64, "I64"); (T_String, "String"); (T_Struct, "Struct"); (T_Map, "Map"); (T_Set, "Set"); (T_List, "List");
   (T_UUID, "UUID")]%string.
Definition message_names : list (Z * string) := [(1, "Call"); (2, "Reply"); (3, "Exception"); (4, "OneWay")]%string.
Definition compact_names : list (Z * string) :=
  [(0, "STOP"); (1, "BOOLEAN_TRUE"); (2, "BOOLEAN_FALSE"); (3, "I8"); (4, "I16"); (5, "I32"); (6, "I64"); (7, "DOUBLE");
   (8, "BINARY"); (9, "LIST"); (10, "SET"); (11, "MAP"); (12, "STRUCT"); (13, "UUID")]%string.
(** A token is named as it is spelled, or by what it stands for; the marks between
    groups of tokens have names too. *)
Definition token_names : list (Z * string) :=
  [(K_ILLEGAL, "ILLEGAL"); (K_EOF, "EOF"); (K_COMMENT, "COMMENT"); (K_literal_beg, "literal_beg"); (K_IDENT,
   "IDENT"); (K_INT, "INT"); (K_FLOAT, "FLOAT"); (K_STRING, "STRING"); (K_literal_end, "literal_end"); (K_ADD,
   "+"); (K_SUB, "-"); (K_MUL, "*"); (K_QUO, "/"); (K_REM, "%"); (K_AND, "&"); (K_OR, "|"); (K_XOR, "^"); (K_EQL,
   "=="); (K_LSS, "<"); (K_GTR, ">"); (K_ASSIGN, "="); (K_NOT, "!"); (K_LPAREN, "("); (K_LBRACK, "["); (K_LBRACE,
   "{"); (K_COMMA, ","); (K_PERIOD, "."); (K_RPAREN, ")"); (K_RBRACK, "]"); (K_RBRACE, "}"); (K_SEMICOLON, ";");
   (K_COLON, ":"); (K_keyword_beg, "keyword_beg"); (K_INCLUDE, "include"); (K_NAMESPACE, "namespace");
   (K_definition_beg, "definition_beg"); (K_CONST, "const"); (K_TYPEDEF, "typedef"); (K_ENUM, "enum"); (K_STRUCT,
   "struct"); (K_UNION, "union"); (K_EXCEPTION, "exception"); (K_SERVICE, "service"); (K_definition_end,
   "definition_end"); (K_REQUIRED, "required"); (K_OPTIONAL, "optional"); (K_EXTENDS, "extends"); (K_ONEWAY,
   "oneway"); (K_VOID, "void"); (K_THROWS, "throws"); (K_MAP, "map"); (K_SET, "set"); (K_LIST, "list");
   (K_keyword_end, "keyword_end")]%string.

Definition all_bytes : list Z := map Z.of_nat (seq 0 256).
Lemma every_byte (f : Z -> bool) : forallb f all_bytes = true -> forall i, 0 <= i < 256 -> f i = true.
Proof.
  intros H i Hi. rewrite forallb_forall in H. apply H. unfold all_bytes. apply in_map_iff.
  exists (Z.to_nat i). split; [lia|]. apply in_seq. lia.
Qed.
Definition shows (f : Z -> option (list byte)) (g : Z -> list byte) (i : Z) : bool :=
  match f i with Some s => bytes_eqb s (g i) | None => false end.
Lemma shows_all f g : forallb (shows f g) all_bytes = true -> forall i, 0 <= i < 256 -> f i = Some (g i).
Proof.
  intros H i Hi. pose proof (every_byte _ H i Hi) as E. unfold shows in E. destruct (f i); [|discriminate].
  apply bytes_eqb_eq in E. congruence.
Qed.
Definition apart (f : Z -> option (list byte)) (i : Z) : bool :=
  forallb (fun j => (i =? j) || negb (match f i, f j with Some a, Some b => bytes_eqb a b | _, _ => true end)) all_bytes.
Lemma apart_all f : forallb (apart f) all_bytes = true -> forall i j, 0 <= i < 256 -> 0 <= j < 256 -> f i = f j -> i = j.
Proof.
  intros H i j Hi Hj E. pose proof (every_byte _ H i Hi) as A. unfold apart in A.
  pose proof (every_byte _ A j Hj) as B. cbn beta in B. rewrite E in B. apply orb_true_iff in B as [B|B]; [lia|].
  destruct (f j); [|discriminate]. assert (F : bytes_eqb l l = true) by now apply bytes_eqb_eq. rewrite F in B. discriminate.
Qed.

Theorem C44_type i : 0 <= i < 256 -> Type_String i = Some (named type_names "Type" i).
Proof. apply shows_all. vm_compute. reflexivity. Qed.
Print Assumptions C44_type.
Theorem C44_message_type i : 0 <= i < 256 -> MessageType_String i = Some (named message_names "MessageType" i).
Proof. apply shows_all. vm_compute. reflexivity. Qed.
Print Assumptions C44_message_type.
Theorem C44_compact_type i : 0 <= i < 256 -> compactType_String i = Some (named compact_names "compactType" i).
Proof. apply shows_all. vm_compute. reflexivity. Qed.
Print Assumptions C44_compact_type.
(** The scanner's keyword table is made with this function. *)
Theorem C44_token i : 0 <= i < 256 -> token_String i = Some (named token_names "token" i) /\ token_String i = Some (token_string i).
Proof. intros Hi. split; revert i Hi; apply shows_all; vm_compute; reflexivity. Qed.
Print Assumptions C44_token.
Theorem C44_distinct i j : 0 <= i < 256 -> 0 <= j < 256 -> i <> j ->
  Type_String i <> Type_String j /\ MessageType_String i <> MessageType_String j /\
  compactType_String i <> compactType_String j /\ token_String i <> token_String j.
Proof.
  intros Hi Hj N. repeat split; intros E; apply N; revert E; (apply apart_all; [|assumption|assumption]); vm_compute; reflexivity.
Qed.
Print Assumptions C44_distinct.

(** ** C45 *)
(** The Thrift types that have a name in messages. *)
Definition thrift_names : list (Z * string) :=
  [(T_Bool, "bool"); (T_Byte, "byte"); (T_Double, "double"); (T_I16, "i16"); (T_I32, "i32"); (T_I64, "i64");
   (T_String, "string"); (T_Struct, "struct"); (T_Map, "map"); (T_Set, "set"); (T_List, "list"); (T_UUID, "UUID")]%string.
Definition thrift_name (t : Z) : option string :=
  match find (fun p => fst p =? t) thrift_names with Some p => Some (snd p) | None => None end.

Section C45.
Context (go_name : rtype -> list byte) (other : err -> list byte).
Notation error_text := (error_text go_name other).

(** What the message of a SemanticError is made of, in this order: "cannot" or
    "unable to", the action, the Thrift type if it has a name, the Go type and
    the underlying error if they are not nil. *)
Definition verb (action : string) : string :=
  if String.eqb action "marshal" then "marshal" else if String.eqb action "unmarshal" then "unmarshal" else "handle".
Definition thrift_part (t : Z) : list byte :=
  match thrift_name t with Some n => lit " Thrift " ++ lit n | None => [] end.
Definition go_part (action : string) (t : Z) (go : option rtype) : list byte :=
  match go with
  | Some g =>
      (match thrift_name t with
       | Some _ => lit (if String.eqb action "marshal" then " from" else if String.eqb action "unmarshal" then " into" else " with")
       | None => []
       end) ++ lit " Go value of type " ++ go_name g
  | None => []
  end.
Definition err_part (able : nat -> bool) (e : option err) : list byte :=
  match e with Some e => lit ": " ++ error_text (fun n => able (S n)) e | None => [] end.

Lemma thrift_phrase_spec t : match thrift_phrase t with
  | Some p => exists n, thrift_name t = Some n /\ p = lit " Thrift " ++ lit n
  | None => thrift_name t = None
  end.
Proof.
  unfold thrift_phrase. destruct (kind_of t) as [k|] eqn:K.
  - assert (E : t = kind_num k).
    { unfold kind_of in K. repeat match type of K with (match ?x with _ => _ end) = _ => destruct x; try discriminate K end; injection K as <-; reflexivity. }
    subst t. destruct k; eexists; split; reflexivity.
  - unfold thrift_name, thrift_names. cbn [find fst].
    repeat match goal with |- context [?c =? t] => destruct (Z.eqb_spec c t) as [<-|]; [discriminate K|] end. reflexivity.
Qed.

Theorem C45_message able action t go e :
  error_text able (ESemantic action t go e) =
    lit "thrift: " ++ lit (if able O then "unable to" else "cannot") ++ lit " " ++ lit (verb action) ++
    thrift_part t ++ go_part action t go ++ err_part able e.
Proof.
  cbn [Names.error_text]. unfold semantic_text, thrift_part, go_part, err_part, verb.
  pose proof (thrift_phrase_spec t) as P. destruct (thrift_phrase t) as [p|].
  - destruct P as (n & -> & ->).
    destruct (String.eqb action "marshal"); [|destruct (String.eqb action "unmarshal")];
      destruct go, e; cbn [app]; rewrite <- ?app_assoc, ?app_nil_r; reflexivity.
  - rewrite P. destruct (String.eqb action "marshal"); [|destruct (String.eqb action "unmarshal")];
      destruct go, e; cbn [app]; rewrite <- ?app_assoc, ?app_nil_r; reflexivity.
Qed.

Lemma rest_head action t go able e : thrift_name t = None ->
  let r := go_part action t go ++ err_part able e in r = [] \/ (exists q, r = lit " G" ++ q) \/ exists q, r = lit ": " ++ q.
Proof.
  intros N. cbn zeta. unfold go_part, err_part. rewrite N. destruct go; [right; left|destruct e; [right; right|left]].
  - eexists. cbn [app]. rewrite <- app_assoc. reflexivity.
  - eexists. reflexivity.
  - reflexivity.
Qed.

(** The message tells the action and the Thrift type, whichever phrases are
    chosen and whatever the other contents are. *)
Theorem C45_identifies able able' action action' t t' go go' e e' :
  error_text able (ESemantic action t go e) = error_text able' (ESemantic action' t' go' e') ->
  verb action = verb action' /\ thrift_name t = thrift_name t'.
Proof.
  rewrite !C45_message. intros H. apply app_inv_head in H.
  assert (Ea : able O = able' O) by (destruct (able O), (able' O); try reflexivity; discriminate H).
  rewrite Ea in H. apply app_inv_head in H. apply app_inv_head in H. clear Ea.
  assert (Ev : verb action = verb action').
  { unfold verb in *. destruct (String.eqb action "marshal"), (String.eqb action' "marshal");
      try destruct (String.eqb action "unmarshal"); try destruct (String.eqb action' "unmarshal"); try reflexivity; discriminate H. }
  split; [exact Ev|]. rewrite Ev in H. apply app_inv_head in H. clear Ev.
  unfold thrift_part in H.
  assert (In_name : forall t n, thrift_name t = Some n -> In n (map snd thrift_names)).
  { clear. intros t n H. unfold thrift_name in H. destruct (find _ _) as [p|] eqn:F; [|discriminate]. injection H as <-.
    apply find_some in F as [F _]. apply in_map. exact F. }
  destruct (thrift_name t) as [n|] eqn:N, (thrift_name t') as [n'|] eqn:N'; [| | |reflexivity].
  - apply In_name in N, N'. clear In_name. rewrite <- !app_assoc in H. apply app_inv_head in H. cbn in N, N'.
    repeat (destruct N as [<-|N]; [repeat (destruct N' as [<-|N']; [first [reflexivity|discriminate H]|]); destruct N'|]). destruct N.
  - exfalso. rewrite <- app_assoc in H. destruct (rest_head action' t' go' able' e' N') as [E|[(q & E)|(q & E)]];
      cbn [app] in H; rewrite E in H; discriminate H.
  - exfalso. rewrite <- app_assoc in H. destruct (rest_head action t go able e N) as [E|[(q & E)|(q & E)]];
      cbn [app] in H; rewrite E in H; discriminate H.
Qed.

(** When a Reader or Writer method is to blame (see C30), unwrapping twice gives
    its error, and the message ends with the method's name and its message. *)
Theorem C45_wire env action name er e able : wrapped env action name er e ->
  (exists e1, unwrap e = Some e1 /\ unwrap e1 = Some er) /\
  exists before, error_text able e = before ++ lit "thrift: " ++ lit name ++ lit ": " ++ error_text (fun n => able (S n)) er.
Proof.
  intros (t & a & _ & ->). split; [exists (EWire name er); split; reflexivity|].
  rewrite C45_message. unfold err_part. cbn [Names.error_text].
  exists (lit "thrift: " ++ lit (if able O then "unable to" else "cannot") ++ lit " " ++ lit (verb action) ++
    thrift_part (wire_type a) ++ go_part action (wire_type a) (Some t) ++ lit ": ").
  rewrite <- !app_assoc. reflexivity.
Qed.

Theorem C45_unwrap action t go e : unwrap (ESemantic action t go e) = e.
Proof. reflexivity. Qed.
End C45.
Print Assumptions C45_message.
Print Assumptions C45_identifies.
Print Assumptions C45_wire.
Print Assumptions C45_unwrap.

Definition say (able : bool) (e : err) : list byte := error_text (fun _ => lit "int32") (fun _ => []) (fun _ => able) e.
Definition sample_error : err := ESemantic "unmarshal" T_I32 (Some RtInt32) (Some (EWire "ReadI32" EUnexpectedEOF)).
Example C45_sample1 : say false sample_error =
  lit "thrift: cannot unmarshal Thrift i32 into Go value of type int32: thrift: ReadI32: unexpected EOF".
Proof. vm_compute. reflexivity. Qed.
Example C45_sample2 : say true sample_error =
  lit "thrift: unable to unmarshal Thrift i32 into Go value of type int32: thrift: ReadI32: unexpected EOF".
Proof. vm_compute. reflexivity. Qed.
Example C45_sample3 : say false (ESemantic "marshal" 0 None (Some ENonNilPointer)) =
  lit "thrift: cannot marshal: value must be passed as a non-nil pointer reference".
Proof. vm_compute. reflexivity. Qed.
