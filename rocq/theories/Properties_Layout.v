(** Property C69: what a .thrift file means depends on its tokens alone, and
    files can be put together from parts. *)
From Coq Require Import Strings.String.
From Verif Require Import Base BaseLemmas GoType Utf8 Tokens LexSpec LexProof Parse GrammarSpec LayoutSpec LayoutProof Properties_File.
Local Open Scope list_scope.

(** Sources with the same tokens, apart from comments, have the same tree:
    white space, line breaks, comments and a byte order mark do not matter. *)
Theorem C69_layout sort u src src' toks toks' f : sorts sort ->
  source_tokens u src toks -> source_tokens u src' toks' -> no_comments toks = no_comments toks' ->
  (parse sort u src = Some (f, []) <-> parse sort u src' = Some (f, [])).
Proof.
  intros Hs T T' E. rewrite !(C41_grammar sort u _ f Hs). split; intros (t & S & G).
  - exists toks'. split; [exact T'|]. rewrite <- E. replace toks with t; [exact G|]. destruct S as (_ & S), T as (_ & T). now apply (tokens_unique u _ _ _ S T).
  - exists toks. split; [exact T|]. rewrite E. replace toks' with t; [exact G|]. destruct S as (_ & S), T' as (_ & T'). now apply (tokens_unique u _ _ _ S T').
Qed.
Print Assumptions C69_layout.

(** Semicolons may be written as commas, doubled, or left out. *)
Theorem C69_semicolons sort u src src' toks toks' f : sorts sort -> parse sort u src = Some (f, []) ->
  source_tokens u src toks -> source_tokens u src' toks' -> respaced (no_comments toks) (no_comments toks') ->
  parse sort u src' = Some (f, []).
Proof.
  intros Hs P T T' R. apply (C41_grammar sort u _ f Hs) in P. destruct P as (t & S & G). apply (C41_grammar sort u _ f Hs).
  exists toks'. split; [exact T'|]. apply (st_file f (no_comments toks)); [|exact R]. replace toks with t; [exact G|].
  destruct S as (_ & S), T as (_ & T). now apply (tokens_unique u _ _ _ S T).
Qed.
Print Assumptions C69_semicolons.

(** Two valid files, one after the other with a newline between them, are a
    valid file with the headers and definitions of both in order: provided no
    header comes after a definition, and the second has no byte order mark. *)
Theorem C69_append sort u a b fa fb : sorts sort ->
  parse sort u a = Some (fa, []) -> parse sort u b = Some (fb, []) ->
  file_defs fa = [] \/ file_headers fb = [] -> firstn 3 b <> [xef; xbb; xbf] ->
  parse sort u (a ++ newline ++ b) = Some (mkFile (file_headers fa ++ file_headers fb) (file_defs fa ++ file_defs fb), []).
Proof.
  intros Hs Pa Pb O NB. apply (C41_grammar sort u _ _ Hs) in Pa, Pb. apply (C41_grammar sort u _ _ Hs).
  destruct Pa as (ta & Ta & Ga), Pb as (tb & Tb & Gb). exists (ta ++ tb). split; [now apply source_join|].
  unfold no_comments in *. rewrite filter_app.
  destruct Ga as [ha tha da tda Ha Da], Gb as [hb thb db tdb Hb Db]. cbn [file_headers file_defs] in *.
  destruct O as [->| ->].
  - inversion Da; subst. cbn [app]. rewrite app_nil_r, app_assoc. constructor; [now apply many_app|exact Db].
  - inversion Hb; subst. cbn [app]. rewrite app_nil_r, <- app_assoc. constructor; [exact Ha|now apply many_app].
Qed.
Print Assumptions C69_append.

(** Any number of files, each without headers, in any order. *)
Fixpoint joined (l : list (list byte)) : list byte :=
  match l with [] => [] | a :: r => a ++ newline ++ joined r end.
Theorem C69_concat sort u l fs : sorts sort ->
  Forall2 (fun a f => parse sort u a = Some (f, []) /\ file_headers f = [] /\ firstn 3 a <> [xef; xbb; xbf]) l fs ->
  parse sort u (joined l) = Some (mkFile [] (concat (map file_defs fs)), []).
Proof.
  intros Hs H. assert (X : parse sort u (joined l) = Some (mkFile [] (concat (map file_defs fs)), []) /\ firstn 3 (joined l) <> [xef; xbb; xbf]); [|tauto].
  induction H as [|a f l fs (P & Hh & NB) _ (IH & NI)].
  - split; [|discriminate]. apply (C41_grammar sort u _ _ Hs). exists []. split; [split; constructor; constructor|]. apply (gfile [] [] [] []); constructor.
  - cbn [joined map concat]. split.
    + rewrite (C69_append sort u a (joined l) f (mkFile [] (concat (map file_defs fs))) Hs P IH (or_intror eq_refl) NI).
      cbn [file_headers file_defs]. rewrite Hh. reflexivity.
    + destruct a as [|a0 [|a1 [|a2 a]]]; cbn [app newline firstn]; try discriminate.
      cbn [firstn] in NB. exact NB.
Qed.
Print Assumptions C69_concat.

(** The pieces of a file. *)
Definition part_a : list byte := lit "include 'y' # no newline at the end".
Definition part_b : list byte := lit "struct S { 1: i32 a; 2: i32 b }".
Definition part_c : list byte := lit "const i32 C = 1".
Definition part_b_tree : def :=
  Struct false false (lit "S")
    [mkField (Some (lit "1")) false false (TRef (lit "i32") None) false (lit "a") None None;
     mkField (Some (lit "2")) false false (TRef (lit "i32") None) false (lit "b") None None] None.
Definition part_c_tree : def := Const (TRef (lit "i32") None) (lit "C") (VInt (lit "1")).
Example C69_parts :
  parse insertion_sort ascii part_a = Some (mkFile [Include (lit "'y'")] [], []) /\
  parse insertion_sort ascii part_b = Some (mkFile [] [part_b_tree], []) /\
  parse insertion_sort ascii part_c = Some (mkFile [] [part_c_tree], []).
Proof. split; [vm_compute; reflexivity|]. split; vm_compute; reflexivity. Qed.
Example C69_sample : parse insertion_sort ascii (part_a ++ newline ++ joined [part_b; part_c]) =
  Some (mkFile [Include (lit "'y'")] [part_b_tree; part_c_tree], []).
Proof.
  destruct C69_parts as (A & B & C).
  assert (J : parse insertion_sort ascii (joined [part_b; part_c]) = Some (mkFile [] [part_b_tree; part_c_tree], [])).
  { refine (C69_concat insertion_sort ascii [part_b; part_c] [mkFile [] [part_b_tree]; mkFile [] [part_c_tree]] insertion_sorts _).
    constructor; [|constructor; [|constructor]].
    - split; [exact B|]. split; [reflexivity|]. vm_compute. discriminate.
    - split; [exact C|]. split; [reflexivity|]. vm_compute. discriminate. }
  refine (C69_append insertion_sort ascii part_a (joined [part_b; part_c]) _ _ insertion_sorts A J (or_introl _) _); [reflexivity|].
  vm_compute. discriminate.
Qed.
(** The newline is needed: without it the comment goes on, or two words
    become one.  And headers after definitions are an error. *)
Example C69_needs_newline :
  parse insertion_sort ascii (part_a ++ part_b) = Some (mkFile [Include (lit "'y'")] [], []) /\
  match parse insertion_sort ascii (lit "typedef i32 T" ++ part_b) with Some (_, e) => e <> [] | None => False end /\
  match parse insertion_sort ascii (part_b ++ newline ++ part_a) with Some (_, e) => e <> [] | None => False end.
Proof. split; [vm_compute; reflexivity|]. split; vm_compute; discriminate. Qed.
