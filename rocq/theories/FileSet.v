(** The file set in which a .thrift file is parsed: go/token FileSet and File
    (go1.21), as parser.go and scanner.go use them, and as whoever looks at a
    position later does.  The locks are not modelled: each call is one step. *)
From Coq Require Import Strings.String.
From Verif Require Import Base GoType Utf8 Tokens Scan Parse.
Local Open Scope list_scope.

(** go/token File.  [tf_lines] are the offsets of the first byte of each line,
    in order.  The line information of //line comments is left out: nothing in
    /repo adds any. *)
Record tfile := mkTFile { tf_name : list byte; tf_base : Z; tf_size : Z; tf_lines : list nat }.

(** go/token FileSet.  [fs_last] is the file looked up last, by its place in
    [fs_files]. *)
Record fileset := mkFileSet { fs_base : Z; fs_files : list tfile; fs_last : option nat }.

(** go/token Position; [zero_position] is its zero value. *)
Record position_ := mkPosition { po_file : list byte; po_offset : Z; po_line : Z; po_column : Z }.
Definition zero_position : position_ := mkPosition [] 0 0 0.

(** go/token NewFileSet: 0 is NoPos *)
Definition new_fileset : fileset := mkFileSet 1 [] None.

(** go/token FileSet.AddFile.  [None] is its panic.  parser.go:84 calls it with
    the base -1. *)
Definition add_file (name : list byte) (base size : Z) (fs : fileset) : option fileset :=
  let base := if base <? 0 then fs_base fs else base in
  if base <? fs_base fs then None
  else if size <? 0 then None
  else
    let next := i64 (base + size + 1) in
    if next <? 0 then None
    else Some (mkFileSet next (fs_files fs ++ [mkTFile name base size [O]]) (Some (length (fs_files fs)))).

(** go/token File.AddLine, called by scanner.go:64,85.  The list of lines is
    never empty. *)
Definition file_add_line (off : nat) (f : tfile) : tfile :=
  if (last (tf_lines f) O <? off)%nat && (Z.of_nat off <? tf_size f)
  then mkTFile (tf_name f) (tf_base f) (tf_size f) (tf_lines f ++ [off])
  else f.

Fixpoint upd_file (i : nat) (g : tfile -> tfile) (l : list tfile) : list tfile :=
  match l, i with
  | [], _ => []
  | f :: l, O => g f :: l
  | f :: l, S i => f :: upd_file i g l
  end.

(** sort.Search, and the same loop written out in go/token searchInts:
    the first index in [i, j) with [p], or [j]. *)
Fixpoint search_n (n : nat) (p : nat -> bool) (i j : nat) : nat :=
  match n with
  | O => i
  | S n =>
      if (i <? j)%nat then
        let h := Nat.div2 (i + j) in
        if p h then search_n n p i h else search_n n p (S h) j
      else i
  end.
Definition search (len : nat) (p : nat -> bool) : nat := search_n len p O len.

(** go/token File.unpack, without //line comments: name, line and column. *)
Definition file_position (f : tfile) (p : Z) : position_ :=
  let off := p - tf_base f in
  let i := search (length (tf_lines f)) (fun h => off <? Z.of_nat (nth h (tf_lines f) O)) in
  match i with
  | O => mkPosition (tf_name f) off 0 0
  | S k => mkPosition (tf_name f) off (Z.of_nat i) (off - Z.of_nat (nth k (tf_lines f) O) + 1)
  end.

(** The range check of go/token FileSet.file. *)
Definition holds (p : Z) (f : tfile) : bool := (tf_base f <=? p) && (p <=? tf_base f + tf_size f).

(** go/token FileSet.file: the file looked up last if it is the one, otherwise
    a binary search; the set remembers the file found. *)
Definition find_file (p : Z) (fs : fileset) : option tfile * fileset :=
  let slow :=
    let i := search (length (fs_files fs))
               (fun h => match nth_error (fs_files fs) h with Some f => p <? tf_base f | None => true end) in
    match i with
    | O => (None, fs)
    | S k =>
        match nth_error (fs_files fs) k with
        | Some f => if p <=? tf_base f + tf_size f
                    then (Some f, mkFileSet (fs_base fs) (fs_files fs) (Some k)) else (None, fs)
        | None => (None, fs)
        end
    end in
  match fs_last fs with
  | Some k =>
      match nth_error (fs_files fs) k with
      | Some f => if holds p f then (Some f, fs) else slow
      | None => slow
      end
  | None => slow
  end.

(** go/token FileSet.Position *)
Definition fs_position (p : Z) (fs : fileset) : position_ * fileset :=
  if p =? 0 then (zero_position, fs)
  else
    let (f, fs) := find_file p fs in
    (match f with Some f => file_position f p | None => zero_position end, fs).

(** What happens to a file set: any number of goroutines add files, add lines
    to the files they have added and look positions up. *)
Inductive fs_event :=
| EAdd (name : list byte) (base size : Z)
| ELine (file off : nat)
| ELook (p : Z).

Definition fs_step (e : fs_event) (fs : fileset) : option fileset :=
  match e with
  | EAdd name base size => add_file name base size fs
  | ELine i off => Some (mkFileSet (fs_base fs) (upd_file i (file_add_line off) (fs_files fs)) (fs_last fs))
  | ELook p => Some (snd (fs_position p fs))
  end.
Fixpoint fs_run (h : list fs_event) (fs : fileset) : option fileset :=
  match h with
  | [] => Some fs
  | e :: h => match fs_step e fs with Some fs => fs_run h fs | None => None end
  end.

(** parser.go:10-19 Parse, 83-88 init, as the file set sees it: one AddFile,
    and then the calls of AddLine.  The calls that AddLine ignores are left
    out.  The number of the file is the number of the files before it. *)
Definition parse_lines (u : unicode) (src : list byte) : option (list nat) :=
  match p_run u src with
  | Ret _ s => Some (rev (s_lines s))
  | _ => None
  end.
Definition parse_events (u : unicode) (fs : fileset) (name src : list byte) : list fs_event :=
  EAdd name (-1) (Z.of_nat (length src)) ::
  map (ELine (length (fs_files fs))) (match parse_lines u src with Some l => tl l | None => [] end).

(** nodes.go:65-68, parser.go:240: the positions in the tree are those of the
    scanner, scanner.go:96: the base of the file and the offset. *)
Definition bad_positions (base : Z) (f : file) : list (Z * Z) :=
  flat_map (fun d => match d with BadDef a b => [(base + Z.of_nat a, base + Z.of_nat b)] | _ => [] end) (file_defs f).
