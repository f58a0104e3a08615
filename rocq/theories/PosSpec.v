(** Lines and columns of a source file, stated without the scanner. *)
From Verif Require Import Base Parse.

(** A line starts at the beginning of the file and after every newline but one
    that ends the file. *)
Definition line_start (src : list byte) (l : nat) : Prop :=
  l = O \/ exists k, l = S k /\ nth_error src k = Some x0a /\ (l < length src)%nat.

(** [line] and [col], both counted from 1, are the place of the byte at [off]
    (or of the end of the file): the number of line starts up to there, and the
    distance from the last of them. *)
Definition place (src : list byte) (off line col : nat) : Prop :=
  exists starts l,
    (forall i, In i starts <-> line_start src i /\ (i <= off)%nat) /\ NoDup starts /\
    line = length starts /\
    In l starts /\ (forall i, In i starts -> (i <= l)%nat) /\ col = (off - l + 1)%nat.

(** The same definition; a BadDef lies [k] further along. *)
Definition def_moved (k : nat) (d d' : def) : Prop :=
  match d' with
  | BadDef a b => d = BadDef (k + a) (k + b)
  | _ => d = d'
  end.
