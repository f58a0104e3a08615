(** The yardstick for a protocol writer over an arbitrary io.Writer: the same
    writer over one that takes every byte at once and whose Flush answers as
    the real one's does.  Specification only; models no Go code. *)
From Verif Require Import Base Prog BufioW Wire.

Record ideal := mkIdeal { i_bytes : list byte; i_flusher : bool; i_fresp : list (option err) }.

Definition ideal_h : handler bufW ideal :=
  fun X e i =>
    let add l := mkIdeal (i_bytes i ++ l) (i_flusher i) (i_fresp i) in
    match e in bufW X return outcome ideal X with
    | BWWrite p => Done (add p) None
    | BWWriteString p => Done (add p) None
    | BWWriteByte c => Done (add [c]) None
    | BWEnsure _ => Done i None
    | BWFlush => Done i None
    | BWUnderFlush =>
        if i_flusher i
        then Done (mkIdeal (i_bytes i) true (tl (i_fresp i)))
                  (match i_fresp i with r :: _ => r | [] => None end)
        else Done i None
    end.

Definition ideal_of (s : sink) : ideal := mkIdeal [] (s_flusher s) (s_fresp s).

(** A call on a thriftwire.Writer, and the error it returns. *)
Notation wcall := {X & wireW X}.
Definition wc {X} (e : wireW X) : wcall := existT _ X e.

Definition errW {X} (e : wireW X) : X -> option err :=
  match e in wireW X return X -> option err with
  | WMessageBegin _ | WMessageEnd | WStructBegin _ | WStructEnd | WFieldBegin _ | WFieldEnd
  | WMapBegin _ | WMapEnd | WSetBegin _ | WSetEnd | WListBegin _ | WListEnd | WBool _ | WByte _
  | WDouble _ | WI16 _ | WI32 _ | WI64 _ | WString _ | WBytes _ | WUUID _ | WFlush => fun x => x
  end.

(** The calls of [l] one after the other, and what they returned. *)
Fixpoint do_calls {S} (h : handler wireW S) (l : list wcall) (s : S)
  : outcome S (list (option err)) :=
  match l with
  | [] => Done s []
  | existT _ X e :: r =>
      obind (h X e s) (fun s' x =>
        obind (do_calls h r s') (fun s'' xs => Done s'' (errW e x :: xs)))
  end.
