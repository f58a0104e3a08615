(** Specification: which protocols understand each other. *)
From Verif Require Import Base Wire Protocols.
Local Open Scope Z_scope.

(** The encoding that a Writer of [p] writes, and that a Reader of [p] reads: a joined protocol reads as its first and
    writes as its second.  Never a [PJoin]. *)
Fixpoint reads_as (p : pval) : pval := match p with PJoin r _ => reads_as r | _ => p end.
Fixpoint writes_as (p : pval) : pval := match p with PJoin _ w => writes_as w | _ => p end.

(** Strict binary is read by both binary Readers, what a non-strict Writer wrote by the non-strict one alone, compact by compact. *)
Definition understands (r w : pval) : bool :=
  match r, w with
  | PBinary, PBinary | PNonStrict, PBinary | PNonStrict, PNonStrict | PCompact, PCompact => true
  | _, _ => false
  end.

(** What a Reader of one says to a message header written by a Writer of another that it does not understand. *)
Definition refusal (r w : pval) (h : mhdr) : err :=
  match r, w with
  | PCompact, PBinary => ECmpBadProtocol 0x80
  | PCompact, _ => ECmpBadProtocol (zlen (mh_name h) / 2 ^ 24)
  | _, PCompact => EBinBadVersion (0x82010000 + mh_type h * 2 ^ 21)
  | _, _ => EBinMissingVersion
  end.
