(** Taking turns on a shared *bufio.Reader: a specification. *)
From Verif Require Import Base Prog Bufio Wire WireProof Spec Binary Compact GoType Fields Arshal ArshalSpec ArshalThms MapSpec StoreSpec Shared SharedW.

(** The caller reads [length l] bytes itself, or has the [j]-th Reader unmarshal a value into a variable of type [t] that
    holds [dst]; [l] and [tv] are what comes next in the input. *)
Inductive turn := Own (l : list byte) | Value (j : nat) (t : rtype) (dst : gval) (tv : tval).

(** How it is done: io.ReadFull on the *bufio.Reader [k]; thrift.Unmarshal on the Reader. *)
Definition take_turn (env : tenv) (n k : nat) (x : turn) : prog sharedR (list byte * option gval * option err) :=
  match x with
  | Own l => r <- call (SOwn k (BReadFull (zlen l))) ;; Ret (fst r, None, snd r)
  | Value j t dst _ => r <- on j (Unmarshal env n n (Some (RtPtr t, GPtr (Some dst)))) ;; Ret ([], fst r, snd r)
  end.
Fixpoint take_turns (env : tenv) (n k : nat) (ts : list turn) : prog sharedR (list (list byte * option gval * option err)) :=
  match ts with
  | [] => Ret []
  | x :: ts => r <- take_turn env n k x ;; rs <- take_turns env n k ts ;; Ret (r :: rs)
  end.

(** What should come out. *)
Definition received_well (env : tenv) (x : turn) (r : list byte * option gval * option err) : Prop :=
  match x with
  | Own l => r = (l, None, None)
  | Value _ t dst tv => exists v, r = ([], Some v, None) /\ stores env t dst tv v
  end.

(** [l] is what the input holds for this turn: the value in the encoding of that Reader's protocol. *)
Definition laid_out (env : tenv) (P : rtype -> Prop) (xs : list reader) (x : turn) (l : list byte) : Prop :=
  match x with
  | Own l' => l' = l
  | Value j t dst tv => P t /\ has_type env dst t /\ thrift_type env t (val_type tv) /\ conforms env t tv /\
      match nth_error xs j with
      | Some (mkRd (SBin _) _) => wf (2 ^ 31) tv /\ binary_encoding tv = l
      | Some (mkRd (SCmp _) _) => wf (2 ^ 63) tv /\ compact_encoding tv l
      | None => False
      end
  end.

(** A Reader on the *bufio.Reader [k], not in the middle of a field. *)
Definition ready (k : nat) (x : reader) : Prop :=
  rd_buf x = k /\ match rd_st x with SBin _ => True | SCmp st => cr_bool st = BNone end.

(** ** Writers *)
(** The caller writes [l] itself, or has the [j]-th Writer marshal the value [v] of type [t], passed as [i] (itself or by pointer). *)
Inductive wturn := OwnW (l : list byte) | ValueW (j : nat) (t : rtype) (v : gval) (i : rtype * gval).

Definition write_turn (env : tenv) (n k : nat) (x : wturn) : prog sharedW (option err) :=
  match x with
  | OwnW l => call (WOwn k l)
  | ValueW j _ _ i => onw j (Marshal env n n (Some i))
  end.
Fixpoint write_turns (env : tenv) (n k : nat) (ts : list wturn) : prog sharedW (list (option err)) :=
  match ts with
  | [] => Ret []
  | x :: ts => r <- write_turn env n k x ;; rs <- write_turns env n k ts ;; Ret (r :: rs)
  end.

(** Which protocol a Writer has. *)
Definition is_binary (x : writer) : bool := match wr_st x with SWBin _ => true | SWCmp _ => false end.

(** [l] is what should be written in this turn. *)
Definition spelled (env : tenv) (xs : list writer) (x : wturn) (l : list byte) : Prop :=
  match x with
  | OwnW l' => l' = l
  | ValueW j t v i => exists tv, stands_for env t v tv /\
      match nth_error xs j with
      | Some x => if is_binary x then binary_encoding tv = l else compact_encoding tv l
      | None => False
      end
  end.

(** What may be marshalled. *)
Definition writable (env : tenv) (P : rtype -> Prop) (xs : list writer) (x : wturn) : Prop :=
  match x with
  | OwnW l => True
  | ValueW j t v i => P t /\ has_type env v t /\ fits env (2 ^ 63) v t /\ passes env i t v /\ (j < length xs)%nat
  end.

(** A Writer on the *bufio.Writer [k], not in the middle of a field. *)
Definition readyw (k : nat) (x : writer) : Prop :=
  wr_buf x = k /\ (wr_under x = None \/ wr_under x = Some (WBuf k)) /\
  match wr_st x with SWBin _ => True | SWCmp st => fh_type (cw_bool st) = T_Stop end.
