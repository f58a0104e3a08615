(** Several messages through one Writer and one Reader (specification of C55). *)
From Verif Require Import Base Prog Wire GoType Fields Arshal ArshalSpec ArshalThms MapSpec StoreSpec.

(** One message: its header; the value [x_val] of type [x_type], given to Marshal as [x_in];
    whether Flush is called after it; and what the receiver does with
    it: unmarshal it into a variable of some type with some contents, or skip it as a
    value of some Thrift type. *)
Record exchange := mkX {
  x_head : mhdr;
  x_type : rtype;
  x_val : gval;
  x_in : rtype * gval;
  x_flush : bool;
  x_plan : (rtype * gval) + Z
}.

(** Headers the binary protocol can carry. *)
Definition bin_head (h : mhdr) : Prop :=
  is_u8 (mh_type h) /\ is_i32 (mh_id h) /\ zlen (mh_name h) < 2 ^ 31.
(** Headers the compact protocol can carry: it has three bits for the type, and
    the types Thrift defines are 1 to 4. *)
Definition cmp_head (h : mhdr) : Prop :=
  0 <= mh_type h < 8 /\ is_i32 (mh_id h) /\ zlen (mh_name h) < 2 ^ 63.

Section Pipe.
Context (env : tenv).

Definition send (n : nat) (x : exchange) : prog wireW (option err) :=
  call (WMessageBegin (x_head x)) >>!
  Marshal env n n (Some (x_in x)) >>!
  call WMessageEnd >>!
  (if x_flush x then call WFlush else Ret None).
Fixpoint send_all (n : nat) (xs : list exchange) : prog wireW (option err) :=
  match xs with
  | [] => call WFlush
  | x :: r => send n x >>! send_all n r
  end.

(** The header, what the variable then holds, and the error. *)
Definition received_msg : Type := mhdr * option gval * option err.
Definition receive (n : nat) (plan : (rtype * gval) + Z) : prog wireR received_msg :=
  '(h, e) <- call RMessageBegin ;;
  match e with
  | Some _ => Ret (h, None, e)
  | None =>
      '(v, e) <- match plan with
                 | inl (u, dst) => Unmarshal env n n (Some (RtPtr u, GPtr (Some dst)))
                 | inr wt => e <- skip n wt ;; Ret (None, e)
                 end ;;
      match e with
      | Some _ => Ret (h, v, e)
      | None => e <- call RMessageEnd ;; Ret (h, v, e)
      end
  end.
Fixpoint receive_all (n : nat) (plans : list ((rtype * gval) + Z)) : prog wireR (list received_msg) :=
  match plans with
  | [] => Ret []
  | p :: r => m <- receive n p ;; l <- receive_all n r ;; Ret (m :: l)
  end.

(** What must come out for [x]: its header, no error, and, if it is
    unmarshalled, what the sent value leaves in the variable. *)
Definition arrived (x : exchange) (m : received_msg) : Prop :=
  exists o, m = (x_head x, o, None) /\
    match x_plan x with
    | inl (u, dst) => exists tv v', stands_for env (x_type x) (x_val x) tv /\ stores env u dst tv v' /\ o = Some v'
    | inr _ => o = None
    end.

Context (P : rtype -> Prop).
(** The value is one the protocol can carry, and the plan is for a compatible type. *)
Definition sendable (lim : Z) (x : exchange) : Prop :=
  P (x_type x) /\ has_type env (x_val x) (x_type x) /\ fits env lim (x_val x) (x_type x) /\
  passes env (x_in x) (x_type x) (x_val x) /\
  match x_plan x with
  | inl (u, dst) => P u /\ has_type env dst u /\ compatible env (x_type x) u
  | inr wt => thrift_type env (x_type x) wt
  end.

End Pipe.
