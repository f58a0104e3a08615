(** Messages sent by a sender that may fail, over a connection that may break (specification of C75). *)
From Verif Require Import Base Prog Wire Spec GoType Fields Arshal ArshalSpec MapSpec StoreSpec Pipeline LeftSpec.

Section Crash.
Context (env : tenv) (F : format) (hd : mhdr -> list byte -> Prop).

(** The receiver handles message after message and stops at the first error. *)
Fixpoint receive_until (n : nat) (plans : list ((rtype * gval) + Z)) : prog wireR (list received_msg) :=
  match plans with
  | [] => Ret []
  | p :: r =>
      m <- receive env n p ;;
      match snd m with
      | Some _ => Ret [m]
      | None => l <- receive_until n r ;; Ret (m :: l)
      end
  end.

(** The bytes of the messages [xs]: headers ([hd]) and values. *)
Inductive messages : list exchange -> list byte -> Prop :=
| ms_nil : messages [] []
| ms_cons x xs tv h l r : hd (x_head x) h -> stands_for env (x_type x) (x_val x) tv -> fm_enc F tv l -> messages xs r ->
    messages (x :: xs) (h ++ l ++ r).

(** [served e xs d ms]: of the messages [xs] only the bytes [d] come, and then the error [e]; the
    receiver gets [ms]. *)
Inductive served (e : err) : list exchange -> list byte -> list received_msg -> Prop :=
| sv_all : served e [] [] []
(* a message that has come whole arrives *)
| sv_whole x xs tv h l d m ms : hd (x_head x) h -> stands_for env (x_type x) (x_val x) tv -> fm_enc F tv l ->
    arrived env x m -> served e xs d ms -> served e (x :: xs) (h ++ l ++ d) (m :: ms)
(* of the next one not even the header has come; of nothing at all, the error is the transport's *)
| sv_header x xs h d m er : hd (x_head x) h -> begins d h -> (d = [] -> er = e) ->
    served e (x :: xs) d [(m, None, Some er)]
(* the header has come, but not all of the value: the variable has what has come of it (C74) *)
| sv_value x xs tv h l d o er : hd (x_head x) h -> stands_for env (x_type x) (x_val x) tv -> fm_enc F tv l -> begins d l ->
    match x_plan x with
    | inl (u, dst) => exists p v, came F p tv d /\ partly env p u dst tv v /\ o = Some v
    | inr _ => o = None
    end ->
    served e (x :: xs) (h ++ d) [(x_head x, o, Some er)].
End Crash.

Definition binary_head (strict : bool) (h : mhdr) (l : list byte) : Prop :=
  l = (if strict then binary_message_strict else binary_message_old) (mh_name h) (mh_type h) (mh_id h).
Definition compact_head (h : mhdr) (l : list byte) : Prop := compact_message (mh_name h) (mh_type h) (mh_id h) l.
