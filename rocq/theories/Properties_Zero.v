(** Property C27, continued: which values are zero. *)
From Coq Require Import Strings.String.
From Verif Require Import Base BaseLemmas Prog Wire GoFloat GoType GoTypeProof ArshalSpec ArshalTotal ArshalExample ZeroSpec ZeroProof.
Local Open Scope Z_scope.

(** A field whose type has no IsZero method is zero (C27_fields: omitted unless required) just if it holds the zero value of its
    type, -0 counting as 0 where reflect counts it ([without_sign], ZeroSpec.v).  In particular an empty slice or map that is not
    nil is not zero. *)
Theorem C27_zero env sf v :
  env_ok env -> has_type env v (sf_type sf) -> te_iszero env (sf_type sf) = None -> te_iszero env (RtPtr (sf_type sf)) = None ->
  zero_field env sf v = true <-> without_sign env false v = zero env (sf_type sf).
Proof. intros He Ht H1 H2. unfold zero_field. rewrite H1, H2. now apply is_zero_zero. Qed.
Print Assumptions C27_zero.

(** Fields of type Node (ArshalExample.v): the zero Node, and one with an empty slice. *)
Example C27_zero_sample : let sf := mkSF (lit "F") true None Node in
  env_ok node_env /\ te_iszero node_env Node = None /\ te_iszero node_env (RtPtr Node) = None /\
  zero_field node_env sf (GStruct [GInt 0; GMap None; GSlice true [] []; GPtr None; GInt 0]) = true /\
  zero_field node_env sf (GStruct [GInt 0; GMap None; GSlice false [] []; GPtr None; GInt 0]) = false.
Proof. split; [exact node_ok|]. repeat (split; [reflexivity|]). reflexivity. Qed.
