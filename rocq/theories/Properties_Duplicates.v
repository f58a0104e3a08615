(** Property C29: what becomes of fields that share an id. *)
From Coq Require Import Strings.String.
From Verif Require Import Base BaseLemmas Prog Fuel Bufio BufioProof Wire WireProof Spec Binary Compact CompactProof
  GoFloat Utf8 GoType Fields Arshal GoTypeProof FieldsProof ArshalSpec ArshalTotal ArshalInput ArshalExample Properties_Arshal
  MapSpec StoreSpec Properties_Store ArshalRefute Duplicates.
Local Open Scope list_scope.

(** ** C29 *)
(** They are not rejected (C29_refuted).  What holds instead: Unmarshal treats the types of a program as if in each struct all
    but one of the fields with one id were tagged "-", so values with that id all go to this field, and the others keep
    what they have. [n] bounds the recursion. *)
Theorem C29_partial env n : env_ok env ->
  exists env', one_per_id env env' /\ env_ok env' /\ (forall P, supported env P -> supported env' P) /\
    forall k m o S (h : handler wireR S) s s' r, (k <= n)%nat ->
      run h (Unmarshal env k m o) s = Done s' r -> run h (Unmarshal env' k m o) s = Done s' r.
Proof.
  intros He. exists (thinned_env env n). pose proof (thinned_one env He n) as O1. conj; auto.
  - now apply (one_env_ok env).
  - intros P. now apply one_supported.
  - intros k m o S h s s' r Hk. apply below_done. now apply Unmarshal_alike.
Qed.
Print Assumptions C29_partial.

(** So over the two protocols what has been stored is as C53 says, for these types. *)
Theorem C29_binary_partial env P strict size b t dst tv rest n s' v :
  env_ok env -> supported env P -> 8 <= size -> binv size b -> wf (2 ^ 31) tv -> P t -> has_type env dst t ->
  thrift_type env t (val_type tv) -> sdata (abs b) = binary_encoding tv ++ rest ->
  run (over (bin_reader strict) (bufio_h size)) (Unmarshal env n n (Some (RtPtr t, GPtr (Some dst)))) (tt, b) = Done s' (Some v, None) ->
  exists env', one_per_id env env' /\ stores env' t dst tv v.
Proof.
  intros He Hs Hz Hb Hw Pt Hd Ht Ha Hr. destruct (C29_partial env n He) as (env' & O1 & He' & Hs' & R). exists env'. split; [exact O1|].
  destruct (C53_binary env' P strict size b t dst tv rest He' (one_unique _ _ O1) (Hs' P Hs) Hz Hb Hw Pt) as (N & v' & r & _ & St & G); auto.
  - now apply (one_typed env).
  - now apply (one_thrift env).
  - apply R in Hr; [|lia]. destruct (G (Nat.max n N) ltac:(lia)) as (b' & E & _).
    rewrite (below_done _ _ _ _ _ _ (Unmarshal_more env' n (Nat.max n N) n (Nat.max n N) _ ltac:(lia) ltac:(lia)) Hr) in E.
    injection E as _ <- <-. auto.
Qed.
Print Assumptions C29_binary_partial.
Theorem C29_compact_partial env P size b t dst tv l rest st e n s' v :
  env_ok env -> supported env P -> 10 <= size -> binv size b -> wf (2 ^ 63) tv -> P t -> has_type env dst t ->
  thrift_type env t (val_type tv) -> compact_encoding tv l -> cr_bool st = BNone -> abs b = mkStream (l ++ rest) (FErr e) ->
  run (over cmp_reader (bufio_h size)) (Unmarshal env n n (Some (RtPtr t, GPtr (Some dst)))) (st, b) = Done s' (Some v, None) ->
  exists env', one_per_id env env' /\ stores env' t dst tv v.
Proof.
  intros He Hs Hz Hb Hw Pt Hd Ht Hl Hst Ha Hr. destruct (C29_partial env n He) as (env' & O1 & He' & Hs' & R). exists env'. split; [exact O1|].
  destruct (C53_compact env' P size b t dst tv l rest st e He' (one_unique _ _ O1) (Hs' P Hs) Hz Hb Hw Pt) as (N & v' & r & _ & St & G); auto.
  - now apply (one_typed env).
  - now apply (one_thrift env).
  - apply R in Hr; [|lia]. destruct (G (Nat.max n N) ltac:(lia)) as (st' & b' & E & _).
    rewrite (below_done _ _ _ _ _ _ (Unmarshal_more env' n (Nat.max n N) n (Nat.max n N) _ ltac:(lia) ltac:(lia)) Hr) in E.
    injection E as _ <- <-. auto.
Qed.
Print Assumptions C29_compact_partial.

(** The struct of C29_refuted: both fields have id 1; the second one gets all values. *)
Example C29_sample : env_ok dup_env /\ has_type dup_env (GStruct [GInt 7; GInt 8]) Dup /\
  exists b, run (over (bin_reader true) (bufio_h 4096)) (Unmarshal dup_env 9 9 (Some (RtPtr Dup, GPtr (Some (GStruct [GInt 7; GInt 8])))))
    (tt, new_breader (mkSource [(binary_encoding (VStruct [(1, VI32 3); (1, VI32 4)]), None)] (FErr EEOF)))
    = Done (tt, b) (Some (GStruct [GInt 7; GInt 4]), None).
Proof. conj; [exact dup_ok|vm_compute; intuition discriminate|]. eexists. vm_compute. reflexivity. Qed.
