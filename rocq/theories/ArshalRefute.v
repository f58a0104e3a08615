(** Programs on which some expectations fail. *)
From Coq Require Import Strings.String.
From Verif Require Import Base BaseLemmas Prog Bufio BufioW Wire Spec Binary Compact
  GoFloat Utf8 GoType Fields Arshal GoTypeProof FieldsProof ArshalSpec ArshalTrip ArshalTotal ArshalErr ArshalCalls ArshalExample.

(** ** Two fields with one id
<<
type Dup struct {
	X int32 `thrift:"1"`
	Y int32 `thrift:"1"`
}
>> *)
Definition dup_fields : list sfield :=
  [ mkSF (lit "X") true (Some (lit "1")) RtInt32; mkSF (lit "Y") true (Some (lit "1")) RtInt32 ].
Definition dup_env : tenv :=
  ex_env (fun s => match s with O => dup_fields | _ => [] end) (fun i => mkND (lit "Dup") (match i with O => RtStruct 0 | _ => RtInt32 end) false false).
Definition Dup : rtype := RtNamed 0.

Lemma dup_ok : env_ok dup_env.
Proof.
  apply ex_env_ok.
  - intros [|s] f Hf; [|destruct Hf]. unfold flat. repeat (destruct Hf as [<-|Hf]; [cbn; lia|]). destruct Hf.
  - intros [|i]; cbn; auto.
Qed.

(** ** A slice type whose elements are of the type itself
<<
type T []T
>> *)
Definition knot_env : tenv := ex_env (fun _ => []) (fun _ => mkND (lit "T") (RtSlice (RtNamed 0)) false false).
Definition Knot : rtype := RtNamed 0.

Lemma knot_ok : env_ok knot_env.
Proof. apply ex_env_ok; [intros s f []|intros i; exact I]. Qed.

Lemma knot_lookup n : lookup knot_env n Knot = None.
Proof. induction n as [|n IH]; [reflexivity|]. unfold Knot in *. cbn. now rewrite IH. Qed.

(** ** A struct that needs itself
<<
type Ring struct {
	Next *Ring `thrift:"1,required"`
}
>> *)
Definition ring_fields : list sfield := [ mkSF (lit "Next") true (Some (lit "1,required")) (RtPtr (RtNamed 0)) ].
Definition ring_env : tenv :=
  ex_env (fun s => match s with O => ring_fields | _ => [] end) (fun i => mkND (lit "Ring") (match i with O => RtStruct 0 | _ => RtInt32 end) false false).
Definition Ring : rtype := RtNamed 0.

Lemma ring_ok : env_ok ring_env.
Proof.
  apply ex_env_ok.
  - intros [|s] f Hf; [|destruct Hf]. unfold flat. repeat (destruct Hf as [<-|Hf]; [cbn; lia|]). destruct Hf.
  - intros [|i]; cbn; auto.
Qed.

Definition ring_codec : arsh := APtr (RtPtr Ring) (AStruct Ring).
Definition ring_table : list structField :=
  [mkField 0 (RtPtr Ring) ring_codec None 1 (lit "Next") true].

Lemma ring_struct ln : make_struct_fields ring_env (S (S ln)) Ring = Some (inl ring_table).
Proof. vm_compute. reflexivity. Qed.

Lemma ring_marshal ln n : run accept (marshal ring_env (S (S ln)) n (AStruct Ring) (GStruct [GPtr None])) tt = Crashed OutOfFuel /\
  run accept (marshal ring_env (S (S ln)) n ring_codec (GPtr None)) tt = Crashed OutOfFuel.
Proof.
  induction n as [|n [IH1 IH2]]; [split; reflexivity|]. split.
  - cbn [marshal]. rewrite ring_struct. cbn -[marshal ring_codec Z.mul]. change (wire_type ring_codec =? T_Stop) with false. cbn -[marshal ring_codec Z.mul].
    unfold and_then at 1. rewrite run_bind, IH2. reflexivity.
  - unfold ring_codec. cbn [marshal]. change (zero ring_env (elem_type ring_env (RtPtr Ring))) with (GStruct [GPtr None]). exact IH1.
Qed.
Lemma ring_Marshal n : run accept (Marshal ring_env n n (Some (RtPtr Ring, GPtr (Some (GStruct [GPtr None]))))) tt = Crashed OutOfFuel.
Proof.
  destruct n as [|[|ln]]; [vm_compute; reflexivity|vm_compute; reflexivity|].
  rewrite (Marshal_lookup ring_env _ Ring (AStruct Ring)) by reflexivity. apply ring_marshal.
Qed.
