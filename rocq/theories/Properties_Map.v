(** Property C52: Marshal writes the Thrift value that the Go value stands for. *)
From Coq Require Import Strings.String Sorting.Permutation Sorting.Sorted.
From Verif Require Import Base BaseLemmas Prog Bufio BufioProof BufioW BufioWProof Wire WireProof Spec Clients
  Binary Compact CompactProof Reads Robust GoFloat Utf8 GoType Fields Arshal GoTypeProof FieldsProof
  ArshalSpec ArshalEnc ArshalTotal ArshalThms ArshalExample TagProof Properties_Values Properties_Arshal MapSpec MapProof.

(** [stands_for env t v tv] (MapSpec.v) is the mapping between Go values and
    Thrift values that the package documents, stated without its code.  What
    Marshal sends is the published encoding of such a Thrift value. *)
Theorem C52_binary env P strict size s t v i :
  env_ok env -> supported env P -> 0 < size -> ok_sink s -> P t -> has_type env v t -> passes env i t v ->
  exists N tv, stands_for env t v tv /\
    forall n, (N <= n)%nat -> exists b,
      run (over (bin_writer strict) (bufw_h size)) (Marshal env n n (Some i) >>! call WFlush) (tt, new_bwriter s)
        = Done (tt, b) None /\ received (wsink b) = received s ++ binary_encoding tv.
Proof. intros He Hs. exact (bin_stands env P He Hs strict size s t v i). Qed.
Print Assumptions C52_binary.

(** Compact: always the published encoding (compare C03), since fields are sent
    in the order of their ids. *)
Theorem C52_compact env P size s t v i :
  env_ok env -> supported env P -> 0 < size -> ok_sink s -> P t -> has_type env v t -> fits env (2 ^ 63) v t -> passes env i t v ->
  exists N tv l, stands_for env t v tv /\ compact_encoding tv l /\
    forall n, (N <= n)%nat -> exists b cw,
      run (over cmp_writer (bufw_h size)) (Marshal env n n (Some i) >>! call WFlush) (cw0, new_bwriter s)
        = Done (cw, b) None /\ received (wsink b) = received s ++ l.
Proof. intros He Hs. exact (cmp_stands env P He Hs size s t v i). Qed.
Print Assumptions C52_compact.

(** A Go value stands for one Thrift value, and its type is the one its Go type
    stands for. *)
Theorem C52_one_value env t v tv tv' : unique_ids env ->
  stands_for env t v tv -> stands_for env t v tv' -> tv = tv'.
Proof. intros Hu H. exact (stands_fun env Hu t v tv H tv'). Qed.
Print Assumptions C52_one_value.
Theorem C52_one_type env t v tv k : stands_for env t v tv -> (thrift_type env t k <-> k = val_type tv).
Proof.
  intros H. pose proof (stands_type env t v tv H) as T. split; [|now intros ->].
  intros T'. exact (thrift_type_fun env t k T' _ T).
Qed.
Print Assumptions C52_one_type.

(** The hypotheses hold of Node (C23_sample); its value there stands for this. *)
Example C52_sample : stands_for node_env Node node_value
  (VStruct [(1, VI32 7);
            (2, VSet T_String [VString (lit "x"); VString (lit "y")]);
            (3, VMap T_String T_Double [(VString (lit "a"), VDouble 0x3FF8000000000000); (VString (lit "b"), VDouble 0xBFF0000000000000)]);
            (4, VStruct [(1, VI32 0)])]).
Proof.
  apply (image_stands node_env node_ok 9 9 Node (AStruct Node)); [exists 1%nat; reflexivity|exact node_typed|vm_compute; reflexivity].
Qed.

(** The other kinds.
<<
type Kinds struct {
	A uint16              `thrift:"1"`
	B []byte              `thrift:"2"`
	C thrift.List[byte]   `thrift:"3"`
	D thrift.Set[byte]    `thrift:"4"`
	E [16]byte            `thrift:"5"`
	F *uint64             `thrift:"6,required"`
	G map[int16]bool      `thrift:"7"`
	H float64             `thrift:"-1"`
	I [][]int8            `thrift:"8"`
	J string              `thrift:"-"`
}
>> *)
Definition kinds_fields : list sfield :=
  [ mkSF (lit "A") true (Some (lit "1")) RtUint16;
    mkSF (lit "B") true (Some (lit "2")) (RtSlice RtUint8);
    mkSF (lit "C") true (Some (lit "3")) (RtNamed 1);
    mkSF (lit "D") true (Some (lit "4")) (RtNamed 2);
    mkSF (lit "E") true (Some (lit "5")) (RtArray 16 RtUint8);
    mkSF (lit "F") true (Some (lit "6,required")) (RtPtr RtUint64);
    mkSF (lit "G") true (Some (lit "7")) (RtMap RtInt16 RtBool);
    mkSF (lit "H") true (Some (lit "-1")) RtFloat64;
    mkSF (lit "I") true (Some (lit "8")) (RtSlice (RtSlice RtInt8));
    mkSF (lit "J") true (Some (lit "-")) RtString ].
Definition kinds_env : tenv := ex_env (fun s => match s with O => kinds_fields | _ => [] end)
  (fun i => match i with
            | O => mkND (lit "Kinds") (RtStruct 0) false false
            | 1%nat => mkND (lit "List[uint8]") (RtSlice RtUint8) false true
            | _ => mkND (lit "Set[uint8]") (RtSlice RtUint8) true false
            end).
Lemma kinds_ok : env_ok kinds_env.
Proof.
  apply ex_env_ok.
  - intros [|s] f Hf; [|destruct Hf]. unfold flat. repeat (destruct Hf as [<-|Hf]; [cbn; lia|]). destruct Hf.
  - intros [|[|i]]; cbn; auto.
Qed.
Definition kinds_uuid : list byte := map z2b [1; 2; 3; 4; 5; 6; 7; 8; 9; 10; 11; 12; 13; 14; 15; 16].
Example C52_kinds : stands_for kinds_env (RtNamed 0)
  (GStruct [GInt 65535; GBytes false [xff; x00] []; GSlice false [GInt 255; GInt 1] []; GSlice false [GInt 3] []; GUUID kinds_uuid;
            GPtr None; GMap (Some [(GInt (-2), GBool true)]); GF64 0x3FF0000000000000;
            GSlice false [GSlice true [] []; GSlice false [GInt (-1)] []] []; GString (lit "kept back")])
  (VStruct [(-1, VDouble 0x3FF0000000000000);
            (1, VI16 (-1));
            (2, VString [xff; x00]);
            (3, VList T_Byte [VByte xff; VByte x01]);
            (4, VSet T_Byte [VByte x03]);
            (5, VUUID kinds_uuid);
            (6, VI64 0);
            (7, VMap T_I16 T_Bool [(VI16 (-2), VBool true)]);
            (8, VList T_List [VList T_Byte []; VList T_Byte [VByte xff]])]).
Proof.
  apply (image_stands kinds_env kinds_ok 9 9 (RtNamed 0) (AStruct (RtNamed 0))); [exists 1%nat; reflexivity| |vm_compute; reflexivity].
  vm_compute. intuition discriminate.
Qed.
