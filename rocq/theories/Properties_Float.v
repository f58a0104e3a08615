(** Property C65: doubles read into float32 variables, and floats as keys of maps. *)
From Coq Require Import Strings.String.
From Verif Require Import Base BaseLemmas Prog Bufio BufioProof BufioW BufioWProof Wire WireProof Spec Clients
  Binary Compact CompactProof Reads Robust GoFloat FloatSpec FloatProof FloatNearest Utf8 GoType Fields Arshal GoTypeProof FieldsProof
  ArshalSpec ArshalTotal ArshalThms ArshalExample MapSpec StoreSpec StoreProof Properties_Arshal Properties_Store.
Local Open Scope Z_scope.
Local Open Scope list_scope.

(** A double with any bits [y], read into a float32 of a predeclared or defined type, is stored as the float32 [x] it is rounded to
    ([rounded], FloatSpec.v), and Unmarshal returns no error, even if [x] is an infinity. *)
Theorem C65_binary env strict size b t dst y rest :
  env_ok env -> unique_ids env -> under env t = RtFloat32 -> has_type env dst t -> 0 <= y < 2 ^ 64 ->
  8 <= size -> binv size b -> sdata (abs b) = binary_encoding (VDouble y) ++ rest ->
  exists N x, rounded y x /\
    forall n, (N <= n)%nat -> exists b',
      run (over (bin_reader strict) (bufio_h size)) (Unmarshal env n n (Some (RtPtr t, GPtr (Some dst)))) (tt, b)
        = Done (tt, b') (Some (GF32 x), None) /\ binv size b' /\ abs b' = mkStream rest (sfin (abs b)).
Proof.
  intros He Hu U Ht Hy Hs Hb Hd.
  assert (Sup : supported env (fun u => u = t)) by (apply supported_scalar; rewrite U; exact I).
  destruct (C53_binary env _ strict size b t dst (VDouble y) rest He Hu Sup Hs Hb Hy eq_refl Ht ltac:(apply tt_double; auto) Hd)
    as (N & v & r & C & S & H).
  assert (Er : r = None) by (apply C, cf_scalar; [exact I|apply tt_double; auto]). subst r. specialize (S eq_refl).
  exists N, (f64_to_f32 y). split; [now apply narrows|]. intros n Hn. destruct (H n Hn) as (b' & E & B1 & B2).
  assert (Ev : v = GF32 (f64_to_f32 y)) by (inversion S; subst; try congruence; reflexivity). subst v.
  exists b'. split; [exact E|]. split; [exact B1|]. now apply B2.
Qed.
Print Assumptions C65_binary.

Theorem C65_compact env size b t dst y l rest st e :
  env_ok env -> unique_ids env -> under env t = RtFloat32 -> has_type env dst t -> 0 <= y < 2 ^ 64 ->
  10 <= size -> binv size b -> compact_encoding (VDouble y) l -> cr_bool st = BNone -> abs b = mkStream (l ++ rest) (FErr e) ->
  exists N x, rounded y x /\
    forall n, (N <= n)%nat -> exists b',
      run (over cmp_reader (bufio_h size)) (Unmarshal env n n (Some (RtPtr t, GPtr (Some dst)))) (st, b)
        = Done (st, b') (Some (GF32 x), None) /\ binv size b' /\ abs b' = mkStream rest (FErr e).
Proof.
  intros He Hu U Ht Hy Hs Hb Hl Hst Hd.
  assert (Sup : supported env (fun u => u = t)) by (apply supported_scalar; rewrite U; exact I).
  destruct (C53_compact env _ size b t dst (VDouble y) l rest st e He Hu Sup Hs Hb Hy eq_refl Ht ltac:(apply tt_double; auto) Hl Hst Hd)
    as (N & v & r & C & S & H).
  assert (Er : r = None) by (apply C, cf_scalar; [exact I|apply tt_double; auto]). subst r. specialize (S eq_refl).
  exists N, (f64_to_f32 y). split; [now apply narrows|]. intros n Hn. destruct (H n Hn) as (st' & b' & E & B1 & B2).
  assert (Ev : v = GF32 (f64_to_f32 y)) by (inversion S; subst; try congruence; reflexivity). subst v.
  destruct (B2 eq_refl) as [-> B3]. exists b'. auto.
Qed.
Print Assumptions C65_compact.

(** [rounded] leaves no choice, except for which NaN. *)
Theorem C65_determined y x x' : f64_exp y <> 2047 \/ f64_frac y = 0 -> rounded y x -> rounded y x' -> x = x'.
Proof. exact (rounded_unique y x x'). Qed.
Print Assumptions C65_determined.

(** Keys of maps are compared as numbers: the two zeros are one key, a NaN equals nothing, itself included. *)
Theorem C65_float64_keys x y : 0 <= x < 2 ^ 64 -> 0 <= y < 2 ^ 64 -> key_eq (GF64 x) (GF64 y) = true <-> f64_same x y.
Proof. exact (f64_equal x y). Qed.
Print Assumptions C65_float64_keys.
Theorem C65_float32_keys x y : 0 <= x < 2 ^ 32 -> 0 <= y < 2 ^ 32 -> key_eq (GF32 x) (GF32 y) = true <-> f32_same x y.
Proof. exact (f32_equal x y). Qed.
Print Assumptions C65_float32_keys.

(** 1 + 2^-24 is halfway between 1 and the next float32: it becomes 1, whose last bit is 0; 1 + 3 * 2^-24 becomes 1 + 2^-22.
    10^39 is too large: infinity.  2^-150 is halfway between 0 and the smallest float32: 0. *)
Example C65_sample : rounded 0x3FF0000010000000 0x3F800000 /\ rounded 0x3FF0000030000000 0x3F800002 /\
  rounded 0x48078287F49C4A1D 0x7F800000 /\ rounded 0x3690000000000000 0 /\ rounded 0x3690000000000001 1 /\
  rounded 0xC7EFFFFFE0000000 0xFF7FFFFF /\ rounded 0xC7EFFFFFF0000000 0xFF800000.
Proof.
  repeat match goal with |- _ /\ _ => split end;
  match goal with |- rounded ?y ?x => change x with (f64_to_f32 y); apply narrows; lia end.
Qed.

(** Four entries sent, with the keys NaN, NaN, 0 and -0; three are in the map. *)
Example C65_map : stores node_env (RtMap RtFloat64 RtInt32) (GMap None)
  (VMap T_Double T_I32 [(VDouble 0x7FF8000000000001, VI32 1); (VDouble 0x7FF8000000000001, VI32 2); (VDouble 0, VI32 3); (VDouble (2 ^ 63), VI32 4)])
  (GMap (Some [(GF64 0x7FF8000000000001, GInt 1); (GF64 0x7FF8000000000001, GInt 2); (GF64 (2 ^ 63), GInt 4)])).
Proof.
  eapply st_map; [reflexivity|discriminate|].
  repeat (eapply se_cons; [apply st_float64; reflexivity|apply st_int32; reflexivity|]).
  match goal with |- stores_entries _ _ _ ?es [] ?es' => replace es with es' by reflexivity end. apply se_nil.
Qed.
