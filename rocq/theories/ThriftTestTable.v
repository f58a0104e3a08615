(** testing/thrifttest/protocol.go:18-37, 61-166: the cases of TestProtocol. *)
From Coq Require Import Strings.String Sorting.Permutation.
From Verif Require Import Base BaseLemmas Prog Wire WireProof Spec GoFloat Utf8 GoType Fields Arshal GoTypeProof FieldsProof
  ArshalSpec ArshalEnc ArshalDec ArshalTrip ArshalTotal ArshalThms ArshalExample MapSpec MapProof StoreSpec StoreProof RemarshalSpec RemarshalProof
  ThriftTest ThriftTestSpec.

(** ** The types *)
(** protocol.go:18-37, and the structs that are declared where they are used *)
Definition tt_fields (s : nat) : list sfield :=
  match s with
  | 0 => [ mkSF (lit "Bool") true (Some (lit "1,required")) RtBool ]
  | 1 => [ mkSF (lit "Float32") true (Some (lit "1")) RtFloat32;
           mkSF (lit "Float64") true (Some (lit "2")) RtFloat64 ]
  | 2 => [ mkSF (lit "Int16") true (Some (lit "1")) RtInt16;
           mkSF (lit "Int32") true (Some (lit "2")) RtInt32;
           mkSF (lit "Int64") true (Some (lit "3")) RtInt64 ]
  | 3 => [ mkSF (lit "Struct") true (Some (lit "1")) (RtPtr (RtNamed 3));
           mkSF (lit "String") true (Some (lit "2")) RtString;
           mkSF (lit "Bytes") true (Some (lit "3")) (RtSlice RtUint8) ]
  | 4 => [ mkSF (lit "Value") true (Some (lit "1,required")) (RtMap RtString RtString) ]
  | 5 => [ mkSF (lit "Value") true (Some (lit "1,required")) (RtNamed 4) ]
  | 6 => [ mkSF (lit "Value") true (Some (lit "1,required")) (RtNamed 5) ]
  | 7 => [ mkSF (lit "UUID") true (Some (lit "1,required")) (RtArray 16 RtUint8) ]
  | 8 => [ mkSF (lit "Set") true (Some (lit "32")) (RtNamed 6);
           mkSF (lit "List") true (Some (lit "64")) (RtNamed 7) ]
  | 9 => [ mkSF (lit "Map") true (Some (lit "0")) (RtMap RtString RtBool) ]
  | _ => []
  end%nat.
Definition tt_named (i : nat) : ndef :=
  match i with
  | 0 => mkND (lit "boolStruct") (RtStruct 0) false false
  | 1 => mkND (lit "floatStruct") (RtStruct 1) false false
  | 2 => mkND (lit "intStruct") (RtStruct 2) false false
  | 3 => mkND (lit "testStruct") (RtStruct 3) false false
  | 4 => mkND (lit "Set[string]") (RtSlice RtString) true false
  | 5 => mkND (lit "List[string]") (RtSlice RtString) false true
  | 6 => mkND (lit "Set[bool]") (RtSlice RtBool) true false
  | _ => mkND (lit "List[bool]") (RtSlice RtBool) false true
  end%nat.
Fixpoint tt_rank (t : rtype) : nat :=
  match t with
  | RtArray _ e => S (tt_rank e)
  | RtStruct _ => 2
  | RtNamed i => if (i <? 4)%nat then 2 else 0
  | _ => 0
  end%nat.
Definition tt_env : tenv := mkEnv tt_fields tt_named (fun _ => None) (fun _ => true) tt_rank sort_fields (fun n => n) ascii_only.

Lemma tt_ok : env_ok tt_env.
Proof.
  constructor.
  - intros i j. do 8 (destruct i as [|i]; [discriminate|]). discriminate.
  - intros t k e U. destruct t; cbn in U; try discriminate; [injection U as -> ->; cbn; lia|].
    do 8 (destruct id as [|id]; [discriminate|]). discriminate.
  - assert (F : forall s f, In f (tt_fields s) -> (tt_rank (sf_type f) <= 1)%nat).
    { intros s f Hf. do 10 (destruct s as [|s]; [cbn in Hf; repeat (destruct Hf as [<-|Hf]; [cbn; lia|]); destruct Hf|]). destruct Hf. }
    intros t s f U Hf. specialize (F s f Hf). change (tt_rank (sf_type f) < tt_rank t)%nat.
    destruct t as [| | | | | | | | | | | | | | | | | | | | |e|k e|kt e|e|sid|id]; cbn in U; try discriminate; cbn [tt_rank]; [lia|].
    do 4 (destruct id as [|id]; [cbn; lia|]). do 4 (destruct id as [|id]; [discriminate|]). discriminate.
  - intros l. apply sort_perm.
  - intros l. apply asc_sorted, sort_asc.
Qed.

Lemma tt_unique : unique_ids tt_env.
Proof.
  intros s i j sf sf' o o' Hi Hj T T' E. change (te_struct tt_env s) with (tt_fields s) in *.
  unfold tagged in *. change (te_uni tt_env) with ascii_only in *.
  do 10 (destruct s as [|s]; [
    (do 3 (destruct i as [|i]; [cbn in Hi; try discriminate Hi; try (injection Hi as <-; vm_compute in T; injection T as <-;
      (do 3 (destruct j as [|j]; [cbn in Hj; try discriminate Hj; try (injection Hj as <-; vm_compute in T'; injection T' as <-;
         first [reflexivity|exfalso; vm_compute in E; discriminate E])|]));
      destruct j; discriminate)|]));
    destruct i; discriminate|]).
  destruct i; discriminate.
Qed.

(** The types that occur. *)
Definition tt_types (t : rtype) : Prop :=
  In t [RtNamed 0; RtNamed 1; RtNamed 2; RtNamed 3; RtStruct 4; RtStruct 5; RtStruct 6; RtStruct 7; RtStruct 8; RtStruct 9;
        RtBool; RtFloat32; RtFloat64; RtInt16; RtInt32; RtInt64; RtString; RtPtr (RtNamed 3); RtSlice RtUint8; RtUint8;
        RtMap RtString RtString; RtMap RtString RtBool; RtNamed 4; RtNamed 5; RtNamed 6; RtNamed 7; RtArray 16 RtUint8].

Lemma tt_leaf t : (match under tt_env t with RtPtr _ | RtSlice _ | RtMap _ _ => False | _ => True end) -> Acc (eager tt_env) t.
Proof. intros H. constructor. intros e He. unfold eager in He. destruct (under tt_env t); contradiction. Qed.
Lemma tt_eager t : tt_types t -> Acc (eager tt_env) t.
Proof.
  intros H. repeat (destruct H as [<-|H]; [first [apply tt_leaf; exact I
    |constructor; intros e [->| ->]; apply tt_leaf; exact I
    |constructor; intros e [_ ->]; apply tt_leaf; exact I
    |constructor; intros e ->; apply tt_leaf; exact I
    |constructor; intros e [X _]; discriminate X]|]). destruct H.
Qed.

Lemma tt_demand t : tt_types t -> Acc (demand tt_env) t.
Proof.
  assert (Leaf : forall t, (match under tt_env t with RtPtr _ | RtStruct _ => False | _ => True end) -> Acc (demand tt_env) t).
  { intros x H. constructor. intros e He. unfold demand in He. destruct (under tt_env x); contradiction. }
  assert (St : forall t s, under tt_env t = RtStruct s -> Acc (demand tt_env) t).
  { intros x s U. constructor. intros e He. unfold demand in He. rewrite U in He. destruct He as (sf & Hf & -> & (o & T & W)).
    change (te_struct tt_env s) with (tt_fields s) in Hf. unfold tagged in T. change (te_uni tt_env) with ascii_only in T.
    do 10 (destruct s as [|s]; [cbn in Hf; repeat (destruct Hf as [<-|Hf]; [first [apply Leaf; exact I
       |exfalso; vm_compute in T; injection T as <-; vm_compute in W; destruct W; discriminate]|]); destruct Hf|]). destruct Hf. }
  intros H. repeat (destruct H as [<-|H]; [first [apply Leaf; exact I|eapply St; reflexivity|idtac]|]); [|destruct H].
  constructor. intros e ->. eapply St. reflexivity.
Qed.

Lemma tt_supported : supported tt_env tt_types.
Proof.
  constructor; [|exact tt_eager|exact tt_demand].
  assert (St : forall s, (s < 10)%nat ->
    (forall sf, In sf (te_struct tt_env s) -> (exists o, tagged tt_env sf o /\ tt_types (sf_type sf)) \/
       (exists o, parse_field_options (te_uni tt_env) sf = (o, true, None))) /\
    (te_struct tt_env s = [] \/ exists sf, In sf (te_struct tt_env s) /\ (sf_tag sf <> None \/ exists o, tagged tt_env sf o))).
  { intros s Hs. change (te_struct tt_env s) with (tt_fields s). unfold tagged. change (te_uni tt_env) with ascii_only.
    do 10 (destruct s as [|s]; [split;
      [intros sf Hf; cbn in Hf; repeat (destruct Hf as [<-|Hf]; [left; eexists; split; [vm_compute; reflexivity|unfold tt_types; cbn; tauto]|]); destruct Hf
      |right; eexists; split; [left; reflexivity|left; discriminate]]|]). lia. }
  intros t H. repeat (destruct H as [<-|H]; [unfold supported_kind; cbn [under];
    first [exact I|apply St; lia|reflexivity|left; reflexivity|right; unfold tt_types; cbn; tauto|unfold tt_types; cbn; tauto]|]); destruct H.
Qed.

(** ** The cases *)
(** protocol.go:61-166.  [order name i v] is [v] with its maps in the order in which they are iterated over when
    the case [name] is marshalled for the [i]th time again; [letters] the order of the keys of the last case's
    map when it is marshalled first. *)
Definition nested (s : String.string) (next : option gval) : gval :=
  GStruct [GPtr next; GString (lit s); GBytes false (lit s) []].
Definition table (order : list byte -> nat -> gval -> gval) (letters : list byte) : list case :=
  let c name t v uuid map := mkCase (lit name) t v uuid map (order (lit name)) in
  [ c "False"%string (RtNamed 0) (GStruct [GBool false]) false false;
    c "True"%string (RtNamed 0) (GStruct [GBool true]) false false;
    c "SmallestNonzeroFloats"%string (RtNamed 1) (GStruct [GF32 1; GF64 1]) false false;
    c "MaxFloats"%string (RtNamed 1) (GStruct [GF32 0x7F7FFFFF; GF64 0x7FEFFFFFFFFFFFFF]) false false;
    c "MinInts"%string (RtNamed 2) (GStruct [GInt (- 2 ^ 15); GInt (- 2 ^ 31); GInt (- 2 ^ 63)]) false false;
    c "MaxInts"%string (RtNamed 2) (GStruct [GInt (2 ^ 15 - 1); GInt (2 ^ 31 - 1); GInt (2 ^ 63 - 1)]) false false;
    c "ZeroStringMap"%string (RtStruct 4) (GStruct [GMap None]) false false;
    c "StringMap"%string (RtStruct 4) (GStruct [GMap (Some [(GString (lit "hello"), GString (lit "world"))])]) false false;
    c "ZeroStringSet"%string (RtStruct 5) (GStruct [GSlice true [] []]) false false;
    c "StringSet"%string (RtStruct 5) (GStruct [GSlice false [GString (lit "hello"); GString (lit "world")] []]) false false;
    c "ZeroStringList"%string (RtStruct 6) (GStruct [GSlice true [] []]) false false;
    c "StringList"%string (RtStruct 6) (GStruct [GSlice false [GString (lit "hello"); GString (lit "world")] []]) false false;
    c "UUID"%string (RtStruct 7) (GStruct [GUUID (repeat x00 16)]) true false;
    c "NestedStruct"%string (RtNamed 3) (nested "1" (Some (nested "2" (Some (nested "3" None))))) false false;
    c "LargeSetListOfBools"%string (RtStruct 8)
      (GStruct [GSlice false (repeat (GBool false) 64) []; GSlice false (repeat (GBool false) 64) []]) false false;
    c "LargeMapOfBools"%string (RtStruct 9)
      (GStruct [GMap (Some (map (fun x => (GString [x], GBool true)) letters))]) false true ].
(** 'A' to 'Z' *)
Definition alphabet : list byte := lit "ABCDEFGHIJKLMNOPQRSTUVWXYZ".

(** Every field is zero, or comes back as a value that is not zero. *)
Definition tidy_here (x : gval) : bool :=
  match x with
  | GStruct vs => forallb (fun w => is_zero tt_env false w ||
      match w with
      | GBool _ | GInt _ | GF32 _ | GF64 _ | GString _ | GUUID _ => true
      | GBytes _ (_ :: _) _ | GMap (Some (_ :: _)) | GSlice _ (_ :: _) _ | GPtr (Some _) => true
      | _ => false
      end) vs
  | _ => true
  end.
Lemma tt_tidy v t : has_type tt_env v t -> everywhere tidy_here v = true -> tidy tt_env v t.
Proof.
  intros Ht Hv. apply lasting_tidy; [intros u; reflexivity|exact Ht|]. intros vs u s j sf w id Hi U Hn Hw D.
  pose proof (everywhere_inside _ _ _ _ _ _ Hi Hv) as H. cbn [tidy_here] in H. rewrite forallb_forall in H. specialize (H w (nth_error_In _ _ Hw)).
  destruct (is_zero tt_env false w) eqn:Z; [left; reflexivity|right]. cbn [orb] in H.
  destruct w as [| | | | |? [|] ?| | |? [|] ?|[[|]|]|[|]| |]; try discriminate H; first [apply la_scalar; [exact I|exact Z]|apply la_bytes|apply la_slice|apply la_map|apply la_ptr].
Qed.

Lemma tt_good name t v uuid order tv a lim : 2 ^ 31 <= lim -> tt_types t -> (exists s, under tt_env t = RtStruct s) -> has_type tt_env v t ->
  everywhere keys_here v = true -> everywhere (fits_here (2 ^ 31)) v = true -> zlen name < 2 ^ 31 -> (forall i w, shuffled w (order i w)) ->
  everywhere tidy_here v = true -> codec tt_env t a -> image tt_env 9 9 a v = Some tv -> small_maps tv ->
  good_case tt_env tt_types lim (mkCase name t v uuid false order).
Proof.
  intros Hl Pt U Ht Hk Hf Hn Ho Hy Hc Hi Hs. unfold good_case. cbn [c_name c_type c_val c_has_map c_order].
  split; [exact Pt|]. split; [exact U|]. split; [exact Ht|]. split; [now apply scalar_keys_distinct, scalar_maps_check|].
  split; [|split; [lia|split; [exact Ho|]]].
  - intros x u Hx. pose proof (fits_check tt_env _ v t Hf x u Hx) as H. destruct x as [| | | | | | | | |[|]| | |]; auto; lia.
  - intros _. split; [now apply tt_tidy|]. intros tv' S'.
    rewrite (stands_fun tt_env tt_unique t v tv' S' tv); [exact Hs|]. eapply (image_stands tt_env tt_ok 9 9); eauto.
Qed.

Lemma letters_good lim letters order : 2 ^ 31 <= lim -> Permutation alphabet letters -> (forall i w, shuffled w (order i w)) ->
  good_case tt_env tt_types lim
    (mkCase (lit "LargeMapOfBools") (RtStruct 9) (GStruct [GMap (Some (map (fun x => (GString [x], GBool true)) letters))]) false true order).
Proof.
  intros Hl Hp Ho. unfold good_case. cbn [c_name c_type c_val c_has_map c_order].
  split; [unfold tt_types; cbn; tauto|]. split; [exists 9%nat; reflexivity|]. split; [|split; [|split; [|split; [|split]]]].
  - apply type_struct. exists 9%nat. split; [reflexivity|]. constructor; [|constructor]. apply type_map. exists RtString, RtBool. split; [reflexivity|].
    apply Forall_forall. intros q Hq. apply in_map_iff in Hq. destruct Hq as (x & <- & _). split; exact I.
  - apply scalar_keys_distinct, scalar_maps_check. cbn [everywhere keys_here forallb]. rewrite andb_true_r. cbn [andb]. apply andb_true_iff.
    assert (D : NoDup letters).
    { apply (Permutation_NoDup Hp). clear. unfold alphabet. cbn. repeat (constructor; [cbn; intuition discriminate|]). constructor. }
    clear Hp. split.
    + induction D as [|x r N D IH]; [reflexivity|]. cbn [map distinct_keys scalar_key andb]. rewrite IH, andb_true_r.
      apply forallb_forall. intros q Hq. apply in_map_iff in Hq. destruct Hq as (y & <- & Hy). cbn [fst key_eq].
      destruct (bytes_eqb [y] [x]) eqn:E; [|reflexivity]. apply bytes_eqb_eq in E. injection E as ->. contradiction.
    + clear D. induction letters as [|x r IH]; [reflexivity|]. cbn [map everywhere keys_here andb]. exact IH.
  - assert (L : zlen letters = 26). { unfold zlen. now rewrite <- (Permutation_length Hp). }
    assert (F : fits tt_env (2 ^ 31) (GStruct [GMap (Some (map (fun x => (GString [x], GBool true)) letters))]) (RtStruct 9)).
    { apply fits_check. cbn [everywhere fits_here forallb]. rewrite andb_true_r. cbn [andb]. apply andb_true_iff. split.
      - apply Z.ltb_lt. unfold zlen in *. rewrite map_length. lia.
      - clear. induction letters as [|x r IH]; [reflexivity|]. cbn [map everywhere fits_here andb]. exact IH. }
    intros x u Hx. pose proof (F x u Hx) as H. destruct x as [| | | | | | | | |[|]| | |]; auto; lia.
  - assert (X : zlen (lit "LargeMapOfBools") = 15) by reflexivity. lia.
  - exact Ho.
  - discriminate.
Qed.

Lemma table_good lim order letters : 2 ^ 31 <= lim -> (forall name i v, shuffled v (order name i v)) -> Permutation alphabet letters ->
  Forall (good_case tt_env tt_types lim) (table order letters).
Proof.
  intros Hl Ho Hp. unfold table. cbv zeta.
  repeat (apply Forall_cons; [first [now apply letters_good
    |eapply tt_good; [exact Hl|unfold tt_types; cbn; tauto|eexists; reflexivity|vm_compute; intuition discriminate|vm_compute; reflexivity|vm_compute; reflexivity
      |vm_compute; reflexivity|intros; apply Ho|vm_compute; reflexivity|exists 1%nat; reflexivity|vm_compute; reflexivity|vm_compute; intuition lia]]|]).
  constructor.
Qed.
