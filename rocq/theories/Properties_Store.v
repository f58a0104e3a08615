(** Properties C53 and C54: what Unmarshal stores; programs with different
    versions of a type. *)
From Coq Require Import Strings.String Sorting.Sorted.
From Verif Require Import Base BaseLemmas Prog Bufio BufioProof BufioW BufioWProof Wire WireProof Spec Clients
  Binary Compact CompactProof Reads Robust GoFloat Utf8 GoType Fields Arshal GoTypeProof FieldsProof
  ArshalSpec ArshalEnc ArshalDec ArshalTrip ArshalTotal ArshalThms ArshalSafe ArshalGives TagProof ArshalExample Properties_Values Properties_Arshal
  MapSpec MapProof Properties_Map StoreSpec StoreProof.

(** ** C53 *)
(** [conforms env t tv] and [stores env t dst tv v] (StoreSpec.v) say, without the
    code, which Thrift values can be read as [t] and what that leaves in a
    variable that held [dst].  On a Reader that delivers [tv] ([gives], see C24_binary
    and C24_compact), Unmarshal returns nil just if it conforms, and has
    then stored what it should. *)
Theorem C53_stores env P lim t dst tv :
  env_ok env -> unique_ids env -> supported env P -> wf lim tv -> P t -> has_type env dst t -> thrift_type env t (val_type tv) ->
  exists v r, gives env t dst tv v r /\ has_type env v t /\
    (r = None <-> conforms env t tv) /\ (r = None -> stores env t dst tv v).
Proof. intros He Hu Hs. exact (outcome env P Hs He Hu lim t dst tv). Qed.
Print Assumptions C53_stores.

(** This leaves open nothing but the contents of spare capacity. *)
Theorem C53_determined env t dst tv v v' : unique_ids env ->
  stores env t dst tv v -> stores env t dst tv v' -> visible v = visible v'.
Proof. intros Hu H. exact (stores_fun env Hu (vsize tv) tv (le_n _) t dst v H dst v' eq_refl). Qed.
Print Assumptions C53_determined.

(** Over the two protocols. *)
Theorem C53_binary env P strict size b t dst tv rest :
  env_ok env -> unique_ids env -> supported env P -> 8 <= size -> binv size b -> wf (2 ^ 31) tv -> P t -> has_type env dst t ->
  thrift_type env t (val_type tv) -> sdata (abs b) = binary_encoding tv ++ rest ->
  exists N v r, (r = None <-> conforms env t tv) /\ (r = None -> stores env t dst tv v) /\
    forall n, (N <= n)%nat -> exists b',
      run (over (bin_reader strict) (bufio_h size)) (Unmarshal env n n (Some (RtPtr t, GPtr (Some dst)))) (tt, b)
        = Done (tt, b') (Some v, r) /\ binv size b' /\ (r = None -> abs b' = mkStream rest (sfin (abs b))).
Proof.
  intros He Hu Hs Hz Hb Hw Ht Hd T Hy. destruct (C53_stores env P _ t dst tv He Hu Hs Hw Ht Hd T) as (v & r & G & _ & A & B).
  destruct (C24_binary env P strict size b t dst tv v r rest (supported_closed env P Hs) He Hz Hb Hw Ht Hd G Hy) as (N & H).
  exists N, v, r. auto.
Qed.
Print Assumptions C53_binary.
Theorem C53_compact env P size b t dst tv l rest st e :
  env_ok env -> unique_ids env -> supported env P -> 10 <= size -> binv size b -> wf (2 ^ 63) tv -> P t -> has_type env dst t ->
  thrift_type env t (val_type tv) -> compact_encoding tv l -> cr_bool st = BNone -> abs b = mkStream (l ++ rest) (FErr e) ->
  exists N v r, (r = None <-> conforms env t tv) /\ (r = None -> stores env t dst tv v) /\
    forall n, (N <= n)%nat -> exists st' b',
      run (over cmp_reader (bufio_h size)) (Unmarshal env n n (Some (RtPtr t, GPtr (Some dst)))) (st, b)
        = Done (st', b') (Some v, r) /\ binv size b' /\ (r = None -> st' = st /\ abs b' = mkStream rest (FErr e)).
Proof.
  intros He Hu Hs Hz Hb Hw Ht Hd T Hl Hst Hy. destruct (C53_stores env P _ t dst tv He Hu Hs Hw Ht Hd T) as (v & r & G & _ & A & B).
  destruct (C24_compact env P size b t dst tv l v r rest st e (supported_closed env P Hs) He Hz Hb Hw Ht Hd G (RoundTrip.compact_enc_wrap tv l _ Hw Hl) Hst Hy)
    as (N & H).
  exists N, v, r. auto.
Qed.
Print Assumptions C53_compact.

(** The hypotheses hold of Node (C23_sample).  Over node_value: [Count] is
    overwritten, "a" gets a new score and "c" is added, [Names] is replaced, the
    Node that [Next] points to is changed in place, field 9 is skipped and [hidden] stays. *)
Definition node_update : tval :=
  VStruct [(9, VList T_I32 [VI32 1]);
           (2, VSet T_String [VString (lit "z")]);
           (4, VStruct [(1, VI32 (-1))]);
           (3, VMap T_String T_Double [(VString (lit "a"), VDouble 0x4000000000000000); (VString (lit "c"), VDouble 0x3FF0000000000000)]);
           (1, VI32 8)].
Example C53_sample : wf (2 ^ 31) node_update /\ thrift_type node_env Node (val_type node_update) /\
  conforms node_env Node node_update /\
  stores node_env Node node_value node_update
    (GStruct [GInt 8;
              GMap (Some [(GString (lit "a"), GF32 0x40000000); (GString (lit "b"), GF32 0xBF800000); (GString (lit "c"), GF32 0x3F800000)]);
              GSlice false [GString (lit "z")] [GString (lit "y")];
              GPtr (Some (GStruct [GInt (-1); GMap None; GSlice true [] []; GPtr None; GInt 9]));
              GInt 5]).
Proof.
  assert (W : wf (2 ^ 31) node_update) by (vm_compute; intuition discriminate).
  split; [exact W|]. split; [eapply tt_struct; reflexivity|]. apply and_comm.
  apply (decode_stores node_env node_types node_supported node_ok node_unique (2 ^ 31) 9 9 (AStruct Node)).
  - exact W.
  - left. reflexivity.
  - exists 1%nat. reflexivity.
  - exact node_typed.
  - vm_compute. reflexivity.
Qed.
Lemma node_declares sf o : parse_field_options ascii_only sf = (o, false, None) -> declares node_env sf (fo_id o) (fo_required o).
Proof. exact (tagged_declares node_env sf o). Qed.
(** A wrong type anywhere is refused. *)
Example C53_refused : ~ conforms node_env Node (VStruct [(2, VSet T_I32 [VI32 1])]).
Proof.
  intros H. inversion H as [? ? S| | | |? s ? U F|? ? ? U]; [destruct S| |discriminate U]. injection U as <-.
  inversion_clear F as [|? ? F0 _].
  assert (D : declares node_env (mkSF (lit "Names") true (Some (lit "2")) (RtNamed 1)) 2 false)
    by (apply (node_declares _ (mkFO 2 (lit "Names") false)); vm_compute; reflexivity).
  specialize (F0 _ _ ltac:(right; right; left; reflexivity) D). cbn [snd] in F0.
  inversion F0 as [? ? S| |? e ? ? U' _ F'| | |? ? ? U']; [destruct S| |discriminate U']. injection U' as <-.
  inversion_clear F' as [|? ? F1 _]. apply conforms_type in F1. inversion F1; subst; unfold byte_slice in *; cbn [under] in *; intuition discriminate.
Qed.

(** ** C54 *)
(** A program with the type [t] and one with [u] (both described in [env]) agree
    on the fields they share ([compatible], StoreSpec.v).  What the first sends, for
    any value, the second reads without error: shared fields get what was
    sent, others keep what [dst] has. *)
Theorem C54_binary env P sw sr wsize rsize s t u v dst i :
  env_ok env -> unique_ids env -> supported env P ->
  0 < wsize -> 8 <= rsize -> ok_sink s -> received s = [] ->
  P t -> P u -> has_type env v t -> fits env (2 ^ 31) v t -> passes env i t v -> has_type env dst u -> compatible env t u ->
  exists N tv v', stands_for env t v tv /\ stores env u dst tv v' /\
    forall n, (N <= n)%nat -> exists b,
      run (over (bin_writer sw) (bufw_h wsize)) (Marshal env n n (Some i) >>! call WFlush) (tt, new_bwriter s)
        = Done (tt, b) None /\
      forall src rest n', good_source src -> src_bytes src = received (wsink b) ++ rest -> (N <= n')%nat ->
        exists b',
          run (over (bin_reader sr) (bufio_h rsize)) (Unmarshal env n' n' (Some (RtPtr u, GPtr (Some dst)))) (tt, new_breader src)
            = Done (tt, b') (Some v', None) /\
          binv rsize b' /\ abs b' = mkStream rest (src_fin src).
Proof. intros He Hu Hs. exact (evolve_binary env P Hs He Hu sw sr wsize rsize s t u v dst i). Qed.
Print Assumptions C54_binary.

Theorem C54_compact env P wsize rsize s t u v dst i :
  env_ok env -> unique_ids env -> supported env P ->
  0 < wsize -> 10 <= rsize -> ok_sink s -> received s = [] ->
  P t -> P u -> has_type env v t -> fits env (2 ^ 63) v t -> passes env i t v -> has_type env dst u -> compatible env t u ->
  exists N tv v', stands_for env t v tv /\ stores env u dst tv v' /\
    forall n, (N <= n)%nat -> exists b cw,
      run (over cmp_writer (bufw_h wsize)) (Marshal env n n (Some i) >>! call WFlush) (cw0, new_bwriter s)
        = Done (cw, b) None /\
      forall src rest n' e cr, good_source src -> src_bytes src = received (wsink b) ++ rest -> src_fin src = FErr e ->
        cr_bool cr = BNone -> (N <= n')%nat ->
        exists b',
          run (over cmp_reader (bufio_h rsize)) (Unmarshal env n' n' (Some (RtPtr u, GPtr (Some dst)))) (cr, new_breader src)
            = Done (cr, b') (Some v', None) /\
          binv rsize b' /\ abs b' = mkStream rest (src_fin src).
Proof. intros He Hu Hs. exact (evolve_compact env P Hs He Hu wsize rsize s t u v dst i). Qed.
Print Assumptions C54_compact.

(** Both directions at once, and at any depth: the relation is symmetric, and
    holds of a type and itself. *)
Theorem C54_symmetric env t u : compatible env t u -> compatible env u t.
Proof. exact (compatible_sym env t u). Qed.
Print Assumptions C54_symmetric.
Theorem C54_reflexive env P t : unique_ids env -> supported env P -> P t -> compatible env t t.
Proof. intros Hu Hs. exact (compatible_refl env P t Hs Hu). Qed.
Print Assumptions C54_reflexive.

(** Two versions of a type.
<<
type Old struct {
	ID    int32   `thrift:"1"`
	Name  string  `thrift:"2"`
	Subs  []*Old  `thrift:"3"`
}
type New = struct {
	Subs  []Old   `thrift:"3"`
	ID    *uint32 `thrift:"1"`
	Email string  `thrift:"4"`
}
>> *)
Definition old_fields : list sfield :=
  [ mkSF (lit "ID") true (Some (lit "1")) RtInt32;
    mkSF (lit "Name") true (Some (lit "2")) RtString;
    mkSF (lit "Subs") true (Some (lit "3")) (RtSlice (RtPtr (RtNamed 0))) ].
Definition new_fields : list sfield :=
  [ mkSF (lit "Subs") true (Some (lit "3")) (RtSlice (RtNamed 0));
    mkSF (lit "ID") true (Some (lit "1")) (RtPtr RtUint32);
    mkSF (lit "Email") true (Some (lit "4")) RtString ].
Definition two_env : tenv := ex_env (fun s => match s with O => old_fields | 1%nat => new_fields | _ => [] end)
  (fun i => match i with O => mkND (lit "Old") (RtStruct 0) false false | _ => mkND (lit "Unused") RtInt32 false false end).
Definition Old : rtype := RtNamed 0.
Definition New : rtype := RtStruct 1.
Definition two_types (t : rtype) : Prop :=
  In t [Old; New; RtInt32; RtString; RtSlice (RtPtr Old); RtPtr Old; RtSlice Old; RtPtr RtUint32; RtUint32].


Lemma two_ok : env_ok two_env.
Proof.
  apply ex_env_ok.
  - intros [|[|s]] f Hf; [| |destruct Hf]; unfold flat; repeat (destruct Hf as [<-|Hf]; [cbn; lia|]); destruct Hf.
  - intros [|i]; cbn; auto.
Qed.
Lemma two_ids s sf o : In sf (te_struct two_env s) -> tagged two_env sf o ->
  In (s, sf_name sf, fo_id o, sf_type sf)
    [(O, lit "ID", 1, RtInt32); (O, lit "Name", 2, RtString); (O, lit "Subs", 3, RtSlice (RtPtr Old));
     (1%nat, lit "Subs", 3, RtSlice Old); (1%nat, lit "ID", 1, RtPtr RtUint32); (1%nat, lit "Email", 4, RtString)].
Proof.
  unfold tagged. change (te_uni two_env) with ascii_only. destruct s as [|[|s]]; intros Hf T; [| |destruct Hf];
    repeat (destruct Hf as [<-|Hf]; [vm_compute in T; injection T as <-; vm_compute; tauto|]); destruct Hf.
Qed.
Lemma two_unique : unique_ids two_env.
Proof.
  intros s i j sf sf' o o' Hi Hj T T' E. pose proof (two_ids s sf o (nth_error_In _ _ Hi) T) as A.
  pose proof (two_ids s sf' o' (nth_error_In _ _ Hj) T') as B.
  assert (N : sf_name sf = sf_name sf').
  { cbn [In] in A, B. repeat (destruct A as [A|A]); try contradiction; injection A as ? ? ? ?;
      repeat (destruct B as [B|B]); try contradiction; injection B as ? ? ? ?; try congruence; try lia. }
  clear A B T T' E. destruct s as [|[|s]].
  - do 3 (destruct i as [|i]; [injection Hi as <-; do 3 (destruct j as [|j]; [injection Hj as <-; first [reflexivity|discriminate N]|]); destruct j; discriminate Hj|]).
    destruct i; discriminate Hi.
  - do 3 (destruct i as [|i]; [injection Hi as <-; do 3 (destruct j as [|j]; [injection Hj as <-; first [reflexivity|discriminate N]|]); destruct j; discriminate Hj|]).
    destruct i; discriminate Hi.
  - destruct i; discriminate Hi.
Qed.
Lemma two_supported : supported two_env two_types.
Proof.
  assert (Leaf : forall t, (match under two_env t with RtPtr _ | RtSlice _ | RtMap _ _ => False | _ => True end) -> Acc (eager two_env) t).
  { intros t H. constructor. intros e He. unfold eager in He. destruct (under two_env t); contradiction. }
  assert (LeafD : forall t, (match under two_env t with RtPtr _ | RtStruct _ => False | _ => True end) -> Acc (demand two_env) t).
  { intros x H. constructor. intros e He. unfold demand in He. destruct (under two_env x); contradiction. }
  constructor.
  - intros t H. unfold two_types in H. repeat (destruct H as [<-|H]; [unfold supported_kind; cbn [under Old New]; try exact I|]); try destruct H.
    + change (nd_under (te_named two_env 0)) with (RtStruct 0). cbv iota. change (te_struct two_env 0) with old_fields. split.
      * intros sf Hf. unfold tagged. change (te_uni two_env) with ascii_only.
        repeat (destruct Hf as [<-|Hf]; [left; eexists; split; [vm_compute; reflexivity|unfold two_types, Old; cbn; tauto]|]). destruct Hf.
      * right. eexists. split; [left; reflexivity|]. left. discriminate.
    + change (te_struct two_env 1) with new_fields. split.
      * intros sf Hf. unfold tagged. change (te_uni two_env) with ascii_only.
        repeat (destruct Hf as [<-|Hf]; [left; eexists; split; [vm_compute; reflexivity|unfold two_types, Old; cbn; tauto]|]). destruct Hf.
      * right. eexists. split; [left; reflexivity|]. left. discriminate.
    + right. unfold two_types, Old; cbn; tauto.
    + unfold two_types, Old; cbn; tauto.
    + right. unfold two_types, Old; cbn; tauto.
    + unfold two_types, Old; cbn; tauto.
  - assert (PO : Acc (eager two_env) (RtPtr Old)) by (constructor; intros e ->; apply Leaf; exact I).
    intros t H. unfold two_types in H. repeat (destruct H as [<-|H]; [first [exact PO|apply Leaf; exact I|idtac]|]); try destruct H.
    + constructor. intros e [_ ->]. exact PO.
    + constructor. intros e [_ ->]. apply Leaf; exact I.
    + constructor. intros e ->. apply Leaf; exact I.
  - assert (N : Acc (demand two_env) Old).
    { constructor. intros e (sf & Hf & -> & _). change (te_struct two_env 0) with old_fields in Hf.
      repeat (destruct Hf as [<-|Hf]; [apply LeafD; exact I|]). destruct Hf. }
    assert (U : Acc (demand two_env) (RtPtr RtUint32)) by (constructor; intros e ->; apply LeafD; exact I).
    intros t H. unfold two_types in H. repeat (destruct H as [<-|H]; [first [exact N|exact U|apply LeafD; exact I|idtac]|]); try destruct H.
    + constructor. intros e (sf & Hf & -> & _). change (te_struct two_env 1) with new_fields in Hf.
      repeat (destruct Hf as [<-|Hf]; [first [exact U|apply LeafD; exact I]|]). destruct Hf.
    + constructor. intros e ->. exact N.
Qed.
Lemma two_compatible : compatible two_env Old New.
Proof.
  destruct (C54_reflexive two_env two_types Old two_unique two_supported ltac:(left; reflexivity)) as (R0 & R1 & R2).
  exists (fun x y => In (x, y) [(Old, New); (RtInt32, RtPtr RtUint32); (RtSlice (RtPtr Old), RtSlice Old); (RtPtr Old, Old)] \/ R0 x y).
  split; [left; left; reflexivity|].
  assert (Mono : forall x y (S : rtype -> rtype -> Prop), (forall a b, R0 a b -> S a b) -> R0 x y -> agree two_env S x y).
  { intros x y S HS H. apply (agree_sym two_env (fun a b => S b a)); [auto|]. apply (agree_sym two_env R0); auto. }
  intros x y [H|H]; [|apply Mono; auto].
  destruct H as [E|[E|[E|[E|[]]]]]; injection E as <- <-.
  - apply (ag_struct _ _ Old New 0 1); [reflexivity|reflexivity|]. intros f g id r q Hf Hg Df Dg. left.
    apply declares_tagged, (two_ids O f _ Hf) in Df. apply declares_tagged, (two_ids 1%nat g _ Hg) in Dg. cbn [fo_id] in *.
    cbn [In] in Df, Dg. repeat (destruct Df as [Df|Df]); try contradiction; try discriminate Df; injection Df as _ ? Ef;
      repeat (destruct Dg as [Dg|Dg]); try contradiction; try discriminate Dg; injection Dg as _ ? Eg; try congruence;
      rewrite <- Ef, <- Eg; cbn; auto.
  - apply (ag_scalar _ _ _ _ T_I32); [apply tt_i32; auto|apply (tt_ptr _ _ RtUint32); [reflexivity|apply tt_i32; auto]|cbn; intuition discriminate].
  - apply (ag_slice _ _ _ _ (RtPtr Old) Old); try reflexivity; try (intros [X _]; discriminate). left. cbn. auto.
  - apply (ag_left _ _ _ _ Old); [reflexivity|]. apply Mono; auto.
Qed.
(** Old{ID: -1, Name: "n", Subs: {nil, {ID: 2}}} *)
Definition old_value : gval :=
  GStruct [GInt (-1); GString (lit "n"); GSlice false [GPtr None; GPtr (Some (GStruct [GInt 2; GString []; GSlice true [] []]))] []].
Example C54_sample : env_ok two_env /\ unique_ids two_env /\ supported two_env two_types /\ two_types Old /\ two_types New /\
  has_type two_env old_value Old /\ fits two_env (2 ^ 31) old_value Old /\ fits two_env (2 ^ 63) old_value Old /\
  passes two_env (Old, old_value) Old old_value /\ has_type two_env (zero two_env New) New /\
  compatible two_env Old New /\ compatible two_env New Old /\
  exists tv, stands_for two_env Old old_value tv /\
    stores two_env New (GStruct [GSlice true [] []; GPtr None; GString (lit "kept")]) tv
      (GStruct [GSlice false [GStruct [GInt 0; GString []; GSlice true [] []]; GStruct [GInt 2; GString []; GSlice true [] []]]
                         [GStruct [GInt 0; GString []; GSlice true [] []]];
                GPtr (Some (GInt 4294967295)); GString (lit "kept")]).
Proof.
  conj; [exact two_ok|exact two_unique|exact two_supported|left; reflexivity|right; left; reflexivity|vm_compute; intuition discriminate| | |
    |apply zero_typed, two_ok|exact two_compatible|apply C54_symmetric, two_compatible|].
  - apply fits_check. vm_compute. reflexivity.
  - apply fits_check. vm_compute. reflexivity.
  - right. auto.
  - exists (VStruct [(1, VI32 (-1)); (2, VString (lit "n")); (3, VList T_Struct [VStruct []; VStruct [(1, VI32 2)]])]). split.
    + apply (image_stands two_env two_ok 9 9 Old (AStruct Old)); [exists 1%nat; reflexivity|vm_compute; intuition discriminate|vm_compute; reflexivity].
    + apply (decode_stores two_env two_types two_supported two_ok two_unique (2 ^ 31) 9 9 (AStruct New)).
      * vm_compute; intuition discriminate.
      * right; left; reflexivity.
      * exists 1%nat. reflexivity.
      * vm_compute; intuition discriminate.
      * vm_compute. reflexivity.
Qed.
