(** Concrete programs: type environments that meet the hypotheses of the
    marshalling theorems, and some that do not. *)
From Coq Require Import Strings.String Sorting.Permutation.
From Verif Require Import Base BaseLemmas Prog Wire WireProof Spec Clients Fuel Reads
  GoFloat Utf8 GoType Fields Arshal GoTypeProof FieldsProof ArshalSpec ArshalEnc ArshalDec ArshalTrip ArshalTotal
  ArshalThms ArshalSafe TagProof.

(** ** A sort *)
Fixpoint insert_field (f : structField) (l : list structField) : list structField :=
  match l with
  | [] => [f]
  | g :: r => if f_id f <=? f_id g then f :: g :: r else g :: insert_field f r
  end.
Definition sort_fields (l : list structField) : list structField := fold_right insert_field [] l.

Lemma insert_perm f l : Permutation (f :: l) (insert_field f l).
Proof.
  induction l as [|g r IH]; cbn; [apply Permutation_refl|]. destruct (_ <=? _); [apply Permutation_refl|].
  eapply perm_trans; [apply perm_swap|]. now apply perm_skip.
Qed.
Lemma sort_perm l : Permutation l (sort_fields l).
Proof. induction l as [|f r IH]; cbn; [constructor|]. eapply perm_trans; [apply perm_skip; exact IH|]. apply insert_perm. Qed.

Fixpoint asc (l : list structField) : Prop :=
  match l with [] => True | f :: r => Forall (fun g => f_id f <= f_id g) r /\ asc r end.
Lemma insert_asc f l : asc l -> asc (insert_field f l).
Proof.
  induction l as [|g r IH]; cbn; [intros; split; [constructor|exact I]|]. intros [H1 H2].
  destruct (Z.leb_spec (f_id f) (f_id g)).
  - cbn. split; [|auto]. constructor; [lia|]. eapply Forall_impl; [|exact H1]. cbn. intros; lia.
  - cbn. split; [|auto]. eapply Permutation_Forall; [apply insert_perm|]. constructor; [lia|exact H1].
Qed.
Lemma sort_asc l : asc (sort_fields l).
Proof. induction l as [|f r IH]; cbn; [exact I|]. now apply insert_asc. Qed.
Lemma asc_sorted l : asc l -> sorted_by_id l.
Proof.
  induction l as [|f r IH]; intros H i j x y Hij Hi Hj; [destruct i; discriminate|]. destruct H as [H1 H2].
  destruct j as [|j]; [lia|]. cbn in Hj. destruct i as [|i].
  - injection Hi as <-. rewrite Forall_forall in H1. apply H1. eapply nth_error_In; eauto.
  - cbn in Hi. apply (IH H2 i j); auto. lia.
Qed.

(** ** Environments with the given structs and defined types *)
Fixpoint ex_rank (t : rtype) : nat :=
  match t with RtArray _ e => S (ex_rank e) | RtStruct _ | RtNamed O => 2%nat | RtNamed (S _) => 1%nat | _ => O end.
Definition ex_env (structs : nat -> list sfield) (named : nat -> ndef) : tenv :=
  mkEnv structs named (fun _ => None) (fun _ => true) ex_rank sort_fields (fun n => n) ascii_only.

Definition flat (t : rtype) : Prop := (ex_rank t <= 1)%nat.
Lemma ex_env_ok structs named :
  (forall s f, In f (structs s) -> flat (sf_type f)) ->
  (forall i, match nd_under (named i) with RtNamed _ | RtArray _ _ => False | RtStruct _ => i = O | _ => True end) ->
  env_ok (ex_env structs named).
Proof.
  intros Hs Hn. constructor.
  - intros i j E. specialize (Hn i). cbn in E. rewrite E in Hn. exact Hn.
  - intros t k e U. destruct t; cbn in U; try discriminate; [injection U as -> ->; cbn; lia|].
    specialize (Hn id). rewrite U in Hn. contradiction.
  - intros t s f U Hf. pose proof (Hs s f Hf) as Hr. unfold flat in Hr. change (ex_rank (sf_type f) < ex_rank t)%nat.
    destruct t as [| | | | | | | | | | | | | | | | | | | | |e|k e|kt e|e|sid|id]; cbn in U; try discriminate; cbn [ex_rank]; [lia|].
    specialize (Hn id). rewrite U in Hn. subst id. lia.
  - intros l. apply sort_perm.
  - intros l. apply asc_sorted, sort_asc.
Qed.

(** ** A program with a recursive struct, a set, a map and optional fields:
<<
type Node struct {
	Count  int32               `thrift:"1,required"`
	Scores map[string]float32  `thrift:"3"`
	Names  thrift.Set[string]  `thrift:"2"`
	Next   *Node               `thrift:"4"`
	hidden int
}
>> *)
Definition node_fields : list sfield :=
  [ mkSF (lit "Count") true (Some (lit "1,required")) RtInt32;
    mkSF (lit "Scores") true (Some (lit "3")) (RtMap RtString RtFloat32);
    mkSF (lit "Names") true (Some (lit "2")) (RtNamed 1);
    mkSF (lit "Next") true (Some (lit "4")) (RtPtr (RtNamed 0));
    mkSF (lit "hidden") false None RtInt ].
Definition node_named (i : nat) : ndef :=
  match i with
  | O => mkND (lit "Node") (RtStruct 0) false false
  | _ => mkND (lit "Set[string]") (RtSlice RtString) true false
  end.
Definition node_env : tenv := ex_env (fun s => match s with O => node_fields | _ => [] end) node_named.
Definition Node : rtype := RtNamed 0.

Lemma node_ok : env_ok node_env.
Proof.
  apply ex_env_ok.
  - intros [|s] f Hf; [|destruct Hf]. unfold flat. repeat (destruct Hf as [<-|Hf]; [cbn; lia|]). destruct Hf.
  - intros [|i]; cbn; auto.
Qed.

Definition opts_of (sf : sfield) : fieldOptions := fst (fst (parse_field_options ascii_only sf)).
Lemma node_tagged sf o : In sf node_fields -> tagged node_env sf o ->
  (sf_name sf, fo_id o, fo_required o) = (lit "Count", 1, true) \/ (sf_name sf, fo_id o, fo_required o) = (lit "Scores", 3, false) \/
  (sf_name sf, fo_id o, fo_required o) = (lit "Names", 2, false) \/ (sf_name sf, fo_id o, fo_required o) = (lit "Next", 4, false).
Proof.
  intros Hf T. unfold tagged in T. change (te_uni node_env) with ascii_only in T.
  repeat (destruct Hf as [<-|Hf]; [vm_compute in T; try discriminate; injection T as <-; vm_compute; tauto|]). destruct Hf.
Qed.

Lemma node_unique : unique_ids node_env.
Proof.
  intros [|s] i j sf sf' o o' Hi Hj T T' E; [|destruct i; discriminate].
  change (te_struct node_env 0) with node_fields in *. unfold tagged in *. change (te_uni node_env) with ascii_only in *.
  do 5 (destruct i as [|i]; [injection Hi as <-; vm_compute in T; try discriminate T; injection T as <-;
    (do 5 (destruct j as [|j]; [injection Hj as <-; vm_compute in T'; try discriminate T'; injection T' as <-; first [reflexivity|exfalso; vm_compute in E; discriminate E]|]));
    destruct j; discriminate|]).
  destruct i; discriminate.
Qed.

(** The types reachable from Node. *)
Definition node_types (t : rtype) : Prop :=
  In t [RtNamed 0; RtInt32; RtMap RtString RtFloat32; RtString; RtFloat32; RtNamed 1; RtPtr (RtNamed 0)].

Lemma eager_leaf t : (match under node_env t with RtPtr _ | RtSlice _ | RtMap _ _ => False | _ => True end) -> Acc (eager node_env) t.
Proof. intros H. constructor. intros e He. unfold eager in He. destruct (under node_env t); contradiction. Qed.
Lemma node_eager t : node_types t -> Acc (eager node_env) t.
Proof.
  intros H. repeat (destruct H as [<-|H]; [try (apply eager_leaf; exact I)|]); [| | |destruct H].
  - constructor. intros e [->| ->]; apply eager_leaf; exact I.
  - constructor. intros e [_ ->]; apply eager_leaf; exact I.
  - constructor. intros e ->; apply eager_leaf; exact I.
Qed.

Lemma node_demand t : node_types t -> Acc (demand node_env) t.
Proof.
  assert (Leaf : forall t, (match under node_env t with RtPtr _ | RtStruct _ => False | _ => True end) -> Acc (demand node_env) t).
  { intros x H. constructor. intros e He. unfold demand in He. destruct (under node_env x); contradiction. }
  assert (N : Acc (demand node_env) Node).
  { constructor. intros e (sf & Hf & -> & (o & T & W)). change (te_struct node_env 0) with node_fields in Hf.
    unfold tagged in T. change (te_uni node_env) with ascii_only in T.
    do 3 (destruct Hf as [<-|Hf]; [apply Leaf; exact I|]). destruct Hf as [<-|Hf]; [|destruct Hf as [<-|[]]; apply Leaf; exact I].
    exfalso. vm_compute in T. injection T as <-. vm_compute in W. destruct W; discriminate. }
  intros H. repeat (destruct H as [<-|H]; [first [exact N|apply Leaf; exact I|idtac]|]); [|destruct H].
  constructor. intros e ->. exact N.
Qed.

Lemma node_supported : supported node_env node_types.
Proof.
  constructor; [|exact node_eager|exact node_demand].
  intros t H. repeat (destruct H as [<-|H]; [unfold supported_kind; cbn [under]; try exact I|]); [| | | |destruct H].
  - change (nd_under (te_named node_env 0)) with (RtStruct 0). cbv iota. change (te_struct node_env 0) with node_fields. split.
    + intros sf Hf. unfold tagged. change (te_uni node_env) with ascii_only.
      do 4 (destruct Hf as [<-|Hf]; [left; eexists; split; [vm_compute; reflexivity|unfold node_types; cbn; tauto]|]).
      destruct Hf as [<-|[]]. right. eexists. vm_compute. reflexivity.
    + right. eexists. split; [left; reflexivity|]. left. discriminate.
  - unfold node_types; cbn; tauto.
  - right. unfold node_types; cbn; tauto.
  - unfold node_types; cbn; tauto.
Qed.

(** Node{Count: 7, Scores: {"a": 1.5, "b": -1}, Names: {"x", "y"}, Next: &Node{Count: 0, hidden: 9}, hidden: 5} *)
Definition node_value : gval :=
  GStruct [GInt 7;
           GMap (Some [(GString (lit "a"), GF32 0x3FC00000); (GString (lit "b"), GF32 0xBF800000)]);
           GSlice false [GString (lit "x"); GString (lit "y")] [];
           GPtr (Some (GStruct [GInt 0; GMap None; GSlice true [] []; GPtr None; GInt 9]));
           GInt 5].
Lemma node_typed : has_type node_env node_value Node.
Proof. vm_compute. intuition discriminate. Qed.

(** ** Checking all components of a value *)
Fixpoint everywhere (p : gval -> bool) (v : gval) {struct v} : bool :=
  p v &&
  match v with
  | GSlice _ es _ => forallb (everywhere p) es
  | GMap (Some es) => (fix all l := match l with [] => true | (k, w) :: r => everywhere p k && everywhere p w && all r end) es
  | GPtr (Some w) => everywhere p w
  | GStruct vs => forallb (everywhere p) vs
  | _ => true
  end.

Lemma everywhere_inside env p v t x u : inside env v t x u -> everywhere p v = true -> p x = true.
Proof.
  induction 1 as [v t|t e nl es sp w x u U Hin Hi IH|t kt e es k w x u U Hin Hi IH|t kt e es k w x u U Hin Hi IH|t e w x u U Hi IH|t s i sf vs w x u U Hn Hv Hi IH];
    intros H.
  - destruct v as [| | | | | | | | |[|]|[|]| |]; cbn [everywhere] in H; apply andb_true_iff in H; tauto.
  - cbn [everywhere] in H. apply andb_true_iff in H as [_ H]. rewrite forallb_forall in H. auto.
  - cbn [everywhere] in H. apply andb_true_iff in H as [_ H]. apply IH. clear Hi IH U. induction es as [|[k0 w0] r IHr]; [destruct Hin|].
    apply andb_true_iff in H as [H H']. apply andb_true_iff in H as [H1 H2]. destruct Hin as [E|Hin]; [congruence|auto].
  - cbn [everywhere] in H. apply andb_true_iff in H as [_ H]. apply IH. clear Hi IH U. induction es as [|[k0 w0] r IHr]; [destruct Hin|].
    apply andb_true_iff in H as [H H']. apply andb_true_iff in H as [H1 H2]. destruct Hin as [E|Hin]; [congruence|auto].
  - cbn [everywhere] in H. apply andb_true_iff in H as [_ H]. auto.
  - cbn [everywhere] in H. apply andb_true_iff in H as [_ H]. rewrite forallb_forall in H. apply IH, H. eapply nth_error_In; eauto.
Qed.

Definition fits_here (lim : Z) (x : gval) : bool :=
  match x with
  | GString s | GBytes _ s _ => zlen s <? lim
  | GSlice _ es _ => zlen es <? lim
  | GMap (Some es) => zlen es <? lim
  | _ => true
  end.
Lemma fits_check env lim v t : everywhere (fits_here lim) v = true -> fits env lim v t.
Proof.
  intros H x u Hi. pose proof (everywhere_inside _ _ _ _ _ _ Hi H) as K.
  destruct x as [| | | | | | | | |[|]| | |]; cbn in K; auto; now apply Z.ltb_lt.
Qed.

(** ** Maps whose keys are scalars *)
Definition scalar_key (k : gval) : bool :=
  match k with GBool _ | GInt _ | GF32 _ | GF64 _ | GString _ | GUUID _ => true | _ => false end.
(** Every map inside [v] has scalar keys, no two of them equal by Go's [==]: any
    Go map with such keys is like this. *)
Definition scalar_maps (env : tenv) (v : gval) (t : rtype) : Prop :=
  forall es u, inside env v t (GMap (Some es)) u ->
    Forall (fun p => scalar_key (fst p) = true) es /\ ForallOrdPairs (fun p q => key_eq (fst q) (fst p) = false) es.

Lemma quiet_nan x : f32_snan x = true -> f32_nan (x + 2 ^ 22) = true.
Proof.
  unfold f32_snan, f32_nan, f32_exp, f32_frac. rewrite !andb_true_iff, !negb_true_iff, !Z.eqb_eq, !Z.eqb_neq, Z.ltb_lt.
  intros [[He Hf] Hs]. pose proof (Z.div_mod x (2 ^ 23) ltac:(lia)) as D. pose proof (Z.mod_pos_bound x (2 ^ 23) ltac:(lia)) as B.
  assert (Q : (x + 2 ^ 22) / 2 ^ 23 = x / 2 ^ 23) by (symmetry; apply (Z.div_unique_pos _ _ _ (x mod 2 ^ 23 + 2 ^ 22)); lia).
  assert (R : (x + 2 ^ 22) mod 2 ^ 23 = x mod 2 ^ 23 + 2 ^ 22) by (symmetry; apply (Z.mod_unique_pos _ _ (x / 2 ^ 23)); lia).
  rewrite Q, R. split; [exact He|lia].
Qed.

Lemma scalar_trip env k a b a' b' : scalar_key a = true -> scalar_key b = true ->
  key_eq b a = false -> trip env k a a' -> trip env k b b' -> key_eq b' a' = false.
Proof.
  intros Ka Kb E HA HB.
  inversion HA; subst; try discriminate Ka; inversion HB; subst; try discriminate Kb; try reflexivity; try exact E.
  cbn [key_eq] in *. unfold f32_eqb in *. destruct (f32_snan x0) eqn:S0.
  - now rewrite (quiet_nan x0 S0).
  - destruct (f32_snan x) eqn:S1; [|exact E]. rewrite (quiet_nan x S1). now rewrite andb_false_r.
Qed.

Lemma scalar_keys_distinct env v t : scalar_maps env v t -> keys_distinct env v t.
Proof.
  intros H es u k e Hi U. destruct (H es u Hi) as [Hs Ho]. clear H Hi. induction Ho as [|p l Hp Hl IH]; [constructor|].
  inversion_clear Hs as [|? ? Kp Ks]. constructor; [|auto]. rewrite Forall_forall in *. intros q Hq kp kq Tp Tq.
  eapply scalar_trip; [exact Kp|exact (Ks q Hq)|exact (Hp q Hq)|exact Tp|exact Tq].
Qed.

Fixpoint distinct_keys (es : list (gval * gval)) : bool :=
  match es with
  | [] => true
  | (k, _) :: r => scalar_key k && forallb (fun q => negb (key_eq (fst q) k)) r && distinct_keys r
  end.
Definition keys_here (x : gval) : bool := match x with GMap (Some es) => distinct_keys es | _ => true end.
Lemma scalar_maps_check env v t : everywhere keys_here v = true -> scalar_maps env v t.
Proof.
  intros H es u Hi. pose proof (everywhere_inside _ _ _ _ _ _ Hi H) as K. cbn in K. clear Hi H.
  induction es as [|[k w] r IH]; [split; constructor|]. cbn in K. rewrite !andb_true_iff in K. destruct K as [[K1 K2] K3].
  destruct (IH K3). split; constructor; auto. rewrite forallb_forall in K2. apply Forall_forall. intros q Hq.
  apply K2 in Hq. cbn. now destruct (key_eq (fst q) k).
Qed.

Lemma node_keys : keys_distinct node_env node_value Node.
Proof. apply scalar_keys_distinct, scalar_maps_check. vm_compute. reflexivity. Qed.
Lemma node_fits : fits node_env (2 ^ 31) node_value Node.
Proof. apply fits_check. vm_compute. reflexivity. Qed.
