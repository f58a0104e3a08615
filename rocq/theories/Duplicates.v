(** Structs with several fields of one id: how Unmarshal treats them. *)
From Coq Require Import Strings.String Sorting.Permutation.
From Verif Require Import Base BaseLemmas Prog Fuel Wire GoFloat Utf8 GoType Fields Arshal GoTypeProof FieldsProof
  ArshalSpec MapSpec ArshalTrip ArshalTotal ArshalSafe ArshalInput.
Local Open Scope list_scope.

(** ** Specification *)
(** The field, tagged with "-". *)
Definition left_out (sf : sfield) : sfield := mkSF (sf_name sf) (sf_exported sf) (Some (lit "-")) (sf_type sf).

(** [env'] is [env] with fields left out such that of those with one id just one remains. *)
Record one_per_id (env env' : tenv) : Prop := mkOne {
  one_fields : forall s, Forall2 (fun sf sf' => sf' = sf \/ ((exists o, tagged env sf o) /\ sf' = left_out sf)) (te_struct env s) (te_struct env' s);
  one_left : forall s sf o, In sf (te_struct env s) -> tagged env sf o ->
    exists sf' o', In sf' (te_struct env' s) /\ tagged env' sf' o' /\ fo_id o' = fo_id o;
  one_unique : unique_ids env';
  one_named : te_named env' = te_named env;
  one_iszero : te_iszero env' = te_iszero env;
  one_negzero : te_negzero env' = te_negzero env;
  one_rank : te_rank env' = te_rank env;
  one_sort : te_sort env' = te_sort env;
  one_grow : te_grow env' = te_grow env;
  one_uni : te_uni env' = te_uni env }.

(** ** Which fields remain *)
Section Thin.
Context (env : tenv).

Fixpoint thin (ch : Z -> option nat) (i : nat) (fs : list sfield) : list sfield :=
  match fs with
  | [] => []
  | sf :: r =>
      match parse_field_options (te_uni env) sf with
      | (o, false, None) => if match ch (fo_id o) with Some j => Nat.eqb j i | None => false end then sf else left_out sf
      | _ => sf
      end :: thin ch (S i) r
  end.

Fixpoint first_with (id : Z) (i : nat) (fs : list sfield) : option nat :=
  match fs with
  | [] => None
  | sf :: r =>
      match parse_field_options (te_uni env) sf with
      | (o, false, None) => if fo_id o =? id then Some i else first_with id (S i) r
      | _ => first_with id (S i) r
      end
  end.

Definition choice (n s : nat) (id : Z) : option nat :=
  match collect_fields env n (RtStruct s) 0 (te_struct env s) with
  | Some (inl all) => option_map f_index (by_id (te_sort env all) id)
  | _ => first_with id 0 (te_struct env s)
  end.

Definition thinned_env (n : nat) : tenv :=
  mkEnv (fun s => thin (choice n s) 0 (te_struct env s)) (te_named env) (te_iszero env) (te_negzero env) (te_rank env) (te_sort env)
    (te_grow env) (te_uni env).

Lemma parse_left_out sf : parse_field_options (te_uni env) (left_out sf) = (fo0, true, None).
Proof. reflexivity. Qed.

Lemma thin_nth ch fs : forall i j, nth_error (thin ch i fs) j =
  option_map (fun sf => match parse_field_options (te_uni env) sf with
    | (o, false, None) => if match ch (fo_id o) with Some m => Nat.eqb m (i + j) | None => false end then sf else left_out sf
    | _ => sf end) (nth_error fs j).
Proof.
  induction fs as [|sf r IH]; intros i [|j]; cbn [thin nth_error option_map]; auto.
  - now rewrite Nat.add_0_r.
  - rewrite IH. now replace (S i + j)%nat with (i + S j)%nat by lia.
Qed.

Lemma thin_tagged ch fs j sf o : nth_error (thin ch 0 fs) j = Some sf -> tagged env sf o ->
  nth_error fs j = Some sf /\ ch (fo_id o) = Some j.
Proof.
  rewrite thin_nth. destruct (nth_error fs j) as [x|]; [|discriminate]. cbn [option_map Nat.add]. intros H T. unfold tagged in *.
  destruct (parse_field_options (te_uni env) x) as [[ox ig] e] eqn:Px.
  destruct ig; [injection H as <-; congruence|]. destruct e as [e|]; [injection H as <-; congruence|].
  destruct (ch (fo_id ox)) as [m|] eqn:C; [destruct (Nat.eqb_spec m j) as [->|]|]; injection H as <-.
  - rewrite Px in T. injection T as <-. auto.
  - rewrite parse_left_out in T. discriminate.
  - rewrite parse_left_out in T. discriminate.
Qed.

Lemma first_with_spec id fs : forall i,
  match first_with id i fs with
  | Some j => exists k sf o, j = (i + k)%nat /\ nth_error fs k = Some sf /\ tagged env sf o /\ fo_id o = id
  | None => forall sf o, In sf fs -> tagged env sf o -> fo_id o <> id
  end.
Proof.
  induction fs as [|x r IH]; intros i; cbn [first_with]; [intros sf o []|]. specialize (IH (S i)).
  destruct (parse_field_options (te_uni env) x) as [[ox ig] e] eqn:Px.
  assert (Go : forall d, (forall o, tagged env x o -> fo_id o = id -> d = true) -> (d = true -> tagged env x ox /\ fo_id ox = id) ->
    match (if d : bool then Some i else first_with id (S i) r) with
    | Some j => exists k sf o, j = (i + k)%nat /\ nth_error (x :: r) k = Some sf /\ tagged env sf o /\ fo_id o = id
    | None => forall sf o, In sf (x :: r) -> tagged env sf o -> fo_id o <> id
    end).
  { intros [|] D1 D2; [destruct (D2 eq_refl); exists O, x, ox; conj; auto; lia|].
    destruct (first_with id (S i) r) as [j|].
    - destruct IH as (k & sf & o & -> & H). exists (S k), sf, o. split; [lia|exact H].
    - intros sf o [<-|Hin] T E; [discriminate (D1 o T E)|exact (IH sf o Hin T E)]. }
  destruct ig; [|destruct e as [e|]].
  - apply (Go false); [|discriminate]. intros o T. unfold tagged in T. rewrite Px in T. discriminate.
  - apply (Go false); [|discriminate]. intros o T. unfold tagged in T. rewrite Px in T. discriminate.
  - apply Go.
    + intros o T. unfold tagged in T. rewrite Px in T. injection T as <-. intros <-. apply Z.eqb_refl.
    + intros E. split; [exact Px|now apply Z.eqb_eq].
Qed.

Context (Henv : env_ok env).

Lemma choice_spec n s id :
  match choice n s id with
  | Some j => exists sf o, nth_error (te_struct env s) j = Some sf /\ tagged env sf o /\ fo_id o = id
  | None => forall sf o, In sf (te_struct env s) -> tagged env sf o -> fo_id o <> id
  end.
Proof using Henv.
  unfold choice. destruct (collect_fields env n (RtStruct s) 0 (te_struct env s)) as [[all|e]|] eqn:C.
  - destruct (collect_spec env _ _ _ _ _ C) as (H1 & _ & H3 & _). pose proof (ok_sort_perm env Henv all) as Pm.
    destruct (by_id (te_sort env all) id) as [f|] eqn:B; cbn [option_map].
    + unfold by_id in B. apply find_some in B as [Hf E]. apply in_rev in Hf. apply Z.eqb_eq in E.
      apply (Permutation_in f (Permutation_sym Pm)) in Hf. apply H1 in Hf as (j & sf & o & a & N & T & _ & ->). exists sf, o. cbn in *. auto.
    + intros sf o Hin T E. apply In_nth_error in Hin as (j & N). destruct (H3 j sf o N T) as (a & L).
      assert (Hf : In (mkField (0 + j) (sf_type sf) a (field_is_zero env (sf_type sf)) (fo_id o) (fo_name o) (fo_required o)) all) by (apply H1; eauto 8).
      apply (Permutation_in _ Pm) in Hf. apply in_rev in Hf. unfold by_id in B. apply (find_none _ _ B) in Hf. cbn in Hf. rewrite E, Z.eqb_refl in Hf. discriminate.
  - pose proof (first_with_spec id (te_struct env s) 0) as F. destruct (first_with _ _ _) as [j|]; [|exact F].
    destruct F as (k & sf & o & -> & F). eauto.
  - pose proof (first_with_spec id (te_struct env s) 0) as F. destruct (first_with _ _ _) as [j|]; [|exact F].
    destruct F as (k & sf & o & -> & F). eauto.
Qed.

Theorem thinned_one n : one_per_id env (thinned_env n).
Proof using Henv.
  constructor; try reflexivity.
  - intros s. cbn [te_struct thinned_env]. generalize (choice n s) as ch, (te_struct env s) as fs, O as i. intros ch fs.
    induction fs as [|sf r IH]; intros i; cbn [thin]; constructor; auto.
    destruct (parse_field_options (te_uni env) sf) as [[o ig] e] eqn:Px. destruct ig; auto. destruct e; auto.
    destruct (match ch (fo_id o) with Some m => _ | None => _ end); auto. right. split; [now exists o|reflexivity].
  - intros s sf o Hin T. pose proof (choice_spec n s (fo_id o)) as C. destruct (choice n s (fo_id o)) as [j|] eqn:E; [|now elim (C sf o)].
    destruct C as (sf' & o' & N & T' & E'). exists sf', o'. conj; auto. cbn [te_struct thinned_env]. apply (nth_error_In _ j).
    rewrite thin_nth, N. cbn [option_map Nat.add]. unfold tagged in T'. now rewrite T', E', E, Nat.eqb_refl.
  - intros s i j sf sf' o o' Ni Nj T T' E. cbn [te_struct thinned_env] in Ni, Nj.
    apply (thin_tagged _ _ _ _ o) in Ni as [_ Ni]; [|exact T]. apply (thin_tagged _ _ _ _ o') in Nj as [_ Nj]; [|exact T']. congruence.
Qed.
End Thin.

(** ** The two are read alike *)
Section Alike.
Context (env : tenv) (n : nat) (Henv : env_ok env).
Let env' := thinned_env env n.

Lemma lookup_same m t : lookup env' m t = lookup env m t.
Proof. reflexivity. Qed.

Lemma thin_types ch fs : forall i, map sf_type (thin env ch i fs) = map sf_type fs.
Proof.
  induction fs as [|sf r IH]; intros i; cbn [thin map]; f_equal; auto.
  destruct (parse_field_options (te_uni env) sf) as [[o ig] e]. destruct ig; auto. destruct e; auto. now destruct (match ch _ with Some _ => _ | None => _ end).
Qed.
Lemma zero_n_same m : forall t, zero_n env' m t = zero_n env m t.
Proof.
  induction m as [|m IH]; intros t; [reflexivity|]. cbn [zero_n]. change (under env' t) with (under env t).
  destruct (under env t) as [| | | | | | | | | | | | | | | | | | | | |e|k e|kt e|e|sid|id]; try reflexivity.
  - now rewrite IH.
  - f_equal. rewrite <- !(map_map sf_type (zero_n _ m)). cbn [te_struct thinned_env env']. rewrite thin_types. apply map_ext. exact IH.
Qed.
Lemma zero_same t : zero env' t = zero env t.
Proof. apply zero_n_same. Qed.

Lemma collect_type m t t' fs : forall i all, collect_fields env m t i fs = Some (inl all) -> collect_fields env m t' i fs = Some (inl all).
Proof.
  induction fs as [|sf r IH]; intros i all H; cbn [collect_fields] in *; [exact H|].
  destruct (parse_field_options (te_uni env) sf) as [[o ig] e]. destruct e as [e|]; [destruct ig; discriminate|]. destruct ig; [now apply IH|].
  destruct (lookup env m (sf_type sf)) as [a|]; [|discriminate]. destruct (collect_fields env m t (S i) r) as [[l|e]|] eqn:E; try discriminate.
  now rewrite (IH _ _ E).
Qed.
Lemma collect_more m m' t fs : (m <= m')%nat -> forall i all, collect_fields env m t i fs = Some all -> collect_fields env m' t i fs = Some all.
Proof.
  intros Hm. induction fs as [|sf r IH]; intros i all H; cbn [collect_fields] in *; [exact H|].
  destruct (parse_field_options (te_uni env) sf) as [[o ig] e]. destruct e as [e|]; [destruct ig; exact H|]. destruct ig; [now apply IH|].
  destruct (lookup env m (sf_type sf)) as [a|] eqn:L; [|discriminate]. rewrite (lookup_more env m m' _ _ Hm L).
  destruct (collect_fields env m t (S i) r) as [x|] eqn:E; [|discriminate]. now rewrite (IH _ _ E).
Qed.

Definition kept (ch : Z -> option nat) (f : structField) : bool :=
  match ch (f_id f) with Some j => Nat.eqb j (f_index f) | None => false end.
Lemma collect_thin ch m t fs : forall i,
  match collect_fields env m t i fs with
  | None => True
  | Some (inl all) => collect_fields env' m t i (thin env ch i fs) = Some (inl (filter (kept ch) all))
  | Some (inr e) => collect_fields env' m t i (thin env ch i fs) = Some (inr e)
  end.
Proof.
  induction fs as [|sf r IH]; intros i; cbn [collect_fields thin]; [reflexivity|]. specialize (IH (S i)).
  change (te_uni env') with (te_uni env).
  destruct (parse_field_options (te_uni env) sf) as [[o ig] e] eqn:Px.
  destruct ig.
  - rewrite Px. destruct e; [reflexivity|exact IH].
  - destruct e as [e|]; [now rewrite Px|].
    destruct (lookup env m (sf_type sf)) as [a|] eqn:L; [|exact I].
    destruct (match ch (fo_id o) with Some j => Nat.eqb j i | None => false end) eqn:K.
    + rewrite Px. rewrite lookup_same, L. destruct (collect_fields env m t (S i) r) as [[l|e]|]; [|now rewrite IH|exact I].
      rewrite IH. cbn [filter]. unfold kept at 2. cbn [f_id f_index]. now rewrite K.
    + rewrite parse_left_out. destruct (collect_fields env m t (S i) r) as [[l|e]|]; [|exact IH|exact I].
      cbn [filter]. unfold kept at 1. cbn [f_id f_index]. rewrite K. exact IH.
Qed.

Lemma kept_by_id ch all : NoDup (map f_index all) -> (forall id, ch id = option_map f_index (by_id (te_sort env all) id)) ->
  forall id, by_id (te_sort env (filter (kept ch) all)) id = by_id (te_sort env all) id.
Proof using Henv.
  intros Hn Hc id. pose proof (ok_sort_perm env Henv all) as P1. pose proof (ok_sort_perm env Henv (filter (kept ch) all)) as P2.
  assert (Nd : NoDup (map f_id (te_sort env (filter (kept ch) all)))).
  { apply (Permutation_NoDup (Permutation_map f_id P2)). apply NoDup_map_inj.
    - apply NoDup_filter. now apply NoDup_map_inv in Hn.
    - intros x y Hx Hy E. apply filter_In in Hx as [Hx Kx], Hy as [Hy Ky]. unfold kept in Kx, Ky. rewrite E in Kx.
      destruct (ch (f_id y)) as [j|]; [|discriminate]. apply Nat.eqb_eq in Kx, Ky.
      clear -Hn Hx Hy Kx Ky. subst j. symmetry in Ky. induction all as [|z l IH]; [destruct Hx|]. cbn [map] in Hn. inversion_clear Hn as [|? ? Nz Nl].
      destruct Hx as [->|Hx], Hy as [->|Hy]; auto; exfalso; apply Nz; [rewrite <- Ky|rewrite Ky]; now apply in_map. }
  destruct (by_id (te_sort env all) id) as [f|] eqn:B.
  - assert (Hf : In f all /\ f_id f = id).
    { unfold by_id in B. apply find_some in B as [Hf E]. apply in_rev in Hf. apply Z.eqb_eq in E. split; [|exact E]. now apply (Permutation_in f (Permutation_sym P1)). }
    destruct Hf as [Hf <-]. apply by_id_in; [exact Nd|]. apply (Permutation_in f P2). apply filter_In. split; [exact Hf|].
    unfold kept. now rewrite Hc, B, <- (Nat.eqb_refl (f_index f)).
  - unfold by_id. destruct (find _ (rev (te_sort env (filter _ _)))) as [g|] eqn:G; [|reflexivity]. exfalso.
    apply find_some in G as [Hg E]. apply in_rev in Hg. apply (Permutation_in g (Permutation_sym P2)) in Hg. apply filter_In in Hg as [Hg _].
    apply (Permutation_in g P1) in Hg. apply in_rev in Hg. unfold by_id in B. apply (find_none _ _ B) in Hg. congruence.
Qed.

Lemma fields_alike m t r : (m <= n)%nat -> (exists s, under env t = RtStruct s) -> make_struct_fields env m t = Some r ->
  match r with
  | inl fs => exists fs', make_struct_fields env' m t = Some (inl fs') /\ forall id, by_id fs' id = by_id fs id
  | inr e => make_struct_fields env' m t = Some (inr e)
  end.
Proof using Henv.
  intros Hm (s & U) H. unfold make_struct_fields in *. unfold struct_def in *. change (under env' t) with (under env t). rewrite U in *.
  cbn [te_struct env' thinned_env]. set (fs := te_struct env s) in *. pose proof (collect_thin (choice env n s) m t fs 0) as T. cbn zeta in *.
  destruct (collect_fields env m t 0 fs) as [[all|e]|] eqn:C; [| |discriminate].
  2:{ injection H as <-. now rewrite T. }
  rewrite T. pose proof (collect_spec env _ _ _ _ _ C) as (_ & _ & _ & _ & Nd).
  assert (Hc : forall id, choice env n s id = option_map f_index (by_id (te_sort env all) id)).
  { intros id. unfold choice. fold fs. now rewrite (collect_type n t (RtStruct s) fs 0 all (collect_more m n t fs Hm 0 _ C)). }
  pose proof (kept_by_id (choice env n s) all Nd Hc) as B. set (all' := filter (kept (choice env n s)) all) in *.
  assert (Ne : all = [] <-> all' = []).
  { split; [intros ->; reflexivity|]. intros E. destruct all as [|f l]; [reflexivity|]. exfalso. specialize (B (f_id f)). rewrite E in B.
    pose proof (ok_sort_perm env Henv []) as P0. apply Permutation_nil in P0. rewrite P0 in B. cbn in B. symmetry in B. unfold by_id in B.
    assert (Hf : In f (rev (te_sort env (f :: l)))) by (apply -> in_rev; apply (Permutation_in f (ok_sort_perm env Henv _)); now left).
    apply (find_none _ _ B) in Hf. cbv beta in Hf. rewrite Z.eqb_refl in Hf. discriminate. }
  assert (Nf : thin env (choice env n s) 0 fs = [] <-> fs = []) by (destruct fs; cbn; split; discriminate + auto).
  change (te_sort env') with (te_sort env).
  destruct fs as [|x fr] eqn:Ef.
  - cbn [thin]. injection H as <-. eexists. split; [reflexivity|exact B].
  - destruct (thin env (choice env n s) 0 (x :: fr)) as [|x' fr'] eqn:Et; [now discriminate (proj1 Nf eq_refl)|]. rewrite <- Et.
    destruct all as [|f l].
    + rewrite (proj1 Ne eq_refl) in *.
      assert (Ht : existsb has_tag (thin env (choice env n s) 0 (x :: fr)) = existsb has_tag (x :: fr)).
      { (* nothing is left out *)
        destruct (collect_spec env _ _ _ _ _ C) as (H1 & _ & H3 & _). rewrite <- Ef in *. clear -H1 H3.
        assert (G : forall j sf o, nth_error fs j = Some sf -> ~ tagged env sf o).
        { intros j sf o N T. destruct (H3 j sf o N T) as (a & L). apply (in_nil (a := mkField (0 + j) (sf_type sf) a (field_is_zero env (sf_type sf)) (fo_id o) (fo_name o) (fo_required o))).
          apply H1. eauto 8. }
        clear H1 H3. generalize (choice env n s) as ch. intros ch. generalize O as i. induction fs as [|y fs' IH]; intros i; [reflexivity|]. cbn [thin existsb].
        rewrite IH by (intros j sf o N; exact (G (S j) sf o N)). f_equal. specialize (G O y). unfold tagged in G.
        destruct (parse_field_options (te_uni env) y) as [[o ig] e]. destruct ig; auto. destruct e; auto. now elim (G o eq_refl). }
      destruct (existsb has_tag (x :: fr)) eqn:Eh; injection H as <-.
      * rewrite Et in *. rewrite Ht. eexists. split; [reflexivity|exact B].
      * rewrite Et in *. now rewrite Ht.
    + injection H as <-. rewrite Et. destruct all' as [|f' l'] eqn:Ea; [now discriminate (proj2 Ne eq_refl)|]. eexists. split; [reflexivity|exact B].
Qed.


Lemma fields_alike' m t r : (m <= n)%nat -> make_struct_fields env m t = Some r ->
  match r with
  | inl fs => exists fs', make_struct_fields env' m t = Some (inl fs') /\ forall id, by_id fs' id = by_id fs id
  | inr e => make_struct_fields env' m t = Some (inr e)
  end.
Proof using Henv.
  intros Hm H. assert (D : (exists s, under env t = RtStruct s) \/ struct_def env t = [] /\ struct_def env' t = []).
  { unfold struct_def. change (under env' t) with (under env t). destruct (under env t); eauto. }
  destruct D as [D|[D D']]; [now apply fields_alike|]. unfold make_struct_fields in *. rewrite D' . rewrite D in H. cbn in *. injection H as <-. eauto.
Qed.

Theorem unmarshal_alike m : forall k a dst wt, (k <= n)%nat -> below (unmarshal env k m a dst wt) (unmarshal env' k m a dst wt).
Proof using Henv.
  induction m as [|m IH]; intros k a dst wt Hk; [apply bl_fuel|].
  cbn [unmarshal]. destruct a as [t'|t'|t' single|t' w|t' w|t'|t'|t'|t'|t' ka va|t' set ea|t' ea]; try apply below_refl.
  - destruct (make_struct_fields env k t') as [r|] eqn:M; [|apply bl_fuel].
    pose proof (fields_alike' k t' r Hk M) as F. destruct r as [fs|e]; [|rewrite F; apply below_refl]. destruct F as (fs' & -> & B).
    apply below_check. destruct dst; try apply below_refl. apply below_rdu. intros _.
    apply below_fuel_loop; [lia|]. intros vs. unfold unmarshal_field. apply below_rdu. intros x. rewrite B.
    destruct (fh_type x =? T_Stop); [apply below_refl|]. destruct (by_id fs (fh_id x)) as [f|].
    + destruct (nth_error vs (f_index f)); [|apply below_refl]. apply below_bind; [now apply IH|].
      intros y. apply below_refl.
    + apply below_bind; [apply below_refl|]. intros y. apply below_refl.
  - apply below_check. destruct dst; try apply below_refl. apply below_rdu. intros x.
    destruct (map_size x >? 0); [|apply below_refl]. apply below_bind; [|intros y; apply below_refl].
    apply below_loop_Z. intros es. unfold unmarshal_entry. change (key_type env' t') with (key_type env t'). change (elem_type env' t') with (elem_type env t').
    rewrite !zero_same. apply below_bind; [now apply IH|]. intros [kk [er|]]; [apply below_refl|].
    apply below_bind; [now apply IH|]. intros y. apply below_refl.
  - apply below_check. destruct dst; try apply below_refl. apply below_rdu. intros x.
    destruct (set_size x >? 0); [|apply below_refl]. apply below_bind; [|intros y; apply below_refl].
    apply below_loop_Z. intros [[i arr] mz]. unfold unmarshal_elem. change (elem_type env' t') with (elem_type env t'). change (te_grow env') with (te_grow env).
    rewrite !zero_same.
    destruct (if Nat.eqb i (length arr) then _ else _) as [arr1 mz1]. apply below_bind; [now apply IH|]. intros y. apply below_refl.
  - destruct dst; try apply below_refl. change (elem_type env' t') with (elem_type env t'). rewrite zero_same.
    apply below_bind; [now apply IH|]. intros y. apply below_refl.
Qed.

Theorem Unmarshal_alike k m o : (k <= n)%nat -> below (Unmarshal env k m o) (Unmarshal env' k m o).
Proof using Henv.
  intros Hk. destruct o as [[t v]|]; [|apply below_refl]. cbn [Unmarshal]. change (is_ptr env' t) with (is_ptr env t). change (elem_type env' t) with (elem_type env t).
  destruct (is_ptr env t); [|apply below_refl].
  destruct v as [| | | | | | | | | |[v|]| |]; try apply below_refl. rewrite lookup_same. destruct (lookup env k (elem_type env t)) as [a|]; [|apply bl_fuel].
  apply below_bind; [now apply unmarshal_alike|]. intros y. apply below_refl.
Qed.
End Alike.

(** ** What carries over *)
Section Carry.
Context (env env' : tenv) (H1 : one_per_id env env').

Lemma one_under t : under env' t = under env t.
Proof using H1. unfold under. now rewrite (one_named _ _ H1). Qed.
Lemma one_types s : map sf_type (te_struct env' s) = map sf_type (te_struct env s).
Proof using H1.
  pose proof (one_fields _ _ H1 s) as F. induction F as [|x y l m Hxy F IH]; cbn [map]; f_equal; auto. destruct Hxy as [->|[_ ->]]; reflexivity.
Qed.
Lemma one_env_ok : env_ok env -> env_ok env'.
Proof using H1.
  intros [A B C D E]. constructor.
  - rewrite (one_named _ _ H1). exact A.
  - intros t k e. rewrite one_under, (one_rank _ _ H1). apply B.
  - intros t s f. rewrite one_under, (one_rank _ _ H1). intros U Hf. pose proof (in_map sf_type _ _ Hf) as Hm. rewrite one_types in Hm.
    apply in_map_iff in Hm as (g & <- & Hg). now apply (C t s g).
  - rewrite (one_sort _ _ H1). exact D.
  - rewrite (one_sort _ _ H1). exact E.
Qed.

Lemma one_tagged sf o : tagged env' sf o <-> tagged env sf o.
Proof using H1. unfold tagged. now rewrite (one_uni _ _ H1). Qed.
Lemma one_in s sf' : In sf' (te_struct env' s) -> exists sf, In sf (te_struct env s) /\ (sf' = sf \/ sf' = left_out sf).
Proof using H1.
  pose proof (one_fields _ _ H1 s) as F. induction F as [|x y l m Hxy F IH]; [intros []|]. intros [<-|Hin].
  - exists x. split; [now left|]. destruct Hxy as [->|[_ ->]]; auto.
  - destruct (IH Hin) as (sf & Hs & E). exists sf. split; [now right|exact E].
Qed.
Lemma one_in' s sf : In sf (te_struct env s) -> exists sf', In sf' (te_struct env' s) /\ (sf' = sf \/ sf' = left_out sf).
Proof using H1.
  pose proof (one_fields _ _ H1 s) as F. induction F as [|x y l m Hxy F IH]; [intros []|]. intros [<-|Hin].
  - exists y. split; [now left|]. destruct Hxy as [->|[_ ->]]; auto.
  - destruct (IH Hin) as (sf' & Hs & E). exists sf'. split; [now right|exact E].
Qed.
Lemma one_as_bytes t : as_bytes env' t = as_bytes env t.
Proof using H1. unfold as_bytes, implements_set, implements_list. now rewrite one_under, (one_named _ _ H1). Qed.
Lemma one_zero_n m : forall t, zero_n env' m t = zero_n env m t.
Proof using H1.
  induction m as [|m IH]; intros t; [reflexivity|]. cbn [zero_n]. rewrite one_under, one_as_bytes.
  destruct (under env t) as [| | | | | | | | | | | | | | | | | | | | |e|k e|kt e|e|sid|id]; try reflexivity.
  - now rewrite IH.
  - f_equal. rewrite <- !(map_map sf_type (zero_n _ m)), one_types. apply map_ext. exact IH.
Qed.
Lemma one_zero t : zero env' t = zero env t.
Proof using H1. unfold zero. rewrite (one_rank _ _ H1). apply one_zero_n. Qed.
Lemma one_is_zero v : forall b, is_zero env' b v = is_zero env b v.
Proof using H1.
  induction v as [| | | | | | |es F|nl es sp F _| |es F| |v IH|vs F|] using gval_ind'; intros inn; try reflexivity; cbn [is_zero]; rewrite ?(one_negzero _ _ H1); try reflexivity.
  - induction F as [|x l Hx F IH]; [reflexivity|]. cbn [forallb]. now rewrite Hx, IH.
  - induction F as [|x l Hx F IH]; [reflexivity|]. cbn [forallb]. now rewrite Hx, IH.
Qed.
Lemma one_written sf v : written env' sf v -> written env sf v.
Proof using H1.
  intros (o & T & H). exists o. rewrite one_tagged in T. split; [exact T|]. destruct H as [H|H]; [now left|right]. unfold zero_field in *. unfold nil_ref in *.
  rewrite one_under, (one_iszero _ _ H1), one_is_zero in H. exact H.
Qed.

Lemma Acc_sub {A} (R R' : A -> A -> Prop) x : (forall a b, R' a b -> R a b) -> Acc R x -> Acc R' x.
Proof. intros Hs H. induction H as [x _ IH]. constructor. auto. Qed.

Theorem one_supported P : supported env P -> supported env' P.
Proof using H1.
  intros [K E D]. constructor.
  - intros t Ht. specialize (K t Ht). unfold supported_kind in *. rewrite one_under, one_as_bytes.
    destruct (under env t); auto. destruct K as [K1 K2]. split.
    + intros sf' Hin. destruct (one_in _ _ Hin) as (sf & Hs & [->| ->]).
      * destruct (K1 sf Hs) as [(o & T & Ps)|(o & Ig)]; [left; exists o; rewrite one_tagged; auto|right; exists o; now rewrite (one_uni _ _ H1)].
      * right. exists fo0. reflexivity.
    + destruct K2 as [K2|(sf & Hs & K2)].
      * left. pose proof (one_fields _ _ H1 sid) as F. rewrite K2 in F. now inversion F.
      * right. destruct (one_in' _ _ Hs) as (sf' & Hs' & [->| ->]).
        -- exists sf. split; [exact Hs'|]. destruct K2 as [K2|(o & T)]; [now left|right; exists o; now apply one_tagged].
        -- exists (left_out sf). split; [exact Hs'|left; discriminate].
  - intros t Ht. apply (Acc_sub (eager env)); [|auto]. intros a b. unfold eager. rewrite one_under, one_as_bytes. auto.
  - intros t Ht. apply (Acc_sub (demand env)); [|auto]. intros a b. unfold demand. rewrite one_under. destruct (under env b); auto.
    intros (sf' & Hin & -> & W). rewrite one_zero in W. destruct (one_in _ _ Hin) as (sf & Hs & [->| ->]).
    + exists sf. conj; auto. now apply one_written.
    + exists sf. conj; auto. destruct W as (o & T & _). discriminate T.
Qed.

Lemma one_typed v : forall t, has_type env' v t <-> has_type env v t.
Proof using H1.
  induction v as [| | | | | | |es F|nl es sp F G| |es F| |v IH|vs F|] using gval_ind'; intros t; try (cbn [has_type]; rewrite ?one_under, ?one_as_bytes; reflexivity).
  - rewrite !type_array. rewrite one_under. split; intros (k & e & U & N & L & Hf); exists k, e; conj; auto;
      (eapply Forall_impl; [|exact (Forall_and F Hf)]); cbn; intros x [A B]; now apply A.
  - rewrite !type_slice. rewrite one_under, one_as_bytes. split; intros (e & U & N & L & He & Hs); exists e; conj; auto;
      first [eapply Forall_impl; [|exact (Forall_and F He)]|eapply Forall_impl; [|exact (Forall_and G Hs)]]; cbn; intros x [A B]; now apply A.
  - rewrite !type_map. rewrite one_under. split; intros (k & e & U & He); exists k, e; conj; auto;
      (eapply Forall_impl; [|exact (Forall_and F He)]); cbn; intros x [[A B] [A' B']]; split; [now apply A|now apply B|now apply A|now apply B].
  - cbn [has_type]. rewrite one_under. destruct (under env t); try reflexivity. apply IH.
  - rewrite !type_struct. rewrite one_under.
    assert (M : forall (e : tenv) l fs, Forall2 (fun v f => has_type e v (sf_type f)) l fs <-> Forall2 (has_type e) l (map sf_type fs)).
    { intros e l fs. split; revert fs; induction l as [|x l IHl]; intros fs Hf; destruct fs as [|f fs]; inversion Hf; subst; constructor; auto. }
    assert (Q : forall ts, Forall2 (has_type env') vs ts <-> Forall2 (has_type env) vs ts).
    { induction F as [|x l Hx F IHF]; intros ts; split; intros Hf; inversion Hf; subst; constructor; try (now apply Hx); now apply IHF. }
    split; intros (s & U & Hf); exists s; (split; [exact U|]); apply M; apply M in Hf; [rewrite one_types in Hf|rewrite one_types]; now apply Q.
Qed.
Lemma one_thrift t k : thrift_type env t k -> thrift_type env' t k.
Proof using H1.
  assert (I : forall t, implements_set env' t = implements_set env t /\ implements_list env' t = implements_list env t)
    by (intros u; unfold implements_set, implements_list; now rewrite (one_named _ _ H1)).
  assert (B : forall t, byte_slice env' t <-> byte_slice env t) by (intros u; unfold byte_slice; rewrite one_under; destruct (I u) as [-> ->]; reflexivity).
  induction 1; try (econstructor; rewrite ?one_under, ?(proj1 (I _)), ?B; eauto; fail).
Qed.
End Carry.
