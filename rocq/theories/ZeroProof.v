(** reflect.Value.IsZero holds of zero values. *)
From Verif Require Import Base BaseLemmas Prog Wire GoFloat GoType GoTypeProof ArshalTotal ZeroSpec.
Local Open Scope Z_scope.

Section Zero.
Context (env : tenv) (Henv : env_ok env).

Lemma is_zero_zero v : forall inner t, has_type env v t -> is_zero env inner v = true <-> without_sign env inner v = zero env t.
Proof using Henv.
  induction v as [b|z|z|z|z|nl x sp|u|es IH|nl es sp IH IH2| |es IH| |v IH|vs IH|k] using gval_ind'; intros inner t H;
    rewrite (zero_eq env Henv); cbn [is_zero without_sign].
  - cbn [has_type] in H. destruct (under env t); try contradiction. destruct b; cbn; split; congruence.
  - cbn [has_type] in H. rewrite Z.eqb_eq. destruct (under env t); try contradiction; split; congruence.
  - cbn [has_type] in H. change (2 ^ 31) with 0x80000000. destruct (under env t); try contradiction.
    destruct (Z.eqb_spec z 0), (Z.eqb_spec z 0x80000000), (te_negzero env inner); cbn [orb andb]; subst; split; congruence.
  - cbn [has_type] in H. change (2 ^ 63) with 0x8000000000000000. destruct (under env t); try contradiction.
    destruct (Z.eqb_spec z 0), (Z.eqb_spec z 0x8000000000000000), (te_negzero env inner); cbn [orb andb]; subst; split; congruence.
  - cbn [has_type] in H. destruct (under env t); try contradiction. destruct z; split; congruence.
  - cbn [has_type] in H. destruct (under env t); try contradiction. destruct H as [-> H]. destruct nl; [|split; congruence].
    destruct (H eq_refl) as [-> ->]. split; reflexivity.
  - cbn [has_type] in H. destruct (under env t) as [| | | | | | | | | | | | | | | | | | | | |elem|k elem|kt elem|elem|sid|id]; try contradiction.
    assert (E : RtArray k elem = RtArray 16 RtUint8 /\ length u = 16%nat).
    { destruct k as [|k|]; try contradiction. do 5 (destruct k as [k|k|]; try contradiction). destruct elem; try contradiction. auto. }
    destruct E as [E L]. injection E as -> ->. rewrite forallb_forall. unfold zero_uuid. rewrite <- L. clear.
    induction u as [|b u IH]; cbn; [split; [reflexivity|intros _ ? []]|]. split.
    + intros H. f_equal. assert (b = x00) as -> by (apply b2z_inj; specialize (H b (or_introl eq_refl)); apply Z.eqb_eq in H; exact H).
      f_equal. assert (G : GUUID u = GUUID (repeat x00 (length u))) by (apply IH; intros c Hc; apply H; right; exact Hc). congruence.
    + intros H. injection H as -> H. intros c [<-|Hc]; [reflexivity|]. apply IH; [f_equal; exact H|exact Hc].
  - pose proof H as H'. apply type_array in H as (k & e & U & N & L & F). rewrite U.
    assert (Z16 : match k, e with 16, RtUint8 => GUUID zero_uuid | _, _ => GArray (repeat (zero env e) (Z.to_nat k)) end = GArray (repeat (zero env e) (Z.to_nat k))).
    { clear - N U. rewrite U in N. destruct k as [|k|]; try reflexivity. do 5 (destruct k as [k|k|]; try reflexivity). destruct e; try reflexivity. congruence. }
    rewrite Z16, <- L, forallb_forall. clear - IH F Henv. induction IH as [|v es Hv _ IH]; cbn; [split; [reflexivity|intros _ ? []]|].
    inversion F; subst. specialize (IH H2). specialize (Hv true e H1). split.
    + intros H. assert (A : is_zero env true v = true) by auto. apply Hv in A. rewrite A.
      assert (B : GArray (map (without_sign env true) es) = GArray (repeat (zero env e) (length es))) by (apply IH; intros x Hx; apply H; auto).
      injection B as B. f_equal. f_equal. exact B.
    + intros H. injection H as A B. intros x [<-|Hx]; [now apply Hv|]. apply IH; [f_equal; exact B|exact Hx].
  - apply type_slice in H as (e & U & A & B & _). rewrite U, A. destruct nl; [|split; congruence]. destruct (B eq_refl) as [-> ->]. split; reflexivity.
  - cbn [has_type] in H. destruct (under env t); try contradiction. cbn. split; reflexivity.
  - cbn [has_type] in H. destruct (under env t); try contradiction. cbn. split; congruence.
  - cbn [has_type] in H. destruct (under env t); try contradiction. cbn. split; reflexivity.
  - cbn [has_type] in H. destruct (under env t); try contradiction. cbn. split; congruence.
  - apply type_struct in H as (s & U & F). rewrite U, forallb_forall. clear - IH F Henv. revert F. generalize (te_struct env s). 
    induction IH as [|v es Hv _ IH]; intros fs F; inversion F; subst; cbn; [split; [reflexivity|intros _ ? []]|].
    match goal with H : Forall2 _ es _ |- _ => specialize (IH _ H) end.
    match goal with H : has_type env v _ |- _ => specialize (Hv true _ H) end. split.
    + intros H. assert (A : is_zero env true v = true) by auto. apply Hv in A. rewrite A.
      assert (B : GStruct (map (without_sign env true) es) = GStruct (map (fun f => zero env (sf_type f)) l')) by (apply IH; intros x Hx; apply H; auto).
      injection B as B. f_equal. f_equal. exact B.
    + intros H. injection H as A B. intros x [<-|Hx]; [now apply Hv|]. apply IH; [f_equal; exact B|exact Hx].
  - cbn [has_type] in H. rewrite Nat.eqb_eq. destruct (under env t); try contradiction; split; congruence.
Qed.
End Zero.
