(** Marshal then Unmarshal. *)
From Coq Require Import Strings.String Znumtheory.
From Verif Require Import Base BaseLemmas Prog Wire WireProof Spec Clients Reads CompactProof RoundTrip GoFloat FloatProof Utf8
  GoType Fields Arshal GoTypeProof FieldsProof ArshalSpec ArshalEnc ArshalDec.

(** ** Tags *)
Lemma parse_digits_nonneg s : forall acc n, 0 <= acc -> parse_digits acc s = Some n -> 0 <= n.
Proof.
  induction s as [|b r IH]; intros acc n Ha H; cbn [parse_digits] in H; [injection H as <-; lia|].
  unfold digit_val, in_range in H. destruct (Z.leb_spec 48 (b2z b)), (Z.leb_spec (b2z b) 57); cbn [andb] in H; try discriminate.
  apply IH in H; lia.
Qed.

Lemma parse_int16_range s z : parse_int16 s = Some z -> is_i16 z.
Proof.
  unfold parse_int16. intros H.
  destruct (match s with x2d :: r => (true, r) | x2b :: r => (false, r) | _ => (false, s) end) as [neg digits].
  destruct digits as [|d ds]; [discriminate|].
  destruct (parse_digits 0 (d :: ds)) as [n|] eqn:P; [|discriminate].
  apply parse_digits_nonneg in P; [|lia]. unfold is_i16. destruct neg.
  - destruct (Z.leb_spec n (2 ^ 15)); [injection H as <-|discriminate]. lia.
  - destruct (Z.ltb_spec n (2 ^ 15)); [injection H as <-|discriminate]. lia.
Qed.

Lemma tagged_id env sf o : tagged env sf o -> is_i16 (fo_id o).
Proof.
  unfold tagged, parse_field_options.
  destruct (bytes_eqb _ _); [discriminate|]. destruct (negb _); [intros H; discriminate H|].
  destruct (parse_int16 _) as [z|] eqn:P; [|discriminate]. destruct (parse_options _ _ _ _ _ _).
  intros H. injection H as <- _. cbn. eapply parse_int16_range; eauto.
Qed.

(** ** Field tables *)
Lemma by_id_in fs f : NoDup (map f_id fs) -> In f fs -> by_id fs (f_id f) = Some f.
Proof.
  intros Hn Hf. unfold by_id.
  destruct (find (fun g => f_id g =? f_id f) (rev fs)) as [g|] eqn:E.
  - apply find_some in E as [Hg He]. apply Z.eqb_eq in He. apply in_rev in Hg. f_equal.
    apply in_split in Hf as (l1 & l2 & ->). rewrite map_app in Hn. cbn in Hn.
    apply NoDup_remove_2 in Hn. rewrite <- map_app in Hn.
    apply in_app_or in Hg as [Hg|[Hg|Hg]]; auto; exfalso; apply Hn; rewrite <- He; apply in_map, in_or_app; auto.
  - exfalso. assert (Hr : In f (rev fs)) by now apply in_rev in Hf.
    pose proof (find_none _ _ E f Hr) as Hc. cbn in Hc. rewrite Z.eqb_refl in Hc. discriminate.
Qed.

Lemma NoDup_map_inj {A B} (f : A -> B) l : NoDup l ->
  (forall x y, In x l -> In y l -> f x = f y -> x = y) -> NoDup (map f l).
Proof.
  induction 1 as [|x l Hx Hl IH]; intros Hi; cbn; constructor.
  - intros Hin. apply in_map_iff in Hin as (y & E & Hy). apply Hx. rewrite (Hi x y); cbn; auto.
  - apply IH. intros y z Hy Hz. apply Hi; cbn; auto.
Qed.

Lemma Forall2_len {A B} (R : A -> B -> Prop) l m : Forall2 R l m -> length l = length m.
Proof. induction 1; cbn; auto. Qed.

Lemma Forall2_weaken {A B} (R S : A -> B -> Prop) l m :
  (forall x y, R x y -> S x y) -> Forall2 R l m -> Forall2 S l m.
Proof. induction 2; constructor; auto. Qed.

Section Trip.
Context (env : tenv) (ln : nat).

(** ** More fuel does no harm *)
Section Mono.
Context (rec rec' : arsh -> gval -> tval -> option (gval * option err)).
Hypothesis Hrec : forall a d tv r, rec a d tv = Some r -> rec' a d tv = Some r.

Lemma decode_fields_more m m' fs : (m <= m')%nat -> forall tfs vs r,
  decode_fields rec m fs vs tfs = Some r -> decode_fields rec' m' fs vs tfs = Some r.
Proof using Hrec.
  intros Hm. induction tfs as [|[id tv] l IH]; intros vs r H; cbn [decode_fields] in *; [exact H|].
  destruct (by_id fs id) as [f|].
  - destruct (nth_error vs (f_index f)) as [v|]; [|discriminate].
    destruct (rec (f_fncs f) v tv) as [[v' e]|] eqn:E; [|discriminate]. rewrite (Hrec _ _ _ _ E).
    destruct e; auto.
  - destruct (Nat.leb_spec (vsize tv) m); [|discriminate].
    destruct (Nat.leb_spec (vsize tv) m'); [|lia]. auto.
Qed.

Lemma decode_entries_more t ka va : forall tes es r,
  decode_entries env rec t ka va es tes = Some r -> decode_entries env rec' t ka va es tes = Some r.
Proof using Hrec.
  induction tes as [|[tk tv] l IH]; intros es r H; cbn [decode_entries] in *; [exact H|].
  destruct (rec ka _ tk) as [[k ek]|] eqn:Ek; [|discriminate]. rewrite (Hrec _ _ _ _ Ek).
  destruct ek; [exact H|].
  destruct (rec va _ tv) as [[v ev]|] eqn:Ev; [|discriminate]. rewrite (Hrec _ _ _ _ Ev).
  destruct ev; auto.
Qed.

Lemma decode_elems_more t ea : forall tes i arr mz r,
  decode_elems env rec t ea i arr mz tes = Some r -> decode_elems env rec' t ea i arr mz tes = Some r.
Proof using Hrec.
  induction tes as [|tv l IH]; intros i arr mz r H; cbn [decode_elems] in *; [exact H|].
  destruct (if Nat.eqb i (length arr)
        then (arr ++ repeat (zero env (elem_type env t)) (S (te_grow env (length arr))), false)
        else (arr, mz)) as [arr1 mz1].
  destruct (rec ea _ tv) as [[v ev]|] eqn:Ev; [|discriminate]. rewrite (Hrec _ _ _ _ Ev).
  destruct ev; auto.
Qed.
End Mono.

Lemma decode_more n : forall m a dst tv r, (n <= m)%nat -> decode env ln n a dst tv = Some r -> decode env ln m a dst tv = Some r.
Proof.
  induction n as [|n IH]; intros m a dst tv r Hm H; [discriminate|].
  destruct m as [|m]; [lia|].
  assert (R : forall a d tv r, decode env ln n a d tv = Some r -> decode env ln m a d tv = Some r)
    by (intros; apply IH; auto; lia).
  destruct a as [t|t|t single|t w|t w|t|t|t|t|t ka va|t set ea|t ea]; cbn [decode] in *; try exact H.
  - destruct (make_struct_fields env ln t) as [[fs|e]|]; try exact H.
    destruct tv; try exact H. destruct dst; try exact H.
    destruct (Nat.ltb_spec (length fields) (S n)); [|discriminate].
    destruct (Nat.ltb_spec (length fields) (S m)); [|lia].
    apply (decode_fields_more _ _ R n m); [lia|exact H].
  - destruct tv; try exact H. destruct dst; try exact H. destruct entries as [|e0 r0]; [exact H|].
    destruct (decode_entries _ (decode env ln n) _ _ _ _ _) as [[es e]|] eqn:E; [|discriminate].
    erewrite decode_entries_more by eauto. exact H.
  - destruct (match tv, set with VSet _ tes, true | VList _ tes, false => Some tes | _, _ => None end) as [tes|]; [|exact H].
    destruct dst; try exact H. destruct tes; [exact H|]. eapply decode_elems_more; eauto.
  - destruct dst; try exact H. destruct (decode env ln n ea _ tv) as [[v e]|] eqn:E; [|discriminate].
    now rewrite (R _ _ _ _ E).
Qed.

(** ** The types of an empty map make no difference *)
Lemma decode_canon n : forall a dst tv, decode env ln n a dst (canon tv) = decode env ln n a dst tv.
Proof.
  induction n as [|n IH]; intros a dst tv; [reflexivity|].
  assert (M : forall t, mismatch t dst (canon tv) = mismatch t dst tv)
    by (intros; unfold mismatch; now rewrite canon_val_type).
  destruct a as [t|t|t single|t w|t w|t|t|t|t|t ka va|t set ea|t ea]; cbn [decode].
  - now rewrite canon_val_type.
  - destruct tv as [| | | | | | | | |? ? []| |]; auto.
  - destruct tv as [| | | | | | | | |? ? []| |]; auto.
  - destruct w, tv as [| | | | | | | | |? ? []| |]; auto.
  - destruct w, tv as [| | | | | | | | |? ? []| |]; auto.
  - destruct tv as [| | | | | | | | |? ? []| |]; auto.
  - destruct tv as [| | | | | | | | |? ? []| |]; auto.
  - destruct tv as [| | | | | | | | |? ? []| |]; auto.
  - destruct (make_struct_fields env ln t) as [[fs|e]|]; auto.
    destruct tv as [| | | | | | | |tfs|? ? []| |]; auto.
    cbn [canon]. destruct dst; auto. rewrite map_length. destruct (Nat.ltb (length tfs) (S n)); auto.
    clear M. revert fs0. induction tfs as [|[id tv] r IHr]; intros vs; [reflexivity|]. cbn [map fst snd decode_fields].
    destruct (by_id fs id) as [f|].
    + destruct (nth_error vs (f_index f)); auto. rewrite IH.
      destruct (decode env ln n (f_fncs f) g tv) as [[v' [e|]]|]; auto.
    + rewrite canon_vsize. destruct (Nat.leb (vsize tv) n); auto.
  - destruct tv as [| | | | | | | | |kt vt tes| |]; auto.
    destruct dst; try (destruct tes; auto; fail). destruct tes as [|e0 r0]; auto.
    change (canon (VMap kt vt (e0 :: r0))) with
      (VMap kt vt (map (fun e => (canon (fst e), canon (snd e))) (e0 :: r0))).
    cbn [map]. cbv iota beta.
    change ((canon (fst e0), canon (snd e0)) :: map (fun e => (canon (fst e), canon (snd e))) r0)
      with (map (fun e => (canon (fst e), canon (snd e))) (e0 :: r0)).
    enough (E : forall es, decode_entries env (decode env ln n) t ka va es (map (fun e => (canon (fst e), canon (snd e))) (e0 :: r0)) =
       decode_entries env (decode env ln n) t ka va es (e0 :: r0)) by now rewrite E.
    generalize (e0 :: r0). clear -IH. induction l as [|[k v] r IHr]; intros es; [reflexivity|].
    cbn [map fst snd decode_entries]. rewrite IH.
    destruct (decode env ln n ka _ k) as [[k' [e|]]|]; auto. rewrite IH.
    destruct (decode env ln n va _ v) as [[v' [e|]]|]; auto.
  - assert (El : forall tes i arr mz, decode_elems env (decode env ln n) t ea i arr mz (map canon tes) =
        decode_elems env (decode env ln n) t ea i arr mz tes).
    { induction tes as [|v r IHr]; intros i arr mz; [reflexivity|]. cbn [map decode_elems].
      destruct (if Nat.eqb i (length arr)
        then (arr ++ repeat (zero env (elem_type env t)) (S (te_grow env (length arr))), false)
        else (arr, mz)) as [arr1 mz1]. rewrite IH.
      destruct (decode env ln n ea _ v) as [[v' [e|]]|]; auto. }
    destruct tv as [| | | | | | | | |? ? []|et tes|et tes]; auto; destruct set; auto; cbn [canon];
      destruct tes as [|e0 r0]; auto; cbn [map]; cbv iota beta; change (canon e0 :: map canon r0) with (map canon (e0 :: r0));
      destruct dst; auto.
  - destruct dst; auto. now rewrite IH.
Qed.

(** ** Integers *)
Lemma width_signed_val t w z : has_type env (GInt z) t -> under env t = width_int w ->
  match w with
  | W8 => width_signed W8 (b2z (z2b z)) = z
  | W16 => width_signed W16 (i16 z) = z
  | W32 => width_signed W32 (i32 z) = z
  | W64 => width_signed W64 (i64 z) = z
  end.
Proof.
  intros H U. cbn [has_type] in H. rewrite U in H. destruct w; cbn [width_int width_signed] in *.
  - rewrite b2z_z2b. unfold i8, is_i8 in *. rewrite Zplus_mod_idemp_l. rewrite Z.mod_small; lia.
  - now rewrite !(i16_id z) by auto.
  - now rewrite !(i32_id z) by auto.
  - now rewrite !(i64_id z) by auto.
Qed.

Lemma width_unsigned_val t w z : has_type env (GInt z) t -> under env t = width_uint w ->
  match w with
  | W8 => width_unsigned W8 (b2z (z2b z)) = z
  | W16 => width_unsigned W16 (i16 z) = z
  | W32 => width_unsigned W32 (i32 z) = z
  | W64 => width_unsigned W64 (i64 z) = z
  end.
Proof.
  intros H U. cbn [has_type] in H. rewrite U in H.
  assert (D : forall a k, 0 <= k <= 64 -> (a mod 2 ^ 64) mod 2 ^ k = a mod 2 ^ k).
  { intros a k Hk. symmetry. apply Zmod_div_mod; try (apply Z.pow_pos_nonneg; lia).
    exists (2 ^ (64 - k)). rewrite <- Z.pow_add_r by lia. f_equal. lia. }
  destruct w; cbn [width_uint width_unsigned] in *; unfold u8, u16, u32, u64 in *;
    unfold is_u8, is_u16, is_u32, is_u64 in *.
  - rewrite D by lia. rewrite b2z_z2b. rewrite Z.mod_mod by lia. apply Z.mod_small; lia.
  - rewrite D by lia. rewrite i16_mod_eq. apply Z.mod_small; lia.
  - rewrite D by lia. rewrite i32_mod_eq. apply Z.mod_small; lia.
  - rewrite i64_mod_eq. apply Z.mod_small; lia.
Qed.

(** ** Slices: the elements do not depend on what was there before *)
Section Elems.
Context (rec : arsh -> gval -> tval -> option (gval * option err)) (t : rtype) (ea : arsh).

Fixpoint seq_dec (tes : list tval) : option (list gval * option err) :=
  match tes with
  | [] => Some ([], None)
  | tv :: r =>
      match rec ea (zero env (elem_type env t)) tv with
      | None => None
      | Some (v, Some e) => Some ([v], Some e)
      | Some (v, None) =>
          match seq_dec r with None => None | Some (l, e) => Some (v :: l, e) end
      end
  end.

Lemma firstn_set_nth {A} (x : A) l : forall i, (i < length l)%nat ->
  firstn (S i) (set_nth i x l) = firstn i l ++ [x].
Proof. induction l as [|y r IH]; intros [|i] H; cbn in *; try lia; auto. f_equal. rewrite <- IH by lia. reflexivity. Qed.

Lemma decode_elems_dec tes : forall i arr mz, (i <= length arr)%nat ->
  (mz = false -> forall j, (i <= j < length arr)%nat -> nth_error arr j = Some (zero env (elem_type env t))) ->
  match seq_dec tes with
  | None => decode_elems env rec t ea i arr mz tes = None
  | Some (l, e) => exists sp, decode_elems env rec t ea i arr mz tes = Some (GSlice false (firstn i arr ++ l) sp, e)
  end.
Proof.
  induction tes as [|tv r IH]; intros i arr mz Hi Hz; cbn [seq_dec decode_elems].
  - exists (skipn i arr). now rewrite app_nil_r.
  - set (p := if Nat.eqb i (length arr)
        then (arr ++ repeat (zero env (elem_type env t)) (S (te_grow env (length arr))), false)
        else (arr, mz)).
    assert (P : (i < length (fst p))%nat /\ firstn i (fst p) = firstn i arr /\
      (snd p = false -> forall j, (i <= j < length (fst p))%nat -> nth_error (fst p) j = Some (zero env (elem_type env t)))).
    { unfold p. destruct (Nat.eqb_spec i (length arr)) as [->|Hne]; cbn [fst snd].
      - rewrite app_length, repeat_length. conj; [lia| |].
        + rewrite firstn_app, Nat.sub_diag. cbn [firstn]. now rewrite app_nil_r.
        + intros _ j Hj. rewrite nth_error_app2 by lia. apply nth_error_repeat_lt. lia.
      - conj; auto. lia. }
    destruct p as [arr1 mz1]. cbn [fst snd] in P. destruct P as (P1 & P2 & P3). cbv iota beta.
    assert (V : (if mz1 then zero env (elem_type env t) else nth i arr1 (GOther 0)) = zero env (elem_type env t)).
    { destruct mz1; [reflexivity|]. apply nth_error_nth. apply P3; auto. }
    rewrite V. destruct (rec ea (zero env (elem_type env t)) tv) as [[v' [e|]]|]; [| |reflexivity].
    + eexists. rewrite firstn_set_nth, P2 by lia. reflexivity.
    + specialize (IH (S i) (set_nth i v' arr1) mz1). rewrite set_nth_length, firstn_set_nth, P2 in IH by lia.
      destruct (seq_dec r) as [[l e]|].
      * destruct IH as (sp & E); [lia| |].
        { intros Hm j Hj. rewrite set_nth_other by lia. apply P3; auto. lia. }
        exists sp. rewrite E, <- app_assoc. reflexivity.
      * apply IH; [lia|]. intros Hm j Hj. rewrite set_nth_other by lia. apply P3; auto. lia.
Qed.

Lemma seq_dec_ok tes vs : Forall2 (fun tv v => rec ea (zero env (elem_type env t)) tv = Some (v, None)) tes vs ->
  seq_dec tes = Some (vs, None).
Proof. induction 1 as [|tv v r l H Hr IH]; cbn [seq_dec]; [reflexivity|]. now rewrite H, IH. Qed.
End Elems.

(** ** Zero values have only zero components *)
Hypothesis Henv : env_ok env.

Lemma zero_inside v t x u : inside env v t x u -> v = zero env t -> x = zero env u.
Proof using Henv.
  induction 1 as [| t e nl es sp w x u U Hw Hi IH| t kt e es k w x u U Hw Hi IH | t kt e es k w x u U Hw Hi IH
    | t e w x u U Hi IH| t s i sf vs w x u U Hs Hw Hi IH]; intros E; auto;
    rewrite (zero_eq env Henv t), U in E; try discriminate.
  - destruct (as_bytes env t); [discriminate|]. injection E as -> -> ->. contradiction.
  - injection E as ->. apply IH. rewrite nth_error_map, Hs in Hw. now injection Hw as <-.
Qed.

Lemma zero_keys t : keys_distinct env (zero env t) t.
Proof using Henv.
  intros es u k e Hi U. apply zero_inside in Hi; [|reflexivity]. rewrite (zero_eq env Henv u), U in Hi. discriminate.
Qed.

Lemma zero_array t k e : under env t = RtArray k e ->
  zero env t = GUUID zero_uuid \/ exists l, zero env t = GArray l.
Proof using Henv.
  intros U. rewrite (zero_eq env Henv t), U.
  destruct k as [|p|p]; eauto.
  do 5 (try (destruct p as [p|p|]; eauto)). destruct e; eauto.
Qed.

Lemma zero_fits lim t : 0 < lim -> fits env lim (zero env t) t.
Proof using Henv.
  intros Hl x u Hi. apply zero_inside in Hi; [|reflexivity]. subst x.
  destruct (under env u) as [| | | | | | | | | | | | | | | | | | | | |elem|k elem|kt elem|elem|sid|id] eqn:U;
    try (rewrite (zero_eq env Henv u), U; exact I); try (rewrite (zero_eq env Henv u), U; exact Hl).
  - rewrite (zero_eq env Henv u), U. destruct (as_bytes env u); exact Hl.
  - destruct (zero_array _ _ _ U) as [->|[l ->]]; exact I.
Qed.

(** ** The trip *)
Hypothesis Hids : unique_ids env.

Lemma table t fs : make_struct_fields env ln t = Some (inl fs) ->
  NoDup (map f_id fs) /\ NoDup (map f_index fs) /\
  (forall f, In f fs -> exists sf o, nth_error (struct_def env t) (f_index f) = Some sf /\ tagged env sf o /\
     codec env (sf_type sf) (f_fncs f) /\ f_typ f = sf_type sf /\ f_id f = fo_id o /\ f_required f = fo_required o /\
     (forall v, field_zero env f v = zero_field env sf v)) /\
  (forall i sf o, nth_error (struct_def env t) i = Some sf -> tagged env sf o -> exists f, In f fs /\ f_index f = i).
Proof using Henv Hids.
  intros H. destruct (fields_spec env Henv ln t fs H) as (F1 & F2 & _).
  assert (F3 : forall f, In f fs -> exists sf o, nth_error (struct_def env t) (f_index f) = Some sf /\ tagged env sf o /\
     codec env (sf_type sf) (f_fncs f) /\ f_typ f = sf_type sf /\ f_id f = fo_id o /\ f_required f = fo_required o /\
     (forall v, field_zero env f v = zero_field env sf v)).
  { intros f Hf. apply F1 in Hf as (j & sf & o & a & N & S & L & ->). exists sf, o. cbn. conj; auto; [now exists ln|].
    apply zero_field_model. }
  conj; auto.
  - apply NoDup_map_inj; [now apply NoDup_map_inv in F2|].
    intros f g Hf Hg E. destruct (F3 f Hf) as (sf & o & N & T & C & A1 & A2 & A3 & _).
    destruct (F3 g Hg) as (sf' & o' & N' & T' & C' & A1' & A2' & A3' & _).
    assert (I : f_index f = f_index g).
    { unfold struct_def in N, N'. destruct (under env t) as [| | | | | | | | | | | | | | | | | | | | | | | | |s|];
        try (destruct (f_index f); discriminate). eapply (Hids s); eauto. congruence. }
    clear -F2 Hf Hg I. apply in_split in Hf as (l1 & l2 & ->). rewrite map_app in F2. cbn in F2.
    apply NoDup_remove_2 in F2. rewrite <- map_app in F2.
    apply in_app_or in Hg as [Hg|[Hg|Hg]]; auto; exfalso; apply F2; rewrite I; apply in_map, in_or_app; auto.
  - intros i sf o N T.
    destruct (fields_inl env ln t fs H) as (l & C & E).
    destruct (collect_spec env ln t _ _ _ C) as (_ & _ & H3 & _). destruct (H3 _ _ _ N T) as (a & L).
    eexists. split; [apply F1; exists i, sf, o, a; conj; eauto|]. reflexivity.
Qed.

Section Fields.
Context (n : nat) (t : rtype) (fs : list structField) (vs : list gval) (zs : list gval).
Hypothesis Htab : make_struct_fields env ln t = Some (inl fs).
Hypothesis IH : forall u a v tv, (exists i sf, nth_error (struct_def env t) i = Some sf /\ u = sf_type sf /\ nth_error vs i = Some v) ->
  codec env u a -> image env ln n a v = Some tv ->
  exists m v', decode env ln m a (zero env u) tv = Some (v', None) /\ trip env u v v'.

Lemma fields_trip r : incl r fs -> NoDup (map f_index r) -> forall l, image_fields env (image env ln n) vs r = Some l ->
  forall cs, length cs = length vs ->
  (forall f, In f r -> nth_error cs (f_index f) = Some (zero env (f_typ f))) ->
  exists m cs', decode_fields (decode env ln m) m fs cs l = Some (GStruct cs', None) /\ length cs' = length cs /\
    (forall i, ~ In i (map f_index r) -> nth_error cs' i = nth_error cs i) /\
    (forall f v, In f r -> nth_error vs (f_index f) = Some v ->
       if negb (f_required f) && field_zero env f v then nth_error cs' (f_index f) = nth_error cs (f_index f)
       else exists v', nth_error cs' (f_index f) = Some v' /\ trip env (f_typ f) v v').
Proof using Henv Hids Htab IH.
  destruct (table _ _ Htab) as (T1 & T2 & T3 & T4).
  induction r as [|f r IHr]; intros Hin Hnd l Hl cs Hlen Hz; cbn [image_fields] in Hl.
  - injection Hl as <-. exists O, cs. cbn. conj; auto. intros f v [].
  - destruct (wire_type (f_fncs f) =? T_Stop); [discriminate|].
    destruct (nth_error vs (f_index f)) as [v|] eqn:Nv; [|discriminate].
    inversion Hnd as [|? ? Hni Hnd']; subst. assert (Hin' : incl r fs) by (intros g Hg; apply Hin; now right).
    destruct (negb (f_required f) && field_zero env f v) eqn:Z.
    + destruct (IHr Hin' Hnd' l Hl cs Hlen) as (m & cs' & D & L & A & B); [intros g Hg; apply Hz; now right|].
      exists m, cs'. conj; auto.
      * intros i Hi. apply A. intros Hc. apply Hi. now right.
      * intros g w [<-|Hg] Hw; [|now apply B].
        rewrite Nv in Hw. injection Hw as <-. rewrite Z. apply A. exact Hni.
    + destruct (image env ln n (f_fncs f) v) as [tv|] eqn:Ev; [|discriminate].
      destruct (image_fields env (image env ln n) vs r) as [l'|] eqn:El; [|discriminate]. injection Hl as <-.
      assert (Hff : In f fs) by (apply Hin; now left).
      destruct (T3 f Hff) as (sf & o & N & Tg & C & A1 & A2 & A3 & A4).
      destruct (IH (sf_type sf) (f_fncs f) v tv) as (m1 & v' & D1 & Tr); auto.
      { exists (f_index f), sf. auto. }
      assert (Hlt : (f_index f < length cs)%nat).
      { rewrite Hlen. apply nth_error_Some. congruence. }
      destruct (IHr Hin' Hnd' l' eq_refl (set_nth (f_index f) v' cs)) as (m2 & cs' & D & L & A & B).
      { now rewrite set_nth_length. }
      { intros g Hg. rewrite set_nth_other; [apply Hz; now right|]. intros E. apply Hni. rewrite E. now apply in_map. }
      exists (m1 + m2)%nat, cs'. rewrite set_nth_length in L. conj; auto.
      * cbn [decode_fields]. rewrite by_id_in by auto. rewrite (Hz f) by now left.
        rewrite A1. rewrite (decode_more m1 (m1 + m2) _ _ _ _ ltac:(lia) D1).
        apply (decode_fields_more (decode env ln m2) (decode env ln (m1 + m2)))
          with (m := m2); [|lia|exact D].
        intros a d tv0 r0 H0. apply (decode_more m2); [lia|exact H0].
      * intros i Hi. rewrite A by (intros Hc; apply Hi; now right). apply set_nth_other.
        intros E. apply Hi. now left.
      * intros g w [<-|Hg] Hw.
        -- rewrite Nv in Hw. injection Hw as <-. rewrite Z. exists v'. split; [|now rewrite A1].
           rewrite A by exact Hni. now apply set_nth_same.
        -- specialize (B g w Hg Hw). destruct (negb (f_required g) && field_zero env g w); [|exact B].
           rewrite B. apply set_nth_other. intros E. apply Hni. rewrite E. now apply in_map.
Qed.
End Fields.

Lemma map_get_none es k : Forall (fun p => key_eq k (fst p) = false) es -> map_get es k = None.
Proof. induction 1 as [|[k' v] r H Hr IH]; cbn in *; [reflexivity|]. now rewrite H. Qed.
Lemma map_set_fresh es k v : Forall (fun p => key_eq k (fst p) = false) es -> map_set es k v = es ++ [(k, v)].
Proof. induction 1 as [|[k' v'] r H Hr IH]; cbn in *; [reflexivity|]. now rewrite H, IH. Qed.

Theorem decode_image n : forall t a v tv, codec env t a -> has_type env v t -> keys_distinct env v t ->
  image env ln n a v = Some tv ->
  exists m v', decode env ln m a (zero env t) tv = Some (v', None) /\ trip env t v v'.
Proof using Henv Hids.
  induction n as [|n IH]; intros t a v tv Hc Ht Hk H; [discriminate|].
  pose proof (codec_inv env t a Hc) as Hi. pose proof (zero_eq env Henv t) as Hz.
  destruct a as [t'|t'|t' single|t' w|t' w|t'|t'|t'|t'|t' ka va|t' set ea|t' ea].
  - destruct v; discriminate.
  - destruct Hi as [-> U]. destruct v; try discriminate. injection H as <-.
    exists 1%nat. eexists. split; [reflexivity|constructor].
  - destruct Hi as [-> U]. destruct v, single; try discriminate; injection H as <-.
    + exists 1%nat. eexists. split; [reflexivity|]. rewrite f32_round_trip; [constructor|].
      cbn [has_type] in Ht. rewrite U in Ht. exact Ht.
    + exists 1%nat. eexists. split; [reflexivity|constructor].
  - destruct Hi as [-> U]. destruct v; try discriminate. cbn [image] in H. injection H as <-.
    pose proof (width_signed_val t w z Ht U) as E.
    exists 1%nat, (GInt z). split; [|constructor]. destruct w; cbn [decode width_val]; now rewrite E.
  - destruct Hi as [-> U]. destruct v; try discriminate. cbn [image] in H. injection H as <-.
    pose proof (width_unsigned_val t w z Ht U) as E.
    exists 1%nat, (GInt z). split; [|constructor]. destruct w; cbn [decode width_val]; now rewrite E.
  - destruct Hi as [-> U]. destruct v; try discriminate. injection H as <-.
    exists 1%nat. eexists. split; [reflexivity|constructor].
  - destruct Hi as (-> & U & B). destruct v as [| | | | |nl s sp| | | | | | |]; try discriminate. injection H as <-.
    exists 1%nat. eexists. rewrite Hz, U, B. cbn [decode]. split; [reflexivity|].
    replace (match s with [] => true | _ :: _ => false end) with (is_nil s) by reflexivity. constructor.
  - destruct Hi as (-> & U). destruct v as [| | | | | |u| | | | | |]; try discriminate. injection H as <-.
    exists 1%nat. eexists. rewrite Hz, U. cbn [decode]. split; [reflexivity|constructor].
  - destruct Hi as (-> & s & U). destruct v as [| | | | | | | | | | |vs|]; try discriminate. cbn [image] in H.
    destruct (make_struct_fields env ln t) as [[fs|]|] eqn:M; try discriminate.
    destruct (image_fields env (image env ln n) vs fs) as [l|] eqn:E; [|discriminate]. injection H as <-.
    destruct (table _ _ M) as (T1 & T2 & T3 & T4).
    assert (SD : struct_def env t = te_struct env s) by (unfold struct_def; now rewrite U). rewrite SD in T3, T4.
    apply type_struct in Ht as (s' & U' & Ht). rewrite U in U'. injection U' as <-.
    assert (HI : forall u a v tv, (exists i sf, nth_error (struct_def env t) i = Some sf /\ u = sf_type sf /\ nth_error vs i = Some v) ->
      codec env u a -> image env ln n a v = Some tv ->
      exists m v', decode env ln m a (zero env u) tv = Some (v', None) /\ trip env u v v').
    { intros u a v tv (i & sf & N & -> & Nv) Hca Him. rewrite SD in N. apply (IH (sf_type sf) a v tv); auto.
      - clear -Ht N Nv. revert i N Nv. induction Ht as [|x y l m Hx Hl IHl]; intros [|i] N Nv; try discriminate.
        + injection N as <-. injection Nv as <-. exact Hx.
        + eapply IHl; eauto.
      - intros es u k e Hin. apply Hk. eapply in_field; eauto. }
    pose proof (Forall2_len _ _ _ Ht) as Hlen.
    destruct (fields_trip n t fs vs M HI fs (incl_refl _) T2 l E
                (map (fun f => zero env (sf_type f)) (te_struct env s))) as (m & cs' & D & L & A & B).
    { now rewrite map_length. }
    { intros f Hf. destruct (T3 f Hf) as (sf & o & N & Tg & C & A1 & A2 & A3 & A4).
      rewrite nth_error_map, N, A1. reflexivity. }
    exists (S (m + length l))%nat, (GStruct cs'). split.
    + cbn [decode]. rewrite M. rewrite Hz, U. cbv iota beta.
      destruct (Nat.ltb_spec (length l) (S (m + length l))); [|lia].
      apply (decode_fields_more (decode env ln m) (decode env ln (m + length l))) with (m := m); [|lia|exact D].
      intros a d tv0 r0 H0. apply (decode_more m); [lia|exact H0].
    + rewrite map_length in L. eapply trip_struct; [exact U|congruence|].
      intros i sf v v' N Nv Nv'. split.
      * intros (o & Tg & W). destruct (T4 i sf o N Tg) as (f & Hf & <-).
        destruct (T3 f Hf) as (sf' & o' & N' & Tg' & C & A1 & A2 & A3 & A4).
        rewrite N in N'. injection N' as <-. unfold tagged in Tg, Tg'. rewrite Tg in Tg'. injection Tg' as <-.
        specialize (B f v Hf Nv). rewrite A3, A4 in B.
        assert (Hw : negb (fo_required o) && zero_field env sf v = false)
          by (destruct W as [->| ->]; [reflexivity|apply andb_false_r]).
        rewrite Hw in B. destruct B as (w & Nw & Tr). rewrite Nv' in Nw. injection Nw as <-. now rewrite <- A1.
      * intros W. destruct (in_dec Nat.eq_dec i (map f_index fs)) as [Hi|Hi].
        -- apply in_map_iff in Hi as (f & <- & Hf). destruct (T3 f Hf) as (sf' & o' & N' & Tg' & C & A1 & A2 & A3 & A4).
           rewrite N in N'. injection N' as <-. specialize (B f v Hf Nv). rewrite A3, A4 in B.
           destruct (negb (fo_required o') && zero_field env sf v) eqn:Z.
           ++ rewrite B, nth_error_map, N in Nv'. now injection Nv' as <-.
           ++ exfalso. apply W. exists o'. split; [exact Tg'|].
              destruct (fo_required o'), (zero_field env sf v); auto; discriminate.
        -- rewrite (A i Hi), nth_error_map, N in Nv'. now injection Nv' as <-.
  - destruct Hi as (-> & kt & e & U & Hka & Hva). destruct v as [| | | | | | | | |o| | |]; try discriminate. cbn [image] in H.
    destruct (_ || _); [discriminate|].
    destruct (image_entries (image env ln n) ka va (match o with Some es => es | None => [] end)) as [l|] eqn:E;
      [|discriminate]. injection H as <-.
    assert (G0 : match o with Some es => es | None => [] end = [] ->
      exists m v', decode env ln m (AMap t ka va) (zero env t) (VMap (wire_type ka) (wire_type va) l) = Some (v', None) /\
        trip env t (GMap o) v').
    { intros Eo. rewrite Eo in E. cbn in E. injection E as <-. exists 1%nat, (GMap None). cbn [decode].
      rewrite Hz, U. split; [reflexivity|]. destruct o as [[|]|]; try discriminate; constructor. }
    destruct o as [[|e0 r0]|]; [now apply G0| |now apply G0]. clear G0. set (es := e0 :: r0) in *.
    apply type_map in Ht as (k' & e' & U' & Ht). rewrite U in U'. injection U' as <- <-.
    pose proof (Hk es t kt e (in_self env _ _) U) as Hd.
    assert (HIk : forall p tv, In p es -> image env ln n ka (fst p) = Some tv ->
       exists m v', decode env ln m ka (zero env kt) tv = Some (v', None) /\ trip env kt (fst p) v').
    { intros [k w] tv Hp. apply IH; auto.
      - rewrite Forall_forall in Ht. now apply Ht in Hp.
      - intros es' u k0 e1 Hin. apply Hk. eapply in_key; eauto. }
    assert (HIv : forall p tv, In p es -> image env ln n va (snd p) = Some tv ->
       exists m v', decode env ln m va (zero env e) tv = Some (v', None) /\ trip env e (snd p) v').
    { intros [k w] tv Hp. apply IH; auto.
      - rewrite Forall_forall in Ht. now apply Ht in Hp.
      - intros es' u k0 e1 Hin. apply Hk. eapply in_val; eauto. }
    assert (Kt : key_type env t = kt) by (unfold key_type; now rewrite U).
    assert (Et : elem_type env t = e) by (unfold elem_type; now rewrite U).
    enough (G : forall es l done, (forall p, In p es -> In p (e0 :: r0)) ->
      image_entries (image env ln n) ka va es = Some l ->
      ForallOrdPairs (fun p q => forall kp kq, trip env kt (fst p) kp -> trip env kt (fst q) kq -> key_eq kq kp = false) es ->
      (forall d p kp, In d done -> In p es -> trip env kt (fst p) kp -> key_eq kp (fst d) = false) ->
      exists m es', decode_entries env (decode env ln m) t ka va done l = Some (done ++ es', None) /\
        Forall2 (fun p q => trip env kt (fst p) (fst q) /\ trip env e (snd p) (snd q)) es es').
    { destruct (G es l []) as (m & es' & D & F); auto; [intros d p kp []|].
      exists (S m), (GMap (Some es')). split.
      - cbn [decode]. rewrite Hz, U. cbv iota beta. rewrite D.
        destruct l; [|reflexivity]. exfalso. cbn in E.
        destruct e0 as [k w]. destruct (image env ln n ka k), (image env ln n va w), (image_entries (image env ln n) ka va r0); discriminate.
      - eapply trip_map; eauto. discriminate. }
    clear E Hd l. intros es1. induction es1 as [|[k w] r IHr]; intros l done Hsub E Hd Hdone; cbn [image_entries] in E.
    { injection E as <-. exists O, []. cbn. rewrite app_nil_r. auto. }
    destruct (image env ln n ka k) as [tk|] eqn:Ek; [|discriminate].
    destruct (image env ln n va w) as [tw|] eqn:Ew; [|discriminate].
    destruct (image_entries (image env ln n) ka va r) as [l'|] eqn:Er; [|discriminate]. injection E as <-.
    destruct (HIk (k, w) tk) as (m1 & k' & D1 & Tk); [apply Hsub; now left|exact Ek|].
    destruct (HIv (k, w) tw) as (m2 & w' & D2 & Tw); [apply Hsub; now left|exact Ew|].
    inversion_clear Hd as [|? ? Hd1 Hd2]. cbn [fst snd] in *.
    assert (Fr : Forall (fun p => key_eq k' (fst p) = false) done).
    { apply Forall_forall. intros d Hin. apply (Hdone d (k, w)); cbn; auto. }
    destruct (IHr l' (done ++ [(k', w')])) as (m3 & es' & D3 & F3); auto.
    { intros p Hp. apply Hsub. now right. }
    { intros d p kp Hin Hp Htr. apply in_app_or in Hin as [Hin|[<-|[]]].
      - apply (Hdone d p); auto. now right.
      - cbn. rewrite Forall_forall in Hd1. apply (Hd1 p Hp k' kp); auto. }
    exists (m1 + m2 + m3)%nat, ((k', w') :: es'). split; [|now constructor].
    cbn [decode_entries]. rewrite Kt, Et. rewrite (decode_more m1 (m1 + m2 + m3) _ _ _ _ ltac:(lia) D1).
    rewrite map_get_none by exact Fr.
    rewrite (decode_more m2 (m1 + m2 + m3) _ _ _ _ ltac:(lia) D2).
    rewrite map_set_fresh by exact Fr.
    change (done ++ (k', w') :: es') with (done ++ [(k', w')] ++ es'). rewrite app_assoc.
    eapply decode_entries_more; [|exact D3].
    intros a d tv0 r1 H0. apply (decode_more m3); [lia|exact H0].
  - destruct Hi as (-> & e & U & B & Hea & Hset). destruct v as [| | | | | | | |nl es sp| | | |]; try discriminate. cbn [image] in H.
    destruct (wire_type ea =? T_Stop); [discriminate|].
    destruct (image_elems (image env ln n) ea es) as [l|] eqn:E; [|discriminate]. injection H as <-.
    apply type_slice in Ht as (e' & U' & _ & _ & Ht & _). rewrite U in U'. injection U' as <-.
    assert (Et : elem_type env t = e) by (unfold elem_type; now rewrite U).
    assert (G : exists m es', Forall2 (fun tv v' => decode env ln m ea (zero env e) tv = Some (v', None)) l es' /\
      Forall2 (trip env e) es es').
    { assert (HI : forall w tv, In w es -> image env ln n ea w = Some tv ->
        exists m v', decode env ln m ea (zero env e) tv = Some (v', None) /\ trip env e w v').
      { intros w tv Hp. apply IH; auto.
        - rewrite Forall_forall in Ht. now apply Ht in Hp.
        - intros es' u k0 e1 Hin. apply Hk. eapply in_slice; eauto. }
      clear -HI E. revert l E. induction es as [|w r IHr]; intros l E; cbn [image_elems] in E.
      { injection E as <-. exists O, []. auto. }
      destruct (image env ln n ea w) as [tw|] eqn:Ew; [|discriminate].
      destruct (image_elems (image env ln n) ea r) as [l'|] eqn:Er; [|discriminate]. injection E as <-.
      destruct (HI w tw) as (m1 & w' & D1 & Tw); [now left|exact Ew|].
      destruct (IHr ltac:(intros; apply HI; auto; now right) l' eq_refl) as (m2 & es' & F1 & F2).
      exists (m1 + m2)%nat, (w' :: es'). split; constructor; auto.
      - apply (decode_more m1); [lia|exact D1].
      - eapply Forall2_weaken; [|exact F1]. cbn. intros tv v' H. apply (decode_more m2); [lia|exact H]. }
    destruct G as (m & es' & F1 & F2).
    assert (L : is_nil es = is_nil l) by (destruct F2; destruct l; inversion F1; reflexivity).
    destruct l as [|t0 l0].
    + inversion F1 as [E1 E2|]; clear F1; rewrite <- E2 in *; clear E2. exists 1%nat. eexists. split.
      * cbn [decode]. rewrite Hz, U, B. destruct set; reflexivity.
      * inversion F2; subst es. apply (trip_slice env t e nl [] sp [] ([] ++ [])); auto.
    + pose proof (seq_dec_ok (decode env ln m) t ea (t0 :: l0) es') as Sd. rewrite Et in Sd. specialize (Sd F1).
      pose proof (decode_elems_dec (decode env ln m) t ea (t0 :: l0) 0 [] true (le_n _) ltac:(discriminate)) as De.
      rewrite Sd in De. destruct De as (sp' & De). exists (S m), (GSlice false es' sp'). split.
      * cbn [decode]. rewrite Hz, U, B. destruct set; exact De.
      * replace false with (is_nil es). eapply trip_slice; eauto.
  - destruct Hi as (-> & e & U & Hea). destruct v as [| | | | | | | | | |o| |]; try discriminate. cbn [image] in H.
    assert (Et : elem_type env t = e) by (unfold elem_type; now rewrite U). rewrite Et in H.
    destruct o as [w|].
    + destruct (IH e ea w tv) as (m & v' & D & T); auto.
      * cbn [has_type] in Ht. rewrite U in Ht. exact Ht.
      * intros es' u k0 e1 Hin. apply Hk. eapply in_ptr; eauto.
      * exists (S m), (GPtr (Some v')). split; [|eapply trip_ptr; eauto].
        cbn [decode]. rewrite Hz, U, Et. cbv iota beta. now rewrite D.
    + destruct (IH e ea (zero env e) tv) as (m & v' & D & T); auto.
      * apply (zero_typed env Henv).
      * apply zero_keys.
      * exists (S m), (GPtr (Some v')). split; [|eapply trip_nil; eauto].
        cbn [decode]. rewrite Hz, U, Et. cbv iota beta. now rewrite D.
Qed.
End Trip.
