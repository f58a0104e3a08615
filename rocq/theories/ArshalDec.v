(** What Unmarshal makes of a Thrift value, independently of the Reader that
    delivers it. *)
From Coq Require Import Strings.String.
From Verif Require Import Base BaseLemmas Prog Wire WireProof Spec Clients Reads GoFloat Utf8
  GoType Fields Arshal GoTypeProof FieldsProof.

Section Dec.
Context (env : tenv) (ln : nat).
Notation ures := (gval * option err)%type.

Definition mismatch (t : rtype) (dst : gval) (tv : tval) : option ures :=
  Some (dst, Some (sem "unmarshal" (val_type tv) t None)).

Section Decode.
Context (rec : arsh -> gval -> tval -> option ures).

Fixpoint decode_fields (m : nat) (fs : list structField) (vs : list gval) (tfs : list (Z * tval)) : option ures :=
  match tfs with
  | [] => Some (GStruct vs, None)
  | (id, tv) :: r =>
      match by_id fs id with
      | None => if Nat.leb (vsize tv) m then decode_fields m fs vs r else None
      | Some f =>
          match nth_error vs (f_index f) with
          | None => None
          | Some v =>
              match rec (f_fncs f) v tv with
              | None => None
              | Some (v', Some e) => Some (GStruct (set_nth (f_index f) v' vs), Some e)
              | Some (v', None) => decode_fields m fs (set_nth (f_index f) v' vs) r
              end
          end
      end
  end.

Fixpoint decode_entries (t : rtype) (ka va : arsh) (es : list (gval * gval)) (tes : list (tval * tval))
  : option (list (gval * gval) * option err) :=
  match tes with
  | [] => Some (es, None)
  | (tk, tv) :: r =>
      match rec ka (zero env (key_type env t)) tk with
      | None => None
      | Some (_, Some e) => Some (es, Some e)
      | Some (k, None) =>
          match rec va (match map_get es k with Some v => v | None => zero env (elem_type env t) end) tv with
          | None => None
          | Some (v, Some e) => Some (map_set es k v, Some e)
          | Some (v, None) => decode_entries t ka va (map_set es k v) r
          end
      end
  end.

Fixpoint decode_elems (t : rtype) (ea : arsh) (i : nat) (arr : list gval) (mz : bool) (tes : list tval)
  : option ures :=
  match tes with
  | [] => Some (GSlice false (firstn i arr) (skipn i arr), None)
  | tv :: r =>
      let '(arr, mz) :=
        if Nat.eqb i (length arr)
        then (arr ++ repeat (zero env (elem_type env t)) (S (te_grow env (length arr))), false)
        else (arr, mz) in
      match rec ea (if mz then zero env (elem_type env t) else nth i arr (GOther 0)) tv with
      | None => None
      | Some (v', Some e) =>
          Some (GSlice false (firstn (S i) (set_nth i v' arr)) (skipn (S i) (set_nth i v' arr)), Some e)
      | Some (v', None) => decode_elems t ea (S i) (set_nth i v' arr) mz r
      end
  end.
End Decode.

(** The new value of the destination and the error ([None]: a panic, or too
    little fuel). *)
Fixpoint decode (n : nat) (a : arsh) (dst : gval) (tv : tval) : option ures :=
  match n with
  | O => None
  | S m =>
      match a with
      | ABool t => match tv with VBool b => Some (GBool b, None) | _ => mismatch t dst tv end
      | ADouble t single =>
          match tv with
          | VDouble y => Some ((if single then GF32 (f64_to_f32 y) else GF64 y), None)
          | _ => mismatch t dst tv
          end
      | AInt t w =>
          match w, tv with
          | W8, VByte b => Some (GInt (width_signed w (b2z b)), None)
          | W16, VI16 z | W32, VI32 z | W64, VI64 z => Some (GInt (width_signed w z), None)
          | _, _ => mismatch t dst tv
          end
      | AUint t w =>
          match w, tv with
          | W8, VByte b => Some (GInt (width_unsigned w (b2z b)), None)
          | W16, VI16 z | W32, VI32 z | W64, VI64 z => Some (GInt (width_unsigned w z), None)
          | _, _ => mismatch t dst tv
          end
      | AString t => match tv with VString s => Some (GString s, None) | _ => mismatch t dst tv end
      | ABytes t =>
          match tv with
          | VString s =>
              Some (GBytes (match dst, s with GBytes true _ _, [] => true | _, _ => false end) s [], None)
          | _ => mismatch t dst tv
          end
      | AUUID t =>
          match tv with
          | VUUID u =>
              match dst with
              | GUUID old => if Nat.eqb (length old) 16 then Some (GUUID u, None) else None
              | _ => None
              end
          | _ => mismatch t dst tv
          end
      | AStruct t =>
          match make_struct_fields env ln t with
          | None => None
          | Some (inr e) => Some (dst, Some (with_action "unmarshal" e))
          | Some (inl fs) =>
              match tv with
              | VStruct tfs =>
                  match dst with
                  | GStruct vs =>
                      if Nat.ltb (length tfs) n then decode_fields (decode m) m fs vs tfs else None
                  | _ => None
                  end
              | _ => mismatch t dst tv
              end
          end
      | AMap t ka va =>
          match tv with
          | VMap _ _ tes =>
              match dst with
              | GMap o =>
                  match tes with
                  | [] => Some (dst, None)
                  | _ =>
                      match decode_entries (decode m) t ka va (match o with Some es => es | None => [] end) tes with
                      | None => None
                      | Some (es, e) => Some (GMap (Some es), e)
                      end
                  end
              | _ => None
              end
          | _ => mismatch t dst tv
          end
      | ASeq t set ea =>
          match (match tv, set with VSet _ tes, true | VList _ tes, false => Some tes | _, _ => None end) with
          | Some tes =>
              match dst with
              | GSlice nl es sp =>
                  match tes with
                  | [] => Some (GSlice nl [] (es ++ sp), None)
                  | _ => decode_elems (decode m) t ea O (es ++ sp) true tes
                  end
              | _ => None
              end
          | None => mismatch t dst tv
          end
      | APtr t ea =>
          match dst with
          | GPtr o =>
              match decode m ea (match o with Some v => v | None => zero env (elem_type env t) end) tv with
              | None => None
              | Some (v', e) => Some (GPtr (Some v'), e)
              end
          | _ => None
          end
      | AInvalid t => Some (dst, Some (sem "unmarshal" (val_type tv) t None))
      end
  end.

(** ** Unmarshal computes it, from any Reader that delivers the value *)
Section Run.
Context {St : Type} (h : handler wireR St).

Definition lands (r : ures) (s' s'' : St) : Prop := snd r = None -> s'' = s'.

Lemma run_rdu0 {A} act wt t (e : wireR (option err)) (fail : err -> A) k s s' :
  h _ e s = Done s' None -> run h (rdu0 act wt t e fail k) s = run h k s'.
Proof. intros H. unfold rdu0. rewrite run_vis, H. reflexivity. Qed.

Lemma run_rdu {X A} act wt t (e : wireR (X * option err)) (fail : X -> err -> A) k s s' x :
  h _ e s = Done s' (x, None) -> run h (rdu act wt t e fail k) s = run h (k x) s'.
Proof. intros H. unfold rdu. rewrite run_vis, H. reflexivity. Qed.

Lemma check_ok wt t dst k s : run h (check wt wt t dst k) s = run h k s.
Proof. unfold check. now rewrite Z.eqb_refl. Qed.

Ltac miss := match goal with H : mismatch _ _ _ = Some ?r |- _ =>
    injection H as <-; eexists; split; [reflexivity|intros Hl; discriminate Hl] end.

Theorem unmarshal_reads n : forall a dst tv r s s', decode n a dst tv = Some r -> reads h tv s s' ->
  exists s'', run h (unmarshal env ln n a dst (val_type tv)) s = Done s'' r /\ lands r s' s''.
Proof.
  induction n as [|n IH]; intros a dst tv r s s' H Hr; [discriminate|].
  destruct a as [t|t|t single|t w|t w|t|t|t|t|t ka va|t set ea|t ea]; cbn [decode] in H; cbn [unmarshal].
  - injection H as <-. eexists. split; [reflexivity|]. intros Hl; discriminate Hl.
  - destruct tv; try miss. injection H as <-. cbn [val_type]. change 2 with T_Bool. rewrite check_ok.
    unfold scalar. erewrite run_rdu by exact Hr. eexists. split; [reflexivity|now intros _].
  - destruct tv; try miss. injection H as <-. cbn [val_type]. change 4 with T_Double. rewrite check_ok.
    unfold scalar. erewrite run_rdu by exact Hr. eexists. split; [reflexivity|now intros _].
  - destruct w, tv; try miss; injection H as <-; cbn [val_type].
    all: match goal with |- context [check _ ?w] => change (val_type (VBool true)) with T_Bool; rewrite (check_ok w) end.
    all: unfold scalar; erewrite run_rdu by exact Hr; eexists; (split; [reflexivity|now intros _]).
  - destruct w, tv; try miss; injection H as <-; cbn [val_type].
    all: match goal with |- context [check _ ?w] => rewrite (check_ok w) end.
    all: unfold scalar; erewrite run_rdu by exact Hr; eexists; (split; [reflexivity|now intros _]).
  - destruct tv; try miss. injection H as <-. cbn [val_type]. change 11 with T_String. rewrite check_ok.
    destruct Hr as (Hr & _ & _).
    unfold scalar. erewrite run_rdu by exact Hr. eexists. split; [reflexivity|now intros _].
  - destruct tv; try miss. injection H as <-. cbn [val_type]. change 11 with T_String. rewrite check_ok.
    destruct Hr as (_ & Hr & _).
    unfold scalar. erewrite run_rdu by exact (Hr []). eexists. split; [reflexivity|now intros _].
  - destruct tv; try miss. cbn [val_type]. change 16 with T_UUID. rewrite check_ok.
    destruct dst; try discriminate. destruct (Nat.eqb_spec (length u0) 16); [|discriminate]. injection H as <-.
    destruct Hr as (Hr & _). erewrite run_rdu by (apply Hr; assumption).
    eexists. split; [reflexivity|now intros _].
  - destruct (make_struct_fields env ln t) as [[fs|e]|]; [| |discriminate].
    2:{ injection H as <-. eexists. split; [reflexivity|intros Hl; discriminate Hl]. }
    destruct tv as [| | | | | | | |tfs| | |]; try miss. cbn [val_type]. change 12 with T_Struct. rewrite check_ok.
    destruct dst as [| | | | | | | | | | |vs|]; try discriminate.
    destruct (Nat.ltb_spec (length tfs) (S n)) as [Hlt|]; [|discriminate].
    destruct Hr as (s1 & nm & H0 & Hr). erewrite run_rdu by exact H0. rewrite run_bind.
    change (reads_fields h s' tfs s1) in Hr.
    enough (G : exists s'', run h (loop_nat (S n) (unmarshal_field (unmarshal env ln n) (skip n) t fs) vs) s1
                            = Done s'' (inr r) /\ lands r s' s'').
    { destruct G as (s'' & E & L). rewrite E. cbn. eauto. }
    clear H0. revert vs s1 H Hr. generalize dependent (S n). intros k Hlt. revert tfs Hlt.
    induction k as [|k IHk]; intros tfs Hlt vs s1 H Hr; [lia|]. cbn [loop_nat]. rewrite run_bind.
    destruct tfs as [|[id tv] r']; cbn [decode_fields] in H.
    + injection H as <-. destruct Hr as (s2 & hd & H1 & H2 & H3). unfold unmarshal_field at 1.
      erewrite run_rdu by exact H1. rewrite H2. change (T_Stop =? T_Stop) with true. cbn iota.
      erewrite run_rdu0 by exact H3. eexists. split; [reflexivity|now intros _].
    + destruct Hr as (s2 & s3 & s4 & nm' & H1 & H2 & H3 & H4). change (reads_fields h s' r' s4) in H4.
      unfold unmarshal_field at 1. erewrite run_rdu by exact H1. cbn [fh_type fh_id].
      rewrite val_type_not_stop. cbn [length] in Hlt.
      destruct (by_id fs id) as [f|].
      * destruct (nth_error vs (f_index f)) as [v|]; [|discriminate].
        destruct (decode n (f_fncs f) v tv) as [[v' e]|] eqn:D; [|discriminate].
        destruct (IH _ _ _ _ _ _ D H2) as (s3' & E & L). rewrite run_bind, E. cbn [obind].
        destruct e as [e|].
        -- injection H as <-. cbn. eexists. split; [reflexivity|intros Hl; discriminate Hl].
        -- rewrite (L eq_refl). erewrite run_rdu0 by exact H3. cbn [run obind]. apply IHk with r'; auto; lia.
      * destruct (Nat.leb_spec (vsize tv) n); [|discriminate].
        rewrite run_bind, (skip_reads h tv n s2 s3) by auto. cbn [obind].
        erewrite run_rdu0 by exact H3. cbn [run obind]. apply IHk with r'; auto; lia.
  - destruct tv as [| | | | | | | | |kt vt tes| |]; try miss. cbn [val_type]. change 13 with T_Map. rewrite check_ok.
    destruct dst as [| | | | | | | | |o| | |]; try discriminate.
    destruct Hr as (s1 & H0 & Hr). erewrite run_rdu by exact H0. cbn [map_size].
    change (reads_entries h kt vt s' tes s1) in Hr.
    destruct tes as [|e0 r0].
    { change (zlen [] >? 0) with false. cbn iota. injection H as <-. cbn in Hr.
      erewrite run_rdu0 by exact Hr. eexists. split; [reflexivity|now intros _]. }
    destruct (Z.gtb_spec (zlen (e0 :: r0)) 0) as [_|Hz]; [|rewrite zlen_cons in Hz; pose proof (zlen_nonneg r0); lia].
    revert H Hr. generalize (e0 :: r0) as tes. intros tes H Hr.
    destruct (decode_entries (decode n) t ka va (match o with Some es => es | None => [] end) tes) as [[es e]|] eqn:D;
      [|discriminate]. injection H as <-.
    rewrite run_bind, run_loop_Z.
    replace (Z.to_nat (zlen tes)) with (length tes) by (unfold zlen; lia).
    set (body := unmarshal_entry _ _ _ _ _ _).
    enough (G : match e with
                | None => exists s2, run h (loop_nat (length tes) body
                    (match o with Some es => es | None => [] end)) s1 = Done s2 (inl es) /\
                    h _ RMapEnd s2 = Done s' None
                | Some _ => exists s2, run h (loop_nat (length tes) body
                    (match o with Some es => es | None => [] end)) s1 = Done s2 (inr (GMap (Some es), e))
                end).
    { destruct e as [e|].
      - destruct G as (s2 & E). rewrite E. eexists. split; [reflexivity|intros Hl; discriminate Hl].
      - destruct G as (s2 & E & E2). rewrite E. cbn [obind]. erewrite run_rdu0 by exact E2.
        eexists. split; [reflexivity|now intros _]. }
    clear H0. generalize dependent (match o with Some es => es | None => [] end). intros es0.
    revert es0 s1 Hr. induction tes as [|[tk tv] r' IHr]; intros es0 s1 Hr D; cbn [decode_entries] in D.
    + injection D as <- <-. cbn. exists s1. auto.
    + destruct Hr as (Tk & Tv & s2 & s3 & R1 & R2 & R3). change (reads_entries h kt vt s' r' s3) in R3.
      cbn [length loop_nat]. unfold body at 1 3. unfold unmarshal_entry at 1 2. cbn [map_key map_val].
      rewrite <- Tk, <- Tv. rewrite !run_bind.
      destruct (decode n ka (zero env (key_type env t)) tk) as [[k ek]|] eqn:Dk; [|discriminate].
      destruct (IH _ _ _ _ _ _ Dk R1) as (s2' & E & L). rewrite !E. cbn [obind].
      destruct ek as [ek|].
      { injection D as <- <-. eexists; reflexivity. }
      rewrite (L eq_refl), !run_bind.
      destruct (decode n va _ tv) as [[v' ev]|] eqn:Dv; [|discriminate].
      destruct (IH _ _ _ _ _ _ Dv R2) as (s3' & E' & L'). rewrite !E'. cbn [obind].
      destruct ev as [ev|].
      { injection D as <- <-. eexists; reflexivity. }
      rewrite (L' eq_refl). cbn [run obind]. apply IHr; auto.
  - set (o := match tv, set with VSet _ tes, true | VList _ tes, false => Some tes | _, _ => None end) in H.
    destruct o as [tes|] eqn:Eo; subst o.
    2:{ injection H as <-. assert (val_type tv =? (if set then T_Set else T_List) = false).
        { destruct tv, set; try reflexivity; discriminate. }
        cbn zeta. unfold check. rewrite H. eexists. split; [reflexivity|intros Hl; discriminate Hl]. }
    assert (Tw : val_type tv = if set then T_Set else T_List) by (destruct tv, set; try reflexivity; discriminate).
    cbn zeta. rewrite Tw, check_ok. destruct dst as [| | | | | | | |nl es sp| | | |]; try discriminate.
    assert (R : exists s1 et, h _ (if set then RSetBegin else RListBegin) s = Done s1 (mkSetH et (zlen tes), None) /\
       reads_elems h (if set then RSetEnd else RListEnd) et s' tes s1).
    { destruct tv, set; try discriminate; injection Eo as ->; destruct Hr as (s1 & R1 & R2); eauto. }
    clear Hr Eo Tw tv. destruct R as (s1 & et & H0 & Hr). erewrite run_rdu by exact H0. cbn [set_size set_elem].
    destruct tes as [|e0 r0].
    { change (zlen [] >? 0) with false. cbn iota. injection H as <-. cbn in Hr.
      erewrite run_rdu0 by exact Hr. eexists. split; [reflexivity|now intros _]. }
    destruct (Z.gtb_spec (zlen (e0 :: r0)) 0) as [_|Hz]; [|rewrite zlen_cons in Hz; pose proof (zlen_nonneg r0); lia].
    revert H Hr. generalize (e0 :: r0) as tes. intros tes H Hr.
    rewrite run_bind, run_loop_Z.
    replace (Z.to_nat (zlen tes)) with (length tes) by (unfold zlen; lia).
    set (body := unmarshal_elem _ _ _ _ _). clear H0.
    enough (G : match snd r with
                | None => exists s2 i arr mz, run h (loop_nat (length tes) body (O, es ++ sp, true)) s1
                      = Done s2 (inl (i, arr, mz)) /\ fst r = GSlice false (firstn i arr) (skipn i arr) /\
                    h _ (if set then RSetEnd else RListEnd) s2 = Done s' None
                | Some _ => exists s2, run h (loop_nat (length tes) body (O, es ++ sp, true)) s1
                      = Done s2 (inr r)
                end).
    { destruct r as [g [e|]]; cbn [fst snd] in G.
      - destruct G as (s2 & E). rewrite E. eexists. split; [reflexivity|intros Hl; discriminate Hl].
      - destruct G as (s2 & i & arr & mz & E & -> & E2). rewrite E. cbn [obind]. erewrite run_rdu0 by exact E2.
        eexists. split; [reflexivity|now intros _]. }
    generalize dependent (es ++ sp). generalize O, true.
    revert s1 Hr. induction tes as [|tv r' IHr]; intros s1 Hr i mz arr D; cbn [decode_elems] in D.
    + injection D as <-. cbn. exists s1, i, arr, mz. auto.
    + destruct Hr as (Te & s2 & R1 & R3). change (reads_elems h (if set then RSetEnd else RListEnd) et s' r' s2) in R3.
      cbn [length loop_nat]. unfold body at 1 3. unfold unmarshal_elem at 1 2.
      destruct (if Nat.eqb i (length arr)
        then (arr ++ repeat (zero env (elem_type env t)) (S (te_grow env (length arr))), false)
        else (arr, mz)) as [arr1 mz1].
      rewrite <- Te. rewrite !run_bind.
      destruct (decode n ea _ tv) as [[v' ev]|] eqn:Dv; [|discriminate].
      destruct (IH _ _ _ _ _ _ Dv R1) as (s3' & E' & L'). rewrite !E'. cbn [obind].
      destruct ev as [ev|].
      { injection D as <-. cbn. eexists; reflexivity. }
      rewrite (L' eq_refl). cbn [run obind]. apply IHr; auto.
  - destruct dst as [| | | | | | | | | |o| |]; try discriminate.
    destruct (decode n ea _ tv) as [[v' e]|] eqn:D; [|discriminate]. injection H as <-.
    destruct (IH _ _ _ _ _ _ D Hr) as (s'' & E & L). rewrite run_bind, E. cbn. eexists. split; [reflexivity|exact L].
Qed.
End Run.
End Dec.
