(** What Marshal writes: the Thrift value of a Go value, and that Marshal makes
    the calls that write it. *)
From Coq Require Import Strings.String.
From Verif Require Import Base BaseLemmas Prog Wire WireProof Spec Clients Reads BinaryProof GoFloat Utf8
  GoType Fields Arshal GoTypeProof FieldsProof.

Section Enc.
Context (env : tenv) (ln : nat).

Definition width_val (w : width) (z : Z) : tval :=
  match w with W8 => VByte (z2b z) | W16 => VI16 (i16 z) | W32 => VI32 (i32 z) | W64 => VI64 (i64 z) end.

Section Image.
Context (rec : arsh -> gval -> option tval).
Fixpoint image_fields (vs : list gval) (fs : list structField) : option (list (Z * tval)) :=
  match fs with
  | [] => Some []
  | f :: r =>
      if wire_type (f_fncs f) =? T_Stop then None
      else
        match nth_error vs (f_index f) with
        | None => None
        | Some v =>
            if negb (f_required f) && field_zero env f v then image_fields vs r
            else match rec (f_fncs f) v, image_fields vs r with
                 | Some tv, Some l => Some ((f_id f, tv) :: l)
                 | _, _ => None
                 end
        end
  end.
Fixpoint image_entries (ka va : arsh) (es : list (gval * gval)) : option (list (tval * tval)) :=
  match es with
  | [] => Some []
  | (k, v) :: r =>
      match rec ka k, rec va v, image_entries ka va r with
      | Some tk, Some tv, Some l => Some ((tk, tv) :: l)
      | _, _, _ => None
      end
  end.
Fixpoint image_elems (ea : arsh) (es : list gval) : option (list tval) :=
  match es with
  | [] => Some []
  | v :: r =>
      match rec ea v, image_elems ea r with
      | Some tv, Some l => Some (tv :: l)
      | _, _ => None
      end
  end.
End Image.

(** The Thrift value that [v] is written as; [None] if Marshal cannot succeed. *)
Fixpoint image (n : nat) (a : arsh) (v : gval) : option tval :=
  match n with
  | O => None
  | S m =>
      match a, v with
      | ABool _, GBool b => Some (VBool b)
      | ADouble _ true, GF32 x => Some (VDouble (f32_to_f64 x))
      | ADouble _ false, GF64 x => Some (VDouble x)
      | (AInt _ w | AUint _ w), GInt z => Some (width_val w z)
      | AString _, GString s => Some (VString s)
      | ABytes _, GBytes _ s _ => Some (VString s)
      | AUUID _, GUUID u => Some (VUUID u)
      | AStruct t, GStruct vs =>
          match make_struct_fields env ln t with
          | Some (inl fs) => option_map VStruct (image_fields (image m) vs fs)
          | _ => None
          end
      | AMap t ka va, GMap o =>
          if (wire_type ka =? T_Stop) || (wire_type va =? T_Stop) then None
          else option_map (VMap (wire_type ka) (wire_type va))
                 (image_entries (image m) ka va (match o with Some es => es | None => [] end))
      | ASeq t set ea, GSlice _ es _ =>
          if wire_type ea =? T_Stop then None
          else option_map (if set then VSet (wire_type ea) else VList (wire_type ea))
                 (image_elems (image m) ea es)
      | APtr t ea, GPtr None => image m ea (zero env (elem_type env t))
      | APtr t ea, GPtr (Some w) => image m ea w
      | _, _ => None
      end
  end.

Lemma image_type n : forall a v tv, image n a v = Some tv -> val_type tv = wire_type a.
Proof.
  induction n as [|n IH]; intros a v tv H; [discriminate|].
  destruct a as [t|t|t single|t w|t w|t|t|t|t|t ka va|t set ea|t ea];
    destruct v; try discriminate; cbn [image] in H;
    try (injection H as <-; reflexivity); try (injection H as <-; destruct w; reflexivity);
    try (destruct single; first [discriminate|injection H as <-; reflexivity]).
  - destruct (make_struct_fields env ln t) as [[fs'|]|]; try discriminate.
    destruct (image_fields _ _ _); [|discriminate]. now injection H as <-.
  - destruct (_ || _); [discriminate|]. destruct (image_entries _ _ _ _); [|discriminate]. now injection H as <-.
  - destruct (wire_type ea =? T_Stop); [discriminate|]. destruct (image_elems _ _ _); [|discriminate].
    injection H as <-. destruct set; reflexivity.
  - destruct o; exact (IH _ _ _ H).
Qed.

(** ** Marshal makes the calls that write the value *)

(** The calls Marshal makes, as a plain type. *)
Inductive wcall :=
| CStructBegin (nm : list byte) | CStructEnd | CFieldBegin (h : fhdr) | CFieldEnd
| CMapBegin (h : maphdr) | CMapEnd | CSetBegin (h : sethdr) | CSetEnd | CListBegin (h : sethdr) | CListEnd
| CBool (b : bool) | CByte (b : byte) | CDouble (z : Z) | CI16 (z : Z) | CI32 (z : Z) | CI64 (z : Z)
| CString (x : list byte) | CBytes (x : list byte) | CUUID (u : list byte).
Definition ev (c : wcall) : wireW (option err) :=
  match c with
  | CStructBegin nm => WStructBegin nm | CStructEnd => WStructEnd
  | CFieldBegin h => WFieldBegin h | CFieldEnd => WFieldEnd
  | CMapBegin h => WMapBegin h | CMapEnd => WMapEnd
  | CSetBegin h => WSetBegin h | CSetEnd => WSetEnd
  | CListBegin h => WListBegin h | CListEnd => WListEnd
  | CBool b => WBool b | CByte b => WByte b | CDouble z => WDouble z
  | CI16 z => WI16 z | CI32 z => WI32 z | CI64 z => WI64 z
  | CString x => WString x | CBytes x => WBytes x | CUUID u => WUUID u
  end.

(** The same call without its name, and with WriteString for WriteBytes. *)
Definition plain (c : wcall) : wcall :=
  match c with
  | CStructBegin _ => CStructBegin []
  | CFieldBegin h => CFieldBegin (mkFH [] (fh_type h) (fh_id h))
  | CBytes x => CString x
  | c => c
  end.

(** Related final states, and both failed or both succeeded. *)
Definition same_out {S T} (R : S -> T -> Prop) (o1 : outcome S (option err)) (o2 : outcome T (option err)) : Prop :=
  match o1, o2 with
  | Done s1 e1, Done s2 e2 => R s1 s2 /\ is_none e1 = is_none e2
  | Crashed c, Crashed d => c = d
  | _, _ => False
  end.

Section Run.
Context {S T : Type} (h : handler wireW S) (h' : handler wireW T) (R : S -> T -> Prop).

(** Names, and WriteBytes against WriteString, make no difference on these
    Writers (both protocols: below). *)
Definition nameless : Prop :=
  forall c s s', R s s' -> same_out R (h _ (ev c) s) (h' _ (ev (plain c)) s').

Lemma same_and_then p q p' q' s s' : same_out R (run h p s) (run h' p' s') ->
  (forall s s', R s s' -> same_out R (run h q s) (run h' q' s')) ->
  same_out R (run h (p >>! q) s) (run h' (p' >>! q') s').
Proof.
  intros Hp Hq. rewrite !run_and_then.
  destruct (run h p s) as [s1 e1|c], (run h' p' s') as [s2 e2|d]; cbn in *; try contradiction; auto.
  destruct Hp as [Hr He]. destruct e1, e2; cbn in *; try discriminate; auto.
Qed.

Hypothesis Hn : nameless.

Lemma same_wr c act wt t e' s s' : R s s' -> ev (plain c) = e' ->
  same_out R (run h (wr act wt t (ev c)) s) (run h' (call e') s').
Proof using Hn.
  intros Hr <-. unfold wr. rewrite run_bind, !run_call. specialize (Hn c s s' Hr).
  destruct (h _ (ev c) s) as [s1 [er|]|c1], (h' _ (ev (plain c)) s') as [s2 [er'|]|d]; cbn in *; tauto.
Qed.

Ltac sw := match goal with |- same_out _ (run _ (wr _ _ _ ?e) _) _ =>
  lazymatch e with
  | WStructBegin ?x => apply (same_wr (CStructBegin x)) | WStructEnd => apply (same_wr CStructEnd)
  | WFieldBegin ?x => apply (same_wr (CFieldBegin x)) | WFieldEnd => apply (same_wr CFieldEnd)
  | WMapBegin ?x => apply (same_wr (CMapBegin x)) | WMapEnd => apply (same_wr CMapEnd)
  | WSetBegin ?x => apply (same_wr (CSetBegin x)) | WSetEnd => apply (same_wr CSetEnd)
  | WListBegin ?x => apply (same_wr (CListBegin x)) | WListEnd => apply (same_wr CListEnd)
  | WBool ?x => apply (same_wr (CBool x)) | WDouble ?x => apply (same_wr (CDouble x))
  | width_write W8 ?x => apply (same_wr (CByte (z2b x))) | width_write W16 ?x => apply (same_wr (CI16 (i16 x)))
  | width_write W32 ?x => apply (same_wr (CI32 (i32 x))) | width_write W64 ?x => apply (same_wr (CI64 (i64 x)))
  | WString ?x => apply (same_wr (CString x)) | WBytes ?x => apply (same_wr (CBytes x))
  | WUUID ?x => apply (same_wr (CUUID x))
  end end.

Theorem marshal_image n : forall a v tv s s', image n a v = Some tv -> R s s' ->
  same_out R (run h (marshal env ln n a v) s) (run h' (write_val tv) s').
Proof using Hn.
  induction n as [|n IH]; intros a v tv s s' H Hr; [discriminate|].
  destruct a as [t|t|t single|t w|t w|t|t|t|t|t ka va|t set ea|t ea];
    destruct v as [b|z|z|z|z|nl x sp|u|es|nl es sp|o|o|vs|k]; try discriminate; cbn [image] in H; cbn [marshal];
    try (injection H as <-; sw; auto; fail);
    try (injection H as <-; destruct w; sw; auto; fail);
    try (destruct single; first [discriminate|injection H as <-; sw; auto; fail]).
  - destruct (make_struct_fields env ln t) as [[fs|]|]; try discriminate.
    destruct (image_fields (image n) vs fs) as [l|] eqn:E; [|discriminate]. injection H as <-.
    cbn [write_val]. apply same_and_then; [sw; auto|]. intros s1 s1' Hr1.
    revert s1 s1' Hr1. clear s s' Hr. revert l E. induction fs as [|f r IHr]; intros l E s s' Hr; cbn [image_fields] in E; cbn [marshal_fields].
    + injection E as <-. sw; auto.
    + destruct (wire_type (f_fncs f) =? T_Stop); [discriminate|].
      destruct (nth_error vs (f_index f)) as [v|]; [|discriminate].
      destruct (negb (f_required f) && field_zero env f v); [now apply IHr|].
      destruct (image n (f_fncs f) v) as [tv|] eqn:Ev; [|discriminate].
      destruct (image_fields (image n) vs r) as [l'|] eqn:Er; [|discriminate]. injection E as <-.
      apply same_and_then; [sw; auto; cbn [plain ev]; now rewrite (image_type _ _ _ _ Ev)|].
      intros s1 s1' Hr1. apply same_and_then; [now apply IH|].
      intros s2 s2' Hr2. apply same_and_then; [now sw|].
      intros s3 s3' Hr3. now apply IHr.
  - destruct (_ || _); [discriminate|].
    set (es := match o with Some es => es | None => [] end) in *.
    destruct (image_entries (image n) ka va es) as [l|] eqn:E; [|discriminate]. injection H as <-.
    assert (L : zlen l = zlen es).
    { clear -E. revert l E. induction es as [|[k v] r IHr]; intros l E; cbn in E; [now injection E as <-|].
      destruct (image n ka k), (image n va v), (image_entries (image n) ka va r); try discriminate.
      injection E as <-. now rewrite !zlen_cons, (IHr _ eq_refl). }
    cbn [write_val]. apply same_and_then; [sw; auto; cbn [plain ev]; now rewrite L|].
    clear s s' Hr L. revert l E. induction es as [|[k v] r IHr]; intros l E s s' Hr; cbn [image_entries] in E; cbn [marshal_entries].
    + injection E as <-. sw; auto.
    + destruct (image n ka k) as [tk|] eqn:Ek; [|discriminate].
      destruct (image n va v) as [tv|] eqn:Ev; [|discriminate].
      destruct (image_entries (image n) ka va r) as [l'|] eqn:Er; [|discriminate]. injection E as <-.
      apply same_and_then; [now apply IH|].
      intros s2 s2' Hr2. apply same_and_then; [now apply IH|].
      intros s3 s3' Hr3. now apply IHr.
  - destruct (wire_type ea =? T_Stop); [discriminate|].
    destruct (image_elems (image n) ea es) as [l|] eqn:E; [|discriminate]. injection H as <-.
    assert (L : zlen l = zlen es).
    { clear -E. revert l E. induction es as [|v r IHr]; intros l E; cbn in E; [now injection E as <-|].
      destruct (image n ea v), (image_elems (image n) ea r); try discriminate.
      injection E as <-. now rewrite !zlen_cons, (IHr _ eq_refl). }
    destruct set; cbn [write_val]; (apply same_and_then; [sw; auto; cbn [plain ev]; now rewrite L|]);
    (clear s s' Hr L; revert l E; induction es as [|v r IHr]; intros l E s s' Hr; cbn [image_elems] in E; cbn [marshal_elems];
     [injection E as <-; sw; auto|
      destruct (image n ea v) as [tv|] eqn:Ev; [|discriminate];
      destruct (image_elems (image n) ea r) as [l'|] eqn:Er; [|discriminate]; injection E as <-;
      apply same_and_then; [now apply IH|];
      intros s3 s3' Hr3; now apply IHr]).
  - destruct o; now apply IH.
Qed.
End Run.

Section NoImage.
Context {S : Type} (h : handler wireW S).

Lemma ok_and_then p q s s' : run h (p >>! q) s = Done s' None ->
  exists s1, run h p s = Done s1 None /\ run h q s1 = Done s' None.
Proof.
  rewrite run_and_then. destruct (run h p s) as [s1 [e|]|c]; cbn; try discriminate. eauto.
Qed.

(** On any Writer at all. *)
Theorem marshal_ok_image n : forall a v s s', run h (marshal env ln n a v) s = Done s' None ->
  exists tv, image n a v = Some tv.
Proof.
  induction n as [|n IH]; intros a v s s' H; [discriminate|].
  destruct a as [t|t|t single|t w|t w|t|t|t|t|t ka va|t set ea|t ea];
    destruct v as [b|z|z|z|z|nl x sp|u|es|nl es sp|o|o|vs|k]; try discriminate; cbn [marshal] in H; cbn [image];
    try (eexists; reflexivity); try (now destruct single); try (destruct single; [eexists; reflexivity|discriminate]);
    try (destruct single; [discriminate|eexists; reflexivity]);
    try (destruct (make_struct_fields env ln t) as [[fs|]|]; discriminate);
    try (destruct (wire_type ka =? T_Stop), (wire_type va =? T_Stop); discriminate);
    try (destruct (wire_type ea =? T_Stop); discriminate).
  - destruct (make_struct_fields env ln t) as [[fs|]|]; try discriminate.
    apply ok_and_then in H as (s1 & _ & H).
    enough (E : exists l, image_fields (image n) vs fs = Some l) by (destruct E as [l ->]; eexists; reflexivity).
    revert s1 H. induction fs as [|f r IHr]; intros s1 H; cbn [marshal_fields] in H; cbn [image_fields]; [eauto|].
    destruct (wire_type (f_fncs f) =? T_Stop); [discriminate|].
    destruct (nth_error vs (f_index f)) as [v|]; [|discriminate].
    destruct (negb (f_required f) && field_zero env f v); [eauto|].
    apply ok_and_then in H as (s2 & _ & H). apply ok_and_then in H as (s3 & H3 & H).
    apply ok_and_then in H as (s4 & _ & H).
    destruct (IH _ _ _ _ H3) as [tv ->]. destruct (IHr _ H) as [l ->]. eauto.
  - destruct (_ || _); [discriminate|]. apply ok_and_then in H as (s1 & _ & H).
    set (es := match o with Some es => es | None => [] end) in *.
    enough (E : exists l, image_entries (image n) ka va es = Some l) by (destruct E as [l ->]; eexists; reflexivity).
    revert s1 H. induction es as [|[k v] r IHr]; intros s1 H; cbn [marshal_entries] in H; cbn [image_entries]; [eauto|].
    apply ok_and_then in H as (s2 & H2 & H). apply ok_and_then in H as (s3 & H3 & H).
    destruct (IH _ _ _ _ H2) as [tk ->]. destruct (IH _ _ _ _ H3) as [tv ->]. destruct (IHr _ H) as [l ->]. eauto.
  - destruct (wire_type ea =? T_Stop); [discriminate|]. apply ok_and_then in H as (s1 & _ & H).
    enough (E : exists l, image_elems (image n) ea es = Some l) by (destruct E as [l ->]; eexists; reflexivity).
    revert s1 H. induction es as [|v r IHr]; intros s1 H; cbn [marshal_elems] in H; cbn [image_elems]; [eauto|].
    apply ok_and_then in H as (s2 & H2 & H).
    destruct (IH _ _ _ _ H2) as [tk ->]. destruct (IHr _ H) as [l ->]. eauto.
  - destruct o; eauto.
Qed.
End NoImage.
End Enc.
