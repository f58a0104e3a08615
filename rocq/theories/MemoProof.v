(** What a Memo records and replays. *)
From Coq Require Import Strings.String.
From Verif Require Import Base BaseLemmas Prog Wire Memo.
Local Open Scope string_scope.
Local Open Scope Z_scope.
Local Open Scope list_scope.

(** ** What the property is about *)
(** A call of a Reader method and what it returned. *)
Inductive answer : Type := Answer (X : Type) (e : wireR X) (x : X).
Arguments Answer {X} e x.

(** A call of a Writer method, other than Flush and Reset, which a Memo's Writer
    does not support. *)
Inductive wcall : Type :=
| CMessageBegin (h : mhdr) | CMessageEnd
| CStructBegin (nm : list byte) | CStructEnd | CFieldBegin (h : fhdr) | CFieldEnd
| CMapBegin (h : maphdr) | CMapEnd | CSetBegin (h : sethdr) | CSetEnd | CListBegin (h : sethdr) | CListEnd
| CBool (b : bool) | CByte (b : byte) | CDouble (z : Z) | CI16 (z : Z) | CI32 (z : Z) | CI64 (z : Z)
| CString (x : list byte) | CBytes (x : list byte) | CUUID (u : list byte).
Definition ev (c : wcall) : wireW (option err) :=
  match c with
  | CMessageBegin h => WMessageBegin h | CMessageEnd => WMessageEnd
  | CStructBegin nm => WStructBegin nm | CStructEnd => WStructEnd
  | CFieldBegin h => WFieldBegin h | CFieldEnd => WFieldEnd
  | CMapBegin h => WMapBegin h | CMapEnd => WMapEnd
  | CSetBegin h => WSetBegin h | CSetEnd => WSetEnd
  | CListBegin h => WListBegin h | CListEnd => WListEnd
  | CBool b => WBool b | CByte b => WByte b | CDouble z => WDouble z
  | CI16 z => WI16 z | CI32 z => WI32 z | CI64 z => WI64 z
  | CString x => WString x | CBytes x => WBytes x | CUUID u => WUUID u
  end.

(** The Reader calls, with their results, that match a Writer call.  What was
    written as a string is read with ReadString or skipped; WriteStructEnd is
    matched by reading the stop field and then ReadStructEnd. *)
Inductive reads_back : wcall -> list answer -> Prop :=
| rb_message h : reads_back (CMessageBegin h) [Answer RMessageBegin (h, None)]
| rb_message_end : reads_back CMessageEnd [Answer RMessageEnd None]
| rb_struct n : reads_back (CStructBegin n) [Answer RStructBegin (n, None)]
| rb_struct_end : reads_back CStructEnd [Answer RFieldBegin (mkFH [] T_Stop 0, None); Answer RStructEnd None]
| rb_field h : reads_back (CFieldBegin h) [Answer RFieldBegin (h, None)]
| rb_field_end : reads_back CFieldEnd [Answer RFieldEnd None]
| rb_map h : reads_back (CMapBegin h) [Answer RMapBegin (h, None)]
| rb_map_end : reads_back CMapEnd [Answer RMapEnd None]
| rb_set h : reads_back (CSetBegin h) [Answer RSetBegin (h, None)]
| rb_set_end : reads_back CSetEnd [Answer RSetEnd None]
| rb_list h : reads_back (CListBegin h) [Answer RListBegin (h, None)]
| rb_list_end : reads_back CListEnd [Answer RListEnd None]
| rb_bool v : reads_back (CBool v) [Answer RBool (v, None)]
| rb_byte v : reads_back (CByte v) [Answer RByte (v, None)]
| rb_double v : reads_back (CDouble v) [Answer RDouble (v, None)]
| rb_i16 v : reads_back (CI16 v) [Answer RI16 (v, None)]
| rb_i32 v : reads_back (CI32 v) [Answer RI32 (v, None)]
| rb_i64 v : reads_back (CI64 v) [Answer RI64 (v, None)]
| rb_string v : reads_back (CString v) [Answer RString (v, None)]
| rb_skip_string v : reads_back (CString v) [Answer RSkipString None]
| rb_bytes v buf : reads_back (CBytes v) [Answer (RBytes buf) (v, None)]
| rb_uuid v old : reads_back (CUUID v) [Answer (RUUID old) (v, None)]
| rb_skip_uuid v : reads_back (CUUID v) [Answer RSkipUUID None].

(** [l] are Reader calls matching the Writer calls [cs], one after another. *)
Inductive replay : list wcall -> list answer -> Prop :=
| rp_nil : replay [] []
| rp_cons c cs l l' : reads_back c l -> replay cs l' -> replay (c :: cs) (l ++ l').

(** Making the Reader calls [l] one after another, from [s], returns those
    results and leaves [s']. *)
Fixpoint asked {St} (h : handler wireR St) (l : list answer) (s s' : St) : Prop :=
  match l with
  | [] => s' = s
  | Answer e x :: l => exists s1, h _ e s = Done s1 x /\ asked h l s1 s'
  end.

(** Making the Writer calls [cs] one after another: their results. *)
Fixpoint written {St} (h : handler wireW St) (cs : list wcall) (s : St) : outcome St (list (option err)) :=
  match cs with
  | [] => Done s []
  | c :: cs =>
      match h _ (ev c) s with
      | Crashed x => Crashed x
      | Done s1 r => match written h cs s1 with Done s2 rs => Done s2 (r :: rs) | Crashed x => Crashed x end
      end
  end.

(** How many of [k] steps a breakpoint lets through. *)
Definition passing (bp : Z) (k : nat) : nat := if 0 <? bp then Nat.min k (Z.to_nat (bp - 1)) else k.

(** The names of the steps a Writer call is recorded as. *)
Definition step_names (c : wcall) : list string :=
  match c with
  | CMessageBegin _ => ["MessageBegin"] | CMessageEnd => ["MessageEnd"]
  | CStructBegin _ => ["StructBegin"] | CStructEnd => ["FieldBegin"; "StructEnd"]
  | CFieldBegin _ => ["FieldBegin"] | CFieldEnd => ["FieldEnd"]
  | CMapBegin _ => ["MapBegin"] | CMapEnd => ["MapEnd"]
  | CSetBegin _ => ["SetBegin"] | CSetEnd => ["SetEnd"]
  | CListBegin _ => ["ListBegin"] | CListEnd => ["ListEnd"]
  | CBool _ => ["Bool"] | CByte _ => ["Byte"] | CDouble _ => ["Double"]
  | CI16 _ => ["I16"] | CI32 _ => ["I32"] | CI64 _ => ["I64"]
  | CString _ => ["String"] | CBytes _ => ["Bytes"] | CUUID _ => ["UUID"]
  end.

(** ** Writing *)
Definition recorded (c : wcall) : list (string * list any) :=
  match c with
  | CMessageBegin h => [("MessageBegin", [AMessage h])] | CMessageEnd => [("MessageEnd", [])]
  | CStructBegin h => [("StructBegin", [AStruct h])] | CStructEnd => [("FieldBegin", [AField fh0]); ("StructEnd", [])]
  | CFieldBegin h => [("FieldBegin", [AField h])] | CFieldEnd => [("FieldEnd", [])]
  | CMapBegin h => [("MapBegin", [AMap h])] | CMapEnd => [("MapEnd", [])]
  | CSetBegin h => [("SetBegin", [ASet h])] | CSetEnd => [("SetEnd", [])]
  | CListBegin h => [("ListBegin", [AList h])] | CListEnd => [("ListEnd", [])]
  | CBool v => [("Bool", [ABool v])] | CByte v => [("Byte", [AByte v])] | CDouble v => [("Double", [ADouble v])]
  | CI16 v => [("I16", [AI16 v])] | CI32 v => [("I32", [AI32 v])] | CI64 v => [("I64", [AI64 v])]
  | CString v => [("String", [AString v])] | CBytes v => [("Bytes", [ABytes v])] | CUUID v => [("UUID", [AUUID v])]
  end.
Lemma recorded_names c : map fst (recorded c) = step_names c.
Proof. destruct c; reflexivity. Qed.

Fixpoint puts (l : list (string * list any)) (m : memo) : outcome memo (option err) :=
  match l with
  | [] => Done m None
  | (s, v) :: r => match advance_w m with None => Done m (Some EBreak) | Some m => puts r (memo_write s v m) end
  end.
Lemma memoW_puts c m : memoW _ (ev c) m = puts (recorded c) m.
Proof.
  destruct c; cbn [memoW ev recorded puts]; unfold write1;
    destruct (advance_w m) as [m1|]; try reflexivity.
Qed.

(** How many steps are still let through after [w] of them. *)
Definition room (bp : Z) (w : nat) : option nat := if 0 <? bp then Some (Z.to_nat (bp - 1) - w)%nat else None.
Definition fit (o : option nat) (k : nat) : nat := match o with Some r => Nat.min k r | None => k end.

Lemma advance_room m p : advance m p = match room (m_break m) p with Some O => None | _ => Some (S p) end.
Proof.
  unfold advance, room. destruct (0 <? m_break m) eqn:B; cbn [andb]; [|reflexivity].
  apply Z.ltb_lt in B. destruct (m_break m <=? Z.of_nat p + 1) eqn:E.
  - apply Z.leb_le in E. replace (Z.to_nat (m_break m - 1) - p)%nat with O by lia. reflexivity.
  - apply Z.leb_gt in E. destruct (Z.to_nat (m_break m - 1) - p)%nat eqn:F; [lia|reflexivity].
Qed.

Definition added (m : memo) (k : nat) (l : list (string * list any)) : memo :=
  mkMemo (m_break m) (m_r m) (m_w m + k) (m_steps m ++ map fst (firstn k l)) (m_values m ++ map snd (firstn k l)).

Lemma added_0 m l : added m 0 l = m.
Proof. unfold added. cbn. rewrite Nat.add_0_r, !app_nil_r. destruct m; reflexivity. Qed.

Lemma puts_spec l : forall m, let k := fit (room (m_break m) (m_w m)) (length l) in
  puts l m = Done (added m k l) (if (k =? length l)%nat then None else Some EBreak).
Proof.
  induction l as [|[s v] r IH]; intros m; cbn [puts length].
  - cbn zeta. assert (E : fit (room (m_break m) (m_w m)) 0 = O) by (destruct (room _ _); reflexivity).
    rewrite E, added_0. reflexivity.
  - cbn zeta. unfold advance_w. rewrite advance_room. destruct (room (m_break m) (m_w m)) as [[|q]|] eqn:R; cbn [fit].
    + rewrite Nat.min_0_r, added_0. reflexivity.
    + rewrite IH. cbn [memo_write m_break m_w]. 
      assert (R' : room (m_break m) (S (m_w m)) = Some q).
      { unfold room in *. destruct (0 <? m_break m); [injection R; intros; f_equal; lia|discriminate]. }
      rewrite R'. cbn [fit]. unfold added. cbn [memo_write m_break m_w m_r m_steps m_values Nat.min firstn map].
      rewrite <- !app_assoc. cbn [app Nat.eqb fst snd]. do 2 f_equal. lia.
    + rewrite IH. cbn [memo_write m_break m_w].
      assert (R' : room (m_break m) (S (m_w m)) = None) by (unfold room in *; destruct (0 <? m_break m); [discriminate|reflexivity]).
      rewrite R'. cbn [fit]. unfold added. cbn [memo_write m_break m_w m_r m_steps m_values firstn map].
      rewrite <- !app_assoc. cbn [app Nat.eqb fst snd]. do 2 f_equal. lia.
Qed.

Lemma room_more bp w k : room bp (w + k) = match room bp w with Some r => Some (r - k)%nat | None => None end.
Proof. unfold room. destruct (0 <? bp); [f_equal; lia|reflexivity]. Qed.

Lemma added_added m k l j l' : (k <= length l)%nat -> (k = length l \/ j = O) ->
  added (added m k l) j l' = added m (k + j) (l ++ l').
Proof.
  intros L H. unfold added. cbn. assert (E : firstn (k + j) (l ++ l') = firstn k l ++ firstn j l').
  { destruct H as [->| ->].
    - rewrite firstn_app_2, firstn_all. reflexivity.
    - rewrite Nat.add_0_r. cbn. rewrite app_nil_r, firstn_app. replace (k - length l)%nat with O by lia.
      cbn. now rewrite app_nil_r. }
  rewrite E, !map_app, <- !app_assoc. f_equal. lia.
Qed.

Lemma fit_le o k : (fit o k <= k)%nat.
Proof. destruct o; cbn; lia. Qed.

(** The results of a sequence of Writer calls: the calls whose steps all got
    through return nil. *)
Fixpoint results (o : option nat) (cs : list wcall) : list (option err) :=
  match cs with
  | [] => []
  | c :: cs =>
      let n := length (step_names c) in
      (if (fit o n =? n)%nat then None else Some EBreak) ::
      results (match o with Some r => Some (r - n)%nat | None => None end) cs
  end.

Lemma written_spec cs : forall m,
  let l := flat_map recorded cs in
  written memoW cs m = Done (added m (fit (room (m_break m) (m_w m)) (length l)) l) (results (room (m_break m) (m_w m)) cs).
Proof.
  induction cs as [|c cs IH]; intros m; cbn [written flat_map results].
  - cbn zeta. assert (E : fit (room (m_break m) (m_w m)) 0 = O) by (destruct (room _ _); reflexivity).
    cbn [length]. rewrite E, added_0. reflexivity.
  - cbn zeta. rewrite (memoW_puts c m), puts_spec. cbn zeta. rewrite IH. clear IH.
    rewrite <- recorded_names, map_length.
    set (l := recorded c). set (l' := flat_map recorded cs). set (o := room (m_break m) (m_w m)).
    assert (Ro : room (m_break m) (m_w m + fit o (length l)) = match o with Some r => Some (r - length l)%nat | None => None end).
    { rewrite room_more. fold o. destruct o; [cbn; f_equal; lia|reflexivity]. }
    change (m_break (added m (fit o (length l)) l)) with (m_break m).
    change (m_w (added m (fit o (length l)) l)) with (m_w m + fit o (length l))%nat.
    rewrite Ro, app_length. rewrite added_added; [|apply fit_le|].
    + f_equal. f_equal. destruct o; cbn; lia.
    + destruct o; cbn; [|now left]. destruct (Nat.le_gt_cases (length l) n); [left|right]; lia.
Qed.

Definition fits (o : option nat) (k : nat) : bool := match o with Some r => (k <=? r)%nat | None => true end.
Lemma fit_fits o k : (fit o k =? k)%nat = fits o k.
Proof. destruct o as [r|]; cbn; [|apply Nat.eqb_refl]. destruct (Nat.eqb_spec (Nat.min k r) k), (Nat.leb_spec k r); lia. Qed.

Lemma step_names_some c : (1 <= length (step_names c))%nat.
Proof. destruct c; cbn; lia. Qed.
Lemma results_nth cs : forall o i, (i < length cs)%nat -> nth_error (results o cs) i =
  Some (if fits o (length (flat_map step_names (firstn (i + 1) cs))) then None else Some EBreak).
Proof.
  induction cs as [|c cs IH]; intros o i Hi; cbn [length] in Hi; [lia|].
  rewrite Nat.add_1_r. destruct i as [|i]; cbn [results nth_error]; [|change (firstn (S (S i)) (c :: cs)) with (c :: firstn (S i) cs); cbn [flat_map]];
    [cbn [firstn flat_map]|].
  - rewrite app_nil_r, fit_fits. reflexivity.
  - rewrite IH by lia. rewrite Nat.add_1_r, app_length. do 2 f_equal.
    destruct o as [r|]; cbn [fits]; [|reflexivity].
    replace (length (step_names c) + length (flat_map step_names (firstn (S i) cs)) <=? r)%nat
      with (length (flat_map step_names (firstn (S i) cs)) <=? r - length (step_names c))%nat; [reflexivity|].
    assert (1 <= length (flat_map step_names (firstn (S i) cs)))%nat.
    { destruct cs as [|d cs]; cbn [length] in Hi; [lia|]. cbn [firstn flat_map]. rewrite app_length. pose proof (step_names_some d). lia. }
    destruct (Nat.leb_spec (length (flat_map step_names (firstn (S i) cs))) (r - length (step_names c))),
      (Nat.leb_spec (length (step_names c) + length (flat_map step_names (firstn (S i) cs))) r); lia.
Qed.
Lemma results_length cs : forall o, length (results o cs) = length cs.
Proof. induction cs as [|c cs IH]; intros o; cbn [results length]; [reflexivity|]. f_equal. apply IH. Qed.

(** ** Reading *)
(** The Reader call matches the step. *)
Definition matches (p : string * list any) (a : answer) : Prop :=
  match a with Answer e x => fst p = read_step e /\ read_set e (Some (snd p)) = Some x end.

Lemma back_matches c l : reads_back c l -> Forall2 matches (recorded c) l.
Proof. intros H. destruct H; repeat constructor. Qed.
Lemma replay_matches cs l : replay cs l -> Forall2 matches (flat_map recorded cs) l.
Proof. induction 1; cbn; [constructor|]. apply Forall2_app; [apply back_matches; assumption|assumption]. Qed.

(** [m] holds the steps [l], and more may follow. *)
Definition holds (m : memo) (l : list (string * list any)) : Prop :=
  (exists more, m_steps m = map fst l ++ more) /\ m_values m = map snd l.

Lemma asked_spec a : forall done l m, holds m (done ++ l) -> m_r m = length done ->
  forall l1 l2, l = l1 ++ l2 -> Forall2 matches l1 a ->
  fits (room (m_break m) (length done)) (length l1) = true ->
  exists m', asked memoR a m m' /\ holds m' (done ++ l) /\ m_r m' = (length done + length l1)%nat /\
    m_break m' = m_break m.
Proof.
  induction a as [|[X e x] a IH]; intros done l m H Hr l1 l2 El M Hb; inversion M as [|[s vs] y t b Hm M']; subst; cbn [asked].
  - exists m. split; [reflexivity|]. split; [exact H|]. split; [cbn; lia|reflexivity].
  - destruct Hm as [Hs Hx]. cbn [fst snd] in Hs, Hx. cbn [length] in Hb.
    destruct H as [[more Hst] Hv].
    assert (A : advance_r m = Some (mkMemo (m_break m) (S (length done)) (m_w m) (m_steps m) (m_values m))).
    { unfold advance_r. rewrite advance_room, Hr. destruct (room (m_break m) (length done)) as [[|q]|] eqn:R; try reflexivity.
      discriminate Hb. }
    set (m1 := mkMemo (m_break m) (S (length done)) (m_w m) (m_steps m ++ [s]) (m_values m)).
    assert (E : memoR _ e m = Done m1 x).
    { unfold memoR. rewrite A. unfold memo_read. cbn [m_r m_steps m_values m_break m_w]. rewrite Nat.sub_succ, Nat.sub_0_r.
      rewrite Hst, map_app, <- !app_assoc. rewrite nth_error_app2 by (rewrite map_length; lia).
      rewrite map_length, Nat.sub_diag. cbn [app map nth_error fst]. rewrite <- Hs, String.eqb_refl.
      rewrite Hv, map_app, nth_error_app2 by (rewrite map_length; lia). rewrite map_length, Nat.sub_diag.
      cbn [app map nth_error snd]. rewrite Hx. unfold m1. rewrite Hst, Hv. rewrite !map_app, <- !app_assoc. reflexivity. }
    destruct (IH (done ++ [(s, vs)]) (t ++ l2) m1) with (l1 := t) (l2 := l2) as (m' & K1 & K2 & K3 & K4).
    + rewrite <- app_assoc. split; [|exact Hv]. exists (more ++ [s]). cbn [m1 m_steps]. rewrite Hst, <- app_assoc. reflexivity.
    + rewrite app_length. cbn. lia.
    + reflexivity.
    + exact M'.
    + rewrite app_length. cbn [length m1 m_break]. rewrite room_more. destruct (room (m_break m) (length done)) as [q|]; [|reflexivity].
      cbn [fits] in *. apply Nat.leb_le in Hb. apply Nat.leb_le. lia.
    + exists m'. split; [exists m1; split; [exact E|exact K1]|]. rewrite <- app_assoc in K2. split; [exact K2|].
      rewrite app_length in K3. cbn [length] in K3 |- *. split; [lia|exact K4].
Qed.

(** Once the breakpoint is reached every call returns ErrBreak. *)
Lemma read_broken {X} (e : wireR X) m : room (m_break m) (m_r m) = Some O ->
  exists x, memoR _ e m = Done m x /\ errR e x = Some EBreak.
Proof.
  intros R. exists (read_break e). unfold memoR, advance_r. rewrite advance_room, R. split; [reflexivity|].
  destruct e; reflexivity.
Qed.

Lemma Forall2_firstn {A B} (R : A -> B -> Prop) k : forall l m, Forall2 R l m -> Forall2 R (firstn k l) (firstn k m).
Proof. induction k as [|k IH]; intros l m H; [constructor|]. destruct H; constructor; auto. Qed.

(** The whole story: written under one breakpoint, read under another. *)
Lemma replay_spec bw br cs l : replay cs l ->
  let kept := passing bw (length l) in
  let ok := passing br kept in
  exists m rs m', written memoW cs (new_memo bw) = Done m rs /\
    memo_Steps m = firstn kept (flat_map step_names cs) /\
    length rs = length cs /\
    (forall i, (i < length cs)%nat -> nth_error rs i =
       Some (let k := length (flat_map step_names (firstn (i + 1) cs)) in
             if (k =? passing bw k)%nat then None else Some EBreak)) /\
    asked memoR (firstn ok l) (set_break br m) m' /\
    (0 < br <= Z.of_nat kept + 1 -> forall X (e : wireR X), exists x, memoR _ e m' = Done m' x /\ errR e x = Some EBreak).
Proof.
  intros R. apply replay_matches in R. cbn zeta.
  set (rec := flat_map recorded cs) in *.
  assert (Len : length l = length rec) by (symmetry; induction R; cbn; congruence).
  assert (Fp : forall b k, fit (room b 0) k = passing b k).
  { intros b k. unfold room, passing. destruct (0 <? b); cbn; [f_equal; lia|reflexivity]. }
  rewrite Len. set (kept := passing bw (length rec)). set (ok := passing br kept).
  assert (Lk : (kept <= length rec)%nat) by (unfold kept, passing; destruct (0 <? bw); lia).
  assert (Lo : (ok <= kept)%nat) by (unfold ok, passing; destruct (0 <? br); lia).
  pose proof (written_spec cs (new_memo bw)) as W. cbn zeta in W. fold rec in W. cbn [new_memo m_break m_w] in W. rewrite Fp in W. fold kept in W.
  set (m := added (mkMemo bw 0 0 [] []) kept rec) in W.
  destruct (asked_spec (firstn ok l) [] (firstn kept rec) (set_break br m)) with (l1 := firstn ok rec) (l2 := skipn ok (firstn kept rec))
    as (m' & A1 & A2 & A3 & A4).
  - split; [exists []|]; reflexivity || (cbn; now rewrite app_nil_r).
  - reflexivity.
  - replace (firstn ok rec) with (firstn ok (firstn kept rec)); [symmetry; apply firstn_skipn|].
    rewrite firstn_firstn. f_equal. lia.
  - apply Forall2_firstn. exact R.
  - rewrite firstn_length. cbn [length set_break m_break]. rewrite <- fit_fits, Fp. apply Nat.eqb_eq.
    unfold ok, passing. destruct (0 <? br); lia.
  - exists m, (results (room bw 0) cs), m'. split; [exact W|]. split.
    { unfold memo_Steps, m, added. cbn [m_steps app].
      assert (N : map fst rec = flat_map step_names cs).
      { unfold rec. clear. induction cs as [|c cs IH]; cbn; [reflexivity|]. now rewrite map_app, recorded_names, IH. }
      rewrite <- N. symmetry. apply firstn_map. }
    split; [apply results_length|]. split.
    { intros i Hi. rewrite results_nth by exact Hi. cbn zeta. rewrite <- fit_fits, Fp. rewrite Nat.eqb_sym. reflexivity. }
    split; [exact A1|]. intros Hbr X e. apply read_broken. rewrite A4, A3. cbn [set_break m_break length].
    rewrite firstn_length. unfold room. destruct (0 <? br) eqn:B; [|apply Z.ltb_ge in B; lia]. f_equal.
    unfold ok, passing. rewrite B. lia.
Qed.

(** Nothing else can be read: a call that does not match panics. *)
Lemma matches_one p a : matches p a -> forall c, recorded c = [p] -> reads_back c [a].
Proof.
  intros H c E. destruct a as [X e x]. destruct H as [Hs Hx].
  destruct c; try discriminate E; injection E; intros <-; cbn [fst snd] in Hs, Hx;
    destruct e; try discriminate Hs; cbn in Hx; injection Hx; intros <-; constructor.
Qed.
Lemma matches_back c l : Forall2 matches (recorded c) l -> reads_back c l.
Proof.
  intros H. destruct (recorded c) as [|p [|q [|r t]]] eqn:E; try (destruct c; discriminate E).
  - inversion H as [|? a ? l' M N]; subst. inversion N; subst. exact (matches_one p a M c E).
  - destruct c; try discriminate E. injection E; intros <- <-.
    inversion H as [|? a ? l' M N]; subst. inversion N as [|? b ? l'' M' N']; subst. inversion N'; subst.
    destruct a as [X e x], b as [Y f y]. destruct M as [Ms Mx], M' as [Ms' Mx'].
    destruct e; try discriminate Ms. cbn in Mx. injection Mx; intros <-.
    destruct f; try discriminate Ms'. cbn in Mx'. injection Mx'; intros <-. constructor.
Qed.
Lemma matches_replay cs : forall l, Forall2 matches (flat_map recorded cs) l -> replay cs l.
Proof.
  induction cs as [|c cs IH]; intros l H; cbn in H; [inversion H; constructor|].
  apply Forall2_app_inv_l in H as (l1 & l2 & H1 & H2 & ->). constructor; [apply matches_back; exact H1|apply IH; exact H2].
Qed.

Lemma asked_only a : forall done l m m', holds m (done ++ l) -> m_r m = length done ->
  (m_break m <= 0) -> (length a <= length l)%nat -> asked memoR a m m' -> Forall2 matches (firstn (length a) l) a.
Proof.
  induction a as [|[X e x] a IH]; intros done l m m' H Hr Hb Hl A; cbn [asked length firstn] in *; [constructor|].
  destruct l as [|[s vs] l]; cbn [length] in Hl; [lia|]. destruct A as (m1 & E & A).
  assert (Av : advance_r m = Some (mkMemo (m_break m) (S (length done)) (m_w m) (m_steps m) (m_values m))).
  { unfold advance_r. rewrite advance_room, Hr. unfold room. destruct (Z.ltb_spec 0 (m_break m)); [lia|reflexivity]. }
  destruct H as [[more Hst] Hv].
  unfold memoR in E. rewrite Av in E. unfold memo_read in E. cbn [m_r m_steps m_values m_break m_w] in E.
  rewrite Nat.sub_succ, Nat.sub_0_r in E.
  rewrite Hst, map_app, <- !app_assoc in E. rewrite nth_error_app2 in E by (rewrite map_length; lia).
  rewrite map_length, Nat.sub_diag in E. cbn [app map nth_error fst] in E.
  destruct (String.eqb (read_step e) s) eqn:Es; [|discriminate E]. apply String.eqb_eq in Es.
  rewrite Hv, map_app, nth_error_app2 in E by (rewrite map_length; lia). rewrite map_length, Nat.sub_diag in E.
  cbn [app map nth_error snd] in E. destruct (read_set e (Some vs)) as [x'|] eqn:Ex; [|discriminate E].
  injection E; intros -> Em. constructor; [split; [symmetry; exact Es|exact Ex]|].
  apply (IH (done ++ [(s, vs)]) l m1 m'); rewrite <- ?Em; cbn [m_break m_r]; try lia; try exact A.
  - split; cbn [m_steps m_values].
    + exists (more ++ [read_step e]). rewrite <- !app_assoc, map_app. cbn. rewrite <- app_assoc. reflexivity.
    + rewrite <- app_assoc, map_app. reflexivity.
  - rewrite app_length. cbn. lia.
  - rewrite Em. exact A.
Qed.

Lemma only_replays cs l m rs m' : written memoW cs (new_memo 0) = Done m rs ->
  asked memoR l m m' -> length l = length (memo_Steps m) -> replay cs l.
Proof.
  intros W A L. pose proof (written_spec cs (new_memo 0)) as W'. cbn zeta in W'. rewrite W' in W. cbn [new_memo m_break m_w room] in W.
  cbn [Z.ltb Z.compare fit] in W. injection W; intros _ Em. clear W W'.
  apply matches_replay. set (rec := flat_map recorded cs) in *.
  assert (Sm : memo_Steps m = map fst rec) by (rewrite <- Em; unfold memo_Steps, added; cbn; now rewrite firstn_all).
  rewrite Sm, map_length in L.
  replace rec with (firstn (length l) rec) by (rewrite L; apply firstn_all).
  apply (asked_only l [] rec m m').
  - rewrite <- Em. unfold added. split; [exists []|]; cbn; rewrite firstn_all; [now rewrite app_nil_r|reflexivity].
  - rewrite <- Em. reflexivity.
  - rewrite <- Em. cbn. lia.
  - lia.
  - exact A.
Qed.
