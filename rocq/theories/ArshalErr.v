(** What Marshal and Unmarshal do call by call: which calls, in which order, and
    what they report when one fails. *)
From Coq Require Import Strings.String Sorting.Permutation Sorting.Sorted.
From Verif Require Import Base BaseLemmas Prog Wire WireProof Spec Clients Fuel Reads Robust
  GoFloat Utf8 GoType Fields Arshal GoTypeProof FieldsProof ArshalSpec ArshalEnc ArshalDec ArshalTrip ArshalTotal
  ArshalThms ArshalSafe ArshalInput.

(** ** Names of the calls (encoding/thriftwire/protocol.go:39-98) *)
Definition wname {X} (e : wireW X) : string :=
  match e with
  | WMessageBegin _ => "WriteMessageBegin" | WMessageEnd => "WriteMessageEnd"
  | WStructBegin _ => "WriteStructBegin" | WStructEnd => "WriteStructEnd"
  | WFieldBegin _ => "WriteFieldBegin" | WFieldEnd => "WriteFieldEnd"
  | WMapBegin _ => "WriteMapBegin" | WMapEnd => "WriteMapEnd"
  | WSetBegin _ => "WriteSetBegin" | WSetEnd => "WriteSetEnd"
  | WListBegin _ => "WriteListBegin" | WListEnd => "WriteListEnd"
  | WBool _ => "WriteBool" | WByte _ => "WriteByte" | WDouble _ => "WriteDouble"
  | WI16 _ => "WriteI16" | WI32 _ => "WriteI32" | WI64 _ => "WriteI64"
  | WString _ => "WriteString" | WBytes _ => "WriteBytes" | WUUID _ => "WriteUUID"
  | WFlush => "Flush"
  end.
Definition rname {X} (e : wireR X) : string :=
  match e with
  | RMessageBegin => "ReadMessageBegin" | RMessageEnd => "ReadMessageEnd"
  | RStructBegin => "ReadStructBegin" | RStructEnd => "ReadStructEnd"
  | RFieldBegin => "ReadFieldBegin" | RFieldEnd => "ReadFieldEnd"
  | RMapBegin => "ReadMapBegin" | RMapEnd => "ReadMapEnd"
  | RSetBegin => "ReadSetBegin" | RSetEnd => "ReadSetEnd"
  | RListBegin => "ReadListBegin" | RListEnd => "ReadListEnd"
  | RBool => "ReadBool" | RByte => "ReadByte" | RDouble => "ReadDouble"
  | RI16 => "ReadI16" | RI32 => "ReadI32" | RI64 => "ReadI64"
  | RString => "ReadString" | RBytes _ => "ReadBytes" | RUUID _ => "ReadUUID"
  | RSkipString => "SkipString" | RSkipUUID => "SkipUUID"
  end.

(** The error a Writer call returned. *)
Definition errW {X} (e : wireW X) : X -> option err :=
  match e in wireW X return X -> option err with
  | WMessageBegin _ | WMessageEnd | WStructBegin _ | WStructEnd | WFieldBegin _ | WFieldEnd
  | WMapBegin _ | WMapEnd | WSetBegin _ | WSetEnd | WListBegin _ | WListEnd
  | WBool _ | WByte _ | WDouble _ | WI16 _ | WI32 _ | WI64 _ | WString _ | WBytes _ | WUUID _
  | WFlush => fun x => x
  end.

(** ** A Writer or Reader that also keeps a log of the calls and their errors *)
Definition wlog := list ({X & wireW X} * option err).
Definition rlog := list ({X & wireR X} * option err).
Definition logW {S} (h : handler wireW S) : handler wireW (S * wlog) :=
  fun X e sl => match h X e (fst sl) with
                | Done s' x => Done (s', snd sl ++ [(existT _ X e, errW e x)]) x
                | Crashed c => Crashed c
                end.
Definition logR {S} (h : handler wireR S) : handler wireR (S * rlog) :=
  fun X e sl => match h X e (fst sl) with
                | Done s' x => Done (s', snd sl ++ [(existT _ X e, errR e x)]) x
                | Crashed c => Crashed c
                end.

Lemma logW_run {S A} (h : handler wireW S) (p : prog wireW A) : forall s l,
  run h p s = match run (logW h) p (s, l) with Done (s', _) a => Done s' a | Crashed c => Crashed c end.
Proof.
  induction p as [a|X e k IH|c]; intros s l; cbn [run]; try reflexivity.
  unfold logW at 1. cbn [fst snd]. destruct (h X e s) as [s' x|]; [apply IH|reflexivity].
Qed.
Lemma logR_run {S A} (h : handler wireR S) (p : prog wireR A) : forall s l,
  run h p s = match run (logR h) p (s, l) with Done (s', _) a => Done s' a | Crashed c => Crashed c end.
Proof.
  induction p as [a|X e k IH|c]; intros s l; cbn [run]; try reflexivity.
  unfold logR at 1. cbn [fst snd]. destruct (h X e s) as [s' x|]; [apply IH|reflexivity].
Qed.

Section Err.
Context (env : tenv).

(** An error with a Writer's (Reader's) error inside, naming the method, a Go
    type and the Thrift type that goes with it. *)
Definition wrapped (action : string) (name : string) (er e : err) : Prop :=
  exists t a, codec env t a /\ e = ESemantic action (wire_type a) (Some t) (Some (EWire name er)).

(** An error found without the Writer's (Reader's) help: a Go type that cannot
    be used, with a tag error when a struct tag is to blame. *)
Definition refusal (action : string) (e : err) : Prop :=
  exists t wt c, e = ESemantic action wt (Some t) c /\ (c = None \/ exists what, wt = 0 /\ c = Some (ETag what)).

(** ** Marshal *)
(** [plays p cs r]: [p] makes the calls [cs] and returns [r]; a call that fails
    is the last one and its error is returned wrapped. *)
Inductive plays : prog wireW (option err) -> list wcall -> option err -> Prop :=
| pl_none : plays (Ret None) [] None
| pl_refuse e : refusal "marshal" e -> plays (Ret (Some e)) [] (Some e)
| pl_call c k cs r :
    (forall er, exists e, k (Some er) = Ret (Some e) /\ wrapped "marshal" (wname (ev c)) er e) ->
    plays (k None) cs r -> plays (Vis (ev c) k) (c :: cs) r.

Lemma plays_then p cs q cs' r : plays p cs None -> plays q cs' r -> plays (p >>! q) (cs ++ cs') r.
Proof.
  intros H Hq. remember None as n eqn:En. induction H as [|e He|c k cs r0 Hk Hn IH]; subst.
  - exact Hq.
  - discriminate.
  - cbn. apply pl_call; [|now apply IH]. intros er. destruct (Hk er) as (e & E & We). exists e. unfold and_then in *.
    rewrite E. split; [reflexivity|exact We].
Qed.
Lemma plays_stop p cs q e : plays p cs (Some e) -> plays (p >>! q) cs (Some e).
Proof.
  intros H. remember (Some e) as n eqn:En. induction H as [|e0 He|c k cs r0 Hk Hn IH]; subst.
  - discriminate.
  - now apply pl_refuse.
  - cbn. apply pl_call; [|now apply IH]. intros er. destruct (Hk er) as (e1 & E & We). exists e1. unfold and_then in *.
    rewrite E. split; [reflexivity|exact We].
Qed.
Lemma plays_wr t a act c wt : codec env t a -> wire_type a = wt -> act = wname (ev c) ->
  plays (wr act wt t (ev c)) [c] None.
Proof.
  intros C <- ->. apply pl_call; [|apply pl_none]. intros er. eexists. split; [reflexivity|].
  exists t, a. split; [exact C|reflexivity].
Qed.

(** Running on any Writer. *)
Lemma plays_run {S} (h : handler wireW S) p cs r : plays p cs r -> forall s l,
  match run (logW h) p (s, l) with
  | Done (s', l') res =>
      (l' = l ++ map (fun c => (existT wireW _ (ev c), None)) cs /\ res = r) \/
      (exists cs1 c cs2 er e, cs = cs1 ++ c :: cs2 /\
         l' = l ++ map (fun c => (existT wireW _ (ev c), None)) cs1 ++ [(existT wireW _ (ev c), Some er)] /\
         res = Some e /\ wrapped "marshal" (wname (ev c)) er e)
  | Crashed cr => exists c s', h _ (ev c) s' = Crashed cr
  end.
Proof.
  induction 1 as [|e He|c k cs r Hk Hn IH]; intros s l; cbn [run].
  - left. split; [now rewrite app_nil_r|reflexivity].
  - left. split; [now rewrite app_nil_r|reflexivity].
  - unfold logW at 1. cbn [fst snd]. destruct (h _ (ev c) s) as [s' x|cr] eqn:E; [|eauto].
    assert (Ex : errW (ev c) x = x) by (destruct c; reflexivity). rewrite Ex. destruct x as [er|].
    + destruct (Hk er) as (e & -> & We). cbn [run]. right. exists [], c, cs, er, e. auto.
    + specialize (IH s' (l ++ [(existT wireW _ (ev c), None)])).
      destruct (run (logW h) (k None) _) as [[s2 l2] res|cr]; [|exact IH].
      destruct IH as [[-> ->]|(cs1 & c' & cs2 & er & e & -> & -> & -> & We)].
      * left. rewrite <- app_assoc. split; reflexivity.
      * right. exists (c :: cs1), c', cs2, er, e. rewrite <- app_assoc. auto.
Qed.

Lemma first_error_tag a b : (forall e, a = Some e -> exists w, e = ETag w) -> (forall e, b = Some e -> exists w, e = ETag w) ->
  forall e, first_error a b = Some e -> exists w, e = ETag w.
Proof. intros Ha Hb e. destruct a; cbn; auto. Qed.

Lemma parse_options_tag u n : forall tag req e seen req' e',
  (forall x, e = Some x -> exists w, x = ETag w) -> parse_options u n tag req e seen = (req', Some e') -> exists w, e' = ETag w.
Proof.
  induction n as [|n IH]; intros tag req e seen req' e' He; cbn [parse_options].
  { intros H. assert (e = Some e') by congruence. eauto. }
  destruct tag as [|c rest]; [intros H; assert (e = Some e') by congruence; eauto|].
  assert (T : forall s x, Some (ETag s) = Some x -> exists w, x = ETag w) by (intros s x H; injection H as <-; eauto).
  destruct (negb (b2z c =? 44)).
  - destruct (consume_option u (c :: rest)) as [[opt m] e2]. intros H. eapply IH; [|exact H]. clear H IH.
    repeat match goal with
    | |- forall x, (match ?c with _ => _ end) = Some x -> _ => destruct c
    | |- forall x, first_error _ _ = Some x -> _ => apply first_error_tag
    end; auto; apply T.
  - destruct rest as [|c' rest]; [intros H; assert (E : first_error e (Some (ETag "invalid trailing comma")) = Some e') by congruence;
      revert E; apply first_error_tag; [exact He|apply T]|].
    destruct (consume_option u (c' :: rest)) as [[opt m] e2]. intros H. eapply IH; [|exact H]. clear H IH.
    repeat match goal with
    | |- forall x, (match ?c with _ => _ end) = Some x -> _ => destruct c
    | |- forall x, first_error _ _ = Some x -> _ => apply first_error_tag
    end; auto; apply T.
Qed.

Lemma tag_error u sf o ig e : parse_field_options u sf = (o, ig, Some e) -> exists w, e = ETag w.
Proof.
  unfold parse_field_options. destruct (bytes_eqb _ _); [discriminate|].
  destruct (negb (sf_exported sf)); [destruct (sf_tag sf); intros H; [injection H as _ _ <-; eauto|discriminate]|].
  destruct (parse_int16 _); [|intros H; injection H as _ _ <-; eauto].
  destruct (parse_options u _ _ _ _ _) as [req e'] eqn:E. intros H. injection H as _ _ ->.
  eapply parse_options_tag; [|exact E]. discriminate.
Qed.

Lemma collect_error ln t fs : forall i e, collect_fields env ln t i fs = Some (inr e) ->
  exists what, e = ESemantic "" 0 (Some t) (Some (ETag what)).
Proof.
  induction fs as [|sf r IH]; intros i e H; cbn [collect_fields] in H; [discriminate|].
  destruct (parse_field_options (te_uni env) sf) as [[o ig] er] eqn:Pf.
  destruct er as [er|].
  - destruct (tag_error _ _ _ _ _ Pf) as (w & ->). exists w. destruct ig; congruence.
  - destruct ig; [eapply IH; exact H|]. destruct (lookup env ln (sf_type sf)); [|discriminate].
    destruct (collect_fields env ln t (S i) r) as [[l|e']|] eqn:C; try discriminate.
    injection H as <-. eapply IH; exact C.
Qed.

Lemma table_error ln t e : make_struct_fields env ln t = Some (inr e) ->
  exists what, e = ESemantic "" 0 (Some t) (Some (ETag what)).
Proof.
  unfold make_struct_fields. destruct (collect_fields env ln t 0 _) as [[l|e']|] eqn:C; [| |discriminate].
  - destruct (struct_def env t), l; try discriminate. destruct (existsb _ _); [discriminate|].
    intros H. injection H as <-. eauto.
  - intros H. assert (e' = e) by congruence. subst e'. eapply collect_error; exact C.
Qed.

Section MarshalTotal.
Context (P : rtype -> Prop) (Hcl : closed env P) (Henv : env_ok env) (Hdem : forall t, P t -> Acc (demand env) t).

Definition played (a : arsh) (v : gval) : Prop :=
  exists N cs r, forall n ln, (N <= n)%nat -> (N <= ln)%nat -> plays (marshal env ln n a v) cs r.

Lemma refuse_played a v N e : refusal "marshal" e ->
  (forall n ln, (N <= n)%nat -> (N <= ln)%nat -> marshal env ln (S n) a v = Ret (Some e)) -> played a v.
Proof using.
  clear P Hcl Hdem Henv. intros He H. exists (S N), [], (Some e). intros [|n] ln Hn Hl; [lia|]. rewrite H by lia. now apply pl_refuse.
Qed.

(** One selected field. *)
Definition field_calls (f : structField) (cs : list wcall) : list wcall :=
  CFieldBegin (mkFH (f_name f) (wire_type (f_fncs f)) (f_id f)) :: cs ++ [CFieldEnd].

Lemma played_struct t s vs : P t -> under env t = RtStruct s -> has_type env (GStruct vs) t ->
  (forall i sf v a, nth_error (te_struct env s) i = Some sf -> nth_error vs i = Some v -> P (sf_type sf) ->
     codec env (sf_type sf) a -> written env sf v -> played a v) ->
  played (AStruct t) (GStruct vs).
Proof using Hcl Henv Hdem.
  intros Ht U Hty HI. destruct (table_ends env P Hcl Henv t s Ht U) as (ln & r & M).
  destruct r as [fs|e].
  2:{ destruct (table_error _ _ _ M) as (w & ->).
      apply refuse_played with (N := ln) (e := ESemantic "marshal" 0 (Some t) (Some (ETag w))).
      - exists t, 0, (Some (ETag w)). eauto.
      - intros n ln' Hn Hl. cbn [marshal]. rewrite (make_fields_more env ln ln' _ _ ltac:(lia) M). reflexivity. }
  assert (Ct : codec env t (AStruct t)) by (exists 1%nat; cbn [lookup]; now rewrite U).
  apply type_struct in Hty as (s' & U' & Hty). rewrite U in U'. injection U' as <-.
  destruct (fields_spec env Henv ln t fs M) as (F1 & _ & _).
  assert (SD : struct_def env t = te_struct env s) by (unfold struct_def; now rewrite U). rewrite SD in F1.
  assert (G : exists N cs r, forall n ln', (N <= n)%nat -> (N <= ln')%nat ->
    plays (marshal_fields env (marshal env ln' n) t vs fs) cs r).
  { assert (Hsub : forall f, In f fs -> exists j sf o, nth_error (te_struct env s) j = Some sf /\ tagged env sf o /\
        codec env (sf_type sf) (f_fncs f) /\ f_index f = j /\ f_typ f = sf_type sf /\ f_required f = fo_required o /\
        (forall v, field_zero env f v = zero_field env sf v)).
    { intros f Hf. apply F1 in Hf as (j & sf & o & a & N & S & L & ->). exists j, sf, o. cbn. conj; auto; [now exists ln|]. apply zero_field_model. }
    clear M F1. induction fs as [|f r IHr].
    - exists O, [CStructEnd], None. intros. cbn [marshal_fields]. now apply (plays_wr t (AStruct t) _ CStructEnd).
    - destruct IHr as (N & cs & res & E); [intros; apply Hsub; now right|].
      destruct (Hsub f (or_introl eq_refl)) as (j & sf & o & Nf & Tg & C & A1 & A0 & A2 & A3).
      assert (Psf : P (sf_type sf)).
      { pose proof (cl_parts env P Hcl t Ht) as K. unfold parts in K. rewrite U in K.
        apply (K sf o); auto. eapply nth_error_In; eauto. }
      destruct (wire_type (f_fncs f) =? T_Stop) eqn:W.
      { exists O, [], (Some (ESemantic "marshal" 0 (Some (f_typ f)) None)). intros. cbn [marshal_fields]. rewrite W.
        apply pl_refuse. exists (f_typ f), 0, None. auto. }
      destruct (nth_error vs j) as [v|] eqn:Nv.
      2:{ exfalso. apply nth_error_None in Nv. rewrite (Forall2_len _ _ _ Hty) in Nv.
          assert (j < length (te_struct env s))%nat by (apply nth_error_Some; congruence). lia. }
      destruct (negb (f_required f) && field_zero env f v) eqn:Z.
      + exists N, cs, res. intros n ln' Hn Hl. cbn [marshal_fields]. rewrite W, A1, Nv, Z. auto.
      + assert (Wr : written env sf v).
        { exists o. split; [exact Tg|]. rewrite A2, A3 in Z. destruct (fo_required o), (zero_field env sf v); auto; discriminate. }
        destruct (HI j sf v (f_fncs f) Nf Nv Psf C Wr) as (N' & cs' & r' & E').
        destruct r' as [er|].
        * exists N', (CFieldBegin (mkFH (f_name f) (wire_type (f_fncs f)) (f_id f)) :: cs'), (Some er).
          intros n ln' Hn Hl. cbn [marshal_fields]. rewrite W, A1, Nv, Z.
          apply (plays_then _ [_] _ cs'); [now apply (plays_wr t (AStruct t) _ (CFieldBegin _))|].
          apply plays_stop. apply E'; lia.
        * exists (N + N')%nat, (field_calls f cs' ++ cs), res. intros n ln' Hn Hl. cbn [marshal_fields]. rewrite W, A1, Nv, Z.
          unfold field_calls. cbn [app]. rewrite <- app_assoc.
          apply (plays_then _ [_] _ (cs' ++ [CFieldEnd] ++ cs)); [now apply (plays_wr t (AStruct t) _ (CFieldBegin _))|].
          apply plays_then; [apply E'; lia|]. apply plays_then; [now apply (plays_wr t (AStruct t) _ CFieldEnd)|].
          apply E; lia. }
  destruct G as (N & cs & res & E). exists (Datatypes.S (N + ln)), (CStructBegin (type_name env t) :: cs), res.
  intros [|n] ln' Hn Hl; [lia|]. cbn [marshal]. rewrite (make_fields_more env ln ln' _ _ ltac:(lia) M).
  apply (plays_then _ [_] _ cs); [now apply (plays_wr t (AStruct t) _ (CStructBegin _))|]. apply E; lia.
Qed.

Lemma played_wr t a v act c : codec env t a -> act = wname (ev c) ->
  (forall n ln, marshal env ln (S n) a v = wr act (wire_type a) t (ev c)) -> played a v.
Proof using.
  clear P Hcl Hdem Henv. intros C -> H. exists 1%nat, [c], None. intros [|n] ln Hn Hl; [lia|]. rewrite H. now apply (plays_wr t a).
Qed.

Lemma played_int t a w z : codec env t a -> wire_type a = width_type w ->
  (forall n ln, marshal env ln (S n) a (GInt z) = wr (write_action w) (width_type w) t (width_write w z)) ->
  played a (GInt z).
Proof using.
  clear P Hcl Hdem Henv. intros C Hw H. rewrite <- Hw in H.
  destruct w; [apply (played_wr t a _ "WriteByte" (CByte (z2b z)))|apply (played_wr t a _ "WriteI16" (CI16 (i16 z)))
    |apply (played_wr t a _ "WriteI32" (CI32 (i32 z)))|apply (played_wr t a _ "WriteI64" (CI64 (i64 z)))]; auto.
Qed.

Lemma seq_played t set (ea : arsh) es : codec env t (ASeq t set ea) -> Forall (played ea) es -> forall (nl : bool) sp,
  played (ASeq t set ea) (GSlice nl es sp).
Proof using.
  clear P Hcl Hdem Henv. intros C H nl sp.
  destruct (wire_type ea =? T_Stop) eqn:W.
  { apply refuse_played with (N := O) (e := sem "marshal" (if set then T_Set else T_List) t None).
    - exists t. eexists. exists None. split; [reflexivity|auto].
    - intros n ln Hn Hl. cbn [marshal]. now rewrite W. }
  assert (G : exists N cs r, forall n ln', (N <= n)%nat -> (N <= ln')%nat ->
    plays (marshal_elems (marshal env ln' n) t set ea es) cs r).
  { induction H as [|v r Hv Hr IH].
    - destruct set; [exists O, [CSetEnd], None|exists O, [CListEnd], None]; intros; cbn [marshal_elems].
      + now apply (plays_wr t (ASeq t true ea) _ CSetEnd).
      + now apply (plays_wr t (ASeq t false ea) _ CListEnd).
    - destruct IH as (N & cs & res & E). destruct Hv as (N' & cs' & [er|] & E').
      + exists N', cs', (Some er). intros n ln' Hn Hl. cbn [marshal_elems]. apply plays_stop. apply E'; lia.
      + exists (N + N')%nat, (cs' ++ cs), res. intros n ln' Hn Hl. cbn [marshal_elems].
        apply plays_then; [apply E'; lia|apply E; lia]. }
  destruct G as (N & cs & res & E).
  destruct set; [exists (S N), (CSetBegin (mkSetH (wire_type ea) (zlen es)) :: cs), res
    |exists (S N), (CListBegin (mkSetH (wire_type ea) (zlen es)) :: cs), res];
    (intros [|n] ln Hn Hl; [lia|]); cbn [marshal]; rewrite W;
    apply (plays_then _ [_] _ cs); try (apply E; lia).
  - now apply (plays_wr t (ASeq t true ea) _ (CSetBegin _)).
  - now apply (plays_wr t (ASeq t false ea) _ (CListBegin _)).
Qed.

Lemma map_played t ka va o : codec env t (AMap t ka va) ->
  Forall (fun p => played ka (fst p) /\ played va (snd p)) (match o with Some es => es | None => [] end) ->
  played (AMap t ka va) (GMap o).
Proof using.
  clear P Hcl Hdem Henv. intros C H. destruct ((wire_type ka =? T_Stop) || (wire_type va =? T_Stop)) eqn:W.
  { apply refuse_played with (N := O) (e := sem "marshal" T_Map t None).
    - exists t. eexists. exists None. split; [reflexivity|auto].
    - intros n ln Hn Hl. cbn [marshal]. now rewrite W. }
  revert H. set (es := match o with Some es => es | None => [] end). intros H.
  assert (G : exists N cs r, forall n ln', (N <= n)%nat -> (N <= ln')%nat ->
    plays (marshal_entries (marshal env ln' n) t ka va es) cs r).
  { clearbody es. induction H as [|[k v] r [Hk Hv] Hr IH].
    - exists O, [CMapEnd], None; intros; cbn [marshal_entries]. now apply (plays_wr t (AMap t ka va) _ CMapEnd).
    - cbn [fst snd] in *. destruct IH as (N & cs & res & E). destruct Hk as (N' & cs' & [er|] & E').
      + exists N', cs', (Some er). intros n ln' Hn Hl. cbn [marshal_entries]. apply plays_stop. apply E'; lia.
      + destruct Hv as (N2 & cs2 & [er|] & E2).
        * exists (N' + N2)%nat, (cs' ++ cs2), (Some er). intros n ln' Hn Hl. cbn [marshal_entries].
          apply plays_then; [apply E'; lia|]. apply plays_stop. apply E2; lia.
        * exists (N + N' + N2)%nat, (cs' ++ cs2 ++ cs), res. intros n ln' Hn Hl. cbn [marshal_entries].
          apply plays_then; [apply E'; lia|]. apply plays_then; [apply E2; lia|apply E; lia]. }
  destruct G as (N & cs & res & E).
  exists (S N), (CMapBegin (mkMapH (wire_type ka) (wire_type va) (zlen es)) :: cs), res.
  intros [|n] ln Hn Hl; [lia|]. cbn [marshal]. rewrite W. fold es.
  apply (plays_then _ [_] _ cs); [now apply (plays_wr t (AMap t ka va) _ (CMapBegin _))|]. apply E; lia.
Qed.

Lemma played_ptr t e ea o : under env t = RtPtr e -> codec env e ea ->
  played ea (match o with Some v => v | None => zero env e end) -> played (APtr t ea) (GPtr o).
Proof using.
  clear P Hcl Hdem Henv. intros U C (N & cs & r & H). exists (S N), cs, r. intros [|n] ln Hn Hl; [lia|]. cbn [marshal].
  unfold elem_type. rewrite U. destruct o; apply H; lia.
Qed.

Lemma played_invalid t v : played (AInvalid t) v.
Proof using.
  clear P Hcl Hdem Henv. apply refuse_played with (N := O) (e := ESemantic "marshal" 0 (Some t) None); [|reflexivity].
  exists t, 0, None. auto.
Qed.

Lemma zero_played t : P t -> forall a, codec env t a -> played a (zero env t).
Proof using Hcl Henv Hdem.
  intros Ht. pose proof (Hdem t Ht) as A. induction A as [t _ IH]. intros a Hc.
  pose proof (codec_inv env _ _ Hc) as Hi. pose proof (zero_eq env Henv t) as Hz.
  pose proof (cl_parts env P Hcl t Ht) as K. unfold parts in K.
  destruct a as [t'|t'|t' single|t' w|t' w|t'|t'|t'|t'|t' ka va|t' set ea|t' ea]; cbv iota in Hi.
  - subst t'. apply played_invalid.
  - destruct Hi as [-> U]. rewrite Hz, U. apply (played_wr t _ _ "WriteBool" (CBool false)); auto.
  - destruct Hi as [-> U]. rewrite Hz, U. destruct single.
    + apply (played_wr t _ _ "WriteDouble" (CDouble (f32_to_f64 0))); auto.
    + apply (played_wr t _ _ "WriteDouble" (CDouble 0)); auto.
  - destruct Hi as [-> U]. rewrite Hz, U. destruct w; eapply played_int; eauto; reflexivity.
  - destruct Hi as [-> U]. rewrite Hz, U. destruct w; eapply played_int; eauto; reflexivity.
  - destruct Hi as [-> U]. rewrite Hz, U. apply (played_wr t _ _ "WriteString" (CString [])); auto.
  - destruct Hi as (-> & U & B). rewrite Hz, U, B. apply (played_wr t _ _ "WriteBytes" (CBytes [])); auto.
  - destruct Hi as (-> & U). rewrite Hz, U. eapply (played_wr t _ _ "WriteUUID" (CUUID _)); auto. intros; reflexivity.
  - destruct Hi as (-> & s & U). pose proof (zero_typed env Henv t) as Hty. rewrite Hz, U in Hty. rewrite Hz, U.
    apply (played_struct t s); auto. intros i sf v a N Nv Ps C W.
    rewrite nth_error_map, N in Nv. injection Nv as <-. apply IH; auto.
    unfold demand. rewrite U. exists sf. conj; auto. eapply nth_error_In; eauto.
  - destruct Hi as (-> & kt & e & U & Hka & Hva). rewrite Hz, U. apply map_played; auto.
  - destruct Hi as (-> & e & U & B & Hea & Hset). rewrite Hz, U, B. apply seq_played; auto.
  - destruct Hi as (-> & e & U & Hea). rewrite U in K. rewrite Hz, U.
    apply (played_ptr t e); auto. apply IH; auto. unfold demand. now rewrite U.
Qed.

Theorem marshal_played v : forall t a, P t -> codec env t a -> has_type env v t -> played a v.
Proof using Hcl Henv Hdem.
  induction v as [b|z|z|z|z|nl x sp|u|es IH|nl es sp IH IH2| |es IH| |v IH|vs IH|k] using gval_ind';
    intros t a Ht Hc Hty; pose proof (codec_inv env _ _ Hc) as Hi; pose proof (cl_parts env P Hcl t Ht) as K; unfold parts in K;
    destruct a as [t'|t'|t' single|t' w|t' w|t'|t'|t'|t'|t' ka va|t' set ea|t' ea]; try apply played_invalid; cbv iota in Hi;
    try (destruct Hi as [-> U]; cbn [has_type] in Hty; rewrite U in Hty;
         first [contradiction | destruct w; contradiction | destruct single; contradiction]; fail);
    try (destruct Hi as (-> & U & B); cbn [has_type] in Hty; rewrite U in Hty; contradiction);
    try (destruct Hi as (-> & s & U); cbn [has_type] in Hty; rewrite U in Hty; contradiction);
    try (destruct Hi as (-> & s & U & _); cbn [has_type] in Hty; rewrite U in Hty; contradiction);
    try (destruct Hi as (-> & s & e & U & _); cbn [has_type] in Hty; rewrite U in Hty; contradiction).
  - destruct Hi as [-> U]. apply (played_wr t _ _ "WriteBool" (CBool b)); auto.
  - destruct Hi as [-> U]. eapply played_int; eauto; reflexivity.
  - destruct Hi as [-> U]. eapply played_int; eauto; reflexivity.
  - destruct Hi as [-> U]. cbn [has_type] in Hty. rewrite U in Hty. destruct single; [|contradiction].
    apply (played_wr t _ _ "WriteDouble" (CDouble (f32_to_f64 z))); auto.
  - destruct Hi as [-> U]. cbn [has_type] in Hty. rewrite U in Hty. destruct single; [contradiction|].
    apply (played_wr t _ _ "WriteDouble" (CDouble z)); auto.
  - destruct Hi as [-> U]. apply (played_wr t _ _ "WriteString" (CString z)); auto.
  - destruct Hi as (-> & U & B). apply (played_wr t _ _ "WriteBytes" (CBytes x)); auto.
  - destruct Hi as (-> & e & U & B & _). cbn [has_type] in Hty. rewrite U in Hty. destruct Hty as [Hty _]. congruence.
  - destruct Hi as (-> & U). apply (played_wr t _ _ "WriteUUID" (CUUID u)); auto.
  - destruct Hi as (-> & U). exfalso. cbn [has_type] in Hty. rewrite U in Hty. destruct Hty as [Hty _]. now apply Hty.
  - destruct Hi as (-> & U & B). exfalso. cbn [has_type] in Hty. rewrite U in Hty. destruct Hty as [Hty _]. congruence.
  - destruct Hi as (-> & e & U & B & Hea & Hset). rewrite U in K. specialize (K B).
    apply type_slice in Hty as (e' & U' & _ & _ & Hty & _). rewrite U in U'. injection U' as <-.
    apply seq_played; auto. rewrite Forall_forall in *. intros v Hv. eapply IH; eauto.
  - destruct Hi as (-> & kt & e & U & Hka & Hva). apply map_played; auto.
  - destruct Hi as (-> & kt & e & U & Hka & Hva). rewrite U in K. destruct K as [Pk Pe].
    apply type_map in Hty as (k' & e' & U' & Hty). rewrite U in U'. injection U' as <- <-.
    apply map_played; auto. rewrite Forall_forall in *. intros [k v] Hv. cbn [fst snd].
    destruct (IH _ Hv) as [I1 I2]. destruct (Hty _ Hv) as [T1 T2]. cbn [fst snd] in *. split; [apply (I1 kt)|apply (I2 e)]; auto.
  - destruct Hi as (-> & e & U & Hea). rewrite U in K. apply (played_ptr t e); auto. now apply zero_played.
  - destruct Hi as (-> & e & U & Hea). rewrite U in K. cbn [has_type] in Hty. rewrite U in Hty.
    apply (played_ptr t e); auto. eapply IH; eauto.
  - destruct Hi as (-> & s & U). apply (played_struct t s); auto. intros i sf v a N Nv Ps C W.
    pose proof Hty as Hty'. apply type_struct in Hty' as (s' & U' & Hty'). rewrite U in U'. injection U' as <-.
    rewrite Forall_forall in IH. apply (IH v) with (t := sf_type sf); auto; [eapply nth_error_In; eauto|].
    clear -Hty' N Nv. revert i N Nv. induction Hty' as [|x y l m Hx Hl IHl]; intros [|i] N Nv; try discriminate.
    + injection N as <-. injection Nv as <-. exact Hx.
    + eapply IHl; eauto.
Qed.
End MarshalTotal.
End Err.
