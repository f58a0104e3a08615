(** Unmarshal on memory that is shared in any way. *)
From Coq Require Import Strings.String.
From Verif Require Import Base BaseLemmas Prog Wire GoFloat Utf8 GoType Fields Arshal GoTypeProof FieldsProof ArshalSpec
  Heap HeapSpec HeapProof HeapUnmarshal AnySpec.

(** ** Programs that ask the same, except that the second may panic if [P] *)
Inductive like (P : Prop) {A B} (R : A -> B -> Prop) : prog wireR A -> prog wireR B -> Prop :=
| like_ret a b : R a b -> like P R (Ret a) (Ret b)
| like_vis X (e : wireR X) k k' : (forall x, like P R (k x) (k' x)) -> like P R (Vis e k) (Vis e k')
| like_uuid u w k k' : length u = 16%nat -> length w = 16%nat ->
    (forall x y e, length x = 16%nat -> length y = 16%nat -> like P R (k (x, e)) (k' (y, e))) ->
    like P R (Vis (RUUID u) k) (Vis (RUUID w) k')
| like_crash c : like P R (Crash c) (Crash c)
| like_panic p : P -> like P R p (Crash Panicked).

Lemma like_run {S A B} (P : Prop) (R : A -> B -> Prop) p q : like P R p q -> forall (h : handler wireR S) s, fills h ->
  match run h q s with
  | Done s1 b => exists a, run h p s = Done s1 a /\ R a b
  | Crashed c => (P /\ c = Panicked) \/ run h p s = Crashed c
  end.
Proof.
  induction 1 as [a b Hr|X e k k' Hk IH|u w k k' Lu Lw Hk IH|c|p Hp]; intros h s F; cbn [run]; eauto.
  - destruct (h X e s) as [s' x|c]; [now apply IH|now right].
  - specialize (F u w s Lu Lw) as K. destruct (h _ (RUUID u) s) as [s1 [x e]|c], (h _ (RUUID w) s) as [s2 [y e']|c']; try contradiction.
    + destruct K as (-> & -> & Lx & Ly). now apply IH.
    + subst c'. now right.
Qed.
Lemma like_bind (P : Prop) {A B C D} (R : A -> B -> Prop) (Q : C -> D -> Prop) p q f g :
  like P R p q -> (forall a b, R a b -> like P Q (f a) (g b)) -> like P Q (bind p f) (bind q g).
Proof. induction 1; intros K; cbn [bind]; auto; constructor; auto. Qed.
Lemma like_mono (P P' : Prop) {A B} (R Q : A -> B -> Prop) p q : like P R p q -> (P -> P') -> (forall a b, R a b -> Q a b) -> like P' Q p q.
Proof. induction 1; intros K1 K; constructor; auto. Qed.
Lemma like_same (P : Prop) {A} (p : prog wireR A) : like P eq p p.
Proof. induction p; constructor; auto. Qed.
Lemma like_loop_nat (P : Prop) {S S' A B} (I : S -> S' -> Prop) (Q : A -> B -> Prop) f g n :
  (forall s s', I s s' -> like P (either I Q) (f s) (g s')) ->
  forall s s', I s s' -> like P (either I Q) (loop_nat n f s) (loop_nat n g s').
Proof.
  intros K. induction n as [|n IH]; intros s s' Hs; cbn [loop_nat]; [now constructor|].
  eapply like_bind; [now apply K|]. intros [x|x] [y|y] Hxy; try contradiction; [now apply IH|now constructor].
Qed.
Lemma like_loop_pos (P : Prop) {S S' A B} (I : S -> S' -> Prop) (Q : A -> B -> Prop) f g n :
  (forall s s', I s s' -> like P (either I Q) (f s) (g s')) ->
  forall s s', I s s' -> like P (either I Q) (loop_pos n f s) (loop_pos n g s').
Proof.
  intros K. induction n as [n IH|n IH|]; intros s s' Hs; cbn [loop_pos]; [| |now apply K].
  - eapply like_bind; [now apply K|]. intros [x|x] [y|y] Hxy; try contradiction; [|now constructor].
    eapply like_bind; [now apply IH|]. intros [x'|x'] [y'|y'] Hxy'; try contradiction; [now apply IH|now constructor].
  - eapply like_bind; [now apply IH|]. intros [x'|x'] [y'|y'] Hxy'; try contradiction; [now apply IH|now constructor].
Qed.
Lemma like_loop_Z (P : Prop) {S S' A B} (I : S -> S' -> Prop) (Q : A -> B -> Prop) f g n :
  (forall s s', I s s' -> like P (either I Q) (f s) (g s')) ->
  forall s s', I s s' -> like P (either I Q) (loop_Z n f s) (loop_Z n g s').
Proof. intros K s s' Hs. destruct n; cbn [loop_Z]; try (now constructor). now apply like_loop_pos. Qed.
Lemma like_rdu (P : Prop) {X A B} (R : A -> B -> Prop) action wt t (e : wireR (X * option err)) fail fail' k k' :
  (forall x er, R (fail x er) (fail' x er)) -> (forall x, like P R (k x) (k' x)) ->
  like P R (rdu action wt t e fail k) (rdu action wt t e fail' k').
Proof. intros K1 K2. unfold rdu. cbn. constructor. intros [x [er|]]; [constructor; auto|apply K2]. Qed.
Lemma like_rdu0 (P : Prop) {A B} (R : A -> B -> Prop) action wt t (e : wireR (option err)) fail fail' k k' :
  (forall er, R (fail er) (fail' er)) -> like P R k k' ->
  like P R (rdu0 action wt t e fail k) (rdu0 action wt t e fail' k').
Proof. intros K1 K2. unfold rdu0. cbn. constructor. intros [er|]; [constructor; auto|apply K2]. Qed.

(** ** What Unmarshal asks a Reader, without the values *)
Section Ghost.
Context (env : tenv) (ln : nat).
Definition gcheck (wt want : Z) (t : rtype) (k : prog wireR (option err)) : prog wireR (option err) :=
  if wt =? want then k else Ret (Some (sem "unmarshal" wt t None)).
Definition gscalar {X} (action : string) (wt : Z) (t : rtype) (e : wireR (X * option err)) : prog wireR (option err) :=
  rdu action wt t e (fun _ er => Some er) (fun _ => Ret None).
Definition gfield (rec : arsh -> Z -> prog wireR (option err)) (skip : Z -> prog wireR (option err)) (t : rtype)
  (fs : list structField) (_ : unit) : prog wireR (unit + option err) :=
  rdu "ReadFieldBegin" T_Struct t RFieldBegin (fun _ er => inr (Some er)) (fun h =>
  if fh_type h =? T_Stop then
    rdu0 "ReadStructEnd" T_Struct t RStructEnd (fun er => inr (Some er)) (Ret (inr None))
  else
    let field_end := rdu0 "ReadFieldEnd" T_Struct t RFieldEnd (fun er => inr (Some er)) (Ret (inl tt)) in
    e <- match by_id fs (fh_id h) with
         | None => skip (fh_type h)
         | Some f => rec (f_fncs f) (fh_type h)
         end ;;
    match e with
    | Some _ => Ret (inr e)
    | None => field_end
    end).
Definition gentry (rec : arsh -> Z -> prog wireR (option err)) (ka ea : arsh) (h : maphdr) (_ : unit)
  : prog wireR (unit + option err) :=
  e <- rec ka (map_key h) ;;
  match e with
  | Some _ => Ret (inr e)
  | None => e <- rec ea (map_val h) ;; match e with Some _ => Ret (inr e) | None => Ret (inl tt) end
  end.
Definition gelem (rec : arsh -> Z -> prog wireR (option err)) (ea : arsh) (wt : Z) (_ : unit)
  : prog wireR (unit + option err) :=
  e <- rec ea wt ;; match e with Some _ => Ret (inr e) | None => Ret (inl tt) end.

Fixpoint ghost (n : nat) (a : arsh) (wt : Z) : prog wireR (option err) :=
  match n with
  | O => Crash OutOfFuel
  | S m =>
      match a with
      | ABool t => gcheck wt T_Bool t (gscalar "ReadBool" T_Bool t RBool)
      | ADouble t single => gcheck wt T_Double t (gscalar "ReadDouble" T_Double t RDouble)
      | AInt t w | AUint t w =>
          gcheck wt (width_type w) t
            (match w with
             | W8 => gscalar "ReadByte" T_Byte t RByte
             | W16 => gscalar "ReadI16" T_I16 t RI16
             | W32 => gscalar "ReadI32" T_I32 t RI32
             | W64 => gscalar "ReadI64" T_I64 t RI64
             end)
      | AString t => gcheck wt T_String t (gscalar "ReadString" T_String t RString)
      | ABytes t => gcheck wt T_String t (gscalar "ReadBytes" T_String t (RBytes []))
      | AUUID t => gcheck wt T_UUID t (gscalar "ReadUUID" T_UUID t (RUUID zero_uuid))
      | AStruct t =>
          match make_struct_fields env ln t with
          | None => Crash OutOfFuel
          | Some (inr e) => Ret (Some (with_action "unmarshal" e))
          | Some (inl fs) =>
              gcheck wt T_Struct t
                (rdu "ReadStructBegin" T_Struct t RStructBegin (fun _ er => Some er) (fun _ =>
                 x <- loop_nat n (gfield (ghost m) (skip m) t fs) tt ;;
                 match x with inr r => Ret r | inl _ => Crash OutOfFuel end))
          end
      | AMap t ka ea =>
          gcheck wt T_Map t
            (rdu "ReadMapBegin" T_Map t RMapBegin (fun _ er => Some er) (fun h =>
             let fin := rdu0 "ReadMapEnd" T_Map t RMapEnd (fun er => Some er) (Ret None) in
             if map_size h >? 0 then
               x <- loop_Z (map_size h) (gentry (ghost m) ka ea h) tt ;;
               match x with inr r => Ret r | inl _ => fin end
             else fin))
      | ASeq t set ea =>
          let wt' := if set then T_Set else T_List in
          gcheck wt wt' t
            (rdu (if set then "ReadSetBegin" else "ReadListBegin") wt' t
               (if set then RSetBegin else RListBegin) (fun _ er => Some er) (fun h =>
             let fin := rdu0 (if set then "ReadSetEnd" else "ReadListEnd") wt' t
                          (if set then RSetEnd else RListEnd) (fun er => Some er) (Ret None) in
             if set_size h >? 0 then
               x <- loop_Z (set_size h) (gelem (ghost m) ea (set_elem h)) tt ;;
               match x with inr r => Ret r | inl _ => fin end
             else fin))
      | APtr t ea => ghost m ea wt
      | AInvalid t => Ret (Some (sem "unmarshal" wt t None))
      end
  end.
End Ghost.

(** ** Memory with kinds *)
Section Env.
Context (env : tenv) (Henv : env_ok env).
Notation size := (size env).
Notation sizes := (sizes env).
Notation zcells := (zcells env).
Notation layout := (layout env).
Notation fits := (fits env).
Notation cell_ok := (cell_ok env).
Notation sound := (sound env).
Notation evolves := (evolves env).
Notation reaches := (reaches env).
Notation tame := (tame env).

Lemma layout_n_enough n : forall m t, (te_rank env t < n)%nat -> (te_rank env t < m)%nat ->
  layout_n env n t = layout_n env m t.
Proof using Henv.
  induction n as [|n IH]; intros m t Hn Hm; [lia|]. destruct m as [|m]; [lia|].
  cbn [layout_n]. destruct (under env t) eqn:U; try reflexivity.
  f_equal. apply flat_map_ext'. intros f Hf.
  pose proof (ok_struct_rank _ Henv _ _ _ U Hf). apply IH; lia.
Qed.
Lemma layout_eq t : layout t =
  match under env t with
  | RtStruct s => KHead :: flat_map (fun f => layout (sf_type f)) (te_struct env s)
  | RtSlice e => [if as_bytes env t then KBytes else KSlice e]
  | RtMap k e => [KMap k e]
  | RtPtr e => [KPtr e]
  | u => [KLeaf u]
  end.
Proof using Henv.
  unfold AnySpec.layout at 1. cbn [layout_n]. destruct (under env t) eqn:U; try reflexivity.
  f_equal. apply flat_map_ext'. intros f Hf. apply layout_n_enough; [|lia].
  exact (ok_struct_rank _ Henv _ _ _ U Hf).
Qed.

Definition extends (T T' : nat -> option kind) : Prop := forall x k, T x = Some k -> T' x = Some k.
Lemma fits_more T T' a t : extends T T' -> fits T a t -> fits T' a t.
Proof. intros E F i k Hi. apply E. now apply F. Qed.
Lemma cell_more T T' k c : extends T T' -> cell_ok T k c -> cell_ok T' k c.
Proof.
  intros E. destruct k, c; cbn; auto; try tauto.
  - intros (A & B & C). auto.
  - intros (A & B & C). conj; auto. intros i Hi. eapply fits_more; eauto.
  - destruct o; auto.
  - apply Forall_impl. intros [a b] [A B]. split; eapply fits_more; eauto.
  - destruct o; auto. apply fits_more; auto.
Qed.
Lemma cells_more T T' ks cs : extends T T' -> Forall2 (cell_ok T) ks cs -> Forall2 (cell_ok T') ks cs.
Proof. intros E. induction 1; constructor; auto. eapply cell_more; eauto. Qed.

Lemma evolves_extends W T H T' H' : sound T H -> evolves W T H T' H' -> extends T T'.
Proof. intros So (_ & _ & E & _) x k Hx. rewrite E; [exact Hx|]. now apply (So x k). Qed.
Lemma evolves_refl W T H : sound T H -> evolves W T H T H.
Proof. intros So. unfold AnySpec.evolves. conj; auto. Qed.
Lemma evolves_trans W T H T1 H1 T2 H2 : evolves W T H T1 H1 -> evolves W T1 H1 T2 H2 -> evolves W T H T2 H2.
Proof.
  intros (A1 & A2 & A3 & A4) (B1 & B2 & B3 & B4). unfold AnySpec.evolves. conj; auto; [lia| |].
  - intros x Hx. rewrite B3 by lia. auto.
  - intros x Hx Hn. rewrite B4; auto; [lia|]. rewrite A3; auto.
Qed.

(** Zero values. *)
Lemma typed_sort v t : has_type env v t -> leaf v -> of_sort (under env t) v.
Proof.
  destruct v; cbn [leaf]; intros Ht L; try contradiction; cbn [has_type of_sort] in *;
    destruct (under env t) as [| | | | | | | | | | | | | | | | | | | | |e|k e|kt e|e|sid|id]; auto; try contradiction.
  - destruct k as [|p|p]; try contradiction. do 5 (destruct p as [p|p|]; try contradiction).
    destruct e; try contradiction. auto.
  - tauto.
Qed.
Lemma zero_leaf t : plain env t -> leaf (zero env t).
Proof using Henv.
  intros P. pose proof (holds_zero env Henv true (mkHeap (fun _ => CHead) 0) t) as K. rewrite (zcells_eq env Henv) in K.
  unfold plain in P. destruct (under env t); try contradiction;
    inversion K; subst; auto; try discriminate.
Qed.
Lemma zcells_ok T t : Forall2 (cell_ok T) (layout t) (zcells t).
Proof using Henv.
  assert (G : forall n t, (te_rank env t < n)%nat -> Forall2 (cell_ok T) (layout t) (zcells t)).
  { induction n as [|n IH]; intros t0 Hn; [lia|]. rewrite layout_eq, (zcells_eq env Henv).
    assert (Z := zero_typed env Henv t0). assert (L := zero_leaf t0). unfold plain in L.
    destruct (under env t0) eqn:U;
      try (constructor; [|constructor]; cbn [AnySpec.cell_ok]; rewrite <- U; apply typed_sort; [exact Z|now apply L]; fail).
    - constructor; [|constructor]. destruct (as_bytes env t0); cbn; conj; auto; intros i Hi; lia.
    - constructor; [|constructor]. exact I.
    - constructor; [|constructor]. exact I.
    - constructor; [exact I|].
      assert (K : forall f, In f (te_struct env sid) -> (te_rank env (sf_type f) < n)%nat).
      { intros f Hf. pose proof (ok_struct_rank _ Henv _ _ _ U Hf). lia. }
      clear -K IH. induction (te_struct env sid) as [|f l IHl]; [constructor|]. cbn [flat_map].
      apply Forall2_app; [apply IH, K; now left|apply IHl]. intros g Hg. apply K. now right. }
  apply (G (S (te_rank env t))). lia.
Qed.
Lemma Forall2_length {A B} (R : A -> B -> Prop) l m : Forall2 R l m -> length l = length m.
Proof. induction 1; cbn; auto. Qed.
Lemma layout_len t : length (layout t) = size t.
Proof using Henv. exact (Forall2_length _ _ _ (zcells_ok (fun _ => None) t)). Qed.

Lemma Forall2_nth_iff {A B} (R : A -> B -> Prop) l m : Forall2 R l m <->
  length l = length m /\ forall i a b, nth_error l i = Some a -> nth_error m i = Some b -> R a b.
Proof.
  split.
  - induction 1 as [|x y l m Hr Hl [IH1 IH2]]; [split; [reflexivity|intros [|i]; discriminate]|].
    split; [cbn; auto|]. intros [|i] a b; cbn; [congruence|apply IH2].
  - revert m; induction l as [|x l IH]; intros [|y m] [L K]; try discriminate; constructor.
    + now apply (K O).
    + apply IH. split; [cbn in L; lia|]. intros i. apply (K (S i)).
Qed.

(** What a variable holds. *)
Lemma peek_nth H a n i c : nth_error (peek H a n) i = Some c -> c = mem H (a + i).
Proof.
  unfold peek. revert a n; induction i as [|i IH]; intros a [|n] E; try discriminate; cbn in E.
  - injection E as <-. now rewrite Nat.add_0_r.
  - apply IH in E. rewrite E. f_equal. lia.
Qed.
Lemma peek_ok T H a t : sound T H -> fits T a t -> Forall2 (cell_ok T) (layout t) (peek H a (size t)).
Proof using Henv.
  intros So F. apply Forall2_nth_iff. split; [now rewrite peek_len, layout_len|].
  intros i k c Hk Hc. apply peek_nth in Hc as ->. apply So. now apply F.
Qed.

(** Storing. *)
Lemma poke_ok (W : kind -> Prop) T H a ks cs : sound T H -> Forall2 (cell_ok T) ks cs ->
  (forall i k, nth_error ks i = Some k -> T (a + i)%nat = Some k) -> (forall k, In k ks -> W k) ->
  evolves W T H T (poke H a cs).
Proof.
  intros So Fc Ft Hw. apply Forall2_nth_iff in Fc as [L Fc].
  assert (D : forall x, (exists i k c, x = (a + i)%nat /\ nth_error ks i = Some k /\ nth_error cs i = Some c) \/ ~ In x (seq a (length cs))).
  { intros x. destruct (le_lt_dec a x) as [La|La]; [|right; rewrite in_seq; lia].
    destruct (le_lt_dec (a + length cs) x) as [Lb|Lb]; [right; rewrite in_seq; lia|]. left.
    destruct (nth_error ks (x - a)) as [k|] eqn:Ek; [|apply nth_error_None in Ek; lia].
    destruct (nth_error cs (x - a)) as [c|] eqn:Ec; [|apply nth_error_None in Ec; lia].
    exists (x - a)%nat, k, c. conj; auto. lia. }
  unfold AnySpec.evolves. conj; auto.
  - intros x k Hx. rewrite poke_next. split; [now apply (So x k)|].
    destruct (D x) as [(i & k' & c & -> & Hk & Hc)|Hn].
    + rewrite (poke_nth _ _ _ _ _ Hc). specialize (Ft i k' Hk). assert (k' = k) as <- by congruence. eapply Fc; eauto.
    + rewrite poke_other by exact Hn. now apply So.
  - intros x Hx Hn. destruct (D x) as [(i & k' & c & -> & Hk & Hc)|Hi]; [|now apply poke_other].
    specialize (Ft i k' Hk). elim (Hn _ Ft). apply Hw. eapply nth_error_In; eauto.
Qed.
Lemma store_ok (W : kind -> Prop) T H a t cs : sound T H -> fits T a t -> Forall2 (cell_ok T) (layout t) cs ->
  (forall k, In k (layout t) -> W k) -> evolves W T H T (poke H a cs).
Proof. intros So F Fc Hw. eapply poke_ok; eauto. Qed.
Lemma cell_store (W : kind -> Prop) T H a k c : sound T H -> T a = Some k -> cell_ok T k c -> W k -> evolves W T H T (poke H a [c]).
Proof.
  intros So Ta C Hw. apply (poke_ok W T H a [k] [c]); auto; [|intros k' [<-|[]]; exact Hw].
  intros [|[|i]] k' E; cbn in E; try discriminate. injection E as <-. now rewrite Nat.add_0_r.
Qed.

(** Allocating. *)
Definition added (T : nat -> option kind) (a : nat) (ks : list kind) (x : nat) : option kind :=
  if Nat.ltb x a then T x else nth_error ks (x - a).
Lemma alloc_ok W T H ks cs : sound T H -> Forall2 (cell_ok (added T (next H) ks)) ks cs ->
  evolves W T H (added T (next H) ks) (fst (alloc H cs)) /\
  forall i k, nth_error ks i = Some k -> added T (next H) ks (next H + i)%nat = Some k.
Proof.
  intros So Fc. set (T' := added T (next H) ks) in *.
  assert (Old : forall x, (x < next H)%nat -> T' x = T x).
  { intros x Hx. unfold T', added. now rewrite (proj2 (Nat.ltb_lt _ _) Hx). }
  assert (New : forall i, T' (next H + i)%nat = nth_error ks i).
  { intros i. unfold T', added. rewrite (proj2 (Nat.ltb_ge _ _)) by lia. f_equal. lia. }
  assert (Ex : extends T T') by (intros x k Hx; rewrite Old; [exact Hx|now apply (So x k)]).
  split; [|intros i k E; now rewrite New].
  pose proof (Forall2_length _ _ _ Fc) as L. apply Forall2_nth_iff in Fc as [_ Fc].
  unfold AnySpec.evolves. conj; auto.
  - intros x k Hx. rewrite alloc_next. destruct (le_lt_dec (next H) x) as [Hl|Hl].
    + replace x with (next H + (x - next H))%nat in Hx |- * by lia. rewrite New in Hx.
      assert (Li : (x - next H < length ks)%nat) by (apply nth_error_Some; congruence).
      split; [lia|]. destruct (nth_error cs (x - next H)) as [c|] eqn:Ec; [|apply nth_error_None in Ec; lia].
      unfold alloc. cbn [fst]. rewrite (poke_nth _ _ _ _ _ Ec). eapply Fc; eauto.
    + rewrite Old in Hx by exact Hl. destruct (So x k Hx) as [Lx Cx]. split; [lia|]. rewrite alloc_old by exact Hl.
      eapply cell_more; eauto.
  - rewrite alloc_next. lia.
  - intros x Hx _. now apply alloc_old.
Qed.
Lemma new_ok W T H t cs : sound T H -> Forall2 (cell_ok T) (layout t) cs ->
  exists T', evolves W T H T' (fst (alloc H cs)) /\ fits T' (next H) t.
Proof.
  intros So Fc. exists (added T (next H) (layout t)). apply alloc_ok; [exact So|].
  eapply cells_more; [|exact Fc]. intros x k Hx. unfold added.
  destruct (So x k Hx) as [L _]. now rewrite (proj2 (Nat.ltb_lt _ _) L).
Qed.

Lemma evolves_mono (W W' : kind -> Prop) T H T' H' : (forall k, W k -> W' k) -> evolves W T H T' H' -> evolves W' T H T' H'.
Proof. intros Hw (A & B & C & D). unfold AnySpec.evolves. conj; auto. intros x Hx Hn. apply D; auto. intros k Hk Hk'. eapply Hn; eauto. Qed.
Lemma evolves_sound W T H T' H' : evolves W T H T' H' -> sound T' H'.
Proof. now intros (A & _). Qed.
Lemma evolves_keeps W T H T' H' x k : sound T H -> evolves W T H T' H' -> T x = Some k -> ~ W k -> mem H' x = mem H x.
Proof. intros So (_ & _ & _ & D) Tx Hn. apply D; [now apply (So x k)|]. intros k' Hk. congruence. Qed.

(** What can be reached. *)
Definition part (t e : rtype) : Prop := forall k, reaches e k -> reaches t k.
Lemma part_layout t e : incl (layout e) (layout t) -> part t e.
Proof.
  intros Hi k R. revert Hi. induction R as [e k Hk|e R IH|e x k R IH R2 _|e kt et R IH|e kt et k R IH R2 _|e kt et k R IH R2 _|e x k R IH R2 _]; intros Hi.
  - apply r_own. auto.
  - apply r_byte. auto.
  - eapply r_elem; eauto.
  - apply r_entries. auto.
  - eapply r_key; eauto.
  - eapply r_val; eauto.
  - eapply r_ptr; eauto.
Qed.
Lemma tame_part t e : part t e -> tame t -> tame e.
Proof. intros Hp [A B]. split; [intros x Hx|intros k x Hx]; [apply A|apply B]; now apply Hp. Qed.
Lemma own_one t k : layout t = [k] -> reaches t k.
Proof. intros E. apply r_own. rewrite E. now left. Qed.
Lemma own_all t k : In k (layout t) -> reaches t k.
Proof. apply r_own. Qed.

(** ** Unmarshal *)
Context (ln : nat) (prefix : nat -> nat -> nat) (room : nat -> nat).
Notation hunmarshal := (hunmarshal env ln prefix room).
Notation ghost := (ghost env ln).
Definition rel (W : kind -> Prop) (T : nat -> option kind) (H : heap) (e : option err) (q : heap * option err) : Prop :=
  snd q = e /\ exists T', evolves W T H T' (fst q).
Definition good (n : nat) : Prop := forall t a va T H wt, codec env t a -> sound T H -> fits T va t ->
  like (~ tame t) (rel (reaches t) T H) (ghost n a wt) (hunmarshal n a va H wt).

Lemma rel_same W T H e : sound T H -> rel W T H e (H, e).
Proof. intros So. split; [reflexivity|]. exists T. now apply evolves_refl. Qed.
Lemma rel_of W T H T' H' e : evolves W T H T' H' -> rel W T H e (H', e).
Proof. intros E. split; [reflexivity|]. eauto. Qed.
Lemma rel_trans W T H T1 H1 e q : evolves W T H T1 H1 -> rel W T1 H1 e q -> rel W T H e q.
Proof. intros E (A & T' & B). split; [exact A|]. exists T'. eapply evolves_trans; eauto. Qed.
Lemma good_part n t e a va T H wt : good n -> part t e -> codec env e a -> sound T H -> fits T va e ->
  like (~ tame t) (rel (reaches e) T H) (ghost n a wt) (hunmarshal n a va H wt).
Proof.
  intros G Hp C So F. eapply like_mono; [apply (G e); eauto| |auto]. intros Hn Ht. apply Hn. eapply tame_part; eauto.
Qed.

Lemma like_check P W T H wt want t p q : sound T H -> like P (rel W T H) p q -> like P (rel W T H) (gcheck wt want t p) (hcheck wt want t H q).
Proof. intros So A. unfold gcheck, hcheck. destruct (wt =? want); [exact A|]. constructor. now apply rel_same. Qed.
Lemma like_scalar {X} P (W : kind -> Prop) T H va u action wt t (e : wireR (X * option err)) f : sound T H -> T va = Some (KLeaf u) -> W (KLeaf u) ->
  (forall x, of_sort u (f x)) -> like P (rel W T H) (gscalar action wt t e) (hscalar action wt t e H va f).
Proof.
  intros So Ta Hw Hf. apply like_rdu.
  - intros x er. now apply rel_same.
  - intros x. constructor. eapply rel_of. eapply cell_store; eauto. apply Hf.
Qed.
Lemma fits_one T va t k : fits T va t -> layout t = [k] -> T va = Some k.
Proof. intros F E. specialize (F O k). rewrite E, Nat.add_0_r in F. now apply F. Qed.
(** *** structs *)
Lemma layouts_len ts : length (flat_map layout ts) = sizes ts.
Proof using Henv.
  induction ts as [|t ts IH]; [reflexivity|]. cbn [flat_map]. rewrite app_length, IH, (layout_len t). reflexivity.
Qed.
Lemma part_field t s ft : under env t = RtStruct s -> In ft (field_types env t) -> part t ft.
Proof using Henv.
  intros U Hf. apply part_layout. intros k Hk. rewrite (layout_eq t), U. right. unfold field_types in Hf. rewrite U in Hf.
  apply in_map_iff in Hf as (f & <- & Hf). apply in_flat_map. eauto.
Qed.
Lemma fits_field T a t s j ft : under env t = RtStruct s -> fits T a t -> nth_error (field_types env t) j = Some ft ->
  fits T (field_addr env t j a) ft.
Proof using Henv.
  intros U F Hj i k Hi. unfold field_addr. replace (a + S (sizes (firstn j (field_types env t))) + i)%nat
    with (a + S (sizes (firstn j (field_types env t)) + i))%nat by lia.
  apply F. rewrite layout_eq, U. cbn [nth_error]. unfold field_types in *. rewrite U in *.
  replace (flat_map (fun f => layout (sf_type f)) (te_struct env s)) with (flat_map layout (map sf_type (te_struct env s)))
    by (rewrite flat_map_concat_map, map_map, <- flat_map_concat_map; reflexivity).
  set (ts := map sf_type (te_struct env s)) in *. rewrite <- (firstn_skipn j ts) at 1.
  rewrite flat_map_app, nth_error_app2 by (rewrite layouts_len; lia).
  rewrite layouts_len. replace (sizes (firstn j ts) + i - sizes (firstn j ts))%nat with i by lia.
  assert (E : exists r, skipn j ts = ft :: r).
  { clear -Hj. revert Hj. generalize ts. induction j as [|j IH]; intros [|x l] Hj; try discriminate; cbn in *;
      [injection Hj as ->; eauto|apply IH; exact Hj]. }
  destruct E as [r ->]. cbn [flat_map]. rewrite nth_error_app1; [exact Hi|]. apply nth_error_Some. congruence.
Qed.

Definition now_at (W : kind -> Prop) (T : nat -> option kind) (H : heap) (_ : unit) (H' : heap) : Prop := exists T', evolves W T H T' H'.

Lemma field_like m t s fs va T H : good m -> under env t = RtStruct s -> make_struct_fields env ln t = Some (inl fs) ->
  sound T H -> fits T va t -> forall u H1, now_at (reaches t) T H u H1 ->
  like (~ tame t) (either (now_at (reaches t) T H) (rel (reaches t) T H)) (gfield (ghost m) (skip m) t fs u)
    (hunmarshal_field env (hunmarshal m) (skip m) t fs va H1).
Proof using Henv.
  intros IH U Hfs So F u H1 (T1 & E1). unfold gfield, hunmarshal_field.
  assert (Err : forall H1 T1 e, evolves (reaches t) T H T1 H1 -> rel (reaches t) T H e (H1, e)) by (intros; eapply rel_of; eauto).
  apply like_rdu; [intros _ er; eapply Err; eauto|]. intros h.
  destruct (fh_type h =? T_Stop).
  { apply like_rdu0; [intros er; eapply Err; eauto|]. constructor. eapply Err; eauto. }
  cbv zeta.
  assert (End : forall H2 T2, evolves (reaches t) T H T2 H2 -> like (~ tame t) (either (now_at (reaches t) T H) (rel (reaches t) T H))
     (rdu0 "ReadFieldEnd" T_Struct t RFieldEnd (fun er => inr (Some er)) (Ret (inl tt)))
     (rdu0 "ReadFieldEnd" T_Struct t RFieldEnd (fun er => inr (H2, Some er)) (Ret (inl H2)))).
  { intros H2 T2 E2. apply like_rdu0; [intros er; eapply Err; eauto|]. constructor. exists T2. exact E2. }
  destruct (by_id fs (fh_id h)) as [f|] eqn:Bf.
  - assert (Hf : In f fs).
    { unfold by_id in Bf. apply find_some in Bf as [Hf _]. now apply in_rev. }
    apply (proj1 (fields_spec env Henv ln t fs Hfs)) in Hf as (j & sf & o & a & Hj & _ & La & ->).
    cbn [f_index f_fncs]. unfold struct_def in Hj. rewrite U in Hj.
    assert (Hft : nth_error (field_types env t) j = Some (sf_type sf)).
    { unfold field_types. rewrite U. now apply map_nth_error. }
    assert (Pf : part t (sf_type sf)) by (eapply part_field; [exact U|]; eapply nth_error_In; exact Hft).
    rewrite Hft. eapply like_bind.
    { apply (good_part m t (sf_type sf) a _ T1); [exact IH|exact Pf|exists ln; exact La|eapply evolves_sound; eauto|].
      eapply fits_field; eauto. eapply fits_more; [eapply evolves_extends; eauto|exact F]. }
    intros e [H2 e'] (Ee & T2 & E2). cbn [fst snd] in *. subst e'.
    assert (E02 : evolves (reaches t) T H T2 H2) by (eapply evolves_trans; [exact E1|]; eapply evolves_mono; eauto).
    destruct e as [er|]; [constructor; eapply Err; eauto|eapply End; eauto].
  - eapply like_bind; [apply like_same|]. intros e e' <-. destruct e; [constructor; eapply Err; eauto|eapply End; eauto].
Qed.

Lemma struct_like m t s va T H wt : good m -> under env t = RtStruct s -> sound T H -> fits T va t ->
  like (~ tame t) (rel (reaches t) T H) (ghost (S m) (AStruct t) wt) (hunmarshal (S m) (AStruct t) va H wt).
Proof using Henv.
  intros IH U So F. cbn [AnyProof.ghost Heap.hunmarshal].
  destruct (make_struct_fields env ln t) as [[fs|e]|] eqn:Hfs; [|constructor; now apply rel_same|constructor].
  apply like_check; [exact So|].
  assert (Ta : T va = Some KHead).
  { specialize (F O KHead). rewrite layout_eq, U, Nat.add_0_r in F. now apply F. }
  destruct (So va _ Ta) as [_ C]. destruct (mem H va); try contradiction.
  apply like_rdu; [intros _ er; now apply rel_same|]. intros _.
  eapply like_bind.
  { apply like_loop_nat; [apply (field_like m t s fs va T H IH U Hfs So F)|]. exists T. now apply evolves_refl. }
  intros [[]|r] [H'|q]; cbn [either]; try contradiction; intros K; [apply like_crash|apply like_ret; exact K].
Qed.

(** *** bytes *)
Lemma bytes_like (W : kind -> Prop) T H va base cap len nl x : sound T H -> T va = Some KBytes -> W KBytes -> W KByte -> mem H va = CSlice nl base len cap ->
  let '(H1, c) := append prefix room H nl base cap x in
  (exists T1, evolves W T H T1 H1) /\ exists T2, evolves W T H T2 (poke H1 va [c]).
Proof using Henv.
  intros So Ta Hs Hy M. destruct (So va KBytes Ta) as [_ C]. rewrite M in C. cbn in C. destruct C as (L & Nl & Hb).
  assert (Put : forall y, (length y <= cap)%nat -> evolves W T H T (poke H base (map CByte y))).
  { intros y Ly. apply (poke_ok W T H base (map (fun _ => KByte) y) (map CByte y) So).
    - clear. induction y; constructor; auto. exact I.
    - intros i k Hi. rewrite nth_error_map in Hi. destruct (nth_error y i) eqn:Ey; [|discriminate]. injection Hi as <-.
      apply Hb. assert (i < length y)%nat by (apply nth_error_Some; congruence). lia.
    - intros k Hk. apply in_map_iff in Hk as (_ & <- & _). exact Hy. }
  unfold append. destruct (Nat.leb_spec (length x) cap) as [Lx|Lx].
  - assert (E := Put x Lx). split; [eauto|]. exists T. eapply evolves_trans; [exact E|].
    apply (cell_store W T _ va KBytes); [eapply evolves_sound; eauto|exact Ta| |exact Hs]. cbn. conj; auto.
    destruct x; auto; discriminate.
  - assert (E := Put (firstn (Nat.min (prefix (length x) cap) cap) x) ltac:(rewrite firstn_length; lia)).
    set (H1 := poke H base _) in *. rewrite alloc_eq.
    set (cs := map CByte x ++ repeat (CByte x00) (room (length x))).
    set (ks := repeat KByte (length x + room (length x))).
    assert (Fc : forall T, Forall2 (AnySpec.cell_ok env T) ks cs).
    { intros T0. unfold ks, cs. rewrite repeat_app. apply Forall2_app.
      - clear. induction x; constructor; auto. exact I.
      - clear. induction (room _); constructor; auto. exact I. }
    destruct (alloc_ok W T H1 ks cs (evolves_sound _ _ _ _ _ E) (Fc _)) as [E2 N2].
    set (T2 := added T (next H1) ks) in *. assert (E02 : evolves W T H T2 (fst (alloc H1 cs))) by (eapply evolves_trans; eauto).
    split; [eauto|]. exists T2. eapply evolves_trans; [exact E02|].
    apply (cell_store W T2 _ va KBytes); [eapply evolves_sound; eauto|eapply evolves_extends; eauto| |exact Hs]. cbn. conj; [lia|discriminate|].
    intros i Hi. apply N2. unfold ks. now apply nth_error_repeat'.
Qed.

(** *** maps *)
Lemma find_in H kt k ads a b : find_entry env H kt k ads = Some (a, b) -> In (a, b) ads.
Proof.
  induction ads as [|[x y] r IH]; cbn [find_entry]; [discriminate|].
  destruct (cells_eq _ _); [intros E; injection E as -> ->; now left|right; auto].
Qed.
Lemma map_index_ok (W : kind -> Prop) T H m kt et k v : sound T H -> T m = Some (KEntries kt et) -> fits T v et ->
  (forall k, In k (layout et) -> W k) -> evolves W T H T (map_index env H m kt et k v).
Proof using Henv.
  intros So Tm Fv Hw. destruct (So m _ Tm) as [_ C]. unfold map_index. destruct (mem H m); try now apply evolves_refl.
  cbn in C. rewrite Forall_forall in C. destruct (find_entry env H kt k es) as [[a b]|] eqn:Ef.
  - apply find_in, C in Ef as [_ Fb]. cbn in Fb. eapply store_ok; eauto. now apply peek_ok.
  - eapply store_ok; eauto. now apply zcells_ok.
Qed.
Lemma set_map_index_ok (W : kind -> Prop) T H m kt et k v : sound T H -> T m = Some (KEntries kt et) -> fits T k kt -> fits T v et ->
  W (KEntries kt et) -> (forall k, In k (layout kt) -> W k) -> (forall k, In k (layout et) -> W k) ->
  exists T', evolves W T H T' (set_map_index env H m kt et k v).
Proof using Henv.
  intros So Tm Fk Fv We Wk Wv. destruct (So m _ Tm) as [_ C]. unfold set_map_index. destruct (mem H m); try (exists T; now apply evolves_refl).
  cbn in C. destruct (find_entry env H kt k es) as [[a b]|] eqn:Ef.
  - rewrite Forall_forall in C. apply find_in, C in Ef as [Fa Fb]. cbn in Fa, Fb. exists T.
    assert (E1 : evolves W T H T (poke H a (peek H k (size kt)))) by (eapply store_ok; [exact So|exact Fa|now apply peek_ok|exact Wk]).
    eapply evolves_trans; [exact E1|]. eapply store_ok; [eapply evolves_sound; eauto|exact Fb|now apply peek_ok|exact Wv].
  - rewrite alloc_eq. destruct (new_ok W T H kt (peek H k (size kt)) So (peek_ok _ _ _ _ So Fk)) as (T1 & E1 & F1).
    set (H1 := fst (alloc H _)) in *. rewrite alloc_eq.
    assert (S1 := evolves_sound _ _ _ _ _ E1). assert (X1 := evolves_extends _ _ _ _ _ So E1).
    destruct (new_ok W T1 H1 et (peek H1 v (size et)) S1 (peek_ok _ _ _ _ S1 (fits_more _ _ _ _ X1 Fv))) as (T2 & E2 & F2).
    assert (S2 := evolves_sound _ _ _ _ _ E2). assert (X2 := evolves_extends _ _ _ _ _ S1 E2).
    exists T2. eapply evolves_trans; [exact E1|]. eapply evolves_trans; [exact E2|].
    apply (cell_store W T2 _ m (KEntries kt et)); [exact S2|auto| |exact We]. cbn. apply Forall_app. split.
    + eapply Forall_impl; [|exact C]. intros [a b] [A B]. split; eapply fits_more; eauto; intros x kk Hx; auto.
    + constructor; [|constructor]. split; [eapply fits_more; eauto|exact F2].
Qed.

Lemma map_cell T H va kt et : sound T H -> T va = Some (KMap kt et) ->
  exists o, mem H va = CMap o /\ forall m, o = Some m -> T m = Some (KEntries kt et).
Proof.
  intros So Ta. destruct (So va _ Ta) as [_ C]. destruct (mem H va); try contradiction. exists o. split; [reflexivity|].
  intros m ->. exact C.
Qed.

Definition at_entry (t : rtype) (va : nat) (T : nat -> option kind) (H : heap) (_ : unit) (H' : heap) : Prop :=
  (exists T', evolves (reaches t) T H T' H') /\ (tame t -> exists mp, mem H' va = CMap (Some mp)).

Lemma entry_like m t kt et ka ea h va k v T H : good m -> under env t = RtMap kt et -> codec env kt ka -> codec env et ea ->
  sound T H -> T va = Some (KMap kt et) -> fits T k kt -> fits T v et -> forall u H1, at_entry t va T H u H1 ->
  like (~ tame t) (either (at_entry t va T H) (rel (reaches t) T H)) (gentry (ghost m) ka ea h u) (hunmarshal_entry env (hunmarshal m) t ka ea h va k v H1).
Proof using Henv.
  intros IH U Ck Ce So Ta Fk Fv u H1 [(T1 & E1) M1]. unfold gentry, hunmarshal_entry.
  replace (key_type env t) with kt by (unfold key_type; now rewrite U).
  replace (elem_type env t) with et by (unfold elem_type; now rewrite U). cbv zeta.
  assert (Rm : reaches t (KMap kt et)) by (apply own_one; rewrite layout_eq, U; auto).
  assert (Pk : part t kt) by (intros x Hx; eapply r_key; eauto).
  assert (Pe : part t et) by (intros x Hx; eapply r_val; eauto).
  assert (Nk : tame t -> ~ reaches kt (KMap kt et)) by (intros [_ B]; now apply B).
  assert (Ne : tame t -> ~ reaches et (KMap kt et)) by (intros [_ B]; now apply B).
  assert (X1 := evolves_extends _ _ _ _ _ So E1). assert (S1 := evolves_sound _ _ _ _ _ E1).
  assert (Ek : evolves (reaches kt) T1 H1 T1 (poke H1 k (zcells kt))).
  { eapply store_ok; [exact S1|eapply fits_more; eauto|now apply zcells_ok|apply own_all]. }
  eapply like_bind.
  { apply (good_part m t kt ka k T1); [exact IH|exact Pk|exact Ck|eapply evolves_sound; eauto|eapply fits_more; eauto]. }
  intros e [H2 e'] (Ee & T2 & E2). cbn [fst snd] in *. subst e'.
  assert (E12 : evolves (reaches kt) T1 H1 T2 H2) by (eapply evolves_trans; eauto).
  assert (E02 : evolves (reaches t) T H T2 H2) by (eapply evolves_trans; [exact E1|]; eapply evolves_mono; [exact Pk|exact E12]).
  destruct e as [er|]; [constructor; eapply rel_of; eauto|].
  assert (X2 := evolves_extends _ _ _ _ _ So E02). assert (S2 := evolves_sound _ _ _ _ _ E02).
  assert (M2 : tame t -> exists mp, mem H2 va = CMap (Some mp)).
  { intros Ht. rewrite (evolves_keeps _ _ _ _ _ va _ S1 E12 (X1 _ _ Ta) (Nk Ht)). now apply M1. }
  destruct (map_cell T2 H2 va kt et S2 (X2 _ _ Ta)) as (o & Ho2 & Ho). rewrite Ho2.
  set (H2' := match o with Some m0 => _ | None => _ end).
  assert (Ev : evolves (reaches et) T2 H2 T2 H2').
  { unfold H2'. destruct o as [mp|].
    - apply map_index_ok; auto; [eapply fits_more; eauto|apply own_all].
    - eapply store_ok; [exact S2|eapply fits_more; eauto|now apply zcells_ok|apply own_all]. }
  eapply like_bind.
  { apply (good_part m t et ea v T2); [exact IH|exact Pe|exact Ce|eapply evolves_sound; eauto|eapply fits_more; eauto]. }
  intros e [H3 e'] (Ee & T3 & E3). cbn [fst snd] in *. subst e'.
  assert (E23 : evolves (reaches et) T2 H2 T3 H3) by (eapply evolves_trans; eauto).
  assert (E03 : evolves (reaches t) T H T3 H3) by (eapply evolves_trans; [exact E02|]; eapply evolves_mono; [exact Pe|exact E23]).
  assert (X3 := evolves_extends _ _ _ _ _ So E03). assert (S3 := evolves_sound _ _ _ _ _ E03).
  assert (M3 : tame t -> exists mp, mem H3 va = CMap (Some mp)).
  { intros Ht. rewrite (evolves_keeps _ _ _ _ _ va _ S2 E23 (X2 _ _ Ta) (Ne Ht)). now apply M2. }
  destruct (map_cell T3 H3 va kt et S3 (X3 _ _ Ta)) as ([mp|] & Em & Ho3); rewrite Em.
  2: { apply like_panic. intros Ht. destruct (M3 Ht). congruence. }
  set (W := fun x => reaches kt x \/ reaches et x \/ x = KEntries kt et).
  destruct (set_map_index_ok W T3 H3 mp kt et k v S3 (Ho3 mp eq_refl)) as (T4 & E4); try (eapply fits_more; eauto; fail).
  { unfold W. auto. }
  { intros x Hx. left. now apply own_all. }
  { intros x Hx. right. left. now apply own_all. }
  assert (Wt : forall x, W x -> reaches t x) by (intros x [Hx|[Hx| ->]]; [auto|auto|now apply r_entries]).
  assert (E04 : evolves (reaches t) T H T4 (set_map_index env H3 mp kt et k v)) by (eapply evolves_trans; [exact E03|]; eapply evolves_mono; [exact Wt|exact E4]).
  destruct e as [er|]; constructor; [eapply rel_of; eauto|]. split; [exists T4; exact E04|].
  intros Ht. rewrite (evolves_keeps _ _ _ _ _ va _ S3 E4 (X3 _ _ Ta)); [now apply M3|].
  intros [Hx|[Hx|Hx]]; [now apply Nk|now apply Ne|discriminate].
Qed.

Lemma map_like m t kt et ka ea va T H wt : good m -> under env t = RtMap kt et -> codec env kt ka -> codec env et ea ->
  sound T H -> fits T va t -> like (~ tame t) (rel (reaches t) T H) (ghost (S m) (AMap t ka ea) wt) (hunmarshal (S m) (AMap t ka ea) va H wt).
Proof using Henv.
  intros IH U Ck Ce So F. cbn [AnyProof.ghost Heap.hunmarshal]. apply like_check; [exact So|].
  assert (Ta : T va = Some (KMap kt et)) by (eapply fits_one; [exact F|]; rewrite layout_eq, U; auto).
  assert (Rm : reaches t (KMap kt et)) by (apply own_one; rewrite layout_eq, U; auto).
  destruct (map_cell T H va kt et So Ta) as (o & Mo & Ho). rewrite Mo.
  apply like_rdu; [intros _ er; now apply rel_same|]. intros h. cbv zeta.
  assert (Fin : forall H1 T1, evolves (reaches t) T H T1 H1 -> like (~ tame t) (rel (reaches t) T H)
     (rdu0 "ReadMapEnd" T_Map t RMapEnd (fun er => Some er) (Ret None))
     (rdu0 "ReadMapEnd" T_Map t RMapEnd (fun er => (H1, Some er)) (Ret (H1, None)))).
  { intros H1 T1 E1. apply like_rdu0; [intros er; eapply rel_of; eauto|]. constructor. eapply rel_of; eauto. }
  destruct (map_size h >? 0); [|eapply Fin; now apply evolves_refl].
  replace (key_type env t) with kt by (unfold key_type; now rewrite U).
  replace (elem_type env t) with et by (unfold elem_type; now rewrite U).
  set (H1 := match o with Some _ => H | None => _ end).
  assert (E1 : (exists T1, evolves (reaches t) T H T1 H1) /\ exists mp, mem H1 va = CMap (Some mp)).
  { unfold H1. destruct o as [mp|]; [split; [exists T; now apply evolves_refl|eauto]|]. rewrite alloc_eq. split; [|exists (next H); apply poke_1].
    destruct (alloc_ok (reaches t) T H [KEntries kt et] [CEntries []] So) as [E N].
    { constructor; [|constructor]. cbn. constructor. }
    eexists. eapply evolves_trans; [exact E|]. eapply (cell_store _ _ _ va (KMap kt et)).
    - eapply evolves_sound; eauto.
    - eapply evolves_extends; eauto.
    - specialize (N O (KEntries kt et) eq_refl). rewrite Nat.add_0_r in N. exact N.
    - exact Rm. }
  destruct E1 as [(T1 & E1) (mp & M1)]. clearbody H1.
  rewrite (alloc_eq H1), (alloc_eq (fst (alloc H1 _))).
  assert (S1 := evolves_sound _ _ _ _ _ E1).
  destruct (new_ok (reaches t) T1 H1 kt (zcells kt) S1 (zcells_ok T1 kt)) as (T2 & E2 & F2).
  assert (S2 := evolves_sound _ _ _ _ _ E2).
  destruct (new_ok (reaches t) T2 _ et (zcells et) S2 (zcells_ok T2 et)) as (T3 & E3 & F3).
  assert (S3 := evolves_sound _ _ _ _ _ E3). assert (X3 := evolves_extends _ _ _ _ _ S2 E3).
  assert (Lv : (va < next H1)%nat) by (apply (S1 va (KMap kt et)); exact (evolves_extends _ _ _ _ _ So E1 _ _ Ta)).
  set (H3 := fst (alloc (fst (alloc H1 _)) _)) in *.
  assert (M3 : mem H3 va = CMap (Some mp)).
  { unfold H3. rewrite !alloc_old; auto. rewrite alloc_next. lia. }
  assert (E03 : evolves (reaches t) T H T3 H3) by (eapply evolves_trans; [exact E1|]; eapply evolves_trans; eauto).
  eapply like_bind.
  { eapply like_loop_Z; [apply (entry_like m t kt et ka ea h va (next H1) (next (fst (alloc H1 (zcells kt)))) T3 H3 IH U Ck Ce S3)|].
    - exact (evolves_extends _ _ _ _ _ So E03 _ _ Ta).
    - eapply fits_more; eauto.
    - exact F3.
    - split; [exists T3; now apply evolves_refl|eauto]. }
  intros [[]|r] [H4|q]; cbn [either]; try contradiction.
  - intros [(T4 & E4) _]. eapply Fin. eapply evolves_trans; eauto.
  - intros K. apply like_ret. eapply rel_trans; eauto.
Qed.

(** *** lists and sets *)
Lemma slice_cell T H va e : sound T H -> T va = Some (KSlice e) ->
  exists nl base len cap, mem H va = CSlice nl base len cap /\ (len <= cap)%nat /\ (nl = true -> cap = O) /\
    forall i, (i < cap)%nat -> fits T (base + i * size e) e.
Proof.
  intros So Ta. destruct (So va _ Ta) as [_ C]. destruct (mem H va); try contradiction. cbn in C.
  destruct C as (A & B & C). eauto 10.
Qed.
Lemma set_len_ok (W : kind -> Prop) T H va e i : sound T H -> T va = Some (KSlice e) -> W (KSlice e) -> can_set_len H va i = true ->
  evolves W T H T (set_len H va i).
Proof.
  intros So Ta Hw C. destruct (slice_cell T H va e So Ta) as (nl & base & len & cap & M & L & N & F).
  unfold can_set_len in C. unfold set_len. rewrite M in *. apply Nat.leb_le in C.
  apply (cell_store W T H va (KSlice e)); auto. cbn. auto.
Qed.
Lemma grow_evolves (W : kind -> Prop) T H va e : sound T H -> T va = Some (KSlice e) -> W (KSlice e) ->
  exists T', evolves W T H T' (grow env H e va).
Proof using Henv.
  intros So Ta Hw. destruct (slice_cell T H va e So Ta) as (nl & base & len & cap & M & L & N & F).
  unfold grow. rewrite M. destruct (Nat.ltb_spec len cap) as [Hl|Hl].
  { exists T. apply (cell_store W T H va (KSlice e)); auto. cbn. auto. }
  assert (len = cap) as -> by lia. rewrite alloc_eq.
  set (g := S (te_grow env cap)). set (cs := peek H base (cap * size e) ++ concat (repeat (zcells e) g)).
  set (ks := concat (repeat (layout e) (cap + g))).
  assert (Fz : forall T, Forall2 (AnySpec.cell_ok env T) (concat (repeat (layout e) g)) (concat (repeat (zcells e) g))).
  { intros T0. clearbody g. clear cs ks. induction g as [|g IH]; cbn [repeat concat]; [constructor|]. apply Forall2_app; [now apply zcells_ok|exact IH]. }
  assert (Fp : forall n, (n <= cap)%nat -> Forall2 (AnySpec.cell_ok env T) (concat (repeat (layout e) n)) (peek H base (n * size e))).
  { induction n as [|n IH]; intros Hn; [constructor|]. rewrite repeat_snoc, concat_app. cbn [concat]. rewrite app_nil_r.
    replace (S n * size e)%nat with (n * size e + size e)%nat by lia. rewrite peek_app. apply Forall2_app; [apply IH; lia|].
    apply peek_ok; auto. }
  assert (Fc : Forall2 (AnySpec.cell_ok env T) ks cs).
  { unfold ks, cs. rewrite repeat_app, concat_app. apply Forall2_app; auto. }
  destruct (alloc_ok W T H ks cs So) as [E2 N2].
  { eapply cells_more; [|exact Fc]. intros x k Hx. unfold added. destruct (So x k Hx) as [Lx _]. now rewrite (proj2 (Nat.ltb_lt _ _) Lx). }
  set (T2 := added T (next H) ks) in *. exists T2. eapply evolves_trans; [exact E2|].
  apply (cell_store W T2 _ va (KSlice e)); [eapply evolves_sound; eauto|eapply evolves_extends; eauto| |exact Hw]. cbn [AnySpec.cell_ok]. conj; [lia|discriminate|].
  intros i Hi j k Hj. rewrite <- Nat.add_assoc. apply N2. unfold ks. rewrite <- (layout_len).
  assert (Lj : (j < length (layout e))%nat) by (apply nth_error_Some; congruence).
  clear -Hi Hj Lj. revert i Hi. induction (cap + g)%nat as [|n IH]; intros i Hi; [lia|]. cbn [repeat concat].
  destruct i as [|i]; [rewrite nth_error_app1 by lia; exact Hj|]. rewrite nth_error_app2 by lia.
  replace (S i * length (layout e) + j - length (layout e))%nat with (i * length (layout e) + j)%nat by lia. apply IH. lia.
Qed.

Lemma grow_full H va e nl base cap : mem H va = CSlice nl base cap cap ->
  exists nl' base' cap', mem (grow env H e va) va = CSlice nl' base' cap' cap' /\ (cap < cap')%nat.
Proof.
  intros M. unfold grow. rewrite M, Nat.ltb_irrefl, alloc_eq.
  do 3 eexists. split; [apply poke_1|lia].
Qed.

Definition at_elem (t : rtype) (va : nat) (T : nat -> option kind) (H : heap) (_ : unit) (st : heap * nat * nat * bool) : Prop :=
  let '(H', i, cap, _) := st in (exists T', evolves (reaches t) T H T' H') /\
    (tame t -> (i <= cap)%nat /\ exists nl base, mem H' va = CSlice nl base cap cap).

Lemma elem_like m t e ea wt va T H : good m -> under env t = RtSlice e -> as_bytes env t = false -> codec env e ea ->
  sound T H -> T va = Some (KSlice e) -> forall u st, at_elem t va T H u st ->
  like (~ tame t) (either (at_elem t va T H) (rel (reaches t) T H)) (gelem (ghost m) ea wt u) (hunmarshal_elem env (hunmarshal m) t ea wt va st).
Proof using Henv.
  intros IH U B Ce So Ta u [[[H1 i] cap] mz] [(T1 & E1) M1]. unfold gelem, hunmarshal_elem.
  replace (elem_type env t) with e by (unfold elem_type; now rewrite U). cbv zeta.
  assert (Rs : reaches t (KSlice e)) by (apply own_one; rewrite layout_eq, U, B; auto).
  assert (Pe : part t e) by (intros x Hx; eapply r_elem; eauto).
  assert (Ne : tame t -> ~ reaches e (KSlice e)) by (intros [A _]; now apply A).
  set (st := if Nat.eqb i cap then _ else _).
  assert (G : (exists T2, evolves (reaches t) T H T2 (fst (fst st))) /\
    (tame t -> (i < snd (fst st))%nat /\ exists nl base, mem (fst (fst st)) va = CSlice nl base (snd (fst st)) (snd (fst st)))).
  { unfold st. destruct (Nat.eqb_spec i cap) as [->|Hi]; cbn [fst snd].
    - assert (S1 := evolves_sound _ _ _ _ _ E1). assert (X1 := evolves_extends _ _ _ _ _ So E1). split.
      + destruct (grow_evolves (reaches t) T1 H1 va e S1 (X1 _ _ Ta) Rs) as (T2 & E2). exists T2. eapply evolves_trans; eauto.
      + intros Ht. destruct (M1 Ht) as [_ (nl & base & M)]. destruct (grow_full H1 va e nl base cap M) as (nl' & base' & cap' & M' & Lc).
        rewrite M'. eauto.
    - split; [eauto|]. intros Ht. destruct (M1 Ht) as [Li M]. split; [lia|exact M]. }
  clearbody st. destruct st as [[H2 cap2] mz2]. destruct G as [(T2 & E2) M2]. cbn [fst snd] in E2, M2.
  assert (S2 := evolves_sound _ _ _ _ _ E2). assert (X2 := evolves_extends _ _ _ _ _ So E2).
  destruct (slice_cell T2 H2 va e S2 (X2 _ _ Ta)) as (nl & base & len & cp & M & L & N & F). rewrite M.
  assert (Q : tame t -> len = cap2 /\ cp = cap2 /\ (i < cap2)%nat).
  { intros Ht. destruct (M2 Ht) as [Hi (nl0 & base0 & K)]. rewrite M in K. injection K as <- <- -> ->. auto. }
  destruct (Nat.ltb_spec i len) as [Hi|Hi]; [|apply like_panic; intros Ht; specialize (Q Ht); lia].
  assert (Fe : fits T2 (base + i * size e) e) by (apply F; lia).
  set (H2' := if mz2 then _ else H2).
  assert (E2' : evolves (reaches e) T2 H2 T2 H2').
  { unfold H2'. destruct mz2; [|now apply evolves_refl]. eapply store_ok; eauto; [now apply zcells_ok|apply own_all]. }
  eapply like_bind; [apply (good_part m t e ea _ T2); [exact IH|exact Pe|exact Ce|eapply evolves_sound; eauto|exact Fe]|].
  intros er [H3 er'] (Ee & T3 & E3). cbn [fst snd] in *. subst er'.
  assert (E23 : evolves (reaches e) T2 H2 T3 H3) by (eapply evolves_trans; eauto).
  assert (E03 : evolves (reaches t) T H T3 H3) by (eapply evolves_trans; [exact E2|]; eapply evolves_mono; [exact Pe|exact E23]).
  assert (M3 : tame t -> mem H3 va = CSlice nl base len cp).
  { intros Ht. rewrite (evolves_keeps _ _ _ _ _ va _ S2 E23 (X2 _ _ Ta) (Ne Ht)). exact M. }
  destruct er as [er|].
  - destruct (can_set_len H3 va (S i)) eqn:C.
    2: { apply like_panic. intros Ht. unfold can_set_len in C. rewrite (M3 Ht) in C. apply Nat.leb_gt in C. lia. }
    constructor. eapply rel_of. eapply evolves_trans; [exact E03|].
    eapply set_len_ok; [eapply evolves_sound; eauto| |exact Rs|exact C]. exact (evolves_extends _ _ _ _ _ So E03 _ _ Ta).
  - constructor. split; [exists T3; exact E03|]. intros Ht. destruct (Q Ht) as (-> & -> & Q3). split; [lia|]. rewrite (M3 Ht). eauto.
Qed.

Lemma seq_like m t e set ea va T H wt : good m -> under env t = RtSlice e -> as_bytes env t = false -> codec env e ea ->
  sound T H -> fits T va t -> like (~ tame t) (rel (reaches t) T H) (ghost (S m) (ASeq t set ea) wt) (hunmarshal (S m) (ASeq t set ea) va H wt).
Proof using Henv.
  intros IH U B Ce So F. cbn [AnyProof.ghost Heap.hunmarshal]. cbv zeta. apply like_check; [exact So|].
  assert (Ta : T va = Some (KSlice e)) by (eapply fits_one; [exact F|]; rewrite layout_eq, U, B; auto).
  assert (Rs : reaches t (KSlice e)) by (apply own_one; rewrite layout_eq, U, B; auto).
  destruct (slice_cell T H va e So Ta) as (nl & base & len & cap & M & L & N & Fs). rewrite M.
  apply like_rdu; [intros _ er; now apply rel_same|]. intros h.
  set (action := if set then "ReadSetEnd"%string else "ReadListEnd"%string). set (wt' := if set then T_Set else T_List).
  set (ev := if set then RSetEnd else RListEnd).
  assert (Fin : forall H1 T1, evolves (reaches t) T H T1 H1 -> like (~ tame t) (rel (reaches t) T H)
     (rdu0 action wt' t ev (fun er => Some er) (Ret None))
     (rdu0 action wt' t ev (fun er => (H1, Some er)) (Ret (H1, None)))).
  { intros H1 T1 E1. apply like_rdu0; [intros er; eapply rel_of; eauto|]. constructor. eapply rel_of; eauto. }
  assert (Can : forall i, (i <= cap)%nat -> evolves (reaches t) T H T (set_len H va i)).
  { intros i Hi. eapply set_len_ok; eauto. unfold can_set_len. rewrite M. now apply Nat.leb_le. }
  destruct (set_size h >? 0); [|eapply Fin; apply Can; lia].
  eapply like_bind.
  { eapply like_loop_Z; [apply (elem_like m t e ea (set_elem h) va T H IH U B Ce So Ta)|]. split; [exists T; now apply Can|].
    intros _. split; [lia|]. unfold set_len. rewrite M. do 2 eexists. apply poke_1. }
  intros [[]|r] [[[[H1 i] c1] mz1]|q]; cbn [either]; try contradiction; [|intros K; apply like_ret; exact K].
  intros [(T1 & E1) M1]. destruct (can_set_len H1 va i) eqn:C.
  2: { apply like_panic. intros Ht. destruct (M1 Ht) as [Li (nl1 & b1 & K)]. unfold can_set_len in C. rewrite K in C. apply Nat.leb_gt in C. lia. }
  eapply Fin. eapply evolves_trans; [exact E1|]. eapply set_len_ok; [eapply evolves_sound; eauto| |exact Rs|exact C].
  exact (evolves_extends _ _ _ _ _ So E1 _ _ Ta).
Qed.

(** *** pointers *)
Lemma ptr_like m t e ea va T H wt : good m -> under env t = RtPtr e -> codec env e ea -> sound T H -> fits T va t ->
  like (~ tame t) (rel (reaches t) T H) (ghost (S m) (APtr t ea) wt) (hunmarshal (S m) (APtr t ea) va H wt).
Proof using Henv.
  intros IH U Ce So F. cbn [AnyProof.ghost Heap.hunmarshal].
  assert (Ta : T va = Some (KPtr e)) by (eapply fits_one; [exact F|]; rewrite layout_eq, U; auto).
  assert (Rp : reaches t (KPtr e)) by (apply own_one; rewrite layout_eq, U; auto).
  assert (Pe : part t e) by (intros x Hx; eapply r_ptr; eauto).
  assert (Go : forall T1 H1 b, sound T1 H1 -> fits T1 b e ->
    like (~ tame t) (rel (reaches t) T1 H1) (ghost m ea wt) (hunmarshal m ea b H1 wt)).
  { intros T1 H1 b S1 F1. eapply like_mono; [apply (good_part m t e ea b T1 H1 wt IH Pe Ce S1 F1)|auto|].
    intros er q (A & T2 & E2). split; [exact A|]. exists T2. eapply evolves_mono; [exact Pe|exact E2]. }
  destruct (So va _ Ta) as [_ C]. destruct (mem H va) as [| | | | | |[b|]]; try contradiction; cbn in C.
  - now apply Go.
  - replace (elem_type env t) with e by (unfold elem_type; now rewrite U). rewrite alloc_eq.
    destruct (new_ok (reaches t) T H e (zcells e) So (zcells_ok T e)) as (T1 & E1 & F1).
    assert (E2 : evolves (reaches t) T1 (fst (alloc H (zcells e))) T1 (poke (fst (alloc H (zcells e))) va [CPtr (Some (next H))])).
    { apply (cell_store _ T1 _ va (KPtr e)); [eapply evolves_sound; eauto|eapply evolves_extends; eauto|exact F1|exact Rp]. }
    eapply like_mono; [apply (Go T1); [eapply evolves_sound; eauto|exact F1]|auto|].
    intros er q K. eapply rel_trans; [|exact K]. eapply evolves_trans; eauto.
Qed.

Theorem unmarshal_like n : good n.
Proof using Henv.
  induction n as [|m IH]; intros t a va T H wt Ca So F; [constructor|].
  pose proof (codec_inv env t a Ca) as Ci.
  assert (Leaf : forall u, under env t = u -> layout t = [KLeaf u] -> T va = Some (KLeaf u)) by (intros u _ E; eapply fits_one; eauto).
  destruct a as [t'|t'|t' single|t' w|t' w|t'|t'|t'|t'|t' ka ea|t' set ea|t' ea].
  - subst t'. constructor. now apply rel_same.
  - destruct Ci as [-> U]. assert (Ly : layout t = [KLeaf RtBool]) by (rewrite layout_eq, U; reflexivity). apply like_check; [exact So|].
    eapply like_scalar; [exact So|apply Leaf; eauto|now apply own_one|intros x; exact I].
  - destruct Ci as [-> U]. apply like_check; [exact So|].
    eapply like_scalar; [exact So|apply Leaf; [exact U|rewrite layout_eq, U; now destruct single]|apply own_one; rewrite layout_eq, U; now destruct single|intros x; now destruct single].
  - destruct Ci as [-> U]. apply like_check; [exact So|].
    destruct w; (eapply like_scalar; [exact So|apply Leaf; [exact U|rewrite layout_eq, U; reflexivity]|apply own_one; rewrite layout_eq, U; reflexivity|intros x; exact I]).
  - destruct Ci as [-> U]. apply like_check; [exact So|].
    destruct w; (eapply like_scalar; [exact So|apply Leaf; [exact U|rewrite layout_eq, U; reflexivity]|apply own_one; rewrite layout_eq, U; reflexivity|intros x; exact I]).
  - destruct Ci as [-> U]. apply like_check; [exact So|].
    eapply like_scalar; [exact So|apply Leaf; [exact U|rewrite layout_eq, U; reflexivity]|apply own_one; rewrite layout_eq, U; reflexivity|intros x; exact I].
  - destruct Ci as (-> & U & B). cbn [AnyProof.ghost Heap.hunmarshal]. apply like_check; [exact So|].
    assert (Ly : layout t = [KBytes]) by (rewrite layout_eq, U, B; reflexivity).
    assert (Ta : T va = Some KBytes) by (eapply fits_one; eauto).
    destruct (So va _ Ta) as [_ C]. destruct (mem H va) as [| | |nl base len cap| | |] eqn:M; try contradiction.
    assert (Hs := own_one t _ Ly).
    apply like_rdu.
    + intros x er. pose proof (bytes_like (reaches t) T H va base cap len nl x So Ta Hs (r_byte env t Hs) M) as K.
      destruct (append prefix room H nl base cap x) as [H1 c]. destruct K as [(T1 & K) _]. eapply rel_of; eauto.
    + intros x. pose proof (bytes_like (reaches t) T H va base cap len nl x So Ta Hs (r_byte env t Hs) M) as K.
      destruct (append prefix room H nl base cap x) as [H1 c]. destruct K as [_ (T1 & K)]. constructor. eapply rel_of; eauto.
  - destruct Ci as [-> U]. cbn [AnyProof.ghost Heap.hunmarshal]. apply like_check; [exact So|].
    assert (Ly : layout t = [KLeaf (RtArray 16 RtUint8)]) by (rewrite layout_eq, U; reflexivity).
    assert (Ta : T va = Some (KLeaf (RtArray 16 RtUint8))) by (apply Leaf; eauto).
    destruct (So va _ Ta) as [_ C]. destruct (mem H va) as [v| | | | | |]; try contradiction.
    destruct v; try contradiction. cbn in C. destruct C as (_ & _ & Lu).
    assert (K : forall x e, length x = 16%nat -> rel (reaches t) T H e (poke H va [CLeaf (GUUID x)], e)).
    { intros x e Lx. eapply rel_of. eapply cell_store; eauto; [cbn; auto|now apply own_one]. }
    unfold gscalar, rdu. cbn [call bind]. apply like_uuid; [reflexivity|exact Lu|].
    intros x y [e|] Lx Ly'; cbn [bind]; constructor; now apply K.
  - destruct Ci as (-> & s & U). now apply (struct_like m t s).
  - destruct Ci as (-> & kt & et & U & C1 & C2). now apply (map_like m t kt et).
  - destruct Ci as (-> & e & U & B & C & _). now apply (seq_like m t e).
  - destruct Ci as (-> & e & U & C). now apply (ptr_like m t e).
Qed.
End Env.
