(** The codec cache and the field tables shared by goroutines:
    thrift/arshal.go:89-101 and thrift/arshal_default.go:258-267.

    Goroutines are interleaved at their accesses to shared memory, which are
    sequentially consistent; sync.Map's Load and LoadOrStore and sync.Once's
    entry and exit are single accesses.  (The Go memory model gives programs
    without data races these semantics; that reads of a field table are ordered
    after its writes is proved in CacheProof.v.) *)
From Coq Require Import Strings.String.
From Verif Require Import Base BaseLemmas Prog Wire GoType Fields.
Local Open Scope list_scope.

(** Equality of reflect.Types, the keys of the cache. *)
Definition rtype_eq_dec (a b : rtype) : {a = b} + {a <> b}.
Proof. decide equality; first [apply Z.eq_dec|apply Nat.eq_dec]. Defined.

(** A [*arshaler]: the address of the object, and what its closures capture,
    which never changes.  Pointers in it are given with what they point to.
    What changes, the variables of makeStructArshaler, is in [shared]. *)
Inductive cod : Type :=
| CLeaf (id : nat) (a : arsh)
| CStruct (id : nat) (t : rtype)
| CMap (id : nat) (t : rtype) (k e : cod)
| CSeq (id : nat) (t : rtype) (set : bool) (e : cod)
| CPtr (id : nat) (t : rtype) (e : cod).
Definition c_id (c : cod) : nat :=
  match c with CLeaf i _ | CStruct i _ | CMap i _ _ _ | CSeq i _ _ _ | CPtr i _ _ => i end.
(** The codec without addresses, as in Fields.v. *)
Fixpoint erase (c : cod) : arsh :=
  match c with
  | CLeaf _ a => a
  | CStruct _ t => AStruct t
  | CMap _ t k e => AMap t (erase k) (erase e)
  | CSeq _ t set e => ASeq t set (erase e)
  | CPtr _ t e => APtr t (erase e)
  end.
Definition children (c : cod) : list cod :=
  match c with CMap _ _ k e => [k; e] | CSeq _ _ _ e | CPtr _ _ e => [e] | _ => [] end.

(** structFields: the sorted fields, and for the field with each Go index the
    pointer in its [fncs]. *)
Record table := mkTable { tb_fields : list structField; tb_ptrs : list (nat * cod) }.

(** The state of a sync.Once; [ORunning i]: goroutine [i] is in [init]. *)
Inductive once := ONew | ORunning (i : nat) | ODone.

(** What is recorded, for stating the property: lookupArshaler(t) returned [c];
    the [init] of the object [id] for [t] was started; a Marshal or Unmarshal
    has read the object's [fields] and [errInit], after once.Do returned. *)
Inductive happened :=
| HReturn (t : rtype) (c : cod)
| HInit (t : rtype) (id : nat)
| HTable (id : nat) (r : table + err).

(** Shared memory.  [sh_type] records for which type an object was made; it is
    not used by the code. *)
Record shared := mkShared {
  sh_next : nat;
  sh_type : nat -> option rtype;
  sh_cache : rtype -> option cod;
  sh_once : nat -> once;
  sh_fields : nat -> option table;
  sh_err : nat -> option err;
  sh_log : list happened }.

Definition upd {A} (f : nat -> A) (i : nat) (x : A) : nat -> A := fun j => if Nat.eq_dec i j then x else f j.
Definition updt {A} (f : rtype -> A) (t : rtype) (x : A) : rtype -> A := fun u => if rtype_eq_dec t u then x else f u.

(** Accesses to shared memory. *)
Inductive shE : Type -> Type :=
| SNew (t : rtype) : shE nat                         (* var fncs arshaler; &fncs *)
| SLoad (t : rtype) : shE (option cod)               (* lookupArshalerCache.Load(t) *)
| SLoadOrStore (t : rtype) (c : cod) : shE cod       (* lookupArshalerCache.LoadOrStore(t, fncs) *)
| SOnce (id : nat) (t : rtype) : shE bool            (* once.Do(init): whether to run init *)
| SOnceDone (id : nat) : shE unit                    (* once.Do(init): init has returned *)
| SSetFields (id : nat) (f : option table) : shE unit
| SSetErr (id : nat) (e : option err) : shE unit
| SGetErr (id : nat) : shE (option err)
| SGetFields (id : nat) : shE (option table)
| SNote (h : happened) : shE unit.

(** One access by goroutine [i]; [None]: it waits. *)
Definition access (i : nat) {X} (e : shE X) (s : shared) : option (shared * X) :=
  match e in shE X return option (shared * X) with
  | SNew t =>
      Some (mkShared (S (sh_next s)) (upd (sh_type s) (sh_next s) (Some t)) (sh_cache s) (sh_once s) (sh_fields s)
              (sh_err s) (sh_log s), sh_next s)
  | SLoad t => Some (s, sh_cache s t)
  | SLoadOrStore t c =>
      match sh_cache s t with
      | Some c' => Some (s, c')
      | None =>
          Some (mkShared (sh_next s) (sh_type s) (updt (sh_cache s) t (Some c)) (sh_once s) (sh_fields s)
                  (sh_err s) (sh_log s), c)
      end
  | SOnce id t =>
      match sh_once s id with
      | ONew =>
          Some (mkShared (sh_next s) (sh_type s) (sh_cache s) (upd (sh_once s) id (ORunning i)) (sh_fields s)
                  (sh_err s) (sh_log s ++ [HInit t id]), true)
      | ORunning _ => None
      | ODone => Some (s, false)
      end
  | SOnceDone id =>
      Some (mkShared (sh_next s) (sh_type s) (sh_cache s) (upd (sh_once s) id ODone) (sh_fields s)
              (sh_err s) (sh_log s), tt)
  | SSetFields id f =>
      Some (mkShared (sh_next s) (sh_type s) (sh_cache s) (sh_once s) (upd (sh_fields s) id f)
              (sh_err s) (sh_log s), tt)
  | SSetErr id e =>
      Some (mkShared (sh_next s) (sh_type s) (sh_cache s) (sh_once s) (sh_fields s)
              (upd (sh_err s) id e) (sh_log s), tt)
  | SGetErr id => Some (s, sh_err s id)
  | SGetFields id => Some (s, sh_fields s id)
  | SNote h =>
      Some (mkShared (sh_next s) (sh_type s) (sh_cache s) (sh_once s) (sh_fields s)
              (sh_err s) (sh_log s ++ [h]), tt)
  end.

Section Code.
Context (env : tenv).

(** arshal_default.go:17-66 makeDefaultArshaler and the makers it calls, given
    lookupArshaler: the object is allocated, then the lookups at lines 400-401,
    493 and 599 are made. *)
Definition make_codec (rec : rtype -> prog shE cod) (t : rtype) : prog shE cod :=
  id <- call (SNew t) ;;
  let leaf a := Ret (CLeaf id a) in
  let seq set e := c <- rec e ;; Ret (CSeq id t set c) in
  match under env t with
  | RtBool => leaf (ABool t)
  | RtFloat32 => leaf (ADouble t true)
  | RtFloat64 => leaf (ADouble t false)
  | RtInt8 => leaf (AInt t W8)
  | RtInt16 => leaf (AInt t W16)
  | RtInt32 => leaf (AInt t W32)
  | RtInt64 => leaf (AInt t W64)
  | RtUint8 => leaf (AUint t W8)
  | RtUint16 => leaf (AUint t W16)
  | RtUint32 => leaf (AUint t W32)
  | RtUint64 => leaf (AUint t W64)
  | RtString => leaf (AString t)
  | RtStruct _ => Ret (CStruct id t)
  | RtMap k e => kc <- rec k ;; ec <- rec e ;; Ret (CMap id t kc ec)
  | RtSlice e =>
      if implements_set env t then seq true e
      else if implements_list env t then seq false e
      else if as_bytes env t then leaf (ABytes t)
      else seq false e
  | RtArray 16 RtUint8 => match t with RtArray _ _ => leaf (AUUID t) | _ => leaf (AInvalid t) end
  | RtPtr e => c <- rec e ;; Ret (CPtr id t c)
  | _ => leaf (AInvalid t)
  end.

(** arshal.go:91-101 lookupArshaler.  [n] bounds the recursion; Go has no such
    bound. *)
Fixpoint lookupArshaler (n : nat) (t : rtype) : prog shE cod :=
  match n with
  | O => Crash OutOfFuel
  | S m =>
      v <- call (SLoad t) ;;
      c <- match v with
           | Some c => Ret c
           | None => fncs <- make_codec (lookupArshaler m) t ;; call (SLoadOrStore t fncs)
           end ;;
      _ <- call (SNote (HReturn t c)) ;;
      Ret c
  end.

(** fields.go:39-78: the loop over the Go fields; as [collect_fields] *)
Fixpoint collect_table (n : nat) (t : rtype) (i : nat) (fs : list sfield)
  : prog shE ((list structField * list (nat * cod)) + err) :=
  match fs with
  | [] => Ret (inl ([], []))
  | sf :: r =>
      match parse_field_options (te_uni env) sf with
      | (_, _, Some e) => Ret (inr (ESemantic "" 0 (Some t) (Some e)))
      | (_, true, None) => collect_table n t (S i) r
      | (o, false, None) =>
          c <- lookupArshaler n (sf_type sf) ;;
          x <- collect_table n t (S i) r ;;
          match x with
          | inr e => Ret (inr e)
          | inl (l, ps) =>
              Ret (inl (mkField i (sf_type sf) (erase c) (field_is_zero env (sf_type sf))
                          (fo_id o) (fo_name o) (fo_required o) :: l, (i, c) :: ps))
          end
      end
  end.

(** fields.go:34-100 makeStructFields; as [make_struct_fields] *)
Definition make_table (n : nat) (t : rtype) : prog shE (table + err) :=
  let fs := struct_def env t in
  x <- collect_table n t 0 fs ;;
  match x with
  | inr e => Ret (inr e)
  | inl (all, ps) =>
      match fs, all with
      | _ :: _, [] =>
          if existsb has_tag fs then Ret (inl (mkTable (te_sort env all) ps))
          else Ret (inr (ESemantic "" 0 (Some t) (Some (ETag "Go struct has no exported fields"))))
      | _, _ => Ret (inl (mkTable (te_sort env all) ps))
      end
  end.

(** arshal_default.go:265-275 and 322-327: [once.Do(init)], with init at
    265-267, and reading errInit and fields.  The zero structFields has no
    fields. *)
Definition open_table (n : nat) (id : nat) (t : rtype) : prog shE (table + err) :=
  b <- call (SOnce id t) ;;
  _ <- (if (b : bool) then
     x <- make_table n t ;;
     _ <- call (SSetFields id (match x with inl tb => Some tb | inr _ => None end)) ;;
     _ <- call (SSetErr id (match x with inl _ => None | inr e => Some e end)) ;;
     call (SOnceDone id)
   else Ret tt) ;;
  e <- call (SGetErr id) ;;
  r <- match e with
       | Some e => Ret (inr e)
       | None => f <- call (SGetFields id) ;; Ret (inl (match f with Some tb => tb | None => mkTable [] [] end))
       end ;;
  _ <- call (SNote (HTable id r)) ;;
  Ret r.

(** ** Goroutines.
    A goroutine looks up the codecs of types and uses the field tables of
    struct codecs it has got hold of; Marshal and Unmarshal do nothing else
    with shared memory.  What it does in between is up to it. *)
Inductive useE : Type -> Type :=
| ULookup (t : rtype) : useE cod
| UFields (id : nat) (t : rtype) : useE (table + err).

Fixpoint goroutine (n : nat) {A} (p : prog useE A) : prog shE A :=
  match p with
  | Ret a => Ret a
  | Crash c => Crash c
  | Vis e k =>
      match e in useE X return (X -> prog shE A) -> prog shE A with
      | ULookup t => fun k => c <- lookupArshaler n t ;; k c
      | UFields id t => fun k => r <- open_table n id t ;; k r
      end (fun x => goroutine n (k x))
  end.
End Code.

(** A codec inside another. *)
Inductive within : cod -> cod -> Prop :=
| within_self c : within c c
| within_child c d e : In d (children c) -> within d e -> within c e.

(** The goroutine uses codecs it was given, found in codecs or in tables: it
    does not make up pointers. *)
Definition given (r : table + err) (c : cod) : Prop :=
  match r with inl tb => exists i, In (i, c) (tb_ptrs tb) | inr _ => False end.
Fixpoint honest (known : cod -> Prop) {A} (p : prog useE A) : Prop :=
  match p with
  | Ret _ | Crash _ => True
  | Vis e k =>
      match e in useE X return (X -> (cod -> Prop) -> Prop) -> Prop with
      | ULookup t => fun k => forall c, k c (fun d => known d \/ d = c)
      | UFields id t => fun k =>
          (exists c, known c /\ within c (CStruct id t)) /\ forall r, k r (fun d => known d \/ given r d)
      end (fun x kn => honest kn (k x))
  end.

(** ** Interleavings *)
Definition shared0 : shared := mkShared 0 (fun _ => None) (fun _ => None) (fun _ => ONew) (fun _ => None) (fun _ => None) [].

(** Any number of goroutines; one of them makes an access. *)
Inductive step : shared * (nat -> prog shE unit) -> shared * (nat -> prog shE unit) -> Prop :=
| Step s pool i X (e : shE X) k s' x :
    pool i = Vis e k -> access i e s = Some (s', x) -> step (s, pool) (s', upd pool i (k x)).

Inductive steps : shared * (nat -> prog shE unit) -> shared * (nat -> prog shE unit) -> Prop :=
| steps_refl c : steps c c
| steps_step c d e : steps c d -> step d e -> steps c e.
