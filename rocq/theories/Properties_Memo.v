(** Property C33: a Memo replays what was recorded. *)
From Coq Require Import Strings.String.
From Verif Require Import Base BaseLemmas Prog Wire Memo MemoProof.
Local Open Scope Z_scope.
Local Open Scope list_scope.

(** ** C33 *)
(** Without a breakpoint all Writer calls return nil, and the Reader calls that
    match them ([replay]) return what was written, in order. *)
Theorem C33_replay cs l : replay cs l ->
  exists m m', written memoW cs (new_memo 0) = Done m (map (fun _ => None) cs) /\ asked memoR l m m'.
Proof.
  intros R.
  assert (Ext : forall A (l1 l2 : list A), (forall i, nth_error l1 i = nth_error l2 i) -> l1 = l2).
  { intros A l1. induction l1 as [|x l1 IH]; intros [|y l2] H; [reflexivity| | |].
    - specialize (H O). discriminate H.
    - specialize (H O). discriminate H.
    - pose proof (H O) as H0. injection H0; intros ->. f_equal. apply IH. intros i. exact (H (S i)). }
  destruct (replay_spec 0 0 cs l R) as (m & rs & m' & W & _ & L & N & A & _).
  cbn [passing Z.ltb Z.compare] in A, N. rewrite firstn_all in A.
  exists m, m'. split.
  - rewrite W. f_equal. apply Ext. intros i. destruct (Nat.lt_ge_cases i (length cs)) as [H|H].
    + rewrite (N i H), Nat.eqb_refl. rewrite nth_error_map. destruct (nth_error cs i) eqn:E; [reflexivity|].
      apply nth_error_None in E. lia.
    + transitivity (@None (option err)); [|symmetry]; apply nth_error_None; rewrite ?map_length; lia.
  - assert (E : set_break 0 m = m); [|rewrite <- E; exact A].
    pose proof (written_spec cs (new_memo 0)) as W'. cbn zeta in W'. rewrite W' in W. injection W; intros _ <-. reflexivity.
Qed.
Print Assumptions C33_replay.

(** Reset makes a Memo, whatever happened to it, as good as new. *)
Theorem C33_reset m0 cs l : replay cs l ->
  exists m m', written memoW cs (memo_reset m0) = Done m (map (fun _ => None) cs) /\
    memo_Steps m = flat_map step_names cs /\ asked memoR l m m'.
Proof.
  intros R. change (memo_reset m0) with (new_memo 0). destruct (C33_replay cs l R) as (m & m' & W & A). exists m, m'. conj; auto.
  pose proof (written_spec cs (new_memo 0)) as W'. cbn zeta in W'. rewrite W' in W. injection W; intros _ <-. cbn. rewrite firstn_all. clear.
  induction cs as [|c cs IH]; [reflexivity|]. cbn [flat_map]. now rewrite map_app, recorded_names, IH.
Qed.
Print Assumptions C33_reset.

(** Reader calls that do not match what was written panic: a sequence of as many
    calls as there are steps that all return matches. *)
Theorem C33_nothing_else cs l m rs m' : written memoW cs (new_memo 0) = Done m rs ->
  asked memoR l m m' -> length l = length (memo_Steps m) -> replay cs l.
Proof. exact (only_replays cs l m rs m'). Qed.
Print Assumptions C33_nothing_else.

(** Recorded under the breakpoint [bw] and replayed under the breakpoint [br]
    (none if it is not positive).  Of the steps of the Writer calls, exactly
    the first [bw - 1] are recorded; a Writer call returns nil if all its steps
    are and ErrBreak otherwise.  Of the recorded steps, the first [br - 1] are
    read back; then every Reader method returns ErrBreak, for ever. *)
Theorem C33_breakpoint bw br cs l : replay cs l ->
  let kept := passing bw (length l) in
  let ok := passing br kept in
  exists m rs m', written memoW cs (new_memo bw) = Done m rs /\
    memo_Steps m = firstn kept (flat_map step_names cs) /\
    length rs = length cs /\
    (forall i, (i < length cs)%nat -> nth_error rs i =
       Some (let k := length (flat_map step_names (firstn (i + 1) cs)) in
             if (k =? passing bw k)%nat then None else Some EBreak)) /\
    asked memoR (firstn ok l) (set_break br m) m' /\
    (0 < br <= Z.of_nat kept + 1 -> forall X (e : wireR X), exists x, memoR _ e m' = Done m' x /\ errR e x = Some EBreak).
Proof. exact (replay_spec bw br cs l). Qed.
Print Assumptions C33_breakpoint.

(** A struct with a string field and a uuid field. *)
Definition sample_calls : list wcall :=
  [CStructBegin (lit "S"); CFieldBegin (mkFH (lit "a") T_String 1); CString (lit "x"); CFieldEnd;
   CFieldBegin (mkFH (lit "b") T_UUID 2); CUUID (repeat Byte.x07 16); CFieldEnd; CStructEnd].
Definition sample_answers : list answer :=
  [Answer RStructBegin (lit "S", None); Answer RFieldBegin (mkFH (lit "a") T_String 1, None);
   Answer RString (lit "x", None); Answer RFieldEnd None;
   Answer RFieldBegin (mkFH (lit "b") T_UUID 2, None); Answer RSkipUUID None; Answer RFieldEnd None;
   Answer RFieldBegin (mkFH [] T_Stop 0, None); Answer RStructEnd None].
Example C33_sample : replay sample_calls sample_answers.
Proof.
  unfold sample_calls, sample_answers.
  apply (rp_cons _ _ [_]); [constructor|]. apply (rp_cons _ _ [_]); [constructor|].
  apply (rp_cons _ _ [_]); [constructor|]. apply (rp_cons _ _ [_]); [constructor|].
  apply (rp_cons _ _ [_]); [constructor|]. apply (rp_cons _ _ [_]); [constructor|].
  apply (rp_cons _ _ [_]); [constructor|]. apply (rp_cons _ _ [_; _]); constructor.
Qed.
(** With the breakpoint 9 the last call records the stop field and then returns ErrBreak. *)
Example C33_sample_break :
  match written memoW sample_calls (new_memo 9) with
  | Done m rs => length (memo_Steps m) = 8%nat /\ rs = repeat None 7 ++ [Some EBreak]
  | Crashed _ => False
  end.
Proof. vm_compute. split; reflexivity. Qed.

(** Finding: what WriteBytes recorded can be read with ReadBytes only.  Skip,
    which calls SkipString, panics on it, though both protocols write strings
    and bytes alike; so does ReadString, and ReadBytes after WriteString. *)
Theorem C33_bytes_are_no_strings x buf :
  (exists m, written memoW [CBytes x] (new_memo 0) = Done m [None] /\
     (exists m', memoR _ (RBytes buf) m = Done m' (x, None)) /\
     (forall fuel, exists c, run memoR (skip (S fuel) T_String) m = Crashed c) /\
     exists c, memoR _ RString m = Crashed c) /\
  (exists m, written memoW [CString x] (new_memo 0) = Done m [None] /\
     (exists m', memoR _ RString m = Done m' (x, None)) /\
     (forall fuel, exists m', run memoR (skip (S fuel) T_String) m = Done m' None) /\
     exists c, memoR _ (RBytes buf) m = Crashed c).
Proof. split; eexists; (split; [reflexivity|]); (split; [eexists; reflexivity|]); (split; [intros fuel|]); eexists; reflexivity. Qed.
Print Assumptions C33_bytes_are_no_strings.
