(** Property C59: Unmarshal asks for what Marshal wrote, step for step. *)
From Coq Require Import Strings.String.
From Verif Require Import Base BaseLemmas Prog Wire WireProof Spec GoFloat Utf8 GoType Fields Arshal
  ArshalSpec ArshalEnc ArshalTotal ArshalThms ArshalErr ArshalExample MapSpec StoreSpec Memo MemoProof Mirror MirrorRun.
Local Open Scope Z_scope.
Local Open Scope list_scope.

(** ** C59 *)
(** For every value and every destination of its type there are Writer calls
    [cs] and Reader calls [l] with their answers, [l] being what a Reader has to
    be asked to read [cs] back ([replay]), such that:

    - with any Writer that returns nil to the calls [cs], Marshal makes exactly
      those, in order, and returns nil;
    - if one of them fails instead, it is the last one, and Marshal returns a
      SemanticError wrapping the name of the method and its error;
    - with any Reader that answers [l], Unmarshal makes exactly those calls and
      stores the value;
    - if one of them fails instead, it is the last one, and Unmarshal returns a
      SemanticError wrapping the name of the method and its error.

    [N] only bounds the model's fuel. *)
Theorem C59_steps env P t v dst i :
  supported env P -> env_ok env -> unique_ids env ->
  P t -> has_type env v t -> has_type env dst t -> passes env i t v ->
  exists N tv v' cs l, stands_for env t v tv /\ stores env t dst tv v' /\
    (dst = zero env t -> keys_distinct env v t -> trip env t v v') /\ replay cs l /\
    forall n, (N <= n)%nat ->
      (forall S (h : handler wireW S) s,
        (forall s', written h cs s = Done s' (all_nil cs) ->
           run h (Marshal env n n (Some i)) s = Done s' None) /\
        (forall cs1 c cs2 s1 s2 er, cs = cs1 ++ c :: cs2 ->
           written h cs1 s = Done s1 (all_nil cs1) -> h _ (MemoProof.ev c) s1 = Done s2 (Some er) ->
           exists e, run h (Marshal env n n (Some i)) s = Done s2 (Some e) /\
             wrapped env "marshal" (wname (MemoProof.ev c)) er e)) /\
      (forall S (h : handler wireR S) s,
        (forall s', asked h l s s' ->
           run h (Unmarshal env n n (Some (RtPtr t, GPtr (Some dst)))) s = Done s' (Some v', None)) /\
        (forall l1 X (c : wireR X) x l2 s1 s2 x' er, l = l1 ++ Answer c x :: l2 ->
           asked h l1 s s1 -> h _ c s1 = Done s2 x' -> errR c x' = Some er ->
           exists d e, run h (Unmarshal env n n (Some (RtPtr t, GPtr (Some dst)))) s = Done s2 (d, Some e) /\
             wrapped env "unmarshal" (rname c) er e)).
Proof.
  intros Hs He Hi Pt Ht Hd Hp. destruct (both env P Hs He Hi t v dst i Pt Ht Hd Hp) as (N & tv & v' & cs & l & S & St & _ & T & R & H).
  exists N, tv, v', (map emb cs), l. conj; auto. intros n Hn. destruct (H n Hn) as [Pl As]. split; intros Q h s; split.
  - exact (plays_all env h _ cs None Pl s).
  - intros cs1 c cs2 s1 s2 er. exact (plays_cut env h _ cs None Pl cs1 c cs2 s s1 s2 er).
  - exact (asks_all env snd h _ l _ As s).
  - intros l1 X c x l2 s1 s2 x' er E A B Ex.
    destruct (asks_cut env snd h _ l _ As l1 X c x l2 s s1 s2 x' er E A B Ex) as ([d e0] & e & G & Ee & W).
    cbn [snd] in Ee. subst e0. eauto.
Qed.
Print Assumptions C59_steps.

(** What thrift/arshal_test.go:120-190 checks of three values, for all: a value
    marshalled into a Memo can be unmarshalled out of it, which repeats the
    steps.  With the breakpoint set at any one of the steps, Marshal records the
    steps before it and returns a SemanticError wrapping the Writer's method and
    ErrBreak, and then Unmarshal reads the steps before it and returns a
    SemanticError wrapping the Reader's method of that step and ErrBreak. *)
Theorem C59_memo env P t v dst i :
  supported env P -> env_ok env -> unique_ids env ->
  P t -> has_type env v t -> has_type env dst t -> passes env i t v ->
  exists N tv v' steps, stands_for env t v tv /\ stores env t dst tv v' /\
    (dst = zero env t -> keys_distinct env v t -> trip env t v v') /\
    forall n, (N <= n)%nat ->
      let p := Marshal env n n (Some i) in
      let q := Unmarshal env n n (Some (RtPtr t, GPtr (Some dst))) in
      (exists m m', run memoW p (new_memo 0) = Done m None /\ memo_Steps m = steps /\
         run memoR q m = Done m' (Some v', None) /\ memo_Steps m' = steps ++ steps) /\
      forall k step, nth_error steps k = Some step ->
        exists m e m' d e', run memoW p (new_memo (Z.of_nat k + 1)) = Done m (Some e) /\ memo_Steps m = firstn k steps /\
          (wrapped env "marshal" (String.append "Write" step) EBreak e \/ wrapped env "marshal" "WriteStructEnd" EBreak e) /\
          run memoR q m = Done m' (d, Some e') /\ wrapped env "unmarshal" (String.append "Read" step) EBreak e' /\
          memo_Steps m' = firstn k steps ++ firstn k steps.
Proof.
  intros Hs He Hi Pt Ht Hd Hp. destruct (both env P Hs He Hi t v dst i Pt Ht Hd Hp) as (N & tv & v' & cs & l & S & St & _ & T & R & H).
  exists N, tv, v', (flat_map step_names (map emb cs)). conj; auto. intros n Hn. destruct (H n Hn) as [Pl As].
  exact (both_memo env cs l _ _ (Some v') R Pl As).
Qed.
Print Assumptions C59_memo.

(** The hypotheses hold of a recursive struct, and of a destination that already
    holds a value. *)
Example C59_node : supported node_env node_types /\ env_ok node_env /\ unique_ids node_env /\ node_types Node /\
  has_type node_env node_value Node /\ has_type node_env (zero node_env Node) Node /\ passes node_env (Node, node_value) Node node_value.
Proof.
  conj; [exact node_supported|exact node_ok|exact node_unique|now left|exact node_typed|vm_compute; intuition discriminate|].
  right. split; reflexivity.
Qed.
(** Its steps, and what happens when the sixth is cut. *)
Example C59_node_steps :
  match run memoW (Marshal node_env 20 20 (Some (Node, node_value))) (new_memo 0) with
  | Done m None => firstn 9 (memo_Steps m) = ["StructBegin"; "FieldBegin"; "I32"; "FieldEnd"; "FieldBegin"; "SetBegin"; "String"; "String"; "SetEnd"]%string
  | _ => False
  end /\
  match run memoW (Marshal node_env 20 20 (Some (Node, node_value))) (new_memo 6) with
  | Done m (Some e) => e = ESemantic "marshal" T_Set (Some (RtNamed 1)) (Some (EWire "WriteSetBegin" EBreak)) /\
      match run memoR (Unmarshal node_env 20 20 (Some (RtPtr Node, GPtr (Some (zero node_env Node))))) m with
      | Done m' (Some v', Some e') => v' = GStruct [GInt 7; GMap None; GSlice true [] []; GPtr None; GInt 0] /\
          e' = ESemantic "unmarshal" T_Set (Some (RtNamed 1)) (Some (EWire "ReadSetBegin" EBreak)) /\
          length (memo_Steps m') = 10%nat
      | _ => False
      end
  | _ => False
  end.
Proof. vm_compute. repeat split. Qed.
