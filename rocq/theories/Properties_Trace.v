(** Property C72: what a Writer is told about a Go value. *)
From Coq Require Import Strings.String.
From Verif Require Import Base BaseLemmas Prog Wire WireProof Spec GoFloat Utf8 GoType Fields Arshal ArshalSpec ArshalEnc
  ArshalTotal ArshalThms ArshalErr ArshalCalls ArshalExample MapSpec TraceSpec TraceProof.
Local Open Scope Z_scope.
Local Open Scope list_scope.

(** For every value there are the calls [cs] it is written with ([says]), and
    Marshal makes them, on any Writer whatever: all of them, and returns nil; or
    those up to the first that fails, and returns a SemanticError wrapping the
    name of the method and its error.  [N] only bounds the model's fuel. *)
Theorem C72_calls env P t v i :
  env_ok env -> supported env P -> P t -> has_type env v t -> passes env i t v ->
  exists N cs, says env t v cs /\
    forall n, (N <= n)%nat -> forall S (h : handler wireW S) s,
    match run (logW h) (Marshal env n n (Some i)) (s, []) with
    | Done (_, l) res =>
        (l = map done cs /\ res = None) \/
        (exists cs1 c cs2 er e, cs = cs1 ++ c :: cs2 /\
           l = map done cs1 ++ [(existT wireW _ (ev c), Some er)] /\ res = Some e /\
           wrapped env "marshal" (wname (ev c)) er e)
    | Crashed cr => exists c s', h _ (ev c) s' = Crashed cr
    end.
Proof.
  intros He Hs Pt Ht Hp. destruct (marshal_says env P He Hs t v i Pt Ht Hp) as (N & cs & S1 & Pl).
  exists N, cs. split; [exact S1|]. intros n Hn S h s. exact (plays_run env h _ cs None (Pl n Hn) s []).
Qed.
Print Assumptions C72_calls.

(** There is one way to write a value. *)
Theorem C72_one_way env t v cs cs' : unique_ids env -> says env t v cs -> says env t v cs' -> cs = cs'.
Proof. intros Hu H. exact (says_fun env Hu t v cs H cs'). Qed.
Print Assumptions C72_one_way.

(** The hypotheses hold of Node (C59_node); these are the calls for the value
    there.  The struct and its fields are named; the Names, declared after the
    Scores, have the smaller ID. *)
Example C72_node : says node_env Node node_value
  ([CStructBegin (lit "Node");
    CFieldBegin (mkFH (lit "Count") T_I32 1); CI32 7; CFieldEnd;
    CFieldBegin (mkFH (lit "Names") T_Set 2); CSetBegin (mkSetH T_String 2); CString (lit "x"); CString (lit "y"); CSetEnd; CFieldEnd;
    CFieldBegin (mkFH (lit "Scores") T_Map 3); CMapBegin (mkMapH T_String T_Double 2);
      CString (lit "a"); CDouble 0x3FF8000000000000; CString (lit "b"); CDouble 0xBFF0000000000000; CMapEnd; CFieldEnd;
    CFieldBegin (mkFH (lit "Next") T_Struct 4);
      CStructBegin (lit "Node"); CFieldBegin (mkFH (lit "Count") T_I32 1); CI32 0; CFieldEnd; CStructEnd; CFieldEnd;
    CStructEnd]).
Proof.
  destruct (image_says node_env node_ok 9 9 Node (AStruct Node) node_value
    (VStruct [(1, VI32 7);
            (2, VSet T_String [VString (lit "x"); VString (lit "y")]);
            (3, VMap T_String T_Double [(VString (lit "a"), VDouble 0x3FF8000000000000); (VString (lit "b"), VDouble 0xBFF0000000000000)]);
            (4, VStruct [(1, VI32 0)])])) as (cs & P & S1); [exists 1%nat; reflexivity|exact node_typed|vm_compute; reflexivity|].
  match goal with |- says _ _ _ ?l => assert (E : map done cs = map done l) end; [|apply done_inj in E; rewrite <- E; exact S1].
  pose proof (plays_accept node_env _ cs None P []) as R. cbn [app] in R.
  match type of R with ?x = _ => let y := eval vm_compute in x in assert (V : x = y) by (vm_compute; reflexivity) end.
  rewrite V in R. injection R as R. rewrite <- R. reflexivity.
Qed.
