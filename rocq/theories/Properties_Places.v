(** Properties C48 and C49: where the errors and the BadDefs of a parse lie. *)
From Coq Require Import Strings.String Permutation Sorted.
From Verif Require Import Base BaseLemmas GoType Utf8 Tokens Scan Parse PosSpec PosProof BadDefs Properties_File.
Local Open Scope list_scope.

(** ** C48 *)

(** Every error has an offset in the file, the line and the column of that
    offset, and the errors come in the order of their offsets. *)
Theorem C48_places sort u src f errs : sorts sort -> parse sort u src = Some (f, errs) ->
  Forall (fun e => (pe_off e <= length src)%nat /\ place src (pe_off e) (pe_line e) (pe_col e)) errs /\
  StronglySorted (fun e e' => (pe_off e <= pe_off e')%nat) errs.
Proof.
  intros Hs P. assert (F : Forall (placed src) errs).
  { unfold parse in P. pose proof (run_inv src u) as R. destruct (p_run u src) as [f' s|s|]; [|discriminate|discriminate]. injection P as <- <-.
    apply (Permutation_Forall (proj1 (Hs (s_errs s)))). exact (i_errs _ _ R). }
  split; [exact F|]. destruct (C42_errors sort u src f errs Hs P) as (_ & _ & _ & So & _). clear Hs P.
  induction So as [|e l _ IH Hl]; [constructor|]. inversion F as [|? ? Fe Fl]. subst. constructor; [now apply IH|].
  apply Forall_forall. intros e' He'. pose proof (proj1 (Forall_forall _ _) Hl _ He') as L. pose proof (proj1 (Forall_forall _ _) Fl _ He') as P'.
  destruct (Nat.le_gt_cases (pe_off e) (pe_off e')) as [H|H]; [exact H|]. exfalso.
  destruct (place_mono src _ _ _ _ _ _ (proj2 P') (proj2 Fe) H); cbv beta in L; lia.
Qed.
Print Assumptions C48_places.

(** The place of an offset is one line and one column. *)
Theorem C48_one_place src off l1 c1 l2 c2 : place src off l1 c1 -> place src off l2 c2 -> l1 = l2 /\ c1 = c2.
Proof. apply place_fun. Qed.
Print Assumptions C48_one_place.

(** Two broken lines, and a string that the end of its line cuts off. *)
Definition broken_lines : list byte :=
  lit "enum E { A }" ++ newline ++ lit "  7" ++ newline ++ newline ++ lit "struct S {} typedef = x" ++ newline ++ lit "const string s = 'a" ++ newline.
Example C48_sample : match parse insertion_sort ascii broken_lines with
  | Some (f, errs) => map (fun e => (pe_off e, pe_line e, pe_col e, pe_msg e)) errs
  | None => []
  end = [(15, 2, 3, lit "expected definition, found 7"); (38, 4, 21, lit "expected type, found '='");
         (59, 5, 18, lit "expected value, found '='"); (61, 5, 20, lit "newline in string")]%nat.
Proof. vm_compute. reflexivity. Qed.
Example C48_sample_place : place broken_lines 38 4 21.
Proof.
  exists [0; 13; 17; 18]%nat, 18%nat. split.
  - intros i. split.
    + intros H. cbn in H. unfold line_start. repeat destruct H as [<-|H]; try contradiction; (split; [|lia]); [now left| | |]; right; eexists; (split; [reflexivity|]); vm_compute; auto; split; auto; lia.
    + intros ([->|(k & -> & E & _)] & L); [now left|]. do 38 (destruct k as [|k]; [first [discriminate E|cbn; auto 9]|]). lia.
  - split; [repeat constructor; cbn; intuition lia|]. split; [reflexivity|]. split; [cbn; auto 9|]. split; [intros i H; cbn in H; intuition lia|reflexivity].
Qed.

(** ** C49 *)

(** Each BadDef of the tree is a piece of the file that is not empty, it lies
    behind the BadDefs before it, and one of the errors reported is in it. *)
Theorem C49_bad_defs sort u src f errs before a b after :
  sorts sort -> parse sort u src = Some (f, errs) -> file_defs f = before ++ BadDef a b :: after ->
  (a < b <= length src)%nat /\
  (forall a' b', In (BadDef a' b') after -> (b <= a')%nat) /\
  exists e, In e errs /\ (a <= pe_off e <= b)%nat.
Proof.
  intros Hs P D. unfold parse in P. pose proof (run_bad u src) as R. destruct (p_run u src) as [f' s|s|]; [|discriminate|discriminate].
  injection P as -> <-. specialize (R f s eq_refl). rewrite D in R. clear D.
  assert (H : exists p, bad_all src p (s_errs s) (BadDef a b :: after)).
  { revert R. generalize O. induction before as [|d l IH]; intros p R; [eauto|]. cbn [app bad_all] in R. destruct d; try (now apply (IH p)). destruct R as (_ & _ & _ & R). eauto. }
  destruct H as (p & H1 & H2 & (e & He & Hoff) & H4). split; [lia|]. split.
  - clear - H4. revert b H4. induction after as [|d l IH]; intros b H4 a' b' Hin; [contradiction|]. destruct Hin as [->|Hin].
    + cbn in H4. lia.
    + destruct d; try (now apply (IH b H4 a' b')). cbn in H4. destruct H4 as (A & B & C & D). specialize (IH _ D a' b' Hin). lia.
  - exists e. split; [|exact Hoff]. apply (Permutation_in e (proj1 (Hs (s_errs s))) He).
Qed.
Print Assumptions C49_bad_defs.

Example C49_sample : match parse insertion_sort ascii broken_lines with
  | Some (f, errs) => map (fun d => match d with BadDef a b => Some (a, b) | _ => None end) (file_defs f)
  | None => []
  end = [None; Some (15, 18); None; Some (30, 42); Some (42, 62)]%nat.
Proof. vm_compute. reflexivity. Qed.

(** What comes behind a BadDef need not be a definition: a broken string keeps
    the kind of the token before it, here [typedef]. *)
Example C49_end_at_string : match parse insertion_sort ascii (lit "typedef 'x" ++ newline ++ lit "y") with
  | Some (f, errs) => file_defs f
  | None => []
  end = [BadDef 0 8; Typedef (TRef (lit "y") None) [] None].
Proof. vm_compute. reflexivity. Qed.
