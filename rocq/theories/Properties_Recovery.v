(** Properties C50 and C51: what follows a broken definition is parsed as if it
    stood alone, and a byte order mark changes nothing but the offsets. *)
From Coq Require Import Strings.String Permutation.
From Verif Require Import Base BaseLemmas GoType Utf8 Tokens Scan Parse PosSpec BadDefs Shift Recover Properties_File Properties_Places.
Local Open Scope list_scope.

Lemma keys_in (l : list perr) (o : nat) (m : list byte) : In (o, m) (map key l) <-> exists e, In e l /\ pe_off e = o /\ pe_msg e = m.
Proof.
  rewrite in_map_iff. split.
  - intros (e & E & H). injection E as <- <-. eauto.
  - intros (e & H & <- & <-). exists e. auto.
Qed.

(** ** C50 *)

(** Take a file with a broken definition that ends at [b]; no quotation mark
    stands there.  Then the text from [b] on, parsed as a file of its own, has
    exactly the definitions that follow in the tree, it has no headers, and its
    errors are exactly those reported behind [b], [b] bytes further on. *)
Theorem C50_recovery sort u src f errs before a b after :
  sorts sort -> parse sort u src = Some (f, errs) -> file_defs f = before ++ BadDef a b :: after ->
  nth_error src b <> Some x22 -> nth_error src b <> Some x27 ->
  exists f' errs', parse sort u (skipn b src) = Some (f', errs') /\
    file_headers f' = [] /\ Forall2 (def_moved b) after (file_defs f') /\
    (forall e', In e' errs' -> exists e, In e errs /\ pe_off e = (b + pe_off e')%nat /\ pe_msg e = pe_msg e') /\
    (forall e, In e errs -> (b < pe_off e)%nat -> exists e', In e' errs' /\ pe_off e = (b + pe_off e')%nat /\ pe_msg e = pe_msg e').
Proof.
  intros Hs P D Q1 Q2. unfold parse in P. destruct (p_run u src) as [f0 s|s|] eqn:R; [|discriminate|discriminate]. injection P as -> <-.
  destruct (rest_of u src f s b before a after R D) as (f2 & s2 & X & R2 & H1 & H2 & H3 & H4); [unfold quoted; tauto|].
  exists f2, (sort (s_errs s2)). unfold parse. rewrite R2. conj; auto.
  - intros e' He'. apply (Permutation_in e' (Permutation_sym (proj1 (Hs (s_errs s2))))) in He'.
    assert (K : In (b + pe_off e', pe_msg e')%nat (map key (s_errs s))).
    { apply (Permutation_in _ (Permutation_sym H3)), in_or_app. right. apply (in_map (moved b)) with (x := key e'). now apply in_map. }
    apply keys_in in K. destruct K as (e & He & K1 & K2). exists e. conj; auto. apply (Permutation_in e (proj1 (Hs (s_errs s))) He).
  - intros e He L. apply (Permutation_in e (Permutation_sym (proj1 (Hs (s_errs s))))) in He.
    apply (in_map key) in He. apply (Permutation_in _ H3) in He. apply in_app_or in He. destruct He as [He|He].
    + exfalso. pose proof (proj1 (Forall_forall _ _) H4 _ He) as L'. cbn in L'. lia.
    + apply in_map_iff in He. destruct He as (x & Ex & Hx). apply in_map_iff in Hx. destruct Hx as (e' & <- & He'). unfold key, moved in Ex. cbn in Ex. injection Ex as E1 E2.
      exists e'. conj; auto. apply (Permutation_in e' (proj1 (Hs (s_errs s2))) He').
Qed.
Print Assumptions C50_recovery.

(** The second broken definition of [broken_lines] ends at 42, at the keyword
    [const]; what follows is one more broken definition. *)
Example C50_sample :
  match parse insertion_sort ascii broken_lines with Some (f, _) => skipn 3 (file_defs f) | None => [] end = [BadDef 30 42; BadDef 42 62] /\
  match parse insertion_sort ascii (skipn 42 broken_lines) with
  | Some (f, errs) => Some (file_headers f, file_defs f, map key errs)
  | None => None
  end = Some ([], [BadDef 0 20], [(17, lit "expected value, found '='"); (19, lit "newline in string")]%nat).
Proof. split; vm_compute; reflexivity. Qed.

(** The condition on [b] cannot go: what follows the BadDef of
    [C49_end_at_string] is no definition when it stands alone. *)
Example C50_at_string : match parse insertion_sort ascii (skipn 8 (lit "typedef 'x" ++ newline ++ lit "y")) with
  | Some (f, errs) => file_defs f
  | None => []
  end = [BadDef 0 4].
Proof. vm_compute. reflexivity. Qed.

(** ** C51 *)

(** The bytes EF BB BF before a file that does not itself begin with them leave
    its headers and definitions as they are, and the same errors are reported,
    three bytes further on. *)
Theorem C51_mark sort u src f errs : sorts sort -> (forall t, src <> [xef; xbb; xbf] ++ t) -> parse sort u src = Some (f, errs) ->
  exists f' errs', parse sort u ([xef; xbb; xbf] ++ src) = Some (f', errs') /\
    file_headers f' = file_headers f /\ Forall2 (def_moved 3) (file_defs f') (file_defs f) /\ length errs' = length errs /\
    (forall o m, (exists e', In e' errs' /\ pe_off e' = o /\ pe_msg e' = m) <-> exists e, In e errs /\ o = (3 + pe_off e)%nat /\ m = pe_msg e).
Proof.
  intros Hs NB P. unfold parse in P. destruct (p_run u src) as [f0 s|s|] eqn:R; [|discriminate|discriminate]. injection P as -> <-.
  destruct (mark_run u src f s NB R) as (f' & s' & R' & H1 & H2 & H3). exists f', (sort (s_errs s')). unfold parse. change [xef; xbb; xbf] with mark. rewrite R'. conj; auto.
  - rewrite <- (Permutation_length (proj1 (Hs (s_errs s)))), <- (Permutation_length (proj1 (Hs (s_errs s')))). apply Permutation_length in H3. now rewrite !map_length in H3.
  - intros o m. split.
    + intros (e' & He' & <- & <-). apply (Permutation_in e' (Permutation_sym (proj1 (Hs (s_errs s'))))) in He'. apply (in_map key) in He'. apply (Permutation_in _ H3) in He'.
      apply in_map_iff in He'. destruct He' as (x & Ex & Hx). apply in_map_iff in Hx. destruct Hx as (e & <- & He). unfold key, moved in Ex. cbn in Ex. injection Ex as E1 E2.
      exists e. conj; auto. apply (Permutation_in e (proj1 (Hs (s_errs s))) He).
    + intros (e & He & -> & ->). apply (Permutation_in e (Permutation_sym (proj1 (Hs (s_errs s))))) in He.
      assert (K : In (3 + pe_off e, pe_msg e)%nat (map key (s_errs s'))).
      { apply (Permutation_in _ (Permutation_sym H3)). apply (in_map (moved 3)) with (x := key e). now apply in_map. }
      apply keys_in in K. destruct K as (e' & He' & K1 & K2). exists e'. conj; auto. apply (Permutation_in e' (proj1 (Hs (s_errs s'))) He').
Qed.
Print Assumptions C51_mark.

Example C51_sample : match parse insertion_sort ascii ([xef; xbb; xbf] ++ broken_lines) with
  | Some (f, errs) => (map (fun e => (pe_off e, pe_line e, pe_col e)) errs, map (fun d => match d with BadDef a b => Some (a, b) | _ => None end) (file_defs f))
  | None => ([], [])
  end = ([(18, 2, 3); (41, 4, 21); (62, 5, 18); (64, 5, 20)], [None; Some (18, 21); None; Some (33, 45); Some (45, 65)])%nat.
Proof. vm_compute. reflexivity. Qed.

(** Any other byte order mark is an error. *)
Example C51_two_marks : match parse insertion_sort ascii ([xef; xbb; xbf] ++ [xef; xbb; xbf] ++ lit "enum E {}") with
  | Some (f, errs) => map key errs
  | None => []
  end <> [].
Proof. vm_compute. discriminate. Qed.
