(** Property C60: the protocols pass the test of testing/thrifttest. *)
From Coq Require Import Strings.String Sorting.Permutation.
From Verif Require Import Base BaseLemmas Prog Bufio BufioW Wire Binary Compact GoType Fields Arshal ArshalSpec ArshalTotal ArshalExample
  MapSpec RemarshalSpec ThriftTest ThriftTestSpec ThriftTestProof ThriftTestTable ThriftTestSound.

(** ** C60 *)
(** One Writer, one Reader and one bytes.Buffer are used for all cases.  Each case is a message that is written, read
    back, checked to leave nothing unread, written again three times with the same bytes as the result, and skipped three times by
    a Reader to whose buffer bytes come while it is in use.  Whatever the cases, neither protocol fails. *)
Theorem C60_binary env P strict wsize rsize uuid cs :
  env_ok env -> unique_ids env -> supported env P -> no_methods env -> negzero_ok env -> 0 < wsize -> 10 <= rsize ->
  Forall (good_case env P (2 ^ 31)) cs ->
  exists N, forall n, (N <= n)%nat -> exists t,
    test_protocol env (binary_protocol strict) wsize rsize uuid n cs = Done t None.
Proof. intros He Hu Hs Hn Hz. exact (bin_test env P He Hu Hs Hn Hz strict strict wsize rsize uuid cs (fun H => H)). Qed.
Print Assumptions C60_binary.

Theorem C60_compact env P wsize rsize uuid cs :
  env_ok env -> unique_ids env -> supported env P -> no_methods env -> negzero_ok env -> 0 < wsize -> 10 <= rsize ->
  Forall (good_case env P (2 ^ 63)) cs ->
  exists N, forall n, (N <= n)%nat -> exists t,
    test_protocol env compact_protocol wsize rsize uuid n cs = Done t None.
Proof. intros He Hu Hs Hn Hz. exact (cmp_test env P He Hu Hs Hn Hz wsize rsize uuid cs). Qed.
Print Assumptions C60_compact.

(** A Reader that takes messages without a version takes those with one as well: the joined protocol passes. *)
Theorem C60_joined env P sw wsize rsize uuid cs :
  env_ok env -> unique_ids env -> supported env P -> no_methods env -> negzero_ok env -> 0 < wsize -> 10 <= rsize ->
  Forall (good_case env P (2 ^ 31)) cs ->
  exists N, forall n, (N <= n)%nat -> exists t,
    test_protocol env (join_protocol (binary_protocol false) (binary_protocol sw)) wsize rsize uuid n cs = Done t None.
Proof. intros He Hu Hs Hn Hz. apply (bin_test env P He Hu Hs Hn Hz false sw wsize rsize uuid cs). discriminate. Qed.
Print Assumptions C60_joined.

(** And the test means something: whatever the protocol, a case that is passed is one in which the message was
    written as some bytes [want], a Reader that was reset read a message with the same type and id and the same name (or none) from just these bytes and
    took all of them from the buffer, the value [v] it gave was written as the same bytes three times over (unless there is a map), and a
    Reader that was reset skipped [want] three times.  The value [v] itself is not compared with what was sent. *)
Theorem C60_demands env p wsize rsize n uuid c t t' :
  c_has_uuid c && negb uuid = false -> t_buf p t = [] -> test_case env p wsize rsize uuid n c t = Done t' None ->
  let ty := c_type c in
  let h := mkMH (c_name c) (u8 (mh_type (t_msg p t) mod 4 + 1)) (i32 (mh_id (t_msg p t) + 1)) in
  exists w0 w1 w2 w3 want r name v left,
    writes env p wsize n h (ty, c_val c) (p_reset_writer p (t_w p t), [], None) w0 want /\
    reads env p rsize n (inl (ty, zero env ty)) (p_reset_reader p (t_r p t), [], None) r want [] (mkMH name (mh_type h) (mh_id h), Some v, None) /\
    (name = c_name c \/ name = [] \/ c_name c = []) /\
    (if c_has_map c then left = []
     else left = want /\
          writes env p wsize n h (RtPtr ty, GPtr (Some (c_order c 0 v))) w0 w1 want /\
          writes env p wsize n h (RtPtr ty, GPtr (Some (c_order c 1 v))) w1 w2 want /\
          writes env p wsize n h (RtPtr ty, GPtr (Some (c_order c 2 v))) w2 w3 want) /\
    (exists r1 r2 r3 l1 l2 l3 h1 h2 h3 o1 o2 o3,
       reads env p rsize n (inr T_Struct) (p_reset_reader p (fst (fst r)), [], None) r1 (left ++ want) l1 (h1, o1, None) /\
       reads env p rsize n (inr T_Struct) r1 r2 (l1 ++ want) l2 (h2, o2, None) /\
       reads env p rsize n (inr T_Struct) r2 r3 (l2 ++ want) l3 (h3, o3, None)) /\
    t_buf p t' = [] /\ t_msg p t' = h.
Proof. exact (test_means env p wsize rsize n uuid c t t'). Qed.
Print Assumptions C60_demands.

(** The messages of a test that passes: the k-th case that is run (from 0) has the type Call, Reply, Exception or OneWay (1 to 4) in
    turn and the ID k + 1, and is written with this header to the empty buffer. *)
Definition runs_case (uuid : bool) (c : case) : bool := negb (c_has_uuid c && negb uuid).
Theorem C60_messages env p wsize rsize n uuid cs1 c cs2 t : runs_case uuid c = true ->
  test_protocol env p wsize rsize uuid n (cs1 ++ c :: cs2) = Done t None ->
  let k := Z.of_nat (length (filter (runs_case uuid) cs1)) in
  exists t1 t2 w0 want,
    test_protocol env p wsize rsize uuid n cs1 = Done t1 None /\ test_case env p wsize rsize uuid n c t1 = Done t2 None /\ t_buf p t1 = [] /\
    writes env p wsize n (mkMH (c_name c) (k mod 4 + 1) (i32 (k + 1))) (c_type c, c_val c) (p_reset_writer p (t_w p t1), [], None) w0 want.
Proof.
  intros Hc R k.
  assert (X : forall cs a t0, t_buf p t0 = [] -> (mh_type (t_msg p t0) mod 4 = a mod 4 /\ mh_id (t_msg p t0) = i32 a) ->
    test_cases env p wsize rsize uuid n (cs ++ c :: cs2) t0 = Done t None ->
    exists t1 t2, test_cases env p wsize rsize uuid n cs t0 = Done t1 None /\ test_case env p wsize rsize uuid n c t1 = Done t2 None /\ t_buf p t1 = [] /\
      let k := a + Z.of_nat (length (filter (runs_case uuid) cs)) in mh_type (t_msg p t1) mod 4 = k mod 4 /\ mh_id (t_msg p t1) = i32 k).
  { induction cs as [|c' cs IH]; intros a t0 B M R0; cbn [app test_cases] in R0; unfold and_next in R0.
    - destruct (test_case env p wsize rsize uuid n c t0) as [t2 [f|]|] eqn:E; cbn [obind] in R0; try discriminate.
      exists t0, t2. cbn [test_cases filter length Z.of_nat]. rewrite Z.add_0_r. auto.
    - destruct (test_case env p wsize rsize uuid n c' t0) as [t2 [f|]|] eqn:E; cbn [obind] in R0; try discriminate.
      assert (S : t_buf p t2 = [] /\ exists a', a' = a + Z.of_nat (length (filter (runs_case uuid) [c'])) /\ mh_type (t_msg p t2) mod 4 = a' mod 4 /\ mh_id (t_msg p t2) = i32 a').
      { cbn [filter]. destruct (runs_case uuid c') eqn:Rc; cbn [length Z.of_nat].
        - unfold runs_case in Rc. apply negb_true_iff in Rc.
          destruct (C60_demands env p wsize rsize n uuid c' t0 t2 Rc B E) as (? & ? & ? & ? & ? & ? & ? & ? & ? & _ & _ & _ & _ & _ & B2 & M2).
          split; [exact B2|]. exists (a + 1). split; [reflexivity|]. rewrite M2. cbn [mh_type mh_id]. destruct M as (M1 & M3). split.
          + pose proof (Z.mod_pos_bound (mh_type (t_msg p t0)) 4 ltac:(lia)). unfold u8. rewrite (Z.mod_small (_ + 1)) by lia.
            rewrite M1. now rewrite Z.add_mod_idemp_l by lia.
          + rewrite M3. apply i32_mod. rewrite <- Z.add_mod_idemp_l, i32_mod_eq, Z.add_mod_idemp_l by lia. reflexivity.
        - unfold runs_case in Rc. apply negb_false_iff in Rc. unfold test_case in E. rewrite Rc in E. inversion E; subst. split; [exact B|]. exists a. split; [lia|exact M]. }
      destruct S as (B2 & a' & Ea & M2). destruct (IH a' t2 B2 M2 R0) as (t1 & t3 & R1 & R2 & B1 & M3). exists t1, t3.
      split; [cbn [test_cases]; unfold and_next; rewrite E; exact R1|]. split; [exact R2|]. split; [exact B1|]. cbv zeta in *.
      replace (a + Z.of_nat (length (filter (runs_case uuid) (c' :: cs)))) with (a' + Z.of_nat (length (filter (runs_case uuid) cs))); [exact M3|].
      subst a'. cbn [filter]. destruct (runs_case uuid c'); cbn [length]; lia. }
  destruct (X cs1 0 (new_bench p) eq_refl (conj eq_refl eq_refl) R) as (t1 & t2 & R1 & R2 & B1 & M1 & M2). rewrite Z.add_0_l in M1, M2. fold k in M1, M2.
  unfold runs_case in Hc. apply negb_true_iff in Hc.
  destruct (C60_demands env p wsize rsize n uuid c t1 t2 Hc B1 R2) as (w0 & ? & ? & ? & want & ? & ? & ? & ? & W & _).
  exists t1, t2, w0, want. repeat split; auto. revert W.
  replace (u8 (mh_type (t_msg p t1) mod 4 + 1)) with (k mod 4 + 1).
  2: { rewrite M1. pose proof (Z.mod_pos_bound k 4 ltac:(lia)). unfold u8. symmetry. apply Z.mod_small. lia. }
  replace (i32 (mh_id (t_msg p t1) + 1)) with (i32 (k + 1)); [auto|].
  rewrite M2. apply i32_mod. rewrite <- (Z.add_mod_idemp_l (i32 k)), i32_mod_eq, Z.add_mod_idemp_l by lia. reflexivity.
Qed.
Print Assumptions C60_messages.

(** Headers count as equal if types and ids are and the names are, or one of them is missing. *)
Theorem C60_headers x y : is_message_header_equal x y = true <->
  mh_type x = mh_type y /\ mh_id x = mh_id y /\ (mh_name x = mh_name y \/ mh_name x = [] \/ mh_name y = []).
Proof.
  unfold is_message_header_equal, is_message_name_equal. rewrite !andb_true_iff, !orb_true_iff, !Z.eqb_eq, GoTypeProof.bytes_eqb_eq.
  destruct (mh_name x), (mh_name y); intuition congruence.
Qed.
Print Assumptions C60_headers.

(** The test as it is in the repository, run by thriftbinary_test.go and thriftcompact_test.go: it passes whatever the orders in
    which maps are iterated over. *)
Theorem C60_repository p order letters :
  In p [binary_protocol true; binary_protocol false; compact_protocol] ->
  (forall name i v, shuffled v (order name i v)) -> Permutation alphabet letters ->
  exists N, forall n, (N <= n)%nat -> exists t, test_protocol tt_env p 4096 4096 true n (table order letters) = Done t None.
Proof.
  assert (Hn : no_methods tt_env) by (intros t; reflexivity). assert (Hz : negzero_ok tt_env) by (intros _; reflexivity).
  intros [<-|[<-|[<-|[]]]] Ho Hp.
  - apply (C60_binary tt_env tt_types); [exact tt_ok|exact tt_unique|exact tt_supported|exact Hn|exact Hz|lia|lia|apply table_good; auto; lia].
  - apply (C60_binary tt_env tt_types); [exact tt_ok|exact tt_unique|exact tt_supported|exact Hn|exact Hz|lia|lia|apply table_good; auto; lia].
  - apply (C60_compact tt_env tt_types); [exact tt_ok|exact tt_unique|exact tt_supported|exact Hn|exact Hz|lia|lia|apply table_good; auto; lia].
Qed.
Print Assumptions C60_repository.

(** Orders in which maps may be iterated over. *)
Example C60_orders : (forall (name : list byte) (i : nat) v, shuffled v v) /\ Permutation alphabet alphabet /\ List.length (table (fun _ _ v => v) alphabet) = 16%nat.
Proof. split; [intros; apply sh_same|]. split; [apply Permutation_refl|reflexivity]. Qed.

(** The test is not passed by every protocol: a Reader that insists on a version fails on messages written without. *)
Example C60_fails : exists t e,
  test_protocol tt_env (join_protocol (binary_protocol true) (binary_protocol false))
    4096 4096 true 9 (table (fun _ _ v => v) alphabet) = Done t (Some (FFatal e)).
Proof.
  match goal with |- exists t e, ?o = _ =>
    assert (H : match o with Done _ (Some (FFatal _)) => true | _ => false end = true) by (vm_compute; reflexivity);
    destruct o as [t [[e|h| | |l]|]|c]; try discriminate H
  end. eauto.
Qed.
