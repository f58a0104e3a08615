(** What it takes to pass the test. *)
From Verif Require Import Base BaseLemmas Prog Bufio BufioW Wire GoType GoTypeProof Fields Arshal ArshalSpec Pipeline ThriftTest ThriftTestSpec.

Section Sound.
Context (env : tenv) (p : protocol) (wsize rsize : Z) (n : nat).

Lemma marshal_writes i t t' : marshal_msg env p wsize n i (set_buf p [] t) = Done t' None ->
  writes env p wsize n (t_msg p t) i (t_w p t, t_wbuf p t, t_werr p t) (t_w p t', t_wbuf p t', t_werr p t') (t_buf p t') /\
  t_msg p t' = t_msg p t /\ (t_r p t', t_rbuf p t', t_rerr p t') = (t_r p t, t_rbuf p t, t_rerr p t).
Proof using.
  unfold marshal_msg, writing. cbn [set_buf t_msg t_buf t_w t_wbuf t_werr t_r t_rbuf t_rerr].
  destruct (run _ _ _) as [[s b] e|c] eqn:E; cbn [obind]; [|discriminate]. intros H. injection H as <- H.
  destruct e; [discriminate|]. split; [|split; reflexivity]. exists b. cbn. auto.
Qed.

Lemma skip_reads t t' : skip_msg env p rsize n t = Done t' None ->
  (exists h o, reads env p rsize n (inr T_Struct) (t_r p t, t_rbuf p t, t_rerr p t) (t_r p t', t_rbuf p t', t_rerr p t') (t_buf p t) (t_buf p t') (h, o, None)) /\
  (t_w p t', t_wbuf p t', t_werr p t') = (t_w p t, t_wbuf p t, t_werr p t) /\ t_msg p t' = t_msg p t.
Proof using.
  unfold skip_msg, reading. destruct (run _ _ _) as [[s b] [[h o] e]|c] eqn:E; cbn [obind]; [|discriminate]. intros H. injection H as <- H.
  destruct e; [discriminate|]. split; [|split; reflexivity]. exists h, o, b. cbn. auto.
Qed.

Lemma and_next_done o k t' : and_next p o k = Done t' None -> exists t, o = Done t None /\ k t = Done t' None.
Proof using. unfold and_next. destruct o as [t [f|]|c]; cbn [obind]; try discriminate. eauto. Qed.

Theorem test_means uuid c t t' : c_has_uuid c && negb uuid = false -> t_buf p t = [] -> test_case env p wsize rsize uuid n c t = Done t' None ->
  let ty := c_type c in
  let h := mkMH (c_name c) (u8 (mh_type (t_msg p t) mod 4 + 1)) (i32 (mh_id (t_msg p t) + 1)) in
  exists w0 w1 w2 w3 want r name v left,
    writes env p wsize n h (ty, c_val c) (p_reset_writer p (t_w p t), [], None) w0 want /\
    reads env p rsize n (inl (ty, zero env ty)) (p_reset_reader p (t_r p t), [], None) r want [] (mkMH name (mh_type h) (mh_id h), Some v, None) /\
    (name = c_name c \/ name = [] \/ c_name c = []) /\
    (if c_has_map c then left = []
     else left = want /\
          writes env p wsize n h (RtPtr ty, GPtr (Some (c_order c 0 v))) w0 w1 want /\
          writes env p wsize n h (RtPtr ty, GPtr (Some (c_order c 1 v))) w1 w2 want /\
          writes env p wsize n h (RtPtr ty, GPtr (Some (c_order c 2 v))) w2 w3 want) /\
    (exists r1 r2 r3 l1 l2 l3 h1 h2 h3 o1 o2 o3,
       reads env p rsize n (inr T_Struct) (p_reset_reader p (fst (fst r)), [], None) r1 (left ++ want) l1 (h1, o1, None) /\
       reads env p rsize n (inr T_Struct) r1 r2 (l1 ++ want) l2 (h2, o2, None) /\
       reads env p rsize n (inr T_Struct) r2 r3 (l2 ++ want) l3 (h3, o3, None)) /\
    t_buf p t' = [] /\ t_msg p t' = h.
Proof using.
  intros Hu Hb H ty h. unfold test_case in H. rewrite Hu in H. fold ty in H.
  apply and_next_done in H. destruct H as (t1 & E1 & H).
  assert (B0 : reset_w p (next_msg p (c_name c) t) = set_buf p [] (reset_w p (next_msg p (c_name c) t))).
  { unfold reset_w, next_msg, set_buf. cbn [t_msg t_buf t_w t_wbuf t_werr t_r t_rbuf t_rerr]. now rewrite Hb. }
  rewrite B0 in E1. apply marshal_writes in E1. destruct E1 as (W0 & M1 & R1). cbn [next_msg reset_w t_msg t_buf t_w t_wbuf t_werr t_r t_rbuf t_rerr] in W0, M1, R1.
  fold h in W0, M1. injection R1 as R1 R2 R3.
  unfold read_msg, reading in H. cbn [reset_r t_msg t_buf t_w t_wbuf t_werr t_r t_rbuf t_rerr] in H.
  destruct (run _ _ _) as [[s b] [[h' o] e]|cr] eqn:E2 in H; cbn [obind] in H; [|discriminate]. destruct e; [discriminate|]. cbn [t_msg] in H. rewrite M1 in H.
  destruct (is_message_header_equal h' h) eqn:Eh; [|discriminate]. destruct o as [v|]; [|discriminate]. cbn [t_buf] in H.
  destruct (src_bytes (bsrc b)) eqn:Es; [|discriminate].
  apply and_next_done in H. destruct H as (t2 & E3 & H). apply and_next_done in H. destruct H as (t3 & E4 & H). injection H as <-.
  unfold is_message_header_equal in Eh. apply andb_true_iff in Eh. destruct Eh as [Eh En]. apply andb_true_iff in Eh. destruct Eh as [Et Ei].
  apply Z.eqb_eq in Et, Ei. destruct h' as [name ty' id']. cbn [mh_type mh_id mh_name] in Et, Ei, En.
  set (want := t_buf p t1) in *.
  assert (A : exists w1 w2 w3 left, t_buf p t2 = left /\ t_r p t2 = s /\ t_msg p t2 = h /\
    (if c_has_map c then left = []
     else left = want /\
          writes env p wsize n h (RtPtr ty, GPtr (Some (c_order c 0 v))) (t_w p t1, t_wbuf p t1, t_werr p t1) w1 want /\
          writes env p wsize n h (RtPtr ty, GPtr (Some (c_order c 1 v))) w1 w2 want /\
          writes env p wsize n h (RtPtr ty, GPtr (Some (c_order c 2 v))) w2 w3 want)).
  { destruct (c_has_map c).
    - injection E3 as <-. do 3 (exists (t_w p t1, t_wbuf p t1, t_werr p t1)). eexists. conj; try reflexivity.
    - cbn [times] in E3. apply and_next_done in E3. destruct E3 as (x2 & E3 & F3).
      apply and_next_done in E3. destruct E3 as (x1 & E3 & F2).
      apply and_next_done in E3. destruct E3 as (x0 & E3 & F1). injection E3 as <-.
      assert (K : forall i x y, and_next p (marshal_msg env p wsize n (RtPtr ty, GPtr (Some (c_order c i v))) (set_buf p [] x))
          (fun t => if bytes_eqb (t_buf p t) want then Done t None else Done t (Some (FBytes (t_buf p t)))) = Done y None ->
          t_msg p x = h -> writes env p wsize n h (RtPtr ty, GPtr (Some (c_order c i v))) (t_w p x, t_wbuf p x, t_werr p x) (t_w p y, t_wbuf p y, t_werr p y) want /\
            t_msg p y = h /\ t_r p y = t_r p x /\ t_buf p y = want).
      { clear. intros i x y H Hm. apply and_next_done in H. destruct H as (z & E & H). apply marshal_writes in E. destruct E as (W & M & R).
        destruct (bytes_eqb (t_buf p z) want) eqn:Eb; [|discriminate]. injection H as <-. apply bytes_eqb_eq in Eb.
        rewrite Eb, Hm in W. rewrite Hm in M. injection R as R _ _. auto. }
      apply K in F1; [|cbn [t_msg]; first [reflexivity|exact M1]]. destruct F1 as (F1 & m1 & r1 & b1). apply K in F2; [|exact m1]. destruct F2 as (F2 & m2 & r2 & b2).
      apply K in F3; [|exact m2]. destruct F3 as (F3 & m3 & r3 & b3). eexists. eexists. eexists. exists want.
      split; [exact b3|]. split; [rewrite r3, r2, r1; reflexivity|]. split; [exact m3|]. split; [reflexivity|]. split; [exact F1|]. split; [exact F2|exact F3]. }
  destruct A as (w1 & w2 & w3 & left & L2 & S2 & M2 & A).
  exists (t_w p t1, t_wbuf p t1, t_werr p t1), w1, w2, w3, want, (s, bbuf b, berr b), name, v, left.
  split; [exact W0|]. split.
  { rewrite R1 in E2. exists b. rewrite E2, Et, Ei. auto. }
  split.
  { unfold is_message_name_equal in En. change (mh_name h) with (c_name c) in En. apply orb_true_iff in En. destruct En as [En|En].
    - apply orb_true_iff in En. destruct En as [En|En]; [left; now apply bytes_eqb_eq|destruct name; [auto|discriminate]].
    - destruct (c_name c); [auto|discriminate]. }
  split; [exact A|]. split.
  { cbn [times] in E4. apply and_next_done in E4. destruct E4 as (x2 & E4 & F3).
    apply and_next_done in E4. destruct E4 as (x1 & E4 & F2).
    apply and_next_done in E4. destruct E4 as (x0 & E4 & F1). injection E4 as <-.
    apply skip_reads in F1. destruct F1 as ((h1 & o1 & F1) & _ & _). apply skip_reads in F2. destruct F2 as ((h2 & o2 & F2) & _ & _).
    apply skip_reads in F3. destruct F3 as ((h3 & o3 & F3) & _ & _). 
    cbn [set_buf reset_r t_msg t_buf t_w t_wbuf t_werr t_r t_rbuf t_rerr] in F1, F2, F3. cbn [fst]. rewrite L2, S2 in F1.
    do 12 eexists. split; [exact F1|]. split; [exact F2|exact F3]. }
  split; [reflexivity|]. cbn [set_buf t_msg].
  cbn [times] in E4. apply and_next_done in E4. destruct E4 as (x2 & E4 & F3).
  apply and_next_done in E4. destruct E4 as (x1 & E4 & F2). apply and_next_done in E4. destruct E4 as (x0 & E4 & F1). injection E4 as <-.
  apply skip_reads in F1, F2, F3. destruct F1 as (_ & _ & F1), F2 as (_ & _ & F2), F3 as (_ & _ & F3). cbn [set_buf reset_r t_msg] in F1, F2, F3. congruence.
Qed.
End Sound.
