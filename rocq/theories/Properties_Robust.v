(** Properties C08, C09, C10, C43, C46: truncated, malformed and hostile input.

    [fuel] stands for Go's stack and for the patience of the observer: Skip has
    no such parameter.  Every theorem below holds for all large enough fuel, and
    C09_skip_*_fuel shows that the amount does not matter. *)
From Verif Require Import Base Prog Bufio BufioProof Wire Spec Clients Binary Compact
  CompactProof RoundTrip Robust Safety Fuel Depth Properties_Values.

(** C08.  If the stream ends strictly inside the encoding of a value, reading
    the value and skipping it both return a non-nil error. *)
Theorem C08_truncated_binary size strict fuel v b p q e :
  10 <= size -> binv size b -> wf (2 ^ 31) v ->
  binary_encoding v = p ++ q -> q <> [] -> abs b = mkStream p (FErr e) -> (length p < fuel)%nat ->
  (exists b' er, run (over (bin_reader strict) (bufio_h size)) (skip fuel (val_type v)) (tt, b)
                 = Done (tt, b') (Some er)) /\
  (exists b' er, run (over (bin_reader strict) (bufio_h size)) (read_val fuel (val_type v)) (tt, b)
                 = Done (tt, b') (inr er)).
Proof. exact (fun Hs => bin_truncated size strict Hs fuel v b p q e). Qed.
Print Assumptions C08_truncated_binary.

Theorem C08_truncated_compact size fuel v l b p q e st :
  10 <= size -> binv size b -> wf (2 ^ 63) v -> compact_encoding v l ->
  l = p ++ q -> q <> [] -> abs b = mkStream p (FErr e) -> cr_bool st = BNone ->
  (2 * length p + 1 < fuel)%nat ->
  (exists st' b' er, run (over cmp_reader (bufio_h size)) (skip fuel (val_type v)) (st, b)
                     = Done (st', b') (Some er)) /\
  (exists st' b' er, run (over cmp_reader (bufio_h size)) (read_val fuel (val_type v)) (st, b)
                     = Done (st', b') (inr er)).
Proof.
  exact (fun Hs Hb Hv Hl => cmp_truncated size Hs fuel v l b p q e st Hb Hv (compact_enc_wrap v l _ Hv Hl)).
Qed.
Print Assumptions C08_truncated_compact.

Example C08_sample :
  let src := drip (firstn 20 (binary_encoding sample)) in
  good_source (mkSource (removelast (script src)) (FErr EEOF)) /\
  exists q, binary_encoding sample = firstn 20 (binary_encoding sample) ++ q /\ q <> [].
Proof.
  split; [split; vm_compute; auto 100|]. exists (skipn 20 (binary_encoding sample)).
  split; [symmetry; apply firstn_skipn|vm_compute; discriminate].
Qed.

(** C09.  On any bytes whatsoever, in any state of the buffered reader, every
    Reader method returns (a value or an error), consuming a prefix of what is
    there. *)
Theorem C09_methods_return_binary size strict X (c : wireR X) b d e :
  10 <= size -> binv size b -> abs b = mkStream d (FErr e) ->
  exists b' x p d', over (bin_reader strict) (bufio_h size) X c (tt, b) = Done (tt, b') x /\ binv size b' /\
    d = p ++ d' /\ abs b' = mkStream d' (FErr e).
Proof. exact (fun Hs => bin_method_total size strict Hs X c b d e). Qed.
Print Assumptions C09_methods_return_binary.

Theorem C09_methods_return_compact size X (c : wireR X) st b d e :
  10 <= size -> binv size b -> abs b = mkStream d (FErr e) ->
  exists st' b' x p d', over cmp_reader (bufio_h size) X c (st, b) = Done (st', b') x /\ binv size b' /\
    d = p ++ d' /\ abs b' = mkStream d' (FErr e).
Proof. exact (fun Hs => cmp_method_total size Hs X c st b d e). Qed.
Print Assumptions C09_methods_return_compact.

(** Skip returns too, whatever type it is given and whatever the bytes are, and
    the number [n] of Reader calls it makes is bounded by the number of bytes
    it consumes. *)
Theorem C09_skip_returns_binary size strict fuel t b d e :
  10 <= size -> binv size b -> abs b = mkStream d (FErr e) -> (length d < fuel)%nat ->
  exists b' n r p d',
    run (counted (over (bin_reader strict) (bufio_h size))) (skip fuel t) ((tt, b), O)
      = Done ((tt, b'), n) r /\
    binv size b' /\ d = p ++ d' /\ abs b' = mkStream d' (FErr e) /\ (n <= 3 * length p + 3)%nat.
Proof. exact (fun Hs => bin_skip_total size strict Hs fuel t b d e). Qed.
Print Assumptions C09_skip_returns_binary.

Theorem C09_skip_returns_compact size fuel t st b d e :
  10 <= size -> binv size b -> abs b = mkStream d (FErr e) -> (2 * length d + 1 < fuel)%nat ->
  exists st' b' n r p d',
    run (counted (over cmp_reader (bufio_h size))) (skip fuel t) ((st, b), O)
      = Done ((st', b'), n) r /\
    binv size b' /\ d = p ++ d' /\ abs b' = mkStream d' (FErr e) /\ (n <= 6 * length p + 6)%nat.
Proof. exact (fun Hs => cmp_skip_total size Hs fuel t st b d e). Qed.
Print Assumptions C09_skip_returns_compact.

Theorem C09_skip_binary_fuel size strict fuel fuel' t b d e :
  10 <= size -> binv size b -> abs b = mkStream d (FErr e) ->
  (length d < fuel)%nat -> (length d < fuel')%nat ->
  run (over (bin_reader strict) (bufio_h size)) (skip fuel t) (tt, b)
  = run (over (bin_reader strict) (bufio_h size)) (skip fuel' t) (tt, b).
Proof. exact (fun Hs => bin_skip_fuel size strict Hs fuel fuel' t b d e). Qed.
Print Assumptions C09_skip_binary_fuel.

Theorem C09_skip_compact_fuel size fuel fuel' t st b d e :
  10 <= size -> binv size b -> abs b = mkStream d (FErr e) ->
  (2 * length d + 1 < fuel)%nat -> (2 * length d + 1 < fuel')%nat ->
  run (over cmp_reader (bufio_h size)) (skip fuel t) (st, b)
  = run (over cmp_reader (bufio_h size)) (skip fuel' t) (st, b).
Proof. exact (fun Hs => cmp_skip_fuel size Hs fuel fuel' t st b d e). Qed.
Print Assumptions C09_skip_compact_fuel.

(** [counted] only counts. *)
Theorem C09_counted_faithful {S A} (h : handler wireR S) (p : prog wireR A) s n :
  run h p s = match run (counted h) p (s, n) with Done (s', _) a => Done s' a | Crashed c => Crashed c end.
Proof. exact (counted_run h p s n). Qed.
Print Assumptions C09_counted_faithful.

Example C09_sample : exists b n, (n < 10)%nat /\
  run (counted (over (bin_reader true) (bufio_h 4096))) (skip 100 15)
    ((tt, new_breader (mkSource [([x08; x7f; xff; xff; xff; x08; x00; x00], None); ([x00; x01; x02; x03; x04], Some EEOF)] (FErr EEOF))), O)
  = Done ((tt, b), n) (Some EEOF).
Proof. eexists; exists 4%nat; split; [lia|vm_compute; reflexivity]. Qed.

(** C10.  On any bytes, in any state, even when the peer goes silent: reading a
    value through the Reader methods and skipping it succeed on the same inputs,
    and when they do they consume the same bytes. *)
Theorem C10_skip_agrees_binary size strict fuel t b :
  10 <= size -> binv size b ->
  match run (over (bin_reader strict) (bufio_h size)) (read_val fuel t) (tt, b),
        run (over (bin_reader strict) (bufio_h size)) (skip fuel t) (tt, b) with
  | Done (_, b1) (inl _), Done (_, b2) None => abs b1 = abs b2
  | Done _ (inr _), Done _ (Some _) => True
  | Crashed c, Crashed c' => c = c'
  | _, _ => False
  end.
Proof. exact (fun Hs => bin_skip_read_agree size strict Hs fuel t tt b). Qed.
Print Assumptions C10_skip_agrees_binary.

Theorem C10_skip_agrees_compact size fuel t st b :
  10 <= size -> binv size b ->
  match run (over cmp_reader (bufio_h size)) (read_val fuel t) (st, b),
        run (over cmp_reader (bufio_h size)) (skip fuel t) (st, b) with
  | Done (st1, b1) (inl _), Done (st2, b2) None => st1 = st2 /\ abs b1 = abs b2
  | Done _ (inr _), Done _ (Some _) => True
  | Crashed c, Crashed c' => c = c'
  | _, _ => False
  end.
Proof. exact (fun Hs => cmp_skip_read_agree size Hs fuel t st b). Qed.
Print Assumptions C10_skip_agrees_compact.

(** Both outcomes occur: a list of two bytes, whole and cut. *)
Example C10_sample :
  let run' A (p : prog wireR A) l := run (over (bin_reader true) (bufio_h 4096)) p
    (tt, new_breader (mkSource [(l, None)] (FErr EEOF))) in
  (exists s, run' _ (read_val 9 15) [x03; x00; x00; x00; x02; x61; x62] = Done s (inl (VList 3 [VByte x61; VByte x62]))) /\
  (exists s, run' _ (skip 9 15) [x03; x00; x00; x00; x02; x61; x62] = Done s None) /\
  (exists s, run' _ (read_val 9 15) [x03; x00; x00; x00; x02; x61] = Done s (inr EEOF)) /\
  (exists s, run' _ (skip 9 15) [x03; x00; x00; x00; x02; x61] = Done s (Some EEOF)).
Proof. cbv zeta. repeat split; eexists; vm_compute; reflexivity. Qed.

(** C43.  With any Reader whatsoever, a collection header with a negative (or
    zero) count makes Skip go straight to the end of the collection.  That huge
    counts are harmless is C09: the work is bounded by the bytes present, whatever
    the counts say.  (Unmarshal: see C43_unmarshal in Properties_Arshal.) *)
Theorem C43_negative_list {St} (h : handler wireR St) fuel s s1 hd :
  h _ RListBegin s = Done s1 (hd, None) -> set_size hd <= 0 ->
  run h (skip (S fuel) T_List) s = h _ RListEnd s1.
Proof. exact (skip_neg_list h fuel s s1 hd). Qed.
Print Assumptions C43_negative_list.
Theorem C43_negative_set {St} (h : handler wireR St) fuel s s1 hd :
  h _ RSetBegin s = Done s1 (hd, None) -> set_size hd <= 0 ->
  run h (skip (S fuel) T_Set) s = h _ RSetEnd s1.
Proof. exact (skip_neg_set h fuel s s1 hd). Qed.
Print Assumptions C43_negative_set.
Theorem C43_negative_map {St} (h : handler wireR St) fuel s s1 hd :
  h _ RMapBegin s = Done s1 (hd, None) -> map_size hd <= 0 ->
  run h (skip (S fuel) T_Map) s = h _ RMapEnd s1.
Proof. exact (skip_neg_map h fuel s s1 hd). Qed.
Print Assumptions C43_negative_map.

(** A header with count -1 under both protocols. *)
Example C43_sample_binary : exists s1,
  over (bin_reader true) (stream_h 4096) _ RListBegin (tt, mkStream [x08; xff; xff; xff; xff] (FErr EEOF))
  = Done s1 (mkSetH 8 (-1), None).
Proof. eexists; vm_compute; reflexivity. Qed.
Example C43_sample_compact : exists s1 n, n < 0 /\
  over cmp_reader (stream_h 4096) _ RListBegin
    (cr0, mkStream [xf5; xff; xff; xff; xff; xff; xff; xff; xff; xff; x01] (FErr EEOF))
  = Done s1 (mkSetH 8 n, None).
Proof. eexists; exists (-1); split; [lia|vm_compute; reflexivity]. Qed.

(** C46 is false: for every recursion budget [n] there is an input of nested
    lists on which Skip exceeds it, although Skip would return nil with one more
    level. *)
Theorem C46_depth_bounded_refuted size strict e n :
  10 <= size ->
  exists src, good_source src /\ src_fin src = FErr e /\
    run (over (bin_reader strict) (bufio_h size)) (skip n T_List) (tt, new_breader src) = Crashed OutOfFuel /\
    exists b', run (over (bin_reader strict) (bufio_h size)) (skip (S n) T_List) (tt, new_breader src)
                 = Done (tt, b') None /\ abs b' = mkStream [] (FErr e).
Proof. exact (skip_depth size strict e n). Qed.
Print Assumptions C46_depth_bounded_refuted.

(** What holds instead: the depth is bounded by the number of bytes there are to read (in the Compact protocol by twice
    that number: field header and value of a boolean share a byte).  Missing: a bound that does not depend on the input. *)
Theorem C46_depth_binary_partial size strict t b d e :
  10 <= size -> binv size b -> abs b = mkStream d (FErr e) ->
  exists b' r, run (over (bin_reader strict) (bufio_h size)) (skip (length d + 1) t) (tt, b) = Done (tt, b') r.
Proof.
  intros Hs Hb Ha. destruct (C09_skip_returns_binary size strict (length d + 1) t b d e Hs Hb Ha ltac:(lia)) as (b' & n & r & p & d' & H & _).
  exists b', r. now rewrite (C09_counted_faithful _ _ _ O), H.
Qed.
Print Assumptions C46_depth_binary_partial.
Theorem C46_depth_compact_partial size t st b d e :
  10 <= size -> binv size b -> abs b = mkStream d (FErr e) ->
  exists st' b' r, run (over cmp_reader (bufio_h size)) (skip (2 * length d + 2) t) (st, b) = Done (st', b') r.
Proof.
  intros Hs Hb Ha. destruct (C09_skip_returns_compact size (2 * length d + 2) t st b d e Hs Hb Ha ltac:(lia)) as (st' & b' & n & r & p & d' & H & _).
  exists st', b', r. now rewrite (C09_counted_faithful _ _ _ O), H.
Qed.
Print Assumptions C46_depth_compact_partial.

(** For data that is a value the depth is known: Skip needs just as many calls on
    the stack as the value has levels.  [skip_within w d] is Skip with room for [d]
    of them, as the first theorem says. *)
Theorem C46_within_is_skip S (h : handler wireR S) t s s' r :
  (exists w d, run h (skip_within w d t) s = Done s' r) <-> (exists n, run h (skip n t) s = Done s' r).
Proof.
  split.
  - intros (w & d & E). exists (w + d)%nat. exact (below_done h _ _ _ _ _ (within_skip w d t _ (le_n _)) E).
  - intros (n & E). exists n, n. exact (below_done h _ _ _ _ _ (skip_within_all n t) E).
Qed.
Print Assumptions C46_within_is_skip.
Theorem C46_depth_exact_binary size strict b v rest w d e :
  10 <= size -> binv size b -> wf (2 ^ 31) v -> (breadth v < w)%nat -> abs b = mkStream (binary_encoding v ++ rest) e ->
  ((nesting v <= d)%nat -> exists b', run (over (bin_reader strict) (bufio_h size)) (skip_within w d (val_type v)) (tt, b) = Done (tt, b') None /\
     binv size b' /\ abs b' = mkStream rest e) /\
  ((d < nesting v)%nat -> run (over (bin_reader strict) (bufio_h size)) (skip_within w d (val_type v)) (tt, b) = Crashed OutOfFuel).
Proof. exact (depth_binary strict size b v rest w d e). Qed.
Print Assumptions C46_depth_exact_binary.
Theorem C46_depth_exact_compact size b v l rest w d st e :
  10 <= size -> binv size b -> wf (2 ^ 63) v -> (breadth v < w)%nat -> compact_encoding v l -> cr_bool st = BNone ->
  abs b = mkStream (l ++ rest) (FErr e) ->
  ((nesting v <= d)%nat -> exists b', run (over cmp_reader (bufio_h size)) (skip_within w d (val_type v)) (st, b) = Done (st, b') None /\
     binv size b' /\ abs b' = mkStream rest (FErr e)) /\
  ((d < nesting v)%nat -> run (over cmp_reader (bufio_h size)) (skip_within w d (val_type v)) (st, b) = Crashed OutOfFuel).
Proof. exact (fun Hs Hb Hv Hw Hl => depth_compact size b v l rest w d st e Hs Hb Hv Hw (compact_enc_wrap v l _ Hv Hl)). Qed.
Print Assumptions C46_depth_exact_compact.
Example C46_sample : let v := VStruct [(1, VList T_Map [VMap T_I32 T_String [(VI32 1, VString [])]]); (2, VBool true)] in
  wf (2 ^ 31) v /\ nesting v = 4%nat /\ breadth v = 2%nat.
Proof. cbv zeta. split; [vm_compute; intuition discriminate|split; reflexivity]. Qed.
