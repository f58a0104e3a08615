(** Property C68: positions in a file set that many files share. *)
From Coq Require Import Strings.String.
From Verif Require Import Base BaseLemmas GoType Utf8 Tokens Scan Parse PosSpec PosProof BadDefs FileSet FileSetProof Properties_File Properties_Places.
Local Open Scope list_scope.

(** [h] is all that happened to a new file set, in any order, until Parse put
    its file in; [h'] is what happened since.  Among it are the lines that the
    parse adds to its file, and nobody else adds lines to that file. *)
Record parsed_in (u : unicode) (h : list fs_event) (before : fileset) (name src : list byte) (h' : list fs_event) (now : fileset) : Prop := mkParsedIn {
  pi_ints : Forall ints (h ++ EAdd name (-1) (Z.of_nat (length src)) :: h');
  pi_before : fs_run h new_fileset = Some before;
  pi_now : fs_run (EAdd name (-1) (Z.of_nat (length src)) :: h') before = Some now;
  pi_lines : exists l, parse_lines u src = Some l /\ calls (length (fs_files before)) h' = tl l }.

Lemma parsed_file u h before name src h' now : parsed_in u h before name src h' now ->
  wf now /\ exists f, nth_error (fs_files now) (length (fs_files before)) = Some f /\ tf_name f = name /\ tf_base f = fs_base before /\
    tf_size f = Z.of_nat (length src) /\ parse_lines u src = Some (tf_lines f).
Proof.
  intros [I B N (l & L & C)]. apply Forall_app in I. destruct I as (I1 & I2). inversion_clear I2 as [|? ? I3 I4].
  pose proof (wf_run h _ _ I1 wf_new B) as W. cbn [fs_run] in N. destruct (fs_step _ before) as [fs1|] eqn:E; [|discriminate].
  split; [apply (wf_run h' fs1); [exact I4|apply (wf_step _ _ _ I3 W E)|exact N]|].
  pose proof (follow h' fs1 now _ _ N (added _ _ _ _ E)) as F. eexists. split; [exact F|].
  match goal with |- context [table ?f ?c] => destruct (table_keeps c f) as (-> & -> & ->) end. rewrite C. cbn [tf_name tf_base tf_size].
  split; [reflexivity|]. split; [reflexivity|]. split; [reflexivity|]. rewrite L. f_equal. symmetry. now apply (parse_table u).
Qed.

(** Every offset of the file, its end as well, has a position in the set.  It
    resolves to the name of the file, the offset, and the line and the column
    the offset has in the source, whatever else is in the set, whatever was
    looked up before and whoever used the set meanwhile. *)
Theorem C68_resolves u h before name src h' now off : parsed_in u h before name src h' now -> (off <= length src)%nat ->
  exists line col, fst (fs_position (fs_base before + Z.of_nat off) now) = mkPosition name (Z.of_nat off) (Z.of_nat line) (Z.of_nat col) /\ place src off line col.
Proof.
  intros P L. destruct (parsed_file _ _ _ _ _ _ _ P) as (W & f & Hf & <- & <- & Hs & Hl). pose proof (w_file _ W _ _ Hf) as (_ & _ & _ & Ok).
  rewrite (position_in _ now _ f W Hf) by lia. now apply (file_place u).
Qed.
Print Assumptions C68_resolves.

(** In a set that was new, the position of an offset is one more than the offset (0 is go/token's NoPos). *)
Theorem C68_first u before name src h' now off : parsed_in u [] before name src h' now -> (off <= length src)%nat ->
  exists line col, fst (fs_position (Z.of_nat (S off)) now) = mkPosition name (Z.of_nat off) (Z.of_nat line) (Z.of_nat col) /\ place src off line col.
Proof.
  intros P L. pose proof (C68_resolves u [] before name src h' now off P L) as K.
  pose proof (pi_before _ _ _ _ _ _ _ P) as B. cbn [fs_run] in B. injection B as <-.
  now replace (Z.of_nat (S off)) with (fs_base new_fileset + Z.of_nat off) by (cbn [fs_base new_fileset]; lia).
Qed.
Print Assumptions C68_first.

(** So do both ends of every BadDef of the tree. *)
Theorem C68_bad_defs u h before name src h' now sort f errs from to : parsed_in u h before name src h' now ->
  parse sort u src = Some (f, errs) -> In (from, to) (bad_positions (fs_base before) f) ->
  from < to /\
  (exists a line col, fst (fs_position from now) = mkPosition name (Z.of_nat a) (Z.of_nat line) (Z.of_nat col) /\ place src a line col) /\
  (exists b line col, fst (fs_position to now) = mkPosition name (Z.of_nat b) (Z.of_nat line) (Z.of_nat col) /\ place src b line col).
Proof.
  intros P Q I. unfold bad_positions in I. apply in_flat_map in I. destruct I as (d & D & I). destruct d as [a b| | | | |]; try destruct I as [].
  2: now destruct H.
  injection H as <- <-. unfold parse in Q. pose proof (run_bad u src) as R. destruct (p_run u src) as [f' s|s|]; [|discriminate|discriminate]. injection Q as -> _.
  specialize (R f s eq_refl). assert (L : (a < b <= length src)%nat).
  { revert R D. generalize O. induction (file_defs f) as [|d l IH]; intros p R D; [destruct D|]. destruct D as [->|D].
    - cbn in R. lia.
    - destruct d; try (now apply (IH p)). destruct R as (_ & _ & _ & R). now apply (IH to). }
  split; [lia|]. split; [exists a|exists b]; apply (C68_resolves u h before name src h' now); auto; lia.
Qed.
Print Assumptions C68_bad_defs.

(** No two files share a position: the file that comes later has the larger ones. *)
Theorem C68_apart u h before name src h' between name2 src2 h'' now a b :
  parsed_in u h before name src h' between ->
  parsed_in u (h ++ EAdd name (-1) (Z.of_nat (length src)) :: h') between name2 src2 h'' now ->
  (a <= length src)%nat -> (b <= length src2)%nat -> 0 < fs_base before + Z.of_nat a < fs_base between + Z.of_nat b /\ fs_base between + Z.of_nat b < 2 ^ 63.
Proof.
  intros P Q La Lb. destruct (parsed_file _ _ _ _ _ _ _ P) as (W & f & Hf & _ & <- & Hs & _). destruct (parsed_file _ _ _ _ _ _ _ Q) as (W2 & g & Hg & _ & Eb & Hs2 & _).
  pose proof (w_file _ W _ _ Hf) as (A & _ & B & _). pose proof (w_file _ W2 _ _ Hg) as (_ & _ & C & _). pose proof (w_base _ W2). lia.
Qed.
Print Assumptions C68_apart.

(** Looking a position up changes no other answer. *)
Theorem C68_lookup_pure h fs p q : Forall ints h -> fs_run h new_fileset = Some fs ->
  fst (fs_position p (snd (fs_position q fs))) = fst (fs_position p fs).
Proof.
  intros I R. pose proof (wf_run h _ _ I wf_new R) as W. pose proof (wf_step (ELook q) fs _ Logic.I W eq_refl) as W2. destruct (look_same q fs) as (_ & E).
  unfold fs_position at 1 3. destruct (p =? 0); [reflexivity|]. pose proof (find_spec p fs W) as F1. pose proof (find_spec p _ W2) as F2. rewrite E in F2.
  destruct (find_file p fs) as [[f|] fs1], (find_file p _) as [[g|] fs2]; cbn [fst] in *; [| | |reflexivity].
  - destruct F1 as (i & Hi & H1), F2 as (j & Hj & H2). pose proof (wf_one fs i j f g p W Hi Hj H1 H2) as ->. congruence.
  - destruct F1 as (i & Hi & H1). rewrite (F2 i f Hi) in H1. discriminate.
  - destruct F2 as (i & Hi & H1). rewrite (F1 i g Hi) in H1. discriminate.
Qed.
Print Assumptions C68_lookup_pure.

(** A position that no file has is nowhere: NoPos, and anything the set has not
    given out yet. *)
Theorem C68_nowhere h fs p : Forall ints h -> fs_run h new_fileset = Some fs -> p <= 0 \/ fs_base fs <= p ->
  fst (fs_position p fs) = zero_position.
Proof.
  intros I R H. pose proof (wf_run h _ _ I wf_new R) as W. apply position_out; [exact W|]. intros i f Hf. pose proof (w_file _ W i f Hf). lia.
Qed.
Print Assumptions C68_nowhere.

(** Parse goes well in any file set that still has positions for the file; it
    is one of the histories above. *)
Theorem C68_parse u h before name src : Forall ints h -> fs_run h new_fileset = Some before ->
  fs_base before + Z.of_nat (length src) + 1 < 2 ^ 63 ->
  exists now, fs_run (parse_events u before name src) before = Some now /\
    parsed_in u h before name src (tl (parse_events u before name src)) now.
Proof.
  intros I R L. pose proof (wf_run h _ _ I wf_new R) as W. pose proof (w_base _ W) as B.
  destruct (ParseProof.run_total u src) as (f & s & E & _). set (k := length (fs_files before)).
  assert (PL : parse_lines u src = Some (rev (s_lines s))) by (unfold parse_lines; now rewrite E).
  assert (G : forall os fs, exists fs', fs_run (map (ELine k) os) fs = Some fs') by (induction os as [|o os IH]; intros fs; cbn; [now exists fs|apply IH]).
  assert (A : exists fs1, add_file name (-1) (Z.of_nat (length src)) before = Some fs1).
  { unfold add_file. cbn [Z.ltb Z.compare]. rewrite Z.ltb_irrefl. destruct (Z.ltb_spec (Z.of_nat (length src)) 0); [lia|].
    assert (E2 : i64 (fs_base before + Z.of_nat (length src) + 1) = fs_base before + Z.of_nat (length src) + 1) by (unfold i64; rewrite Z.mod_small by lia; lia).
    rewrite E2. destruct (Z.ltb_spec (fs_base before + Z.of_nat (length src) + 1) 0); [lia|]. eexists. reflexivity. }
  destruct A as (fs1 & A). destruct (G (tl (rev (s_lines s))) fs1) as (now & N). exists now.
  assert (T : fs_run (parse_events u before name src) before = Some now) by (unfold parse_events; rewrite PL; cbn [fs_run fs_step]; now rewrite A).
  split; [exact T|]. split; [|exact R|exact T|].
  - apply Forall_app. split; [exact I|]. constructor; [cbn; unfold is_i64; lia|]. cbn [tl parse_events]. apply Forall_map, Forall_forall. intros; exact Logic.I.
  - exists (rev (s_lines s)). split; [exact PL|]. cbn [tl parse_events]. rewrite PL. fold k. clear. induction (tl (rev (s_lines s))) as [|o os IH]; [reflexivity|]. cbn. now rewrite Nat.eqb_refl, IH.
Qed.
Print Assumptions C68_parse.

(** Two parses at once, in a set that has a file already. *)
Definition short_source : list byte := lit "enum E {" ++ newline ++ lit "}" ++ newline ++ lit "oops" ++ newline.
Definition others : list fs_event := [EAdd (lit "main.go") 100 50; ELook 3].
Definition meanwhile : list fs_event :=
  [ELine 1 13; ELook 151; EAdd (lit "b.thrift") (-1) 16; ELine 2 9; ELine 1 17; ELook 120; ELine 1 18; ELine 2 11; ELine 1 42; ELook 230].
Example C68_sample_hypothesis : exists before now, parsed_in ascii others before (lit "a.thrift") broken_lines meanwhile now /\
  fs_base before = 151 /\
  fst (fs_position (151 + 38) now) = mkPosition (lit "a.thrift") 38 4 21 /\
  fst (fs_position (151 + 63 + 11) now) = mkPosition (lit "b.thrift") 11 3 1 /\
  fst (fs_position 120 now) = mkPosition (lit "main.go") 20 1 21 /\
  fst (fs_position 99 now) = zero_position.
Proof.
  eexists _, _. split; [split|].
  - repeat constructor; cbn; unfold is_i64; lia.
  - vm_compute. reflexivity.
  - vm_compute. reflexivity.
  - eexists. split; vm_compute; reflexivity.
  - vm_compute. auto.
Qed.
Example C68_sample_bad_defs : match parse insertion_sort ascii broken_lines with
  | Some (f, _) => bad_positions 151 f
  | None => []
  end = [(166, 169); (181, 193); (193, 213)].
Proof. vm_compute. reflexivity. Qed.
Example C68_sample_first : exists now, parsed_in ascii [] new_fileset (lit "a.thrift") (lit "// x") [] now /\
  fst (fs_position 4 now) = mkPosition (lit "a.thrift") 3 1 4.
Proof.
  eexists. split; [split|].
  - repeat constructor; cbn; unfold is_i64; lia.
  - reflexivity.
  - vm_compute. reflexivity.
  - eexists. split; vm_compute; reflexivity.
  - vm_compute. reflexivity.
Qed.
