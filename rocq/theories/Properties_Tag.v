(** Property C67: what a whole struct tag means for its field. *)
From Coq Require Import Strings.String.
From Verif Require Import Base Utf8 GoType Fields GoTypeProof TagProof StructTag StructTagSpec StructTagProof.
Local Open Scope list_scope.

Lemma thrift_name : tag_name (lit "thrift").
Proof. apply name_forall. split; [discriminate|]. repeat constructor. Qed.

(** The text of the tag is the value of the first pair named thrift. *)
Theorem C67_lookup tag v : tag_lookup tag (lit "thrift") = Some v <-> tag_value (lit "thrift") tag v.
Proof. apply lookup_spec, thrift_name. Qed.
Print Assumptions C67_lookup.

Lemma no_value tag : tag_lookup tag (lit "thrift") = None <-> ~ exists v, tag_value (lit "thrift") tag v.
Proof.
  destruct (tag_lookup tag (lit "thrift")) as [v|] eqn:E.
  - split; [discriminate|]. intros H. elim H. exists v. now apply C67_lookup.
  - split; [|reflexivity]. intros _ (v & H). apply C67_lookup in H. congruence.
Qed.
Lemma text_of name ex tag t v : tag_value (lit "thrift") tag v -> tag_text (declared name ex tag t) = v.
Proof. intros H. apply C67_lookup in H. unfold tag_text, declared. cbn [sf_tag]. now rewrite H. Qed.
Lemma text_none name ex tag t : (~ exists v, tag_value (lit "thrift") tag v) -> tag_text (declared name ex tag t) = [].
Proof. intros H. apply no_value in H. unfold tag_text, declared. cbn [sf_tag]. now rewrite H. Qed.
Lemma text_inv name ex tag t v : tag_text (declared name ex tag t) = v -> v <> [] -> tag_value (lit "thrift") tag v.
Proof.
  unfold tag_text, declared. cbn [sf_tag]. destruct (tag_lookup tag (lit "thrift")) as [w|] eqn:E; intros <- N; [|congruence].
  now apply C67_lookup.
Qed.
Lemma well_formed_nonempty u s id opts : well_formed_tag u s id opts -> s <> [].
Proof.
  intros (idt & -> & (ds & Hd & _ & H) & _). intros X. apply app_eq_nil in X. destruct X as [X _].
  destruct H as [[-> _]|[[-> _]|[-> _]]]; [congruence|discriminate|discriminate].
Qed.

(** A tag has at most one value, and pairs with other names do not change it. *)
Theorem C67_determined tag v1 v2 : tag_value (lit "thrift") tag v1 -> tag_value (lit "thrift") tag v2 -> v1 = v2.
Proof. intros H1 H2. apply C67_lookup in H1, H2. congruence. Qed.
Print Assumptions C67_determined.
Theorem C67_other_keys u name ex t sp key s rest :
  spaces sp -> tag_name key -> key <> lit "thrift" -> quoted_text s ->
  parse_field_options u (declared name ex (sp ++ key ++ [x3a; x22] ++ s ++ [x22] ++ rest) t) =
  parse_field_options u (declared name ex rest t).
Proof.
  intros Hsp Hk Ne Qs. enough (E : tag_lookup (sp ++ key ++ [x3a; x22] ++ s ++ [x22] ++ rest) (lit "thrift") = tag_lookup rest (lit "thrift"))
    by (unfold declared; now rewrite E).
  destruct (tag_lookup rest (lit "thrift")) as [v|] eqn:E.
  - apply C67_lookup. apply C67_lookup in E. now apply tv_later.
  - apply no_value. apply no_value in E. intros (v & H). apply E. clear E. apply C67_lookup in H.
    unfold tag_lookup in H. rewrite lookup_step in H by assumption.
    destruct (bytes_eqb (lit "thrift") key) eqn:B; [apply bytes_eqb_eq in B; congruence|].
    exists v. eapply lookup_sound. exact H.
Qed.
Print Assumptions C67_other_keys.
Theorem C67_after u name ex t sp s v rest rest' :
  spaces sp -> literal s v ->
  parse_field_options u (declared name ex (sp ++ lit "thrift" ++ [x3a; x22] ++ s ++ [x22] ++ rest) t) =
  parse_field_options u (declared name ex (sp ++ lit "thrift" ++ [x3a; x22] ++ s ++ [x22] ++ rest') t).
Proof.
  intros Hsp L. assert (G : forall r, tag_lookup (sp ++ lit "thrift" ++ [x3a; x22] ++ s ++ [x22] ++ r) (lit "thrift") = Some v)
    by (intros r; apply C67_lookup; now apply tv_here).
  unfold declared. now rewrite !G.
Qed.
Print Assumptions C67_after.

(** The fields that take part, with their ids, names and whether they are required. *)
Theorem C67_accepted u fname ex tag t id req name :
  parse_field_options u (declared fname ex tag t) = (mkFO id name req, false, None) <->
  ex = true /\ name = fname /\ exists text opts,
    tag_value (lit "thrift") tag text /\ well_formed_tag u text id opts /\ (req = true <-> In (lit "required") opts).
Proof.
  rewrite field_accepted. cbn [declared sf_exported sf_name]. split.
  - intros (H1 & H2 & opts & W & R). split; [exact H1|]. split; [exact H2|]. eexists; exists opts.
    split; [eapply text_inv; [reflexivity|eapply well_formed_nonempty; exact W]|]. split; [exact W|exact R].
  - intros (H1 & H2 & text & opts & V & W & R). split; [exact H1|]. split; [exact H2|]. exists opts.
    rewrite (text_of fname ex tag t text V). auto.
Qed.
Print Assumptions C67_accepted.

(** The fields left out without an error. *)
Theorem C67_ignored u fname ex tag t :
  (exists o, parse_field_options u (declared fname ex tag t) = (o, true, None)) <->
  tag_value (lit "thrift") tag (lit "-") \/ (ex = false /\ ~ exists text, tag_value (lit "thrift") tag text).
Proof.
  rewrite field_ignored. cbn [declared sf_exported sf_tag]. rewrite no_value. split; (intros [H|H]; [left|right; exact H]).
  - eapply text_inv; [exact H|discriminate].
  - now apply text_of.
Qed.
Print Assumptions C67_ignored.

(** All others are errors: an exported field with no thrift pair, or whose tag
    departs from the format before that pair, is never left out silently. *)
Theorem C67_rejected u fname tag t :
  (~ exists text, tag_value (lit "thrift") tag text) ->
  exists o ig e, parse_field_options u (declared fname true tag t) = (o, ig, Some e).
Proof.
  intros H. apply field_rejected.
  - rewrite text_none by exact H. intros (id & opts & W). apply well_formed_nonempty in W. congruence.
  - rewrite text_none by exact H. discriminate.
  - intros [X _]. discriminate X.
Qed.
Print Assumptions C67_rejected.
Theorem C67_rejected_text u fname ex tag t text :
  tag_value (lit "thrift") tag text -> text <> lit "-" ->
  (ex = true -> ~ exists id opts, well_formed_tag u text id opts) ->
  exists o ig e, parse_field_options u (declared fname ex tag t) = (o, ig, Some e).
Proof.
  intros V N W. apply field_rejected; rewrite ?(text_of fname ex tag t text V).
  - intros Y. cbn. destruct ex; [now elim (W eq_refl)|reflexivity].
  - exact N.
  - intros [_ X]. cbn [declared sf_tag] in X. apply no_value in X. apply X. eauto.
Qed.
Print Assumptions C67_rejected_text.

(** json:"a,omitempty" thrift:"7,required" gorm:"x" *)
Definition q : list byte := [x22].
Definition sample_tag : list byte :=
  lit "json:" ++ q ++ lit "a,omitempty" ++ q ++ lit "  thrift:" ++ q ++ lit "7,required" ++ q ++ lit " gorm:" ++ q ++ lit "x" ++ q.
Example C67_sample :
  parse_field_options ascii_only (declared (lit "F") true sample_tag RtInt32) = (mkFO 7 (lit "F") true, false, None) /\
  (* an escape: \x37 is the digit 7 *)
  parse_field_options ascii_only (declared (lit "F") true (lit "thrift:" ++ q ++ lit "\x37,required" ++ q) RtInt32) =
    (mkFO 7 (lit "F") true, false, None) /\
  (* no spaces are needed between pairs *)
  tag_value (lit "thrift") (lit "a:" ++ q ++ lit "\t" ++ q ++ lit "thrift:" ++ q ++ lit "-" ++ q) (lit "-") /\
  (* a space after the colon: the rest of the tag is not looked at *)
  (exists o ig e, parse_field_options ascii_only (declared (lit "F") true (lit "json: " ++ q ++ lit "a" ++ q ++ lit " thrift:" ++ q ++ lit "7" ++ q) RtInt32) = (o, ig, Some e)) /\
  (* and on an unexported field that goes unnoticed, though a thrift tag there is an error *)
  (exists o, parse_field_options ascii_only (declared (lit "f") false (lit "json: " ++ q ++ lit "a" ++ q ++ lit " thrift:" ++ q ++ lit "7" ++ q) RtInt32) = (o, true, None)) /\
  (exists o ig e, parse_field_options ascii_only (declared (lit "f") false (lit "thrift:" ++ q ++ lit "7" ++ q) RtInt32) = (o, ig, Some e)).
Proof.
  repeat apply conj; try (vm_compute; reflexivity); try (vm_compute; repeat eexists; fail).
  - apply C67_lookup. vm_compute. reflexivity.
Qed.
