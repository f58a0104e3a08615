(** What a result has to do with the end of the data. *)
From Verif Require Import Base Prog Bufio BufioProof Wire.

(** [er] is the transport's own error [e], or io.ErrUnexpectedEOF in place of io.EOF. *)
Definition end_error (e er : err) : Prop := er = e \/ (e = EEOF /\ er = EUnexpectedEOF).

(** [er] is neither io.EOF nor io.ErrUnexpectedEOF. *)
Definition not_eof (er : err) : Prop := er <> EEOF /\ er <> EUnexpectedEOF.

(** The bytes [d] settle what [p] returns: on every transport that delivers [d],
    however fragmented, [p] returns [a], whatever bytes [q] come next and whatever
    error [e] the transport ends with; all of [q] is left to read. *)
Definition settled {S A} (L : layer wireR bufR S) (size : Z) (p : prog wireR A) (st : S) (d : list byte) (a : A) : Prop :=
  exists st' d', forall b q e, binv size b -> abs b = mkStream (d ++ q) (FErr e) ->
  exists b', run (over L (bufio_h size)) p (st, b) = Done (st', b') a /\ binv size b' /\ abs b' = mkStream (d' ++ q) (FErr e).
