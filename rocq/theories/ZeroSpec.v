(** Specification: what counts as zero. *)
From Verif Require Import Base Wire GoType.
Local Open Scope Z_scope.

(** The value with its negative zeros replaced by zeros, where reflect counts these as zero ([te_negzero]; [inner]: inside an
    array or a struct).  What is behind pointers, and in slices and maps, is left as it is. *)
Fixpoint without_sign (env : tenv) (inner : bool) (v : gval) : gval :=
  match v with
  | GF32 x => GF32 (if (x =? 0x80000000) && te_negzero env inner then 0 else x)
  | GF64 x => GF64 (if (x =? 0x8000000000000000) && te_negzero env inner then 0 else x)
  | GArray es => GArray (map (without_sign env true) es)
  | GStruct vs => GStruct (map (without_sign env true) vs)
  | _ => v
  end.
