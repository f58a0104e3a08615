(** How much memory a Go value takes (specification of C61). *)
From Verif Require Import Base GoType.

(** One for every value and every byte of a string; the unused capacity of slices counts as well.  (Sizes in
    machine words differ from this by a factor that depends on the types only.) *)
Fixpoint footprint (v : gval) : nat :=
  match v with
  | GBool _ | GInt _ | GF32 _ | GF64 _ | GOther _ => 1
  | GString s => 1 + length s
  | GBytes _ s sp => 1 + length s + length sp
  | GUUID _ => 17
  | GArray es | GStruct es => 1 + list_sum (map footprint es)
  | GSlice _ es sp => 1 + list_sum (map footprint es) + list_sum (map footprint sp)
  | GMap None | GPtr None => 1
  | GMap (Some es) => 1 + list_sum (map (fun '(k, v) => footprint k + footprint v) es)
  | GPtr (Some v) => 1 + footprint v
  end%nat.

(** Growing a slice at most doubles its capacity, up to a constant. *)
Definition grows_gently (env : tenv) : Prop := exists c, forall n, (te_grow env n <= n + c)%nat.
