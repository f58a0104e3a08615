(** When two token sequences differ only in their separators. *)
From Verif Require Import Base Tokens GrammarSpec.

(** [respaced t t']: [t'] is [t] with each semicolon kept or replaced by any
    number of commas and semicolons, also none. *)
Inductive respaced : list tok -> list tok -> Prop :=
| rs_nil : respaced [] []
| rs_keep x t t' : respaced t t' -> respaced (x :: t) (x :: t')
| rs_semi x s t t' : separators s -> respaced t t' -> respaced ((K_SEMICOLON, x) :: t) (s ++ t').
