(** * Specification for C89: the limit on the number of digits *)
From Verif Require Import Py ModelTree SpecTree.
(** All ints in [e], also in heads, have at most [limit] decimal digits; limit 0 is no limit. *)
Definition fits (limit : nat) (e : tree) : Prop :=
  limit = 0 \/ forall ty z, reach true [] e (Atm (mkAtom ty (VInt z))) -> (Z.abs z < 10 ^ Z.of_nat limit)%Z.
