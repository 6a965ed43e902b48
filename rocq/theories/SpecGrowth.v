(** * Specification for C95 *)
From Verif Require Import Py ModelTree.
(** How often [k] occurs in [t] in argument position (an expression cannot occur in itself). *)
Fixpoint occurrences (k t : tree) : Z :=
  if tree_eqb t k then 1%Z else match t with Atm _ | Node [] => 0%Z | Node (_ :: args) => fold_right Z.add 0%Z (map (occurrences k) args) end.
