(** * Specification for C117: how long the texts of the names and numbers in an expression are *)
From Verif Require Import Py ModelTree SpecTree ModelCas SpecPrint.
Local Open Scope string_scope.

(** The texts of the atoms in argument position have at least [lo] and at most [hi] characters, those of the functions that are called at most [hi]. *)
Definition names_between (lo hi : nat) (e : tree) : Prop :=
  (forall a, reach false [] e (Atm a) -> lo <= String.length (str_value (atom_value a)) <= hi) /\
  (forall h args w, reach false [] e (Node (h :: args)) -> tree_str h = Ok w -> String.length w <= hi).
