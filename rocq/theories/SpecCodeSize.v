(** * Specification: the size of the generated code *)
From Verif Require Import Py ModelTree SpecTree.

(** The distinct compound subexpressions (those with a head) of the expressions [es]. *)
Definition operations_of (es ops : list tree) : Prop :=
  NoDup ops /\ forall s, In s ops <-> (exists e, In e es /\ reach false [] e s) /\ children s <> [].
