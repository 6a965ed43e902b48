(** * Specification for C124: differentiating a matrix several times *)
From Verif Require Import Py ModelTree ModelCas ModelMatrix.

(** [for _ in range(k): M = M.diff(s)] *)
Fixpoint diff_times (M : matrix) (s : tree) (k : nat) : hm matrix :=
  match k with O => hret M | S k => let! M' <- matrix_diff M s; diff_times M' s k end.
