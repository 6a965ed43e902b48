(** * Specification for C120: the values of all derivatives of an expression up to an order *)
From Coq Require Import Reals.
From Verif Require Import Py ModelTree ModelCas SpecReal.
Local Open Scope R_scope.

(** [e.diff(s, j)] exists for every j up to [k] and has the value [a j] where the symbols have their values in [env]. *)
Definition derivatives (env : string -> R) (s : string) (e : tree) (k : nat) (a : nat -> R) : Prop :=
  forall j, (j <= k)%nat -> exists d, expr_diff e (Symbol s) (Z.of_nat j) = Ok d /\ reval env d = Some (a j).
(** Leibniz's rule: the j-th derivative of a product. [C j i] is the binomial coefficient of Coq's library. *)
Definition leibniz (a b : nat -> R) (j : nat) : R := sum_f_R0 (fun i => C j i * a i * b (j - i)%nat) j.
