(** * Specification for C119: the derivatives of a power of a symbol with an integer as exponent *)
From Coq Require Import Reals.
From Verif Require Import Py.
Local Open Scope R_scope.

(** n * (n-1) * ... * (n-k+1) *)
Fixpoint falling (n : Z) (k : nat) : Z := match k with O => 1 | S k => n * falling (n - 1) k end%Z.
(** The k-th derivative of u^n, as arithmetic finds it: not defined where it divides by zero. *)
Definition power_derivative (n : Z) (k : nat) (u : R) : option R :=
  if Req_EM_T u 0 then if Z_lt_dec n (Z.of_nat k) then None else Some (IZR (falling n k) * powerRZ 0 (n - Z.of_nat k))
  else Some (IZR (falling n k) * powerRZ u (n - Z.of_nat k)).
