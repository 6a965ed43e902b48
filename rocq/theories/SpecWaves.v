(** * Specification for C122: the k-th derivatives of sine waves *)
From Coq Require Import Reals.
Local Open Scope R_scope.

(** The derivatives of a function that has value [v] and first derivative [c] here, and whose higher derivatives are 0. *)
Definition affine (v c : R) (j : nat) : R := match j with O => v | S O => c | _ => 0 end.
(** Every differentiation multiplies by the frequency and shifts the phase by a quarter turn. *)
Definition sine_wave (v c : R) (j : nat) : R := c ^ j * Rtrigo_def.sin (v + INR j * (PI / 2)).
Definition cosine_wave (v c : R) (j : nat) : R := c ^ j * Rtrigo_def.cos (v + INR j * (PI / 2)).
