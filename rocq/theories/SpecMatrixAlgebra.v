(** * Specification: sums of matrices, and the real numbers that entries stand for *)
From Coq Require Import Reals.
From Verif Require Import Py ModelTree ModelCas ModelMatrix SpecMatrix SpecReal.

(** The real number that [M[i, j]] stands for, if it is defined. *)
Definition entry_value (h : heap) (env : string -> R) (m : matrix) (i j : Z) : option R :=
  match get m i j h with Ok t => reval env t | Err _ => None end.
(** Sum of numbers; undefined if one is. *)
Definition oplus (a b : option R) : option R :=
  match a, b with Some u, Some v => Some (u + v)%R | _, _ => None end.
Definition osum (l : list (option R)) : option R := fold_right oplus (Some 0%R) l.
(** A sum written with brackets and +, and what Python does to compute it. *)
Inductive msum := One (A : matrix) | Plus (l r : msum).
Fixpoint compute (e : msum) : hm matrix :=
  match e with
  | One A => hret A
  | Plus l r => let! a <- compute l; let! b <- compute r; matrix_add a b
  end.
Fixpoint summands (e : msum) : list matrix :=
  match e with One A => [A] | Plus l r => summands l ++ summands r end.
(** Same shape, and every entry has the same value, for all values of the symbols. *)
Definition same_values (h : heap) (A B : matrix) : Prop :=
  m_nrows A = m_nrows B /\ m_ncols A = m_ncols B /\
  forall env i j, inside A i j -> entry_value h env A i j = entry_value h env B i j.
