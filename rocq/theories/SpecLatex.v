(** * Specification for C78: expressions whose LaTeX text is unambiguous *)
From Verif Require Import Py ModelTree SpecTree ModelCas SpecPrint.
Local Open Scope string_scope.

(** Integers, symbols with identifiers as names, sums and products of two or more terms, powers (of anything, also of
    powers), sin and cos of one argument, and calls of other functions with identifiers as names. *)
Inductive latexable : tree -> Prop :=
| lx_int n : latexable (Integer n)
| lx_sym s : identifier s -> latexable (Symbol s)
| lx_add args : length args >= 2 -> Forall latexable args -> latexable (Node (Add :: args))
| lx_mul args : length args >= 2 -> Forall latexable args -> latexable (Node (Mul :: args))
| lx_pow b e : latexable b -> latexable e -> latexable (Node [Pow; b; e])
| lx_sin a : latexable a -> latexable (Node [sin; a])
| lx_cos a : latexable a -> latexable (Node [cos; a])
| lx_call s args : identifier s -> ~ In s ["Add"; "Mul"; "pow"; "sin"; "cos"] ->
    Forall latexable args -> latexable (Node (Function s :: args)).
