(** * Specification for C121: polynomials in a symbol that are written with sums and products *)
From Verif Require Import Py ModelTree SpecTree ModelCas SpecCas.

(** [polynomial s e n]: [e] is a polynomial in the symbol [s] of degree at most [n]: made with sums and products, of any number of terms, from
    [s] and from coefficients, which may be any expressions that do not contain [s] (and no list of the entries of a matrix). *)
Inductive polynomial (s : string) : tree -> nat -> Prop :=
| poly_const e n : ~ contains e s -> (forall args, ~ reach false [] e (Node (List_ :: args))) -> polynomial s e n
| poly_sym n : 1 <= n -> polynomial s (Symbol s) n
| poly_add args n : (forall a, In a args -> polynomial s a n) -> polynomial s (Node (Add :: args)) n
| poly_mul args ns n : Forall2 (polynomial s) args ns -> list_sum ns <= n -> polynomial s (Node (Mul :: args)) n.
