(** * Specification: the expressions of simplecas arithmetic *)
From Verif Require Import Py ModelTree ModelCas SpecTree.

(** Integers, symbols, sums and products of any number of terms, sines, cosines, powers. *)
Inductive arith : tree -> Prop :=
| ar_int n : arith (Integer n)
| ar_sym s : arith (Symbol s)
| ar_add args : Forall arith args -> arith (Node (Add :: args))
| ar_mul args : Forall arith args -> arith (Node (Mul :: args))
| ar_sin a : arith a -> arith (Node [sin; a])
| ar_cos a : arith a -> arith (Node [cos; a])
| ar_pow a b : arith a -> arith b -> arith (Node [Pow; a; b]).

(** The symbol [s] occurs as an argument somewhere in [e] (or is [e]). *)
Definition contains (e : tree) (s : string) : Prop := reach false [] e (Symbol s).

(** Some power inside [e] has the symbol [s] in its exponent. *)
Definition has_variable_exponent (e : tree) (s : string) : Prop :=
  exists a b, reach false [] e (Node [Pow; a; b]) /\ contains b s.
