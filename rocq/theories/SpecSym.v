(** * Specification of the rule interface *)
From Verif Require Import Py ModelTree ModelEval ModelSym.

(** The rules [evaluator[pattern] = op( *args )] that are valid, and the single registration each one
    makes. *)
Inductive valid_rule {V} : evaluator V -> pattern -> pyfunc V -> list tree -> evaluator V -> Prop :=
(* evaluator[h(a)] = op1(a) *)
| valid_op1 ev h a func : valid_rule ev (PSym (tree_call h [a])) (PyOp1 func) [a] (add_op1 ev h func)
(* evaluator[h(a, b)] = op2(a, b) *)
| valid_op2 ev h a b func : valid_rule ev (PSym (tree_call h [a; b])) (PyOp2 func) [a; b] (add_op2 ev h func)
(* evaluator[h(star(a))] = opn(a) *)
| valid_opn ev h a func : valid_rule ev (PSym (tree_call h [star a])) (PyOpN func) [a] (add_opn ev h func)
(* evaluator[AtomType[a]] = func(a) *)
| valid_value ev ty a func : valid_rule ev (PAtomValue ty a) (PyFunc1 func) [a] (add_atom ev ty func)
(* evaluator[AtomRule[a]] = func(a) *)
| valid_atom ev a func : valid_rule ev (PAtomRule a) (AtomFunc func) [a] (add_atom_generic ev func)
(* evaluator[HeadRule(a, b)] = func(a, b) *)
| valid_head ev a b func : valid_rule ev (PHeadRule a b) (HeadOp func) [a; b] (add_op_generic ev func).
