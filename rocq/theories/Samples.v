(** * Concrete trees used in the non-vacuity examples. *)
From Verif Require Import Py ModelTree ModelEval ModelCas.

Definition sym := Symbol.
Definition fn := Function.
Definition int := Integer.

Definition x := sym "x".
Definition y := sym "y".
Definition z := sym "z".
Definition f := fn "f".
Definition g := fn "g".
(** [f(g(x), y)] *)
Definition e_fgxy := tree_call f [tree_call g [x]; y].
(** [f(g(x, y), g(x, y), x)], with sharing *)
Definition e_shared := tree_call f [tree_call g [x; y]; tree_call g [x; y]; x].

(** A sample evaluator into Z: Integer by value, [f] a sum of all arguments, [g] a binary
    product. *)
Definition ev_sample : evaluator Z :=
  add_op2 (add_opn (add_atom new_evaluator T_Integer
      (fun v => match v with VInt n => Ok n | VStr _ => Err ValueError end))
    f (pyn (fun l => Ok (fold_right Z.add 0%Z l)))) g (py2 (fun a b => Ok (a * b)%Z)).
Definition nn {V} (v : V) : bool := false.
Definition vals_sample : dict tree Z := [(x, 3%Z); (y, 5%Z)].

