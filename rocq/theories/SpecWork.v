(** * Specification for C77: occurrences, and distinct parts *)
From Verif Require Import Py ModelTree SpecTree ModelEval ModelSympy ModelWork.

(** The number of occurrences of subexpressions (in argument positions) of an expression, itself included. *)
Fixpoint occurrences (t : tree) : nat :=
  match t with
  | Atm _ | Node [] => 1
  | Node (_ :: args) => S (list_sum (map occurrences args))
  end.
(** [f(f(f(x, x), f(x, x)), ...)], [n] deep *)
Fixpoint doubled (f x : tree) (n : nat) : tree :=
  match n with O => x | S m => Node [f; doubled f x m; doubled f x m] end.
(** The call made for [s], whose arguments have the values that [value] gives. *)
Definition call_for {V} (value : tree -> res V) (s : tree) (c : event V) : Prop :=
  match s with
  | Node (h :: args) => exists vs, mapM value args = Ok vs /\ c = CallOp h vs
  | _ => c = CallAtom s
  end.

(** [s] is a part of the SymPy object [e]. *)
Inductive spart : sexpr -> sexpr -> Prop :=
| spart_self e : spart e e
| spart_arg e a s : In a (s_args e) -> spart a s -> spart e s.
Definition converted (tr : list sevent) : list sexpr :=
  flat_map (fun e => match e with Converted s => [s] | Asked _ => [] end) tr.
Definition asked (tr : list sevent) : list sexpr :=
  flat_map (fun e => match e with Asked s => [s] | Converted _ => [] end) tr.
