(** * Specification for Sym classes: forgetting the class *)
From Verif Require Import Py ModelTree ModelEval ModelSym ModelClasses.

(** The rule, without the classes. *)
Definition bare_pattern (p : c_pattern) : pattern :=
  match p with
  | CSym s => PSym (s_rep s)
  | CAtomValue ty w => PAtomValue (sat_type ty) (s_rep w)
  | CAtomRule w => PAtomRule (s_rep w)
  | CHeadRule h a => PHeadRule (s_rep h) (s_rep a)
  end.
Definition bare_call {V} (c : c_call V) : wildcall V := mkCall (cc_op c) (map s_rep (cc_args c)).
(** The classes of the arguments, pattern and call. *)
Definition same_classes {V} (p : c_pattern) (c : c_call V) : Prop :=
  map s_cls (c_pattern_args p) = map s_cls (cc_args c).
(** The last of the values given for the tree [t], under whatever class. *)
Fixpoint last_value {V} (d : list (sym * V)) (t : tree) : option V :=
  match d with
  | [] => None
  | (s, v) :: r => match last_value r t with Some w => Some w | None => if tree_eqb t (s_rep s) then Some v else None end
  end.

(** What happens to a differentiator after it has been made. *)
Inductive diff_event :=
| Distribute (head : sym)
| Register (expr s dexpr : sym).
Definition happen (d : c_diff) (e : diff_event) : c_diff :=
  match e with Distribute h => c_add_distributive d h | Register e s r => fst (c_diff_setitem d e s r) end.
Definition bare_event (e : diff_event) : diff_event :=
  match e with
  | Distribute h => Distribute (mkSym 0 (s_rep h))
  | Register e s r => Register (mkSym 0 (s_rep e)) (mkSym 0 (s_rep s)) (mkSym 0 (s_rep r))
  end.
(** [t] is [s], its head, one of its arguments, or a part of these. *)
Inductive part : sym -> sym -> Prop :=
| part_self s : part s s
| part_head s h t : c_head s = Ok h -> part h t -> part s t
| part_arg s a t : In a (c_args s) -> part a t -> part s t.
