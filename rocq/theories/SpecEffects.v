(** * Specification: evaluation with functions that have side effects *)
From Verif Require Import Py ModelTree SpecTree ModelEval ModelEffects.

Section Runs.
  Context {V W : Type} (is_none : V -> bool) (call : nat -> argument V -> effect V W V).
  (** The values computed so far. *)
  Definition known := list (tree * V).
  Definition value_of (env : known) (t : tree) (v : V) : Prop := In (t, v) env.

  (** [turn env s w r w']: in the world [w], with the values [env] computed so far, the turn of the subexpression [s] gives
      [r] and the world [w']. At most one function is called; which one is decided by the rules at this time. *)
  Inductive turn (env : known) (w : world V W) : tree -> res V -> world V W -> Prop :=
  | turn_given s v : children s = [] -> dict_get tree_eqb (w_values w) s = Some v -> is_none v = false ->
      turn env w s (Ok v) w
  | turn_empty : (forall v, dict_get tree_eqb (w_values w) (Node []) = Some v -> is_none v = true) ->
      turn env w (Node []) (Err AttributeError) w
  | turn_atom a f r w' : (forall v, dict_get tree_eqb (w_values w) (Atm a) = Some v -> is_none v = true) ->
      dict_get atype_eqb (tb_atoms (w_tables w)) (atom_type a) = Some f -> call f (ByValue (atom_value a)) w = (r, w') ->
      turn env w (Atm a) r w'
  | turn_atom_generic a r w' : (forall v, dict_get tree_eqb (w_values w) (Atm a) = Some v -> is_none v = true) ->
      dict_get atype_eqb (tb_atoms (w_tables w)) (atom_type a) = None -> call (tb_generic_atom (w_tables w)) (ByTree (Atm a)) w = (r, w') ->
      turn env w (Atm a) r w'
  | turn_op h args vs f r w' : Forall2 (value_of env) args vs ->
      dict_get tree_eqb (tb_operations (w_tables w)) h = Some (f, true) -> call f (ByArgs (map AVal vs)) w = (r, w') ->
      turn env w (Node (h :: args)) r w'
  | turn_opn h args vs f r w' : Forall2 (value_of env) args vs ->
      dict_get tree_eqb (tb_operations (w_tables w)) h = Some (f, false) -> call f (ByArgs [ASeq vs]) w = (r, w') ->
      turn env w (Node (h :: args)) r w'
  | turn_op_generic h args vs r w' : Forall2 (value_of env) args vs ->
      dict_get tree_eqb (tb_operations (w_tables w)) h = None -> call (tb_generic_operation (w_tables w)) (ByHead h vs) w = (r, w') ->
      turn env w (Node (h :: args)) r w'.
  (** The subexpressions [l] have their turns one after the other, until one raises. *)
  Inductive turns : list tree -> known -> world V W -> res known -> world V W -> Prop :=
  | turns_end env w : turns [] env w (Ok env) w
  | turns_next s l env w v w' r w'' : turn env w s (Ok v) w' -> turns l (env ++ [(s, v)]) w' r w'' -> turns (s :: l) env w r w''
  | turns_raise s l env w x w' : turn env w s (Err x) w' -> turns (s :: l) env w (Err x) w'.
End Runs.
Arguments known : clear implicits.
(** Atoms come before compound expressions. *)
Definition atoms_first (l : list tree) : Prop := exists atoms nodes, l = (atoms ++ nodes)%list /\
  Forall (fun s => children s = []) atoms /\ Forall (fun s => children s <> []) nodes.
