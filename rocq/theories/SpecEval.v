(** * Specifications for evaluation *)
From Verif Require Import Py ModelTree SpecTree ModelEval.

(** The value of an expression, by plain recursion: [leaf] gives the value of what has no
    children, [op] applies a head to the values of the arguments. *)
Fixpoint meaning {V} (leaf : tree -> res V) (op : tree -> list V -> res V) (t : tree) : res V :=
  match t with
  | Atm _ | Node [] => leaf t
  | Node (h :: args) => do vs <- mapM (meaning leaf op) args; op h vs
  end.

(** No Tree() object (without children and value) in argument position. *)
Definition proper (e : tree) : Prop := ~ reach false [] e (Node []).
(** No Tree() object anywhere, as argument or in a head. *)
Definition whole (e : tree) : Prop := ~ reach true [] e (Node []).

(** The rules that [e] uses return a value when called with the right number of values. *)
Definition rules_total {V} (ev : evaluator V) (e : tree) : Prop :=
  (forall h args vs, reach false [] e (Node (h :: args)) -> length vs = length args ->
     ev_generic_operation ev = generic_operation_error \/
     exists v, ev_generic_operation ev h vs = Ok v) /\
  (forall t, ev_generic_atom ev = generic_atom_error \/ exists v, ev_generic_atom ev t = Ok v) /\
  (forall h args vs c star, reach false [] e (Node (h :: args)) -> length vs = length args ->
     dict_get tree_eqb (ev_operations ev) h = Some (c, star) ->
     exists v, c (if star then map AVal vs else [ASeq vs]) = Ok v) /\
  (forall a c, reach false [] e (Atm a) ->
     dict_get atype_eqb (ev_atoms ev) (atom_type a) = Some c -> exists v, c (atom_value a) = Ok v).

(** [s], a subexpression, has a supplied value, a rule or a generic rule. *)
Definition has_rule {V} (ev : evaluator V) (values : dict tree V) (s : tree) : Prop :=
  match s with
  | Node (h :: _) => dict_get tree_eqb (ev_operations ev) h <> None \/
                     ev_generic_operation ev <> generic_operation_error
  | Node [] => False
  | Atm a => dict_get tree_eqb values (Atm a) <> None \/
             dict_get atype_eqb (ev_atoms ev) (atom_type a) <> None \/
             ev_generic_atom ev <> generic_atom_error
  end.

(** Whether evaluating needs a rule to be called for [s]. *)
Definition needs_call {V} (is_none : V -> bool) (values : dict tree V) (s : tree) : bool :=
  match children s with
  | [] => match dict_get tree_eqb values s with Some v => is_none v | None => true end
  | _ => true
  end.

(** The value supplied for [s], if there is one and it is not None. *)
Definition usable {V} (is_none : V -> bool) (values : dict tree V) (s : tree) : option V :=
  match dict_get tree_eqb values s with
  | Some v => if is_none v then None else Some v
  | None => None
  end.
