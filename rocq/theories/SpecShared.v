(** * Specification: what other threads do to an Evaluator or a differentiator *)
From Verif Require Import Py ModelTree SpecTree ModelEval ModelDiff.

(** The two states have the same rules for the atoms and functions of [e]. *)
Definition same_rules_for {V} (e : tree) (ev ev' : evaluator V) : Prop :=
  (forall a, reach false [] e (Atm a) -> dict_get atype_eqb (ev_atoms ev) (atom_type a) = dict_get atype_eqb (ev_atoms ev') (atom_type a)) /\
  (forall h args, reach false [] e (Node (h :: args)) -> dict_get tree_eqb (ev_operations ev) h = dict_get tree_eqb (ev_operations ev') h) /\
  (forall t, ev_generic_atom ev t = ev_generic_atom ev' t) /\
  (forall h vs, ev_generic_operation ev h vs = ev_generic_operation ev' h vs).
(** [ev'] has the rules of [ev] and perhaps more, and neither has a generic rule. *)
Definition more_rules {V} (ev ev' : evaluator V) : Prop :=
  (forall ty f, dict_get atype_eqb (ev_atoms ev) ty = Some f -> dict_get atype_eqb (ev_atoms ev') ty = Some f) /\
  (forall h f, dict_get tree_eqb (ev_operations ev) h = Some f -> dict_get tree_eqb (ev_operations ev') h = Some f) /\
  ev_generic_atom ev = generic_atom_error /\ ev_generic_operation ev = generic_operation_error /\
  ev_generic_atom ev' = generic_atom_error /\ ev_generic_operation ev' = generic_operation_error.

Definition same_constants (p q : diff_props) : Prop :=
  dp_zero p = dp_zero q /\ dp_one p = dp_one q /\ dp_add p = dp_add q /\ dp_mul p = dp_mul q.
(** The two states have the same rules for the functions of [e]. *)
Definition same_derivatives_for (e : tree) (p q : diff_props) : Prop :=
  same_constants p q /\
  forall h args, reach false [] e (Node (h :: args)) ->
    (In h (dp_distributive p) <-> In h (dp_distributive q)) /\
    forall i, dict_get rule_key_eqb (dp_rules p) (h, i) = dict_get rule_key_eqb (dp_rules q) (h, i).
(** [q] has the rules of [p] and perhaps more. *)
Definition more_derivatives (p q : diff_props) : Prop :=
  same_constants p q /\ (forall h, In h (dp_distributive p) <-> In h (dp_distributive q)) /\
  forall k r, dict_get rule_key_eqb (dp_rules p) k = Some r -> dict_get rule_key_eqb (dp_rules q) k = Some r.
(** Each state has the rules of the earlier ones. *)
Definition growing {X} (more : X -> X -> Prop) (seen : nat -> X) : Prop := forall i j, (i <= j)%nat -> more (seen i) (seen j).
