(** * Specification: what differentiation by user-defined rules needs to commute with substitution *)
From Verif Require Import Py ModelTree SpecTree ModelDiff ModelCas SpecRules.

(** The atom [y] has no meaning of its own for the differentiator: it is neither 0 nor 1, nor Add nor Mul, and the
    right hand side of a rule mentions it only as one of the rule's own wilds. *)
Definition unmentioned (rules : list rule) (y : atom) : Prop :=
  ~ In (Atm y) [zero; one; Add; Mul] /\
  forall r, In r rules -> occurs (Atm y) (r_rhs r) -> In y (r_wilds r).
(** [y] is no part of a function applied in [e]. *)
Definition not_applied (y : atom) (e : tree) : Prop :=
  forall h args, reach false [] e (Node (h :: args)) -> ~ occurs (Atm y) h.
(** The right hand side of the rule is just one of its wilds, as in [diff[f(a, b), a] = b]. *)
Definition projects (r : rule) : Prop := exists w, In w (r_wilds r) /\ r_rhs r = Atm w.
(** No function applied in [e] is distributive. *)
Definition no_distributive (dist : list tree) (e : tree) : Prop :=
  forall h args, reach false [] e (Node (h :: args)) -> ~ In h dist.
