(** * Specification: differentiation with user-defined functions and rules *)
From Coq Require Import Reals.
From Verif Require Import Py ModelTree ModelDiff ModelCas SpecReal.

(** ** Values, where any function may occur *)
(** What the functions other than Add and Mul compute; None where undefined. *)
Definition interpretation := tree -> list R -> option R.
(** The values of the atoms that are not integers. *)
Definition valuation := atom -> option R.
Definition integer_atom (a : atom) : option Z :=
  match a with
  | mkAtom ty (VInt n) => if atype_eqb ty T_Integer then Some n else None
  | _ => None
  end.
Definition op_value (I : interpretation) (h : tree) (vs : list R) : option R :=
  if tree_eqb h Add then Some (fold_right Rplus 0%R vs)
  else if tree_eqb h Mul then Some (fold_right Rmult 1%R vs)
  else I h vs.
Fixpoint value (I : interpretation) (env : valuation) (t : tree) : option R :=
  match t with
  | Atm a => match integer_atom a with Some n => Some (IZR n) | None => env a end
  | Node [] => None
  | Node (h :: args) =>
      match all_defined (value I env) args with
      | Some vs => op_value I h vs
      | None => None
      end
  end.
Definition set_atom (env : valuation) (a : atom) (u : R) : valuation :=
  fun b => if atom_eqb b a then Some u else env b.
(** Around the value of the atom [a], as a function of it, [e] is defined and has derivative [l]. *)
Definition derivative_is (I : interpretation) (env : valuation) (e : tree) (a : atom) (l : R) : Prop :=
  exists (x0 : R) (F : R -> R) (delta : R), env a = Some x0 /\ (0 < delta)%R /\
    (forall u, (Rabs (u - x0) < delta)%R -> value I (set_atom env a u) e = Some (F u)) /\
    derivable_pt_lim F x0 l.

(** ** Rules, as the user writes them *)
(** [diff[head( *wilds ), wilds[index]] = rhs] *)
Record rule := mkRule { r_head : tree; r_wilds : list atom; r_index : nat; r_rhs : tree }.
(** The differentiator after registering [rules], the last of them first, and the distributive heads [dist]. *)
Inductive registered : list rule -> list tree -> diff_props -> Prop :=
| reg_none : registered [] [] (sym_diff_new Add Mul zero one)
| reg_rule rules dist p p' r w :
    registered rules dist p -> nth_error (r_wilds r) (r_index r) = Some w ->
    diff_setitem p (STuple [tree_call (r_head r) (map Atm (r_wilds r)); Atm w]) (r_rhs r) = (p', Ok tt) ->
    registered (r :: rules) dist p'
| reg_dist rules dist p h :
    registered rules dist p -> registered rules (h :: dist) (add_distributive p h).

(** The right hand side has no wild in the place of a function... *)
Inductive plain (wilds : list atom) : tree -> Prop :=
| pl_atom a : plain wilds (Atm a)
| pl_node b args : ~ In b wilds -> Forall (plain wilds) args -> plain wilds (Node (Atm b :: args)).
(** ... the wilds are distinct and not integers, and the right hand side is not just one of the wilds,
    except perhaps the last one (see C29). *)
Definition well_formed (r : rule) : Prop :=
  NoDup (r_wilds r) /\ (forall w, In w (r_wilds r) -> integer_atom w = None) /\ plain (r_wilds r) (r_rhs r) /\
  (forall i w, nth_error (r_wilds r) i = Some w -> r_rhs r = Atm w -> S i = length (r_wilds r)).

(** The rule that counts is the last one registered. *)
Fixpoint rule_for (rules : list rule) (f : tree) (k : nat) : option rule :=
  match rules with
  | [] => None
  | r :: rest => if tree_eqb (r_head r) f && Nat.eqb (r_index r) k then Some r else rule_for rest f k
  end.
(** The wilds have the values [vs]. *)
Fixpoint bind_wilds (env : valuation) (wilds : list atom) (vs : list R) : valuation :=
  match wilds, vs with
  | w :: ws, v :: vr => set_atom (bind_wilds env ws vr) w v
  | _, _ => env
  end.
(** The value of the rule for argument [k] of [f] at the arguments [vs]. *)
Definition partial (I : interpretation) (env : valuation) (rules : list rule) (f : tree) (k : nat) (vs : list R) : option R :=
  match rule_for rules f k with
  | Some r => if Nat.eqb (length (r_wilds r)) (length vs) then value I (bind_wilds env (r_wilds r) vs) (r_rhs r) else None
  | None => None
  end.

(** ** When the rules of a function are right *)
(** How an argument varies with the variable: not at all, or as [g], which has derivative [d]; [l] is the
    partial derivative of the function by that argument. *)
Inductive leg := Still (c : R) | Moving (g : R -> R) (d l : R).
Definition place (u : R) (m : leg) : R := match m with Still c => c | Moving g _ _ => g u end.
Definition contribution (m : leg) : R := match m with Still _ => 0%R | Moving _ d l => (l * d)%R end.
(** If the arguments move along differentiable curves then [f] has, along them, the derivative that the chain rule
    gives with the registered partial derivatives. *)
Definition rules_right (I : interpretation) (rules : list rule) (f : tree) : Prop :=
  forall env t0 legs v, I f (map (place t0) legs) = Some v ->
  (forall k g d l, nth_error legs k = Some (Moving g d l) ->
     derivable_pt_lim g t0 d /\ partial I env rules f k (map (place t0) legs) = Some l) ->
  exists G delta, (0 < delta)%R /\
    (forall u, (Rabs (u - t0) < delta)%R -> I f (map (place u) legs) = Some (G u)) /\
    derivable_pt_lim G t0 (fold_right Rplus 0%R (map contribution legs)).
(** [h] applied to the derivatives is the derivative of [h]. *)
Definition linear (I : interpretation) (h : tree) : Prop :=
  forall t0 (gs : list (R -> R)) ds v l, Forall2 (fun g d => derivable_pt_lim g t0 d) gs ds ->
  op_value I h (map (fun g => g t0) gs) = Some v -> op_value I h ds = Some l ->
  exists G delta, (0 < delta)%R /\
    (forall u, (Rabs (u - t0) < delta)%R -> op_value I h (map (fun g => g u) gs) = Some (G u)) /\
    derivable_pt_lim G t0 l.
