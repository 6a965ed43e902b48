(** * Specification: the real number that a SymPy expression denotes, for C93 *)
From Coq Require Import Reals.
From Verif Require Import Py ModelTree ModelCas ModelSympy SpecSympy SpecReal.
Local Open Scope string_scope.

(** Values for undefined functions, by name. *)
Definition functions := string -> list R -> option R.
Definition no_functions : functions := fun _ _ => None.

(** What the classes mean. *)
Definition sop (F : functions) (h : shead) (vs : list R) : option R :=
  match h with
  | SAdd => Some (fold_right Rplus 0%R vs)
  | SMul => Some (fold_right Rmult 1%R vs)
  | SPow => match vs with [a; b] => rpow a b | _ => None end
  | SSin => match vs with [a] => Some (Rtrigo_def.sin a) | _ => None end
  | SCos => match vs with [a] => Some (Rtrigo_def.cos a) | _ => None end
  | SUndef name _ => F name vs
  | STuple | SOtherClass _ => None
  end.
(** The value of a SymPy expression. SymPy symbols with one name and different assumptions (the number) are
    different symbols. *)
Fixpoint svalue (F : functions) (senv : string -> nat -> R) (s : sexpr) : option R :=
  match s with
  | SInt p => Some (IZR p)
  | SSym name n => Some (senv name n)
  | SFunc _ | SOtherAtom _ => None
  | SApp h args => match all_defined (svalue F senv) args with Some vs => sop F h vs | None => None end
  end.

(** The value of an Expr, as in SpecReal.v, but with undefined functions. *)
Definition builtin_names := ["Add"; "Mul"; "pow"; "sin"; "cos"; "List"].
Definition fop (F : functions) (h : tree) (vs : list R) : option R :=
  match h with
  | Atm (mkAtom ty (VStr name)) =>
      if atype_eqb ty T_Function && negb (existsb (String.eqb name) builtin_names) then F name vs else rop h vs
  | _ => rop h vs
  end.
Fixpoint fvalue (F : functions) (env : string -> R) (t : tree) : option R :=
  match t with
  | Atm a => ratom env a
  | Node [] => None
  | Node (h :: args) => match all_defined (fvalue F env) args with Some vs => fop F h vs | None => None end
  end.

(** [p] is a part of [s]. *)
Inductive subterm : sexpr -> sexpr -> Prop :=
| sub_here s : subterm s s
| sub_arg h args a p : In a args -> subterm a p -> subterm (SApp h args) p.
(** No undefined function has the name of a built-in one. *)
Definition no_clash (s : sexpr) : Prop :=
  forall name n args, subterm s (SApp (SUndef name n) args) -> ~ In name builtin_names.
(** The symbols of [s] have the values that [env] gives to their names. *)
Definition symbols_agree (s : sexpr) (senv : string -> nat -> R) (env : string -> R) : Prop :=
  forall name n, subterm s (SSym name n) -> senv name n = env name.

(** SymPy's constructors may simplify, but where the plain application has a value, what they return has it too. *)
Definition faithful (o : sympy_ops) (F : functions) : Prop :=
  forall h args s, construct o h args = Ok s ->
  forall senv v, svalue F senv (SApp h args) = Some v -> svalue F senv s = Some v.
