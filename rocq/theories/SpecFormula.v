(** * Specification: formulas written in Python, and what they say *)
From Coq Require Import Reals.
From Verif Require Import Py ModelTree ModelCas ModelApi SpecReal SpecPyText.
Local Open Scope string_scope.

(** The operators, on numbers; None is "undefined". *)
Definition arithmetic (op : operator) (u v : R) : option R :=
  match op with
  | OpAdd => Some (u + v)%R
  | OpSub => Some (u - v)%R
  | OpMul => Some (u * v)%R
  | OpDiv => if Req_EM_T v 0 then None else Some (u / v)%R
  | OpPow => rpow u v
  end.
(** Python's ints: a quotient or a negative power of two of them is not an int. *)
Definition int_arithmetic (op : operator) (a b : Z) : option Z :=
  match op with
  | OpAdd => Some (a + b)%Z
  | OpSub => Some (a - b)%Z
  | OpMul => Some (a * b)%Z
  | OpDiv => None
  | OpPow => if (b <? 0)%Z then None else Some (a ^ b)%Z
  end.

Section Formula.
  (** The objects that the names stand for. *)
  Context (ns : string -> option obj).

  (** The real number that a formula stands for. A call means something if the name stands for sin, cos, pow, Add or Mul. *)
  Fixpoint formula_value (env : string -> R) (p : pyexpr) : option R :=
    match p with
    | PyName s => match ns s with
                  | Some (OExpr e) => reval env e
                  | Some (OInt n) => Some (IZR n)
                  | Some (OBool b) => Some (if b then 1 else 0)%R
                  | _ => None
                  end
    | PyInt n => Some (IZR n)
    | PyNeg a => match formula_value env a with Some v => Some (- v)%R | None => None end
    | PyBin op a b => match formula_value env a, formula_value env b with Some u, Some v => arithmetic op u v | _, _ => None end
    | PyCall (PyName s) args =>
        match ns s, all_defined (formula_value env) args with
        | Some (OExpr f), Some vs => rop f vs
        | _, _ => None
        end
    | PyCall _ _ => None
    end.

  (** The int that a formula of ints stands for. *)
  Fixpoint number (p : pyexpr) : option Z :=
    match p with
    | PyName s => match ns s with Some o => int_of o | None => None end
    | PyInt n => Some n
    | PyNeg a => match number a with Some n => Some (- n)%Z | None => None end
    | PyBin op a b => match number a, number b with Some m, Some n => int_arithmetic op m n | _, _ => None end
    | PyCall _ _ => None
    end.
  (** The formula mentions an expression. *)
  Fixpoint mentions (p : pyexpr) : bool :=
    match p with
    | PyName s => match ns s with Some (OExpr _) => true | _ => false end
    | PyInt _ => false
    | PyNeg a => mentions a
    | PyBin _ a b => mentions a || mentions b
    | PyCall _ _ => true
    end.
  (** The names are bound to expressions or ints, only expressions are called, and no two ints are divided, or raised to a
      negative power: Python would do that itself, in floats, which no operator of simplecas accepts. *)
  Inductive well_formed : pyexpr -> Prop :=
  | wf_name s o : ns s = Some o -> (exists t, o = OExpr t) \/ (exists n, int_of o = Some n) -> well_formed (PyName s)
  | wf_int n : well_formed (PyInt n)
  | wf_neg a : well_formed a -> well_formed (PyNeg a)
  | wf_bin op a b : well_formed a -> well_formed b -> mentions a = true \/ mentions b = true \/ number (PyBin op a b) <> None ->
      well_formed (PyBin op a b)
  | wf_call f args : well_formed f -> mentions f = true -> Forall well_formed args -> well_formed (PyCall f args).
End Formula.
(** The names stand for no matrices. *)
Definition no_matrices (ns : string -> option obj) : Prop := forall s m, ns s <> Some (OMatrix m).
(** [l] is the derivative at [u] of the partial function [F], which is defined around [u]. *)
Definition derivative_at (F : R -> option R) (u l : R) : Prop :=
  exists (G : R -> R) (delta : R), (0 < delta)%R /\ (forall w, (Rabs (w - u) < delta)%R -> F w = Some (G w)) /\ derivable_pt_lim G u l.
