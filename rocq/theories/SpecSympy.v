(** * Specification of the SymPy conversions *)
From Verif Require Import Py ModelTree ModelCas ModelMatrix ModelSympy.
Local Open Scope string_scope.

(** The expression head for a SymPy class. *)
Definition head_for (h : shead) : option tree :=
  match h with
  | SAdd => Some Add | SMul => Some Mul | SPow => Some Pow | SSin => Some sin | SCos => Some cos
  | STuple => Some List_ | SUndef name _ => Some (Function name) | SOtherClass _ => None
  end.

(** Plain structural conversion, without a cache. *)
Fixpoint convert (s : sexpr) : res tree :=
  match s with
  | SInt p => Ok (Integer p)
  | SSym name _ => Ok (Symbol name)
  | SFunc _ => Err TypeError
  | SOtherAtom _ | SApp _ [] => Err NotImplementedErr
  | SApp h args =>
      do ts <- mapM convert args;
      match head_for h with Some t => Ok (Node (t :: ts)) | None => Err NotImplementedErr end
  end.

(** What can be converted. *)
Inductive convertible : sexpr -> Prop :=
| cv_int p : convertible (SInt p)
| cv_sym name n : convertible (SSym name n)
| cv_app h args : args <> [] -> (forall n, h <> SOtherClass n) -> Forall convertible args -> convertible (SApp h args).

(** A function class that is not applied occurs in [s]: SymPy's own expressions have none. *)
Inductive has_class : sexpr -> Prop :=
| hc_here name : has_class (SFunc name)
| hc_arg h args a : In a args -> has_class a -> has_class (SApp h args).

(** SymPy's constructor for an application of [h]. *)
Definition construct (o : sympy_ops) (h : shead) (args : list sexpr) : res sexpr :=
  match h, args with
  | SAdd, _ => sp_add o args
  | SMul, _ => sp_mul o args
  | SPow, [a; b] => sp_pow o a b
  | SSin, [a] => sp_sin o a
  | SCos, [a] => sp_cos o a
  | STuple, _ => Ok (SApp STuple args)
  | SUndef name _, _ => sp_call o name args
  | _, _ => Err TypeError
  end.
(** [s] is built of integers, symbols without assumptions and applications that SymPy's constructors leave
    as they are, of functions whose names do not clash. *)
Inductive canonical (o : sympy_ops) : sexpr -> Prop :=
| cn_int p : canonical o (SInt p)
| cn_sym name : canonical o (SSym name 0)
| cn_app h args : args <> [] -> construct o h args = Ok (SApp h args) ->
    (forall name n, h = SUndef name n -> n = 0 /\ ~ In name ["Add"; "Mul"; "pow"; "sin"; "cos"; "List"]) ->
    Forall (canonical o) args -> canonical o (SApp h args).
