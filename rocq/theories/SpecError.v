(** * Specification: the rounding error of sums and products in doubles *)
From Coq Require Import SpecFloat Reals.
From Verif Require Import Py ModelTree SpecTree ModelEval ModelDiff ModelCas SpecEval SpecLLVM SpecLambdify SpecExact.
Local Open Scope R_scope.

(** The unit roundoff of doubles. *)
Definition unit_roundoff : R := / 2 ^ 53.

(** The number given to the argument [t]. *)
Fixpoint real_argument (symargs : list tree) (xs : list R) (t : tree) : option R :=
  match symargs, xs with
  | s :: ss, x :: xs' => if tree_eqb t s then Some x else real_argument ss xs' t
  | _, _ => None
  end.
(** The value of an expression made of integers, arguments, sums and products (not empty), with [f] applied to every
    number in it. With the identity this is its mathematical value, with [Rabs] its magnitude: the value if all signs
    were positive and nothing cancelled. *)
Fixpoint value_with (f : R -> R) (symargs : list tree) (xs : list R) (t : tree) : option R :=
  match t with
  | Atm a =>
      match real_argument symargs xs t with
      | Some x => Some (f x)
      | None => match a with mkAtom ty (VInt n) => if atype_eqb ty T_Integer then Some (f (IZR n)) else None | _ => None end
      end
  | Node [] => None
  | Node (h :: args) =>
      match opt_map (value_with f symargs xs) args with
      | Some (v :: r) => if tree_eqb h Add then Some (fold_right Rplus 0 (v :: r))
                         else if tree_eqb h Mul then Some (fold_right Rmult 1 (v :: r)) else None
      | _ => None
      end
  end.
Definition exact_value : list tree -> list R -> tree -> option R := value_with (fun x => x).
Definition magnitude : list tree -> list R -> tree -> option R := value_with Rabs.

(** How often a number is rounded at most on the way to the result. [per_sum n] is the number of roundings of a sum of
    [n] terms; a product of [n] factors has [n - 1]; an integer is rounded if it is beyond 2**53. *)
Fixpoint roundings (per_sum : nat -> nat) (t : tree) : nat :=
  match t with
  | Atm (mkAtom _ (VInt n)) => if (Z.abs n <=? 2 ^ 53)%Z then 0 else 1
  | Atm _ | Node [] => 0
  | Node (h :: args) =>
      let inside := map (roundings per_sum) args in
      if tree_eqb h Add then list_max inside + per_sum (length args)
      else list_sum inside + (length args - 1)
  end.
(** The relative error of [n] roundings. *)
Definition growth (n : nat) : R := (1 + unit_roundoff) ^ n - 1.

(** No product underflows: the computed product of some factors, times the next, is 0 or not below the normal range. *)
Definition no_underflow (value : tree -> option spec_float) (e : tree) : Prop :=
  forall args k a p ps q, reach false [] e (Node (Mul :: args)) ->
    opt_map value (firstn (S k) args) = Some (p :: ps) -> nth_error args (S k) = Some a -> value a = Some q ->
    let product := fold_left (SFmul 53 1024) ps p in
    double_value product * double_value q = 0 \/ / 2 ^ 1022 <= Rabs (double_value product * double_value q).

(** math.fsum is correctly rounded, raises if the sum is too large for a double, and hides no infinity or nan. *)
Definition fsum_correct (o : float_ops spec_float) : Prop := fsum_rounds o /\
  (forall vs v, (forall a, In a vs -> is_double a /\ finite a) -> fl_fsum o vs = Ok v -> Rabs (sum_of vs) < 2 ^ 1024 - 2 ^ 970) /\
  (forall vs v a, fl_fsum o vs = Ok v -> In a vs -> ~ finite a -> ~ finite v).

(** The double that eval_f64 returns. *)
Definition f64_value (o : float_ops spec_float) (symargs : list tree) (vals : list spec_float) (t : tree) : option spec_float :=
  match eval_f64 o t (Some (combine symargs vals)) with Ok v => Some v | Err _ => None end.
