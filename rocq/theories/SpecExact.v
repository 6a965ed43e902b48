(** * Specification: integer arithmetic that doubles can represent *)
From Coq Require Import SpecFloat Reals.
From Verif Require Import Py ModelTree SpecTree ModelDiff ModelCas SpecEval SpecLLVM SpecLambdify.

(** The integer given to the argument [t]. *)
Fixpoint int_argument (symargs : list tree) (ns : list Z) (t : tree) : option Z :=
  match symargs, ns with
  | s :: ss, n :: ns' => if tree_eqb t s then Some n else int_argument ss ns' t
  | _, _ => None
  end.
(** The mathematical value of an expression made of integers, arguments, sums and products (not empty). *)
Fixpoint int_value (symargs : list tree) (ns : list Z) (t : tree) : option Z :=
  match t with
  | Atm a =>
      match int_argument symargs ns t with
      | Some n => Some n
      | None => match a with mkAtom ty (VInt n) => if atype_eqb ty T_Integer then Some n else None | _ => None end
      end
  | Node [] => None
  | Node (h :: args) =>
      match opt_map (int_value symargs ns) args with
      | Some (n :: r) => if tree_eqb h Add then Some (fold_left Z.add r n)
                         else if tree_eqb h Mul then Some (fold_left Z.mul r n) else None
      | _ => None
      end
  end.
(** All values of subexpressions and all partial sums and products are at most 2**53 in magnitude. *)
Definition fits (symargs : list tree) (ns : list Z) (e : tree) : Prop :=
  (forall s n, reach false [] e s -> int_value symargs ns s = Some n -> (Z.abs n <= 2 ^ 53)%Z) /\
  (forall h args k n, reach false [] e (Node (h :: args)) -> int_value symargs ns (Node (h :: firstn k args)) = Some n ->
     (Z.abs n <= 2 ^ 53)%Z).
(** The double [v] is the integer [n]. *)
Definition is_int (v : spec_float) (n : Z) : Prop := is_double v /\ finite v /\ double_value v = IZR n.
(** Multiplication of the machine is that of IEEE 754, and math.prod multiplies from left to right. *)
Definition ieee_mul (mc : machine) : Prop := forall a b, mc_mul mc a b = SFmul 53 1024 a b.
Definition prod_rounds (o : float_ops spec_float) : Prop := forall a r v,
  fl_prod o (a :: r) = Ok v -> v = fold_left (SFmul 53 1024) r a.
Definition ints_rounds (o : float_ops spec_float) : Prop := forall n v, fl_of_int o n = Ok v -> constant n = Some v.
