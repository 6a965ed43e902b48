(** * Specifications for C88: which exception an evaluation raises *)
From Verif Require Import Py ModelTree.

(** The atoms in argument position, from left to right, with repetitions. *)
Fixpoint leaves (t : tree) : list tree :=
  match t with
  | Atm _ | Node [] => [t]
  | Node (_ :: args) => flat_map leaves args
  end.

(** The exception of the first of the calls [f a] that raises. *)
Fixpoint first_error {A V} (f : A -> res V) (l : list A) : option exn :=
  match l with
  | [] => None
  | a :: r => match f a with Err x => Some x | Ok _ => first_error f r end
  end.
From Verif Require Import ModelEval ModelDiff ModelSym ModelCas.
(** Floating point evaluation by plain recursion: supplied values, integers, and the five operations. *)
Definition f64_apply {F} (o : float_ops F) (h : tree) (vs : list F) : res F :=
  if tree_eqb h Add then fl_fsum o vs
  else if tree_eqb h Mul then fl_prod o vs
  else if tree_eqb h Pow then match vs with [b; e] => fl_pow o b e | _ => Err TypeError end
  else if tree_eqb h sin then match vs with [v] => fl_sin o v | _ => Err TypeError end
  else if tree_eqb h cos then match vs with [v] => fl_cos o v | _ => Err TypeError end
  else Err NoEvaluationRuleError.
Fixpoint f64_value {F} (o : float_ops F) (values : dict tree F) (t : tree) : res F :=
  match t with
  | Node (h :: args) => do vs <- mapM (f64_value o values) args; f64_apply o h vs
  | _ => match dict_get tree_eqb values t with
         | Some v => Ok v
         | None => match t with
                   | Atm (mkAtom ty (VInt z)) => if atype_eqb ty T_Integer then fl_of_int o z else Err NoEvaluationRuleError
                   | _ => Err NoEvaluationRuleError
                   end
         end
  end.
(** Integer atoms hold ints. *)
Definition int_atoms (e : tree) : Prop := forall a, In (Atm a) (leaves e) -> atom_type a = T_Integer -> exists z, atom_value a = VInt z.

(** The differentiators a program can make. *)
Inductive made : diff_props -> Prop :=
| made_new add mul zero one : made (sym_diff_new add mul zero one)
| made_distributive p head : made p -> made (add_distributive p head)
| made_rule p subscript rhs : made p -> made (fst (diff_setitem p subscript rhs)).
