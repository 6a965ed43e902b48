(** * Model of Python's sum and math.prod on lists of expressions, ints, bools and matrices
    Both are loops over the operator with the result so far on the left: CPython's builtin_sum_impl and math_prod_impl. Their
    fast paths for ints compute the same int; those for floats are not entered, because no item is a float.
    Simplification: [int + int] and [int * int] are exact; only the items of [obj] occur. *)
From Verif Require Import Py ModelTree ModelCas ModelMatrix ModelApi.

(** An int or bool. *)
Definition as_int (o : obj) : option Z :=
  match o with OInt z => Some z | OBool b => Some (if b then 1 else 0)%Z | _ => None end.
(** [left + right] and [left * right] on any of the objects: that of int for ints and bools, else expr.py:209-257 and
    matrix.py:105-109 *)
Definition py_add (left right : obj) : hm obj :=
  match as_int left, as_int right with
  | Some a, Some b => hret (OInt (a + b))
  | _, _ => py_binop OpAdd left right
  end.
Definition py_mul (left right : obj) : hm obj :=
  match as_int left, as_int right with
  | Some a, Some b => hret (OInt (a * b))
  | _, _ => py_binop OpMul left right
  end.
(** [for item in l: result = result op item] *)
Fixpoint py_fold (op : obj -> obj -> hm obj) (result : obj) (l : list obj) : hm obj :=
  match l with
  | [] => hret result
  | item :: r => let! result <- op result item; py_fold op result r
  end.
(** sum(l, start) and math.prod(l, start=start) *)
Definition py_sum (l : list obj) (start : obj) : hm obj := py_fold py_add start l.
Definition py_prod (l : list obj) (start : obj) : hm obj := py_fold py_mul start l.
