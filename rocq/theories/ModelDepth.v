(** * The functions of /repo that call themselves, under a limit on the nesting of their activations.
    Python raises RecursionError when too many frames are active; every activation of one of these functions uses a
    fixed number of frames (which depends on the version of Python), so the limit is given here as the number of
    activations of the function itself that may be nested. [None] is RecursionError. Topological sorting, forward
    evaluation, differentiation, substitution and code generation are loops and do not appear here. *)
From Verif Require Import Py ModelTree ModelEval ModelCas ModelRepr ModelSympy.
Local Open Scope string_scope.

Definition limited (A : Type) : Type := option (res A).
Definition bindL {A B} (x : limited A) (f : A -> limited B) : limited B :=
  match x with None => None | Some (Err e) => Some (Err e) | Some (Ok a) => f a end.
Definition done {A} (r : res A) : limited A := Some r.
Section MapL.
  Context {A B : Type} (f : A -> limited B).
  Fixpoint mapL (l : list A) : limited (list B) :=
    match l with
    | [] => done (Ok [])
    | a :: r => bindL (f a) (fun b => bindL (mapL r) (fun bs => done (Ok (b :: bs))))
    end.
End MapL.

(** core/tree.py:156-162 Tree.__repr__ *)
Fixpoint repr_limited (n : nat) (t : tree) : limited string :=
  match n with
  | O => None
  | S n' =>
      match t with
      | Node ((_ :: _) as cs) =>                                              (* 158 *)
          bindL (mapL (repr_limited n') cs) (fun l => done (Ok ("Tree(" ++ join ", " l ++ ")"))) (* 159-160 *)
      | _ => done (do a <- tree_value t; Ok ("Tr(" ++ atom_repr a ++ ")"))    (* 162 *)
      end
  end.
(** core/tree.py:164-172 Tree.__str__; the head is formatted last (169-170). *)
Fixpoint str_limited (n : nat) (t : tree) : limited string :=
  match n with
  | O => None
  | S n' =>
      match t with
      | Node (h :: args) =>
          bindL (mapL (str_limited n') args) (fun l =>                        (* 169 *)
          bindL (str_limited n' h) (fun hs => done (Ok (hs ++ "(" ++ join ", " l ++ ")")))) (* 170 *)
      | Atm a => done (Ok (str_value (atom_value a)))                         (* 172 *)
      | Node [] => done (Err AttributeError)
      end
  end.
Section Recursive.
  Context {V : Type}.
  (** core/evaluate.py:152-165 Evaluator.eval_recursive *)
  Fixpoint recursive_limited (n : nat) (ev : evaluator V) (values : dict tree V) (expr : tree) : limited V :=
    match n with
    | O => None
    | S n' =>
        match dict_get tree_eqb values expr with
        | Some v => done (Ok v)                                               (* 154-156 *)
        | None =>
            match expr with
            | Atm _ | Node [] => done (eval_atom ev expr)                     (* 157-159 *)
            | Node (head :: args) =>
                bindL (mapL (recursive_limited n' ev values) args)            (* 162-164 *)
                  (fun argvals => done (eval_operation ev head argvals))      (* 165 *)
            end
        end
    end.
End Recursive.
(** simplecas/sympy_conversions.py:89-122 _from_sympy_cache and _from_sympy_cache_args *)
Fixpoint from_sympy_limited (n : nat) (expr : sexpr) (c : cache) : limited (tree * cache) :=
  match n with
  | O => None
  | S n' =>
      match dict_get sexpr_eqb c expr with                                    (* 90 *)
      | Some ret => done (Ok (ret, c))                                        (* 91-92 *)
      | None =>
          bindL
            match expr with
            | SApp h ((_ :: _) as args) =>                                    (* 93 *)
                bindL
                  ((fix go (args : list sexpr) (c : cache) : limited (list tree * cache) :=
                     match args with
                     | [] => done (Ok ([], c))
                     | a :: r =>
                         bindL (from_sympy_limited n' a c) (fun '(t, c1) =>
                         bindL (go r c1) (fun '(ts, c2) => done (Ok (t :: ts, c2))))
                     end) args c)                                             (* 106 *)
                  (fun '(args', c') => done (do ret <- from_sympy_call h args'; Ok (ret, c'))) (* 107-122 *)
            | _ => done (do ret <- from_sympy_leaf expr; Ok (ret, c))         (* 95-100 *)
            end
            (fun '(ret, c') => done (Ok (ret, dict_set sexpr_eqb c' expr ret))) (* 101-102 *)
      end
  end.
