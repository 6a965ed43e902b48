(** * The work done by eval_recursive and from_sympy: the functions of ModelEval.v and ModelSympy.v, also recording
    the calls that they make. That they compute the same is proved in PropsWork.v (C77). *)
From Verif Require Import Py ModelTree ModelEval ModelSympy.

Section TracedMap.
  Context {A B E : Type} (f : A -> list E * res B).
  (** [[f(a) for a in l]] with a record of calls, up to the first exception *)
  Fixpoint traced_map (l : list A) : list E * res (list B) :=
    match l with
    | [] => ([], Ok [])
    | a :: r =>
        let (e1, v) := f a in
        match v with
        | Err x => (e1, Err x)
        | Ok b =>
            let (e2, vs) := traced_map r in
            (e1 ++ e2, match vs with Ok bs => Ok (b :: bs) | Err x => Err x end)
        end
    end.
End TracedMap.
Section Recursive.
  Context {V : Type}.
  (** core/evaluate.py:152-165 Evaluator.eval_recursive, recording the calls of eval_atom and eval_operation *)
  Fixpoint recursive_traced (ev : evaluator V) (values : dict tree V) (expr : tree) : list (event V) * res V :=
    match dict_get tree_eqb values expr with
    | Some v => ([], Ok v)                                                    (* 154-156 *)
    | None =>
        match expr with
        | Atm _ | Node [] => ([CallAtom expr], eval_atom ev expr)             (* 157-159 *)
        | Node (head :: args) =>
            let (e, vs) := traced_map (recursive_traced ev values) args in    (* 162-164 *)
            match vs with
            | Err x => (e, Err x)
            | Ok argvals => (e ++ [CallOp head argvals], eval_operation ev head argvals) (* 165 *)
            end
        end
    end.
End Recursive.

(** simplecas/sympy_conversions.py:89-122: a call of _from_sympy_cache, and a conversion (91-100, 106-122) made because
    the cache does not have the object. *)
Inductive sevent := Asked (s : sexpr) | Converted (s : sexpr).
Fixpoint from_sympy_traced (expr : sexpr) (c : cache) {struct expr} : list sevent * res (tree * cache) :=
  match dict_get sexpr_eqb c expr with                                        (* 90 *)
  | Some ret => ([Asked expr], Ok (ret, c))                                   (* 91-92 *)
  | None =>
      match expr with
      | SApp h ((_ :: _) as args) =>                                          (* 93 *)
          let (e, r) :=
            (fix go (args : list sexpr) (c : cache) : list sevent * res (list tree * cache) :=
               match args with
               | [] => ([], Ok ([], c))
               | a :: r =>
                   let (e1, v) := from_sympy_traced a c in
                   match v with
                   | Err x => (e1, Err x)
                   | Ok (t, c1) =>
                       let (e2, w) := go r c1 in
                       (e1 ++ e2, match w with Ok (ts, c2) => Ok (t :: ts, c2) | Err x => Err x end)
                   end
               end) args c in                                                 (* 106 *)
          match r with
          | Err x => (Asked expr :: e, Err x)
          | Ok (args', c') =>
              (Asked expr :: e ++ [Converted expr],
               do ret <- from_sympy_call h args'; Ok (ret, dict_set sexpr_eqb c' expr ret)) (* 107-122, 101-102 *)
          end
      | _ => ([Asked expr; Converted expr],
              do ret <- from_sympy_leaf expr; Ok (ret, dict_set sexpr_eqb c expr ret)) (* 95-102 *)
      end
  end.
