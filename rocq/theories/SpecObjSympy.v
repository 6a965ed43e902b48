(** * Specification: what programs that convert to and from SymPy mean, when expressions are values (trees) *)
From Verif Require Import Py ModelTree ModelIntern SpecIntern ModelEval ModelDiff ModelSym ModelCas ModelApi ModelObjects SpecObjects ModelMatrix ModelSympy ModelObjExpr SpecObjExpr
  ModelObjMatrix SpecObjMatrix ModelLLVM ModelObjLLVM SpecObjLLVM ModelObjRules SpecObjRules.
From Verif Require Import ModelObjSympy.

(** The conversions of matrices of which the attributes are given; PropsObjSympy.v shows that they are those of ModelSympy.v. *)
Definition v_from_sympy_matrix (mat : smatrix) : res (vmatrix tree) :=
  do tup <- from_sympy (SApp STuple (map snd (sm_dok mat)));
  Ok (v_matrix__new (sm_rows mat) (sm_cols mat) (sym_args tup) (sm_entrymap (sm_dok mat))).
Definition v_to_sympy_matrix (o : sympy_ops) (mat : vmatrix tree) : res (nat * nat * list (pos * sexpr)) :=
  do tup <- to_sympy o (vm_graph mat);
  do sets <- mapM (fun pn => do s <- getitem (s_args tup) (snd pn); Ok (fst pn, s)) (vm_entrymap mat);
  Ok (vm_nrows mat, vm_ncols mat, sets).

Section Spec.
  Context (o : sympy_ops).
  Definition v_ystate : Type := v_cstate * sympy_out.
  Definition v_ystatement (st : v_ystate) (c : ystatement) : res v_ystate :=
    let '(((env, p), ms), texts, out) := st in
    match c with
    | YDo c => do st' <- v_cstatement (((env, p), ms), texts) c; Ok (st', out)
    | YFrom x => do s <- sympy_arg out x; do u <- from_sympy s; Ok ((((env ++ [u])%list, p), ms), texts, out)
    | YTo i => do u <- getitem env i; do s <- to_sympy o u; Ok (((env, p), ms), texts, ((fst out ++ [s])%list, snd out))
    | YFromMatrix m => do U <- v_from_sympy_matrix m; Ok (((env, p), (ms ++ [U])%list), texts, out)
    | YToMatrix m => do U <- getitem ms m; do a <- v_to_sympy_matrix o U; Ok (((env, p), ms), texts, (fst out, (snd out ++ [a])%list))
    end.
  Definition v_ysession (l : list ystatement) : res (list tree * list (vmatrix tree) * list string * sympy_out) :=
    do st <- foldM v_ystatement l (((([], cas_diff), []), []), ([], []));
    let '(((env, _), ms), texts, out) := st in Ok (env, ms, texts, out).
End Spec.
