(** * Model of simplecas/sympy_conversions.py at the level of objects, as in ModelObjExpr.v, and of programs that convert to and from
    SymPy. SymPy is a parameter, as in ModelSympy.v; SymPy's objects are values. *)
From Verif Require Import Py ModelTree ModelIntern ModelEval ModelDiff ModelSym ModelCas ModelApi ModelObjects ModelObjEval ModelMatrix ModelSympy ModelObjExpr
  ModelObjMatrix ModelLLVM ModelObjLLVM ModelObjRules.

(** ** From SymPy *)
Section From.
  Context (g : o_module).
  (** simplecas/sympy_conversions.py:107-122: the dispatch in _from_sympy_cache_args *)
  Definition o_from_sympy_call (h : shead) (args : list addr) : prog addr :=
    match h with
    | SAdd => o_expr_call (om_Add g) (map OE args)                              (* 107-108 *)
    | SMul => o_expr_call (om_Mul g) (map OE args)                              (* 109-110 *)
    | SPow => o_expr_call (om_Pow g) (map OE args)                              (* 111-112 *)
    | SSin => o_expr_call (om_sin g) (map OE args)                              (* 113-114 *)
    | SCos => o_expr_call (om_cos g) (map OE args)                              (* 115-116 *)
    | STuple => o_expr_call (om_List g) (map OE args)                           (* 117-118 *)
    | SUndef name _ => run f <- o_new T_Function (VStr name); o_expr_call f (map OE args) (* 119-120 *)
    | SOtherClass _ => Ret (Err NotImplementedErr)                              (* 121-122 *)
    end.
  (** simplecas/sympy_conversions.py:95-100, 106 for an object without args *)
  Definition o_from_sympy_leaf (expr : sexpr) : prog addr :=
    match expr with
    | SInt p => o_new T_Integer (VInt p)                                        (* 95-96 *)
    | SSym name _ => o_new T_Symbol (VStr name)                                 (* 97-98 *)
    | SFunc _ => Ret (Err TypeError)                                            (* 106 *)
    | _ => Ret (Err NotImplementedErr)                                          (* 99-100 *)
    end.
  (** simplecas/sympy_conversions.py:89-122 _from_sympy_cache and _from_sympy_cache_args; the result is paired with the cache afterwards *)
  Fixpoint o_from_sympy_cache (expr : sexpr) (c : dict sexpr addr) {struct expr} : prog (addr * dict sexpr addr) :=
    match dict_get sexpr_eqb c expr with                                        (* 90 *)
    | Some r => ret (r, c)                                                      (* 91-92 *)
    | None =>
        run (r, c') <-
          match expr with
          | SApp h ((_ :: _) as args) =>                                        (* 93 *)
              run (args', c') <-
                (fix go (args : list sexpr) (c : dict sexpr addr) : prog (list addr * dict sexpr addr) :=
                   match args with
                   | [] => ret ([], c)
                   | a :: r =>
                       run (t, c1) <- o_from_sympy_cache a c;
                       run (ts, c2) <- go r c1;
                       ret (t :: ts, c2)
                   end) args c;                                                 (* 106 *)
              run r <- o_from_sympy_call h args';                               (* 107-122 *)
              ret (r, c')
          | _ => run r <- o_from_sympy_leaf expr; ret (r, c)                    (* 95-100 *)
          end;
        ret (r, dict_set sexpr_eqb c' expr r)                                   (* 101-102 *)
    end.
  (** simplecas/sympy_conversions.py:72-74 *)
  Definition o_from_sympy (expr : sexpr) : prog addr := run (r, _) <- o_from_sympy_cache expr []; ret r.
  (** simplecas/sympy_conversions.py:81-83: the dict that the loop fills *)
  Definition sm_entrymap (dok : list (pos * sexpr)) : entries_dict :=
    fold_left (fun d n_ke => dict_set pos_eqb d (fst (snd n_ke)) (fst n_ke)) (enumerate_from 0 dok) [].
  (** simplecas/sympy_conversions.py:77-86 from_sympy_matrix *)
  Definition o_from_sympy_matrix (mat : smatrix) : prog (vmatrix addr) :=
    run tup <- o_from_sympy (SApp STuple (map snd (sm_dok mat)));               (* 84-85 *)
    run elements <- o_args tup;                                                 (* 85 *)
    o_matrix__new g (sm_rows mat) (sm_cols mat) elements (sm_entrymap (sm_dok mat)). (* 86 *)
End From.

(** ** To SymPy *)
(** simplecas/sympy_conversions.py:31-55: eval_to_sympy, as a program of ModelObjRules.v. Its variables are those of [fn_vars], then List and List(star(a)). *)
Definition fn_list := 13.
Definition fn_sympy (o : sympy_ops) : list (rstatement sexpr) :=
  (fn_vars ++ [RDo (SFunction "List"); RDo (SCall 12 [OE fn_star]);
   RSet 0 (RPAtomValue T_Integer fn_a) (PyFunc1 (fun v => match v with VInt n => Ok (SInt n) | VStr _ => Err ValueError end)) [fn_a]; (* 46 *)
   RSet 0 (RPAtomValue T_Symbol fn_a) (PyFunc1 (fun v => match v with VStr s => Ok (SSym s 0) | VInt _ => Err TypeError end)) [fn_a]; (* 47 *)
   RSet 0 (RPAtomValue T_Function fn_a) (PyFunc1 (fun v => match v with VStr s => Ok (SFunc s) | VInt _ => Err TypeError end)) [fn_a]; (* 48 *)
   RSet 0 (RPSym fn_add) (PyOpN (pyn (sp_add o))) [fn_a];                       (* 49 *)
   RSet 0 (RPSym fn_mul) (PyOpN (pyn (sp_mul o))) [fn_a];                       (* 50 *)
   RSet 0 (RPSym fn_pow) (PyOp2 (py2 (sp_pow o))) [fn_a; fn_b];                 (* 51 *)
   RSet 0 (RPSym fn_sin) (PyOp1 (py1 (sp_sin o))) [fn_a];                       (* 52 *)
   RSet 0 (RPSym fn_cos) (PyOp1 (py1 (sp_cos o))) [fn_a];                       (* 53 *)
   RSet 0 (RPSym fn_list) (PyOpN (pyn (fun l => Ok (SApp STuple l)))) [fn_a];   (* 54 *)
   RSet 0 (RPHeadRule fn_a fn_b) (HeadOp (fun h l => do s <- tree_str h; sp_call o s l)) [fn_a; fn_b]])%list. (* 55 *)
(** simplecas/sympy_conversions.py:58-60 *)
Definition o_to_sympy (fuel : nat) (ev : o_evaluator sexpr) (expr : addr) : prog sexpr := o_sym_evaluate (fun _ => false) fuel ev expr None.
(** simplecas/sympy_conversions.py:63-69 to_sympy_matrix: the assignments made to a zero matrix of the same shape, in order *)
Definition o_to_sympy_matrix (fuel : nat) (ev : o_evaluator sexpr) (mat : vmatrix addr) : prog (nat * nat * list (pos * sexpr)) :=
  run tup <- o_to_sympy fuel ev (vm_graph mat);                                 (* 65 *)
  run sets <- lift (mapM (fun pn => do s <- getitem (s_args tup) (snd pn); Ok (fst pn, s)) (vm_entrymap mat)); (* 67-68 *)
  ret (vm_nrows mat, vm_ncols mat, sets).                                       (* 66, 69 *)

(** ** Programs of a user. The SymPy objects that the program got are numbered too, as are the matrices of SymPy. *)
Inductive sarg := SLit (x : sexpr) | SOut (k : nat).
Inductive ystatement :=
| YDo (c : cstatement)                                      (* any statement of ModelObjLLVM.v *)
| YFrom (x : sarg)                                          (* Expr.from_sympy(x) *)
| YTo (i : nat)                                             (* v.to_sympy() *)
| YFromMatrix (m : smatrix)                                 (* Matrix.from_sympy(m) *)
| YToMatrix (m : nat).                                      (* M.to_sympy() *)
Definition sympy_out : Type := list sexpr * list (nat * nat * list (pos * sexpr)).
Definition sympy_arg (out : sympy_out) (x : sarg) : res sexpr := match x with SLit s => Ok s | SOut k => getitem (fst out) k end.
Section Programs.
  Context (fuel : nat) (g : o_module) (ev : o_evaluator sexpr).
  Definition o_ystate : Type := o_cstate * sympy_out.
  Definition o_ystatement (st : o_ystate) (c : ystatement) : prog o_ystate :=
    let '(((env, p), ms), texts, out) := st in
    match c with
    | YDo c => run st' <- o_cstatement fuel g (((env, p), ms), texts) c; ret (st', out)
    | YFrom x => run s <- lift (sympy_arg out x); run e <- o_from_sympy g s; ret ((((env ++ [e])%list, p), ms), texts, out)
    | YTo i => run e <- lift (getitem env i); run s <- o_to_sympy fuel ev e; ret (((env, p), ms), texts, ((fst out ++ [s])%list, snd out))
    | YFromMatrix m => run M <- o_from_sympy_matrix g m; ret (((env, p), (ms ++ [M])%list), texts, out)
    | YToMatrix m => run M <- lift (getitem ms m); run a <- o_to_sympy_matrix fuel ev M; ret (((env, p), ms), texts, (fst out, (snd out ++ [a])%list))
    end.
End Programs.
(** The import of simplecas and of sympy_conversions, and then the program: its variables, matrices, generated texts and what it got from SymPy. *)
Definition o_ysession (names : nat -> string) (o : sympy_ops) (fuel : nat) (l : list ystatement) : prog (list addr * list (vmatrix addr) * list string * sympy_out) :=
  run star_a <- o_Atom (ty_id T_Star) (VStr "Star");                            (* sym.py:433 *)
  run star_r <- o_Tr star_a;
  run (g, p) <- o_import fuel;
  run (_, _, evs, _) <- pfold (o_rstatement (fun _ => false) names fuel g star_r) (fn_sympy o) ([], p, [], []);
  run ev <- lift (getitem evs 0);
  run (((env, _), ms), texts, out) <- pfold (o_ystatement fuel g ev) l ((([], p), []), [], ([], []));
  ret (env, ms, texts, out).
