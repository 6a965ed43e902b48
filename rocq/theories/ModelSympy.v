(** * Model of src/protosym/simplecas/sympy_conversions.py.

    SymPy itself is not modelled: a SymPy object is a tree of what the conversions look at, and the SymPy
    constructors, which simplify, are parameters. *)
From Verif Require Import Py ModelTree ModelEval ModelDiff ModelSym ModelCas ModelMatrix.

(** The classes that the conversion distinguishes. [n] tells apart what it does not look at, e.g. the
    assumptions of a symbol, or which unsupported class. *)
Inductive shead := SAdd | SMul | SPow | SSin | SCos | STuple | SUndef (name : string) (n : nat) | SOtherClass (n : nat).
Inductive sexpr :=
| SInt (p : Z)                                  (* sympy.Integer *)
| SSym (name : string) (n : nat)                (* sympy.Symbol and subclasses; 0: no assumptions *)
| SFunc (name : string)                         (* the class sympy.Function(name), not applied *)
| SOtherAtom (n : nat)                          (* any other object without args *)
| SApp (h : shead) (args : list sexpr).         (* [.args] is [args], possibly empty *)

(** Equality of SymPy objects is structural. *)
Definition shead_eqb (g h : shead) : bool :=
  match g, h with
  | SAdd, SAdd | SMul, SMul | SPow, SPow | SSin, SSin | SCos, SCos | STuple, STuple => true
  | SUndef s m, SUndef t n => String.eqb s t && Nat.eqb m n
  | SOtherClass m, SOtherClass n => Nat.eqb m n
  | _, _ => false
  end.
Fixpoint sexpr_eqb (s t : sexpr) {struct s} : bool :=
  match s, t with
  | SInt p, SInt q => Z.eqb p q
  | SSym a m, SSym b n => String.eqb a b && Nat.eqb m n
  | SFunc a, SFunc b => String.eqb a b
  | SOtherAtom m, SOtherAtom n => Nat.eqb m n
  | SApp g l, SApp h m =>
      shead_eqb g h &&
      (fix go (l m : list sexpr) : bool :=
         match l, m with
         | [], [] => true
         | a :: l', b :: m' => sexpr_eqb a b && go l' m'
         | _, _ => false
         end) l m
  | _, _ => false
  end.

Definition s_args (s : sexpr) : list sexpr := match s with SApp _ args => args | _ => [] end.
Definition cache := dict sexpr tree.

(** simplecas/sympy_conversions.py:107-122: the dispatch in _from_sympy_cache_args *)
Definition from_sympy_call (h : shead) (args : list tree) : res tree :=
  match h with
  | SAdd => Ok (tree_call Add args)
  | SMul => Ok (tree_call Mul args)
  | SPow => Ok (tree_call Pow args)
  | SSin => Ok (tree_call sin args)
  | SCos => Ok (tree_call cos args)
  | STuple => Ok (tree_call List_ args)
  | SUndef name _ => Ok (tree_call (Function name) args)
  | SOtherClass _ => Err NotImplementedErr
  end.
(** simplecas/sympy_conversions.py:93-100, 106 for an object without args *)
Definition from_sympy_leaf (expr : sexpr) : res tree :=
  match expr with
  | SInt p => Ok (Integer p)
  | SSym name _ => Ok (Symbol name)
  | SFunc _ => Err TypeError     (* 106: [expr.args] of a class is the property object, which is true and not iterable *)
  | _ => Err NotImplementedErr
  end.

(** simplecas/sympy_conversions.py:89-122 _from_sympy_cache and _from_sympy_cache_args; the result is
    paired with the cache afterwards. *)
Fixpoint from_sympy_cache (expr : sexpr) (c : cache) {struct expr} : res (tree * cache) :=
  match dict_get sexpr_eqb c expr with                                        (* 90 *)
  | Some ret => Ok (ret, c)                                                   (* 91-92 *)
  | None =>
      do (ret, c') <-
        match expr with
        | SApp h ((_ :: _) as args) =>                                        (* 93 *)
            do (args', c') <-
              (fix go (args : list sexpr) (c : cache) : res (list tree * cache) :=
                 match args with
                 | [] => Ok ([], c)
                 | a :: r =>
                     do (t, c1) <- from_sympy_cache a c;
                     do (ts, c2) <- go r c1;
                     Ok (t :: ts, c2)
                 end) args c;                                                 (* 106 *)
            do ret <- from_sympy_call h args';                                (* 107-122 *)
            Ok (ret, c')
        | _ => do ret <- from_sympy_leaf expr; Ok (ret, c)                    (* 95-100 *)
        end;
      Ok (ret, dict_set sexpr_eqb c' expr ret)                                (* 101-102 *)
  end.
(** simplecas/sympy_conversions.py:72-74 *)
Definition from_sympy (expr : sexpr) : res tree :=
  do (ret, _) <- from_sympy_cache expr []; Ok ret.

(** The SymPy constructors that are called. *)
Record sympy_ops := mkSympy {
  sp_add : list sexpr -> res sexpr;
  sp_mul : list sexpr -> res sexpr;
  sp_pow : sexpr -> sexpr -> res sexpr;
  sp_sin : sexpr -> res sexpr;
  sp_cos : sexpr -> res sexpr;
  sp_call : string -> list sexpr -> res sexpr     (* sympy.Function(name)( *args ) *)
}.

(** simplecas/sympy_conversions.py:32-55 *)
Definition eval_to_sympy_ev (o : sympy_ops) : res (evaluator sexpr) :=
  run_statements new_evaluator
    [ (PAtomValue T_Integer wa, PyFunc1 (fun v => match v with VInt n => Ok (SInt n) | VStr _ => Err ValueError end), [wa]);
      (PAtomValue T_Symbol wa, PyFunc1 (fun v => match v with VStr s => Ok (SSym s 0) | VInt _ => Err TypeError end), [wa]);
      (PAtomValue T_Function wa, PyFunc1 (fun v => match v with VStr s => Ok (SFunc s) | VInt _ => Err TypeError end), [wa]);
      (PSym (call1 Add (star wa)), PyOpN (pyn (sp_add o)), [wa]);
      (PSym (call1 Mul (star wa)), PyOpN (pyn (sp_mul o)), [wa]);
      (PSym (m_pow wa wb), PyOp2 (py2 (sp_pow o)), [wa; wb]);
      (PSym (call1 sin wa), PyOp1 (py1 (sp_sin o)), [wa]);
      (PSym (call1 cos wa), PyOp1 (py1 (sp_cos o)), [wa]);
      (PSym (call1 List_ (star wa)), PyOpN (pyn (fun l => Ok (SApp STuple l))), [wa]);
      (PHeadRule wa wb, HeadOp (fun h l => do s <- tree_str h; sp_call o s l), [wa; wb]) ].
(** simplecas/sympy_conversions.py:58-60 *)
Definition to_sympy (o : sympy_ops) (expr : tree) : res sexpr :=
  do ev <- eval_to_sympy_ev o; sym_evaluate (fun _ => false) ev expr None.

(** SymPy matrices: the shape and the non-zero entries, in the order of [todok()]. *)
Record smatrix := mkSMatrix { sm_rows : nat; sm_cols : nat; sm_dok : list (pos * sexpr) }.

(** simplecas/sympy_conversions.py:77-86 from_sympy_matrix *)
Definition from_sympy_matrix (mat : smatrix) : hm matrix :=
  let! entrymap <- new_dict [];                                               (* 81 *)
  let! _ <- hfor (fun n_ke => dict_put entrymap (fst (snd n_ke)) (fst n_ke))  (* 82-83 *)
                 (enumerate_from 0 (sm_dok mat));
  let! tup <- hlift (from_sympy (SApp STuple (map snd (sm_dok mat))));        (* 84-85 *)
  let! elements <- new_list (sym_args tup);                                   (* 85 *)
  matrix__new (sm_rows mat) (sm_cols mat) elements entrymap.                  (* 86 *)

(** simplecas/sympy_conversions.py:63-69 to_sympy_matrix: the assignments made to a zero matrix of the
    same shape, in order. *)
Definition to_sympy_matrix (o : sympy_ops) (mat : matrix) : hm (nat * nat * list (pos * sexpr)) :=
  let! tup <- hlift (to_sympy o (m_graph mat));                               (* 65 *)
  let elements_sympy := s_args tup in
  let! d <- read_dict (m_entrymap mat);
  let! sets <- hlift (mapM (fun pn => do s <- getitem elements_sympy (snd pn); Ok (fst pn, s)) d); (* 67-68 *)
  hret (m_nrows mat, m_ncols mat, sets).                                      (* 66, 69 *)
