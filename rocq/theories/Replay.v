(** * The project's own tests, run on the model.
    Not proofs of anything general: evidence that the model computes what the code computes. Each example cites
    the test in /repo/tests that it transcribes; tests that need floating point functions of libm, llvmlite, numpy
    or SymPy, or expressions whose tree is exponentially larger than its graph, are left out. *)
From Coq Require Import SpecFloat.
From Verif Require Import Py ModelTree ModelEval ModelDiff ModelSym ModelCas ModelMatrix ModelLLVM ModelRepr
  ModelSympy ModelApi SpecMatrix Samples.
Local Open Scope string_scope.
Local Open Scope Z_scope.

Notation "h @ l" := (tree_call h l%list) (at level 30).
Definition i1 := int 1. Definition i2 := int 2.
Definition E0 := PExpr. Definition n_ := PInt.

(** ** tests/core/test_atom.py *)
Example test_Atom : atom_repr (mkAtom T_Integer (VInt 1)) = "Integer(1)" /\ atom_repr (mkAtom T_Integer (VInt 0)) = "Integer(0)" /\
  atom_repr (mkAtom T_Symbol (VStr "x")) = "Symbol('x')" /\
  str_value (VInt 1) = "1" /\ str_value (VInt 0) = "0" /\ str_value (VStr "x") = "x" /\
  atom_eqb (mkAtom T_Integer (VInt 1)) (mkAtom T_Integer (VInt 1)) = true /\
  atom_eqb (mkAtom T_Integer (VInt 1)) (mkAtom T_Integer (VInt 0)) = false /\
  atom_eqb (mkAtom T_Symbol (VStr "x")) (mkAtom T_Integer (VInt 1)) = false.
Proof. repeat split. Qed.

(** ** tests/core/test_tree.py *)
Example test_Tree_basic :
  tree_str i1 = Ok "1" /\ tree_str f = Ok "f" /\ tree_str (f @ [i1]) = Ok "f(1)" /\
  tree_repr i1 = Ok "Tr(Integer(1))" /\ tree_repr f = Ok "Tr(Function('f'))" /\
  tree_repr (f @ [i1]) = Ok "Tree(Tr(Function('f')), Tr(Integer(1)))" /\
  tree_eqb i1 i1 = true /\ tree_eqb (f @ [i1]) (f @ [i1]) = true /\ tree_eqb i1 f = false.
Proof. repeat split. Qed.
Definition e_sort := f @ [f @ [x; y]; f @ [f @ [x]; f @ [x; y]]].
Example test_topological_sort_split :
  topological_sort e_sort false [] =
    Ok [x; y; f @ [x; y]; f @ [x]; f @ [f @ [x]; f @ [x; y]]; e_sort] /\
  topological_sort e_sort true [] =
    Ok [f; x; y; f @ [x; y]; f @ [x]; f @ [f @ [x]; f @ [x; y]]; e_sort] /\
  topological_sort e_sort false [f @ [x; y]] =
    Ok [x; f @ [x]; f @ [f @ [x]; f @ [x; y]]; e_sort] /\
  topological_split e_sort [] =
    Ok ([x; y], [f], [f @ [x; y]; f @ [x]; f @ [f @ [x]; f @ [x; y]]; e_sort]).
Proof. repeat split; vm_compute; reflexivity. Qed.
Example test_forward_graph :
  forward_graph (f @ [y; f @ [x; g @ [y]]]) =
    Ok (mkGraph [y; x] [g; f] [(g, [0%nat]); (f, [1%nat; 2%nat]); (f, [0%nat; 3%nat])]).
Proof. vm_compute; reflexivity. Qed.
Definition t := sym "t".
Definition e_subs := f @ [f @ [x; y]; g @ [y]].
Definition subs_then (e : tree) (ps args : list tree) : res tree := do sf <- subs_new e ps; subs_call sf args.
Example test_subsfunc :
  subs_then e_subs [x; y] [z; t] = Ok (f @ [f @ [z; t]; g @ [t]]) /\
  subs_new e_subs [x; y] = Ok (mkSubs 2 [f; g] [[2; 0; 1]; [3; 1]; [2; 4; 5]]%nat) /\
  subs_then e_subs [f @ [x; y]] [z] = Ok (f @ [z; g @ [y]]) /\
  subs_new e_subs [f @ [x; y]] = Ok (mkSubs 1 [f; g @ [y]] [[1; 0; 2]]%nat) /\
  subs_then e_subs [e_subs] [t] = Ok t /\ subs_new e_subs [e_subs] = Ok (mkSubs 1 [] []) /\
  subs_then e_subs [t] [z] = Ok e_subs /\ subs_new e_subs [t] = Ok (mkSubs 1 [e_subs] []) /\
  subs_then e_subs [t] [z; t] = Err TypeError.
Proof. repeat split; vm_compute; reflexivity. Qed.

(** ** tests/core/test_evaluate.py, the Transformer *)
Definition f2g : evaluator tree := add_opn new_transformer f (pyn (fun args => Ok (g @ args))).
Definition f2g_eval : evaluator tree := add_opn new_evaluator f (pyn (fun args => Ok (g @ args))).
Definition e_f2g := f @ [g @ [x; f @ [y]]; y].
Example test_Transformer :
  evaluate nn f2g e_f2g None = Ok (g @ [g @ [x; g @ [y]]; y]) /\
  evaluate nn f2g_eval e_f2g None = Err NoEvaluationRuleError /\
  evaluate nn (add_atom_generic f2g_eval (fun a => Ok a)) e_f2g None = Err NoEvaluationRuleError /\
  evaluate nn (add_op_generic (add_atom_generic f2g_eval (fun a => Ok a)) (fun h l => Ok (h @ l))) e_f2g None
    = Ok (g @ [g @ [x; g @ [y]]; y]).
Proof. repeat split; vm_compute; reflexivity. Qed.

(** ** tests/core/test_differentiate.py *)
Definition Vector := fn "Vector". Definition Pow' := fn "Pow".
Definition prop0 := mkDiff zero one Add Mul [] [].
Definition with_rule (p : res diff_props) (h : tree) (i : nat) (rhs : tree) (ps : list tree) : res diff_props :=
  do p <- p; do sf <- subs_new rhs ps; Ok (add_diff_rule p h i sf).
Definition prop1 :=
  with_rule (with_rule (with_rule (Ok (add_distributive prop0 Vector))
    Pow' 0 (Mul @ [y; Pow' @ [x; Add @ [y; negone]]]) [x; y])
    sin 0 (cos @ [x]) [x]) cos 0 (Mul @ [negone; sin @ [x]]) [x].
Definition d1 (e s : tree) : res tree := do p <- prop1; diff_forward e s p.
Example test_core_differentiate :
  diff_forward zero x prop0 = Ok zero /\ diff_forward x x prop0 = Ok one /\ diff_forward x y prop0 = Ok zero /\
  diff_forward (Add @ [x; y]) x prop0 = Ok one /\ diff_forward (Add @ [y; y]) x prop0 = Ok zero /\
  diff_forward (Mul @ [x; y]) y prop0 = Ok (Mul @ [x; one]) /\
  diff_forward (Mul @ [x; y]) x prop0 = Ok (Mul @ [one; y]) /\
  diff_forward (Vector @ [x; y]) x (add_distributive prop0 Vector) = Ok (Vector @ [one; zero]) /\
  d1 (Pow' @ [x; y]) x = Ok (Mul @ [y; Pow' @ [x; Add @ [y; negone]]]) /\
  d1 (sin @ [x]) x = Ok (cos @ [x]) /\
  d1 (sin @ [sin @ [x]]) x = Ok (Mul @ [cos @ [sin @ [x]]; cos @ [x]]) /\
  d1 (sin @ [sin @ [y]]) x = Ok zero /\
  d1 (Add @ [sin @ [x]; cos @ [x]]) x = Ok (Add @ [cos @ [x]; Mul @ [negone; sin @ [x]]]).
Proof. repeat split; vm_compute; reflexivity. Qed.

(** ** tests/core/test_sym.py *)
Example test_Sym : sym_str i1 = Ok "1" /\ sym_repr i1 = Ok "Sym(Tr(Integer(1)))".
Proof. split; reflexivity. Qed.
Definition to_str : res (evaluator string) := run_statements new_evaluator
  [ (PAtomValue T_Integer wa, PyFunc1 str_from, [wa]);
    (PAtomRule wa, AtomFunc tree_str, [wa]);
    (PSym (cos @ [wa]), PyOp1 (py1 (fun s => Ok ("cos(" ++ s ++ ")"))), [wa]);
    (PSym (Add @ [star wa]), PyOpN (pyn (fun l => Ok (join " + " l))), [wa]);
    (PHeadRule wa wb, HeadOp (fun h l => do s <- tree_str h; Ok (s ++ "(" ++ join ", " l ++ ")")), [wa; wb]) ].
Definition to_str_of (e : tree) : res string := do ev <- to_str; sym_evaluate (fun _ => false) ev e None.
Example test_Sym_evaluator :
  to_str_of (cos @ [i1]) = Ok "cos(1)" /\ to_str_of (Add @ [i1; i1; i1]) = Ok "1 + 1 + 1" /\
  to_str_of sin = Ok "sin" /\ to_str_of (sin @ [i1]) = Ok "sin(1)".
Proof. repeat split; vm_compute; reflexivity. Qed.
Definition bad_rule (p : pattern) (r : rule_rhs Z) : res unit := snd (set_item new_evaluator p r).
Definition k1 : Z -> res Z := fun v => Ok v. Definition k2 : Z -> Z -> res Z := fun v _ => Ok v.
Definition kf : pyval -> res Z := fun _ => Ok 0. Definition kn : list Z -> res Z := fun _ => Ok 0.
Definition rhs_of (op : pyfunc Z) (args : list tree) : rule_rhs Z := RCall (mkCall op args).
Example test_Sym_evaluator_bad_rules :
  bad_rule (PAtomValue T_Integer wa) (rhs_of (PyOp1 (py1 k1)) [wa]) = Err BadRuleError /\
  bad_rule (PSym (cos @ [wa])) (rhs_of (PyFunc1 kf) [wa]) = Err BadRuleError /\
  bad_rule (PAtomRule wa) (rhs_of (PyOp1 (py1 k1)) [wa]) = Err BadRuleError /\
  bad_rule (PHeadRule wa wb) (rhs_of (PyOp2 (py2 k2)) [wa; wb]) = Err BadRuleError /\
  bad_rule (PAtomValue T_Integer wa) ROther = Err BadRuleError /\
  bad_rule (PAtomValue T_Integer wa) (rhs_of (PyFunc1 kf) [wb]) = Err BadRuleError /\
  bad_rule (PSym (cos @ [wa])) (rhs_of (PyOp2 (py2 k2)) [wa; wb]) = Err BadRuleError /\
  bad_rule (PAtomRule wa) (rhs_of (PyOp2 (py2 k2)) [wa; wb]) = Err BadRuleError /\
  bad_rule (PHeadRule wa wb) (rhs_of (PyOp1 (py1 k1)) [wa]) = Err BadRuleError /\
  bad_rule (PSym (Add @ [wa])) (rhs_of (PyOpN (pyn kn)) [wa]) = Err BadRuleError.
Proof. repeat split. Qed.
Definition sdiff1 := add_distributive (sym_diff_new Add Mul zero one) Vector.
Definition sdiff2 := fst (diff_setitem (fst (diff_setitem sdiff1 (ModelDiff.STuple [sin @ [wa]; wa]) (cos @ [wa])))
  (ModelDiff.STuple [cos @ [wa]; wa]) (Mul @ [negone; sin @ [wa]])).
Example test_SymDifferentiator :
  let d0 := sym_diff_new Add Mul zero one in
  sym_diff_call d0 x x 1 = Ok one /\ sym_diff_call d0 x x 2 = Ok zero /\ sym_diff_call d0 x y 1 = Ok zero /\
  sym_diff_call sdiff1 (Vector @ [x; y]) x 1 = Ok (Vector @ [one; zero]) /\
  sym_diff_call sdiff2 (sin @ [x]) x 1 = Ok (cos @ [x]) /\
  sym_diff_call sdiff2 (sin @ [sin @ [x]]) x 1 = Ok (Mul @ [cos @ [sin @ [x]]; cos @ [x]]) /\
  snd (diff_setitem sdiff2 (ModelDiff.STuple [sin @ [wa]; wa; wb]) (cos @ [wa])) = Err TypeError /\
  snd (diff_setitem sdiff2 (ModelDiff.STuple [sin @ [wa; wa]; wa]) (cos @ [wa])) = Err TypeError.
Proof. repeat split; vm_compute; reflexivity. Qed.

(** ** tests/test_simplecas.py *)
Definition sq_plus_1 := m_add (m_pow x i2) i1.
Example test_xreplace :
  xreplace sq_plus_1 [(E0 x, n_ 1)] = Ok (m_add (m_pow i1 i2) i1) /\
  xreplace sq_plus_1 [(E0 x, E0 y)] = Ok (m_add (m_pow y i2) i1) /\
  xreplace sq_plus_1 [(E0 (m_pow x i2), E0 y)] = Ok (m_add y i1) /\
  xreplace sq_plus_1 [(E0 sq_plus_1, E0 y)] = Ok y /\
  xreplace sq_plus_1 [(E0 y, n_ 1)] = Ok sq_plus_1 /\
  xreplace sq_plus_1 [(n_ 1, n_ 2)] = Ok (m_add (m_pow x i2) i2).
Proof. repeat split; vm_compute; reflexivity. Qed.
Example test_simplecas_operations :
  expr_pos x = x /\ expr_neg x = Mul @ [negone; x] /\
  op_add (E0 x) (E0 x) = Ok (Add @ [x; x]) /\ op_sub (E0 x) (E0 x) = Ok (Add @ [x; Mul @ [negone; x]]) /\
  op_mul (E0 i2) (E0 x) = Ok (Mul @ [i2; x]) /\ op_truediv (E0 i2) (E0 x) = Ok (Mul @ [i2; Pow @ [x; negone]]) /\
  op_pow (E0 i2) (E0 x) = Ok (Pow @ [i2; x]).
Proof. repeat split. Qed.
Example test_simplecas_operations_expressify :
  op_add (E0 x) (n_ 2) = Ok (Add @ [x; i2]) /\ op_add (n_ 2) (E0 x) = Ok (Add @ [i2; x]) /\
  op_sub (E0 x) (n_ 2) = Ok (Add @ [x; Mul @ [negone; i2]]) /\ op_sub (n_ 2) (E0 x) = Ok (Add @ [i2; Mul @ [negone; x]]) /\
  op_mul (E0 x) (n_ 2) = Ok (Mul @ [x; i2]) /\ op_mul (n_ 2) (E0 x) = Ok (Mul @ [i2; x]) /\
  op_truediv (E0 x) (n_ 2) = Ok (Mul @ [x; Pow @ [i2; negone]]) /\ op_truediv (n_ 2) (E0 x) = Ok (Mul @ [i2; Pow @ [x; negone]]) /\
  op_pow (E0 x) (n_ 2) = Ok (Pow @ [x; i2]) /\ op_pow (n_ 2) (E0 x) = Ok (Pow @ [i2; x]).
Proof. repeat split. Qed.
Example test_simplecas_operations_bad_type :
  map (fun op => fst (py_binop op (OExpr x) OOther empty_heap)) [OpAdd; OpSub; OpMul; OpDiv; OpPow] = repeat (Err TypeError) 5 /\
  map (fun op => fst (py_binop op OOther (OExpr x) empty_heap)) [OpAdd; OpSub; OpMul; OpDiv; OpPow] = repeat (Err TypeError) 5.
Proof. split; reflexivity. Qed.
Definition as_function (e : tree) (ps args : list pyobj) : res tree := do fn <- expr_function e ps; expr_function_call fn args.
Example test_simplecas_as_function :
  as_function (call1 cos x) [E0 x] [n_ 1] = Ok (call1 cos i1) /\
  as_function (call1 cos (m_add x y)) [E0 x] [n_ 1] = Ok (call1 cos (m_add i1 y)) /\
  as_function (call1 cos (m_add x y)) [E0 y] [n_ 1] = Ok (call1 cos (m_add x i1)) /\
  as_function (m_add (call1 cos x) (call1 sin y)) [E0 x; E0 y] [n_ 1; n_ 2] = Ok (m_add (call1 cos i1) (call1 sin i2)) /\
  as_function (m_add (call1 cos x) (call1 sin y)) [E0 y; E0 x] [n_ 1; n_ 2] = Ok (m_add (call1 cos i2) (call1 sin i1)) /\
  as_function (call1 cos x) [E0 y] [n_ 1] = Ok (call1 cos x) /\
  as_function (call1 cos x) [E0 (call1 cos x)] [n_ 1] = Ok i1.
Proof. repeat split; vm_compute; reflexivity. Qed.
Example test_simplecas_repr :
  map eval_repr [x; y; f; sin; call1 f x; call1 sin (call1 cos x); m_add x y; m_add i1 i2; m_mul x y; m_pow x i2; m_add (m_add x x) x]
  = map Ok ["x"; "y"; "f"; "sin"; "f(x)"; "sin(cos(x))"; "(x + y)"; "(1 + 2)"; "(x*y)"; "x**2"; "((x + x) + x)"].
Proof. vm_compute; reflexivity. Qed.
Example test_simplecas_latex :
  map eval_latex [x; y; call1 f x; call1 sin x; call1 sin (call1 cos x); m_add x y; m_add i1 i2; m_mul x y; m_pow x i2; m_add (m_add x x) x]
  = map Ok ["x"; "y"; "f(x)"; "\sin(x)"; "\sin(\cos(x))"; "(x + y)"; "(1 + 2)"; "(x \times y)"; "x^{2}"; "((x + x) + x)"] /\
  repr_latex (call1 sin x) = Ok "$\sin(x)$".
Proof. split; vm_compute; reflexivity. Qed.
Fixpoint make_expr (n : nat) : tree := match n with O => m_add (m_pow x i2) x | S k => let e := make_expr k in m_add (m_pow e i2) e end.
Example test_simplecas_count_ops :
  map (fun e => (count_ops_graph e, count_ops_tree e))
    [x; i1; call1 sin x; m_add (call1 sin (call1 sin x)) (call1 sin x); m_add (m_pow (call1 sin x) i2) (call1 sin x); make_expr 5]
  = [(Ok 1, Ok 1); (Ok 1, Ok 1); (Ok 2, Ok 2); (Ok 4, Ok 6); (Ok 5, Ok 7); (Ok 14, Ok 253)].
Proof. vm_compute; reflexivity. Qed.
(** expr.py, docstring of count_ops_graph: n = 1, 2, 5 *)
Example doc_count_ops_graph :
  map (fun e => (count_ops_graph e, count_ops_tree e)) [make_expr 0; make_expr 1; make_expr 4] = [(Ok 4, Ok 5); (Ok 6, Ok 13); (Ok 12, Ok 125)].
Proof. vm_compute; reflexivity. Qed.
Example test_simplecas_differentation :
  expr_diff i1 x 1 = Ok zero /\ expr_diff x x 1 = Ok one /\ expr_diff (call1 sin i1) x 1 = Ok zero /\
  expr_diff (m_mul i2 (call1 sin x)) x 1 = Ok (m_mul i2 (call1 cos x)) /\
  expr_diff (m_pow x (int 3)) x 1 = Ok (m_mul (int 3) (m_pow x (call2 Add (int 3) (int (-1))))) /\
  expr_diff (call1 sin x) x 1 = Ok (call1 cos x) /\ expr_diff (call1 cos x) x 1 = Ok (expr_neg (call1 sin x)) /\
  expr_diff (m_add (call1 sin x) (call1 cos x)) x 1 = Ok (m_add (call1 cos x) (m_mul (int (-1)) (call1 sin x))) /\
  expr_diff (m_pow (call1 sin x) i2) x 1 = Ok (m_mul (m_mul i2 (m_pow (call1 sin x) (call2 Add i2 (int (-1))))) (call1 cos x)) /\
  expr_diff (m_mul x (call1 sin x)) x 1 = Ok (m_add (m_mul i1 (call1 sin x)) (m_mul x (call1 cos x))).
Proof. repeat split; vm_compute; reflexivity. Qed.
(** expr.py, docstring of Expr.diff *)
Definition sin5 := call1 sin (call1 sin (call1 sin (call1 sin (call1 sin x)))).
Example doc_diff : (do d <- expr_diff (call1 sin x) x 4; eval_repr d) = Ok "(-1*(-1*sin(x)))".
Proof. vm_compute; reflexivity. Qed.
Definition fdiff := diff_setitem cas_diff (ModelDiff.STuple [call1 f wa; wa]) (m_add i1 (m_pow (call1 f wa) i2)).
Example test_simplecas_differentiation_rules :
  snd fdiff = Ok tt /\
  sym_diff_call (fst fdiff) (call1 f (call1 f x)) x 1 =
    Ok (m_mul (m_add i1 (m_pow (call1 f (call1 f x)) i2)) (m_add i1 (m_pow (call1 f x) i2))) /\
  snd (diff_setitem cas_diff (ModelDiff.STuple [call1 f wa; wa; wb]) (call1 f wa)) = Err TypeError /\
  snd (diff_setitem cas_diff (ModelDiff.STuple [f @ [wa; wa]; wa]) (call1 f wa)) = Err TypeError.
Proof. repeat split; vm_compute; reflexivity. Qed.
Example test_simplecas_bin_expand :
  let e1 := Add @ [int 1; int 2; int 3; int 4] in
  let e2 := Add @ [x; y; Mul @ [x; y; i1; call1 f x]] in
  bin_expand e1 = Ok (call2 Add (call2 Add (call2 Add (int 1) (int 2)) (int 3)) (int 4)) /\
  eval_repr e1 = Ok "(1 + 2 + 3 + 4)" /\ (do b <- bin_expand e1; eval_repr b) = Ok "(((1 + 2) + 3) + 4)" /\
  bin_expand e2 = Ok (call2 Add (call2 Add x y) (call2 Mul (call2 Mul (call2 Mul x y) i1) (call1 f x))) /\
  eval_repr e2 = Ok "(x + y + (x*y*1*f(x)))" /\ (do b <- bin_expand e2; eval_repr b) = Ok "((x + y) + (((x*y)*1)*f(x)))".
Proof. repeat split; vm_compute; reflexivity. Qed.

Definition rows_ (l : list (list pyobj)) : pyrows := PRows (map PRow l).
Definition with_new {A} (l : list (list pyobj)) (k : matrix -> hm A) : res A := fst ((let! m <- matrix_new (rows_ l); k m) empty_heap).
Example test_simplecas_Matrix_constructor :
  (exists M h, matrix_new (rows_ [[n_ 1; n_ 2; n_ 3]; [E0 x; n_ 0; n_ 0]]) empty_heap = (Ok M, h) /\
     m_nrows M = 2%nat /\ m_ncols M = 3%nat /\ nth (m_elements M) (h_lists h) [] = [int 1; int 2; int 3; x] /\
     m_graph M = List_ @ [int 1; int 2; int 3; x] /\
     nth (m_entrymap M) (h_dicts h) [] = [((0, 0), 0); ((0, 1), 1); ((0, 2), 2); ((1, 0), 3)]%nat) /\
  fst (matrix_new PRowsNotList empty_heap) = Err TypeError /\ fst (matrix_new (PRows [PNotList]) empty_heap) = Err TypeError /\
  fst (matrix_new (rows_ [[n_ 1; n_ 2]; [n_ 3]]) empty_heap) = Err TypeError /\
  (* ExpressifyError is a TypeError: simplecas/exceptions.py *)
  fst (matrix_new (rows_ [[n_ 1; n_ 2]; [n_ 3; POther]]) empty_heap) = Err ExpressifyError.
Proof. split; [eexists _, _; split; [vm_compute; reflexivity|repeat split]|repeat split]. Qed.
Definition at_ (M : matrix) (l : list pyobj) : hm tree := matrix_getitem M (ITuple l).
Definition m_items := [[n_ 1; n_ 2]; [E0 x; n_ 0]].
Example test_simplecas_Matrix_getitem :
  map (fun p => with_new m_items (fun M => at_ M p))
    [[n_ 0; n_ 0]; [n_ 0; n_ 1]; [n_ 1; n_ 0]; [n_ 1; n_ 1]; [n_ 0; n_ 1; n_ 2]; [POther; POther]; [n_ (-1); n_ (-1)]; [n_ 2; n_ 2]]
  = [Ok i1; Ok i2; Ok x; Ok zero; Err TypeError; Err TypeError; Err IndexError; Err IndexError] /\
  with_new m_items (fun M => matrix_getitem M INotTuple) = Err TypeError.
Proof. split; vm_compute; reflexivity. Qed.
Example test_simplecas_Matrix_tolist :
  with_new [[E0 one; E0 zero]; [E0 x; E0 zero]] matrix_tolist = Ok [[one; zero]; [x; zero]].
Proof. vm_compute; reflexivity. Qed.
Example test_simplecas_Matrix_repr : with_new m_items matrix_repr = Ok "Matrix([[1, 2], [x, 0]])".
Proof. vm_compute; reflexivity. Qed.
Definition obj_tolist (o : obj) : hm (list (list tree)) := match o with OMatrix m => matrix_tolist m | _ => hraise AttributeError end.
Example test_simplecas_Matrix_add :
  with_new [[n_ 1; n_ 0]; [E0 x; n_ 0]] (fun M1 => let! M2 <- matrix_new (rows_ [[n_ 0; n_ 1]; [E0 x; n_ 0]]);
    let! Sm <- py_binop OpAdd (OMatrix M1) (OMatrix M2); obj_tolist Sm) = Ok [[one; one]; [m_add x x; zero]] /\
  with_new [[n_ 1; n_ 0]; [E0 x; n_ 0]] (fun M1 => let! M3 <- matrix_new (rows_ [[n_ 0]]); py_binop OpAdd (OMatrix M1) (OMatrix M3)) = Err TypeError /\
  with_new [[n_ 1; n_ 0]; [E0 x; n_ 0]] (fun M1 => py_binop OpAdd (OMatrix M1) OOther) = Err TypeError.
Proof. repeat split; vm_compute; reflexivity. Qed.
Example test_simplecas_Matrix_diff :
  with_new m_items (fun M => let! D <- py_matrix_diff M (OExpr x); matrix_tolist D) = Ok [[zero; zero]; [one; zero]] /\
  with_new [[n_ 1; n_ 2]; [n_ 3; n_ 4]] (fun M => let! D <- py_matrix_diff M (OExpr x); matrix_tolist D) = Ok [[zero; zero]; [zero; zero]] /\
  with_new m_items (fun M => py_matrix_diff M OOther) = Err TypeError.
Proof. repeat split; vm_compute; reflexivity. Qed.

(** A text with the quotes of the Python source written as in Coq. *)
Definition ir_header := "
; ModuleID = ""mod1""
target triple = ""unknown-unknown-unknown""
target datalayout = """"

declare double    @llvm.pow.f64(double %Val1, double %Val2)
declare double    @llvm.sin.f64(double %Val)
declare double    @llvm.cos.f64(double %Val)

".
Definition ir_expr := "define double @""jit_func1""(double %""x"")
{
%"".0"" = call double @llvm.cos.f64(double %""x"")
%"".1"" = call double @llvm.sin.f64(double %"".0"")
%"".2"" = call double @llvm.pow.f64(double %""x"", double 0x4000000000000000)
%"".3"" = fmul double %"".1"", %"".2""
%"".4"" = fadd double %"".3"", 0x3ff0000000000000
ret double %"".4""
}".
Example test_simplecas_to_llvm_ir :
  expr_to_llvm_ir (m_add (m_mul (call1 sin (call1 cos x)) (m_pow x i2)) i1) [OExpr x] = Ok (ir_header ++ ir_expr) /\
  expr_to_llvm_ir (call1 f x) [OExpr x] = Err LLVMNotImplementedError /\
  expr_to_llvm_ir (call1 f x) [] = Err LLVMNotImplementedError.
Proof. repeat split; vm_compute; reflexivity. Qed.
(** expr.py, docstring of Expr.to_llvm_ir *)
Definition ir_doc := "define double @""jit_func1""(double %""x"")
{
%"".0"" = call double @llvm.sin.f64(double %""x"")
%"".1"" = call double @llvm.sin.f64(double %"".0"")
%"".2"" = fadd double %"".0"", %"".1""
ret double %"".2""
}".
Example doc_to_llvm_ir : expr_to_llvm_ir (m_add (call1 sin x) (call1 sin (call1 sin x))) [OExpr x] = Ok (ir_header ++ ir_doc).
Proof. vm_compute; reflexivity. Qed.
Definition ir_matrix := "define void @""jit_func1""(double* %""_out"", double %""x"")
{
%"".0"" = call double @llvm.cos.f64(double %""x"")
%"".1"" = call double @llvm.sin.f64(double %""x"")
%"".2"" = fmul double 0xbff0000000000000, %"".1""
%"".3"" = getelementptr double, double* %""_out"", i32 0
store double %"".0"", double* %"".3""
%"".4"" = getelementptr double, double* %""_out"", i32 1
store double %"".1"", double* %"".4""
%"".5"" = getelementptr double, double* %""_out"", i32 2
store double %"".2"", double* %"".5""
%"".6"" = getelementptr double, double* %""_out"", i32 3
store double %"".0"", double* %"".6""
ret void
}".
Definition rotation := [[E0 (call1 cos x); E0 (call1 sin x)]; [E0 (expr_neg (call1 sin x)); E0 (call1 cos x)]].
Example test_simplecas_to_llvm_ir_matrix :
  with_new rotation (fun M => matrix_to_llvm_ir M [OExpr x]) = Ok (ir_header ++ ir_matrix).
Proof. vm_compute; reflexivity. Qed.
Example test_simplecas_lambdify_llvm_bad :
  fst (lambdify (fun s => Ok s) [OExpr x] OOther empty_heap) = Err TypeError /\
  with_new [[E0 (call1 g x)]] (fun M => lambdify (fun s => Ok s) [OExpr x] (OMatrix M)) = Err LLVMNotImplementedError /\
  with_new [[E0 x]] (fun M => lambdify (fun s => Ok s) [] (OMatrix M)) = Err LLVMNotImplementedError.
Proof. repeat split; vm_compute; reflexivity. Qed.
(** With SymPy's constructors taken as inert. *)
Definition s_x := SSym "x" 0.
Definition s_sin := SApp SSin [s_x]. Definition s_cos := SApp SCos [s_x].
Definition inert : sympy_ops := mkSympy (fun l => Ok (SApp SAdd l)) (fun l => Ok (SApp SMul l)) (fun a b => Ok (SApp SPow [a; b]))
  (fun a => Ok (SApp SSin [a])) (fun a => Ok (SApp SCos [a])) (fun n l => Ok (SApp (SUndef n 0) l)).
Definition cases := [(call1 sin x, s_sin); (call1 cos x, s_cos);
  (m_add (m_pow (call1 cos x) i2) (m_pow (call1 sin x) i2), SApp SAdd [SApp SPow [s_cos; SInt 2]; SApp SPow [s_sin; SInt 2]]);
  (m_mul (call1 cos x) (call1 sin x), SApp SMul [s_cos; s_sin]); (call1 f x, SApp (SUndef "f" 0) [s_x])].
Example test_simplecas_to_sympy :
  map (fun c => to_sympy inert (fst c)) cases = map (fun c => Ok (snd c)) cases /\
  map (fun c => from_sympy (snd c)) cases = map (fun c => Ok (fst c)) cases /\
  from_sympy (SApp (SOtherClass 0) [s_x]) = Err NotImplementedErr /\ from_sympy (SOtherAtom 0) = Err NotImplementedErr.
Proof. repeat split; vm_compute; reflexivity. Qed.
