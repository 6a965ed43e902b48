(** * Model of src/protosym/simplecas/expr.py and functions.py. An Expr is represented by its Tree. *)
From Coq Require Import DecimalString DecimalZ.
From Verif Require Import Py ModelTree ModelEval ModelDiff ModelSym.

(** simplecas/expr.py:538-540 *)
Definition T_Integer := mkType 0 "Integer".
Definition T_Symbol := mkType 1 "Symbol".
Definition T_Function := mkType 2 "Function".
Definition Integer (z : Z) : tree := Tr (mkAtom T_Integer (VInt z)).
Definition Symbol (s : string) : tree := Tr (mkAtom T_Symbol (VStr s)).
Definition Function (s : string) : tree := Tr (mkAtom T_Function (VStr s)).

(** simplecas/expr.py:542-544 *)
Definition zero := Integer 0.
Definition one := Integer 1.
Definition negone := Integer (-1).
(** simplecas/expr.py:552-557 *)
Definition Pow := Function "pow".
Definition sin := Function "sin".
Definition cos := Function "cos".
Definition Add := Function "Add".
Definition Mul := Function "Mul".
Definition List_ := Function "List".
(** simplecas/expr.py:566-567 and functions.py:30-31 *)
Definition wa := new_wild "a".
Definition wb := new_wild "b".

(** ** Python objects used as operands *)
Inductive pyobj := PExpr (t : tree) | PInt (z : Z) | PBool (b : bool) | POther.

(** simplecas/expr.py:32-73 expressify. [isinstance(True, int)] holds, and at this level the atom
    [Integer(True)] is [Integer(1)]: the keys [(Integer, True)] and [(Integer, 1)] are equal. *)
Definition expressify (o : pyobj) : res tree :=
  match o with
  | PExpr t => Ok t                                                           (* 68-69 *)
  | PInt z => Ok (Integer z)                                                  (* 70-71 *)
  | PBool b => Ok (Integer (if b then 1 else 0))
  | POther => Err ExpressifyError                                             (* 72-73 *)
  end.

(** The result of a binary method: a value or NotImplemented. *)
Inductive method_result := Value (t : tree) | NotImplemented.

(** simplecas/expr.py:76-88 expressify_other *)
Definition expressify_other (method : tree -> tree -> tree) (self : tree) (other : pyobj)
    : method_result :=
  match other with
  | PExpr t => Value (method self t)                                          (* 81, 86 *)
  | _ => match expressify other with
         | Ok t => Value (method self t)                                      (* 83, 86 *)
         | Err _ => NotImplemented                                            (* 84-85 *)
         end
  end.

(** simplecas/expr.py:171-175 Expr.__call__ on operands that are Expr already *)
Definition call1 (h a : tree) : tree := tree_call h [a].
Definition call2 (h a b : tree) : tree := tree_call h [a; b].
(** simplecas/expr.py:171-175 Expr.__call__ *)
Definition expr_call (h : tree) (args : list pyobj) : res tree :=
  do args_expr <- mapM expressify args;
  Ok (tree_call h args_expr).

(** simplecas/expr.py:201-203 *)
Definition expr_pos (self : tree) : tree := self.
(** simplecas/expr.py:205-207 *)
Definition expr_neg (self : tree) : tree := call2 Mul negone self.
(** simplecas/expr.py:209-257, the functions below the decorators *)
Definition m_add (self other : tree) : tree := call2 Add self other.               (* 212 *)
Definition m_radd (self other : tree) : tree := call2 Add other self.              (* 217 *)
Definition m_sub (self other : tree) : tree := call2 Add self (call2 Mul negone other).  (* 222 *)
Definition m_rsub (self other : tree) : tree := call2 Add other (call2 Mul negone self). (* 227 *)
Definition m_mul (self other : tree) : tree := call2 Mul self other.               (* 232 *)
Definition m_rmul (self other : tree) : tree := call2 Mul other self.              (* 237 *)
Definition m_truediv (self other : tree) : tree := call2 Mul self (call2 Pow other negone). (* 242 *)
Definition m_rtruediv (self other : tree) : tree := call2 Mul other (call2 Pow self negone). (* 247 *)
Definition m_pow (self other : tree) : tree := call2 Pow self other.               (* 252 *)
Definition m_rpow (self other : tree) : tree := call2 Pow other self.              (* 257 *)

(** Python's dispatch of [left op right] when one operand is an Expr: the method of the left
    operand, or the reflected method of the right one when the left one is not an Expr; TypeError
    if the result is NotImplemented (and the other operand's class does not know Expr). *)
Definition binop (method rmethod : tree -> tree -> tree) (left right : pyobj) : res tree :=
  let r := match left, right with
           | PExpr a, _ => expressify_other method a right
           | _, PExpr b => expressify_other rmethod b left
           | _, _ => NotImplemented
           end in
  match r with Value t => Ok t | NotImplemented => Err TypeError end.
Definition op_add := binop m_add m_radd.
Definition op_sub := binop m_sub m_rsub.
Definition op_mul := binop m_mul m_rmul.
Definition op_truediv := binop m_truediv m_rtruediv.
Definition op_pow := binop m_pow m_rpow.

(** simplecas/expr.py:177-199, 510-531: xreplace, as_function, ExprFunction. [reps] are the items
    of a dict: its keys are distinct Python objects. *)
Definition expr_function (expr : tree) (params : list pyobj) : res subs_func :=
  do params_rep <- mapM expressify params;                                    (* 521 *)
  subs_new expr params_rep.                                                   (* 522 *)
Definition expr_function_call (func : subs_func) (args : list pyobj) : res tree :=
  do args_rep <- mapM expressify args;                                        (* 526 *)
  subs_call func args_rep.                                                    (* 527-531 *)
Definition xreplace (self : tree) (reps : list (pyobj * pyobj)) : res tree :=
  do func <- expr_function self (map fst reps);                               (* 187 *)
  expr_function_call func (map snd reps).                                     (* 188 *)

(** ** Differentiation *)
(** simplecas/expr.py:580-585. Statements that raise would leave the properties unchanged; the
    proofs show that none does. *)
Definition diff_statements : list (subscript * tree) :=
  [ (STuple [call1 sin wa; wa], call1 cos wa);                                (* 582 *)
    (STuple [call1 cos wa; wa], expr_neg (call1 sin wa));                     (* 583 *)
    (STuple [m_pow wa wb; wa],
       m_mul wb (m_pow wa (m_add wb (Integer (-1))))) ].                      (* 584 *)
Definition cas_diff : diff_props :=
  add_distributive
    (fold_left (fun p st => fst (diff_setitem p (fst st) (snd st))) diff_statements
       (sym_diff_new Add Mul zero one))                                       (* 580 *)
    List_.                                                                    (* 585 *)

(** simplecas/expr.py:421-468 Expr.diff *)
Definition expr_diff (self sym : tree) (ntimes : Z) : res tree :=
  repeatM (fun deriv => sym_diff_call cas_diff deriv sym 1) (Z.to_nat ntimes) self.

(** ** Counting *)
(** simplecas/expr.py:569-574 *)
Definition count_ops_tree_ev : res (evaluator Z) :=
  run_statements new_evaluator
    [ (PAtomRule wa, AtomFunc (fun _ => Ok 1%Z), [wa]);
      (PHeadRule wa wb, HeadOp (fun _ counts => Ok (1 + fold_left Z.add counts 0)%Z), [wa; wb]) ].
(** simplecas/expr.py:356-361 *)
Definition count_ops_tree (self : tree) : res Z :=
  do ev <- count_ops_tree_ev; sym_evaluate (fun _ => false) ev self None.
(** simplecas/expr.py:363-419 *)
Definition count_ops_graph (self : tree) : res Z :=
  do l <- topological_sort self false []; Ok (Z.of_nat (length l)).

(** ** bin_expand *)
(** [reduce(f, args)]: TypeError if empty. *)
Definition reduce {A} (f : A -> A -> A) (args : list A) : res A :=
  match args with
  | [] => Err TypeError
  | a :: r => Ok (fold_left f r a)
  end.
(** simplecas/expr.py:559-561 *)
Definition bin_expand_ev : evaluator tree :=
  add_opn (add_opn new_transformer Add (pyn (reduce (call2 Add)))) Mul (pyn (reduce (call2 Mul))).
(** simplecas/expr.py:470-480 *)
Definition bin_expand (self : tree) : res tree :=
  evaluate (fun _ => false) bin_expand_ev self None.

(** ** Printing *)
(** [str] of an int or str; the limit on the number of digits, by which CPython raises ValueError for ints of more
    than 4300 digits, is in ModelDigits. *)
Definition str_int (z : Z) : string := NilEmpty.string_of_int (Z.to_int z).
Definition str_value (v : pyval) : string :=
  match v with VInt z => str_int z | VStr s => s end.
(** core/tree.py:164-172 Tree.__str__, with core/atom.py:180-182 Atom.__str__. [str(Tree())] raises
    AttributeError. *)
Fixpoint tree_str (t : tree) : res string :=
  match t with
  | Atm a => Ok (str_value (atom_value a))
  | Node [] => Err AttributeError
  | Node (h :: args) =>
      do hs <- tree_str h;
      do l <- mapM tree_str args;
      Ok (hs ++ "(" ++ join ", " l ++ ")")%string
  end.

(** simplecas/functions.py:60-66 *)
Definition repr_atom : tree -> res string := tree_str.
Definition repr_call (head : tree) (args : list string) : res string :=
  do h <- tree_str head; Ok (h ++ "(" ++ join ", " args ++ ")")%string.
Definition str_from (v : pyval) : res string := Ok (str_value v).
Definition repr_add (args : list string) : res string := Ok ("(" ++ join " + " args ++ ")")%string.
Definition repr_mul (args : list string) : res string := Ok ("(" ++ join "*" args ++ ")")%string.
Definition repr_pow (b e : string) : res string := Ok (b ++ "**" ++ e)%string.

(** simplecas/functions.py:69-76 *)
Definition eval_repr_ev : res (evaluator string) :=
  run_statements new_evaluator
    [ (PHeadRule wa wb, HeadOp repr_call, [wa; wb]);
      (PAtomRule wa, AtomFunc repr_atom, [wa]);
      (PAtomValue T_Integer wa, PyFunc1 str_from, [wa]);
      (PAtomValue T_Symbol wa, PyFunc1 str_from, [wa]);
      (PAtomValue T_Function wa, PyFunc1 str_from, [wa]);
      (PSym (call1 Add (star wa)), PyOpN (pyn repr_add), [wa]);
      (PSym (call1 Mul (star wa)), PyOpN (pyn repr_mul), [wa]);
      (PSym (m_pow wa wb), PyOp2 (py2 repr_pow), [wa; wb]) ].
(** simplecas/expr.py:155-161, 259-261 *)
Definition eval_repr (self : tree) : res string :=
  do ev <- eval_repr_ev; sym_evaluate (fun _ => false) ev self None.

(** simplecas/functions.py:84-88 *)
Definition latex_add (args : list string) : res string := Ok ("(" ++ join " + " args ++ ")")%string.
Definition latex_mul (args : list string) : res string := Ok ("(" ++ join " \times " args ++ ")")%string.
Definition latex_pow (b e : string) : res string := Ok (b ++ "^{" ++ e ++ "}")%string.
Definition latex_sin (a : string) : res string := Ok ("\sin(" ++ a ++ ")")%string.
Definition latex_cos (a : string) : res string := Ok ("\cos(" ++ a ++ ")")%string.
(** simplecas/functions.py:90-98 *)
Definition eval_latex_ev : res (evaluator string) :=
  run_statements new_evaluator
    [ (PHeadRule wa wb, HeadOp repr_call, [wa; wb]);
      (PAtomValue T_Integer wa, PyFunc1 str_from, [wa]);
      (PAtomValue T_Symbol wa, PyFunc1 str_from, [wa]);
      (PAtomValue T_Function wa, PyFunc1 str_from, [wa]);
      (PSym (call1 Add (star wa)), PyOpN (pyn latex_add), [wa]);
      (PSym (call1 Mul (star wa)), PyOpN (pyn latex_mul), [wa]);
      (PSym (m_pow wa wb), PyOp2 (py2 latex_pow), [wa; wb]);
      (PSym (call1 sin wa), PyOp1 (py1 latex_sin), [wa]);
      (PSym (call1 cos wa), PyOp1 (py1 latex_cos), [wa]) ].
(** simplecas/expr.py:263-274 *)
Definition eval_latex (self : tree) : res string :=
  do ev <- eval_latex_ev; sym_evaluate (fun _ => false) ev self None.

(** ** Floating point evaluation, over any implementation of the primitives *)
(** simplecas/functions.py:40-45: float, math.fsum, math.prod, math.pow, math.sin, math.cos. *)
Record float_ops (F : Type) := mkFloat {
  fl_of_int : Z -> res F;
  fl_fsum : list F -> res F;
  fl_prod : list F -> res F;
  fl_pow : F -> F -> res F;
  fl_sin : F -> res F;
  fl_cos : F -> res F
}.
Arguments fl_of_int {F}. Arguments fl_fsum {F}. Arguments fl_prod {F}.
Arguments fl_pow {F}. Arguments fl_sin {F}. Arguments fl_cos {F}.
(** simplecas/functions.py:47-52. [float(v)] of a str value does not arise: Integer atoms hold ints. *)
Definition eval_f64_ev {F} (o : float_ops F) : res (evaluator F) :=
  run_statements new_evaluator
    [ (PAtomValue T_Integer wa,
         PyFunc1 (fun v => match v with VInt z => fl_of_int o z | VStr _ => Err ValueError end), [wa]);
      (PSym (call1 Add (star wa)), PyOpN (pyn (fl_fsum o)), [wa]);
      (PSym (call1 Mul (star wa)), PyOpN (pyn (fl_prod o)), [wa]);
      (PSym (m_pow wa wb), PyOp2 (py2 (fl_pow o)), [wa; wb]);
      (PSym (call1 sin wa), PyOp1 (py1 (fl_sin o)), [wa]);
      (PSym (call1 cos wa), PyOp1 (py1 (fl_cos o)), [wa]) ].
(** simplecas/expr.py:330-354 *)
Definition eval_f64 {F} (o : float_ops F) (self : tree) (values : option (dict tree F)) : res F :=
  do ev <- eval_f64_ev o; sym_evaluate (fun _ => false) ev self values.
