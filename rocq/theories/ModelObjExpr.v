(** * Model of the classes Sym, Expr, ExprFunction and SymDifferentiator at the level of objects, as in ModelObjects.v,
    of the import of simplecas/expr.py, and of programs that a user writes with them *)
From Verif Require Import Py ModelTree ModelIntern ModelEval ModelDiff ModelSym ModelCas ModelApi ModelObjects ModelObjEval.

(** Evaluation of a list of arguments or of a list comprehension. *)
Fixpoint pmap {A B} (f : A -> prog B) (l : list A) : prog (list B) :=
  match l with [] => ret [] | x :: r => run y <- f x; run ys <- pmap f r; ret (y :: ys) end.

(** core/sym.py:138-158 Sym.__new__ of the class Expr, which has number 0 *)
Definition o_Expr (a : addr) : prog addr := New (KSym 0 a) ret.
(** The attribute [rep] of a Sym: core/sym.py:136, 154 *)
Definition o_rep (e : addr) : prog addr :=
  Read e (fun o => match o with OSym _ a => ret a | _ => Ret (Err AttributeError) end).
(** core/sym.py:56-59 SymAtomType.__call__ of an atom type that Expr.new_atom has made (191-203, 45-50) *)
Definition o_new (ty : atype) (v : pyval) : prog addr :=
  run atom <- o_Atom (ty_id ty) v;                                              (* 58 *)
  run rep <- o_Tr atom;
  o_Expr rep.                                                                   (* 59 *)
(** core/sym.py:205-216 Sym.new_wild *)
Definition o_new_wild (name : string) : prog addr := o_new T_Wild (VStr name).
(** core/sym.py:160-163 Sym.head and 165-169 Sym.args *)
Definition o_head (e : addr) : prog addr :=
  run rep <- o_rep e;
  run cs <- o_children rep;
  run h <- lift (getitem cs 0);
  o_Expr h.
Definition o_args (e : addr) : prog (list addr) :=
  run rep <- o_rep e;
  run cs <- o_children rep;
  pmap o_Expr (tl cs).

(** simplecas/expr.py:32-73 expressify, of an Expr or an int *)
Inductive operand (X : Type) := OE (e : X) | OI (z : Z).
Arguments OE {X} e. Arguments OI {X} z.
Definition o_expressify (o : operand addr) : prog addr :=
  match o with OE e => ret e | OI z => o_new T_Integer (VInt z) end.
(** simplecas/expr.py:171-175 Expr.__call__ *)
Definition o_expr_call (self : addr) (args : list (operand addr)) : prog addr :=
  run args_expr <- pmap o_expressify args;                                      (* 173 *)
  run args_rep <- pmap o_rep args_expr;                                         (* 174 *)
  run rep <- o_rep self;
  run r <- o_call rep args_rep;
  o_Expr r.                                                                     (* 175 *)

(** The names that simplecas/expr.py defines. *)
Record o_module := mkModule {
  om_zero : addr; om_one : addr; om_negone : addr;
  om_Pow : addr; om_sin : addr; om_cos : addr; om_Add : addr; om_Mul : addr; om_List : addr
}.
Section Module.
  Context (g : o_module).
  Definition o_call2 (h a b : addr) : prog addr := o_expr_call h [OE a; OE b].
  (** simplecas/expr.py:205-257 *)
  Definition o_neg (self : addr) : prog addr := o_call2 (om_Mul g) (om_negone g) self.
  Definition o_method (op : operator) (self other : addr) : prog addr :=
    match op with
    | OpAdd => o_call2 (om_Add g) self other                                    (* 212 *)
    | OpSub => run p <- o_call2 (om_Mul g) (om_negone g) other; o_call2 (om_Add g) self p (* 222 *)
    | OpMul => o_call2 (om_Mul g) self other                                    (* 232 *)
    | OpDiv => run p <- o_call2 (om_Pow g) other (om_negone g); o_call2 (om_Mul g) self p (* 242 *)
    | OpPow => o_call2 (om_Pow g) self other                                    (* 252 *)
    end.
  Definition o_rmethod (op : operator) (self other : addr) : prog addr :=
    match op with
    | OpAdd => o_call2 (om_Add g) other self                                    (* 217 *)
    | OpSub => run p <- o_call2 (om_Mul g) (om_negone g) self; o_call2 (om_Add g) other p (* 227 *)
    | OpMul => o_call2 (om_Mul g) other self                                    (* 237 *)
    | OpDiv => run p <- o_call2 (om_Pow g) self (om_negone g); o_call2 (om_Mul g) other p (* 247 *)
    | OpPow => o_call2 (om_Pow g) other self                                    (* 257 *)
    end.
  (** simplecas/expr.py:76-88 expressify_other: [self op other], and [z op self] *)
  Definition o_binop (op : operator) (self : addr) (other : operand addr) : prog addr :=
    run other' <- o_expressify other; o_method op self other'.
  Definition o_rbinop (op : operator) (z : Z) (self : addr) : prog addr :=
    run other <- o_expressify (OI z); o_rmethod op self other.
End Module.

(** simplecas/expr.py:177-199, 510-531 xreplace, as_function, ExprFunction *)
Definition o_param (o : operand addr) : prog addr := run e <- o_expressify o; o_rep e.
Definition o_xreplace (fuel : nat) (self : addr) (reps : list (operand addr * operand addr)) : prog addr :=
  run expr_rep <- o_rep self;                                                   (* 520 *)
  run params_rep <- pmap o_param (map fst reps);                                (* 521 *)
  run func <- o_subs_new fuel expr_rep params_rep;                              (* 522 *)
  run args_rep <- pmap o_param (map snd reps);                                  (* 526 *)
  run r <- o_subs_call func args_rep;                                           (* 527-531 *)
  o_Expr r.

(** [==] of the keys of [reps]: Expr by identity *)
Definition o_key_eqb (a b : operand addr) : bool :=
  match a, b with OE e, OE f => Nat.eqb e f | OI z, OI w => Z.eqb z w | _, _ => false end.

(** core/sym.py:663-669 SymDifferentiator.__call__ with ntimes=1 and simplecas/expr.py:421-468 Expr.diff *)
Definition o_sym_diff (fuel : nat) (p : o_diff_props) (expr sym : addr) : prog addr :=
  run d <- o_rep expr;                                                          (* 665 *)
  run s <- o_rep sym;                                                           (* 666 *)
  run r <- o_diff_forward fuel d s p;                                           (* 667-668 *)
  o_Expr r.                                                                     (* 669 *)
Fixpoint o_diff (fuel : nat) (p : o_diff_props) (n : nat) (deriv sym : addr) : prog addr :=
  match n with O => ret deriv | S n' => run d <- o_sym_diff fuel p deriv sym; o_diff fuel p n' d sym end.

(** core/sym.py:643-661 SymDifferentiator.__setitem__, [diff[expr, sym] = dexpr] *)
Definition o_count (l : list addr) (a : addr) : nat := length (filter (Nat.eqb a) l).
Fixpoint o_index (l : list addr) (a : addr) : res nat :=
  match l with [] => Err ValueError | b :: r => if Nat.eqb b a then Ok 0 else do i <- o_index r a; Ok (S i) end.
Definition o_setitem (fuel : nat) (p : o_diff_props) (expr sym dexpr : addr) : prog o_diff_props :=
  run expr_r <- o_rep expr;                                                     (* 650 *)
  run dexpr_r <- o_rep dexpr;                                                   (* 651 *)
  run sym_r <- o_rep sym;                                                       (* 652 *)
  run cs <- o_children expr_r;
  run head <- lift (getitem cs 0);                                              (* 654 *)
  let args_lhs := tl cs in                                                      (* 655 *)
  if negb (Nat.eqb (o_count args_lhs sym_r) 1) then Ret (Err TypeError)         (* 656-657 *)
  else
    run index <- lift (o_index args_lhs sym_r);                                 (* 658 *)
    run rhsfunc <- o_subs_new fuel dexpr_r args_lhs;                            (* 660 *)
    ret (mkODiff (od_zero p) (od_one p) (od_add p) (od_mul p) (od_distributive p)
           (dict_set o_rule_key_eqb (od_rules p) (head, index) rhsfunc)).       (* 661 *)
(** core/sym.py:636-641, core/differentiate.py:38-40 *)
Definition o_add_distributive (p : o_diff_props) (head : addr) : prog o_diff_props :=
  run rep <- o_rep head;
  ret (mkODiff (od_zero p) (od_one p) (od_add p) (od_mul p) (o_set_add (od_distributive p) rep) (od_rules p)).

(** simplecas/expr.py:538-585: the import of the module. The evaluators that it also makes, and x, y, f, g (546-550), are left out. *)
Definition o_import (fuel : nat) : prog (o_module * o_diff_props) :=
  run zero <- o_new T_Integer (VInt 0);                                         (* 542 *)
  run one <- o_new T_Integer (VInt 1);                                          (* 543 *)
  run negone <- o_new T_Integer (VInt (-1));                                    (* 544 *)
  run Pow <- o_new T_Function (VStr "pow");                                     (* 552 *)
  run sin <- o_new T_Function (VStr "sin");                                     (* 553 *)
  run cos <- o_new T_Function (VStr "cos");                                     (* 554 *)
  run Add <- o_new T_Function (VStr "Add");                                     (* 555 *)
  run Mul <- o_new T_Function (VStr "Mul");                                     (* 556 *)
  run List <- o_new T_Function (VStr "List");                                   (* 557 *)
  let g := mkModule zero one negone Pow sin cos Add Mul List in
  run a <- o_new_wild "a";                                                      (* 566 *)
  run b <- o_new_wild "b";                                                      (* 567 *)
  run add_r <- o_rep Add;                                                       (* 580, sym.py:631-634 *)
  run mul_r <- o_rep Mul;
  run zero_r <- o_rep zero;
  run one_r <- o_rep one;
  let p0 := mkODiff zero_r one_r add_r mul_r [] [] in
  run e1 <- o_expr_call sin [OE a];
  run d1 <- o_expr_call cos [OE a];
  run p1 <- o_setitem fuel p0 e1 a d1;                                          (* 582 *)
  run e2 <- o_expr_call cos [OE a];
  run s2 <- o_expr_call sin [OE a];
  run d2 <- o_neg g s2;
  run p2 <- o_setitem fuel p1 e2 a d2;                                          (* 583 *)
  run e3 <- o_binop g OpPow a (OE b);
  run x3 <- o_binop g OpAdd b (OI (-1));
  run y3 <- o_binop g OpPow a (OE x3);
  run d3 <- o_binop g OpMul b (OE y3);
  run p3 <- o_setitem fuel p2 e3 a d3;                                          (* 584 *)
  run p4 <- o_add_distributive p3 List;                                         (* 585 *)
  ret (g, p4).

(** simplecas/expr.py:559-561, 470-480 bin_expand; [reduce(head, args)] *)
Definition o_reduce (head : addr) (args : list (pyarg addr)) : prog addr :=
  match args with
  | [ASeq (x :: l)] => pfold (fun acc y => o_call head [acc; y]) l x
  | _ => Ret (Err TypeError)
  end.
Definition o_bin_expand (fuel : nat) (g : o_module) (self : addr) : prog addr :=
  run add_r <- o_rep (om_Add g);
  run mul_r <- o_rep (om_Mul g);
  run rep <- o_rep self;
  run r <- o_evaluate (fun _ => false) fuel (o_transformer [] [(add_r, (o_reduce add_r, false)); (mul_r, (o_reduce mul_r, false))]) rep [];
  o_Expr r.
(** simplecas/expr.py:363-419 count_ops_graph *)
Definition o_count_ops_graph (fuel : nat) (self : addr) : prog Z :=
  run rep <- o_rep self;
  run l <- o_topological_sort fuel rep false [];
  ret (Z.of_nat (length l)).

(** ** Programs of a user: assignments, each to a new variable. Variables are numbered. *)
Inductive statement :=
| SInteger (z : Z) | SSymbol (name : string) | SFunction (name : string)    (* Integer(z), Symbol("x"), Function("f") *)
| SBinop (op : operator) (i : nat) (o : operand nat)                        (* v + w, v + 1 *)
| SRbinop (op : operator) (z : Z) (i : nat)                                 (* 1 + v *)
| SNeg (i : nat)                                                            (* -v *)
| SCall (i : nat) (args : list (operand nat))                               (* v(w, 1) *)
| SHead (i : nat)                                                           (* v.head *)
| SArg (i k : nat)                                                          (* v.args[k] *)
| SXreplace (i : nat) (reps : list (operand nat * operand nat))             (* v.xreplace({w: 1}) *)
| SBinExpand (i : nat)                                                      (* v.bin_expand() *)
| SDiff (i j : nat) (ntimes : Z)                                            (* v.diff(w, n) *)
| SRule (i j k : nat)                                                       (* diff[v, w] = u *)
| SDistributive (i : nat).                                                  (* diff.add_distributive_rule(v) *)

Section Programs.
  Context (fuel : nat) (g : o_module).
  Definition o_operand (env : list addr) (o : operand nat) : prog (operand addr) :=
    match o with OE i => run e <- lift (getitem env i); ret (OE e) | OI z => ret (OI z) end.
  Definition o_pair (env : list addr) (r : operand nat * operand nat) : prog (operand addr * operand addr) :=
    run a <- o_operand env (fst r); run b <- o_operand env (snd r); ret (a, b).
  Definition o_statement (st : list addr * o_diff_props) (c : statement) : prog (list addr * o_diff_props) :=
    let '(env, p) := st in
    let push (q : prog addr) := run e <- q; ret (env ++ [e], p) in
    match c with
    | SInteger z => push (o_new T_Integer (VInt z))
    | SSymbol name => push (o_new T_Symbol (VStr name))
    | SFunction name => push (o_new T_Function (VStr name))
    | SBinop op i o => push (run e <- lift (getitem env i); run o' <- o_operand env o; o_binop g op e o')
    | SRbinop op z i => push (run e <- lift (getitem env i); o_rbinop g op z e)
    | SNeg i => push (run e <- lift (getitem env i); o_neg g e)
    | SCall i args => push (run e <- lift (getitem env i); run l <- pmap (o_operand env) args; o_expr_call e l)
    | SHead i => push (run e <- lift (getitem env i); o_head e)
    | SArg i k => push (run e <- lift (getitem env i); run l <- o_args e; lift (getitem l k))
    | SXreplace i reps => push (run e <- lift (getitem env i); run l <- pmap (o_pair env) reps; o_xreplace fuel e (dict_update o_key_eqb [] l))
    | SBinExpand i => push (run e <- lift (getitem env i); o_bin_expand fuel g e)
    | SDiff i j n => push (run e <- lift (getitem env i); run x <- lift (getitem env j); o_diff fuel p (Z.to_nat n) e x)
    | SRule i j k =>
        run e <- lift (getitem env i); run x <- lift (getitem env j); run d <- lift (getitem env k);
        run p' <- o_setitem fuel p e x d; ret (env, p')
    | SDistributive i => run e <- lift (getitem env i); run p' <- o_add_distributive p e; ret (env, p')
    end.
  Definition o_program (p : o_diff_props) (l : list statement) : prog (list addr * o_diff_props) := pfold o_statement l ([], p).
End Programs.
(** A user's program with the import before it: the values of its variables. *)
Definition o_session (fuel : nat) (l : list statement) : prog (list addr) :=
  run (g, p) <- o_import fuel;
  run (env, _) <- o_program fuel g p l;
  ret env.
