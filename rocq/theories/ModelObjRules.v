(** * Model of SymEvaluator (core/sym.py) at the level of objects, as in ModelObjExpr.v, and of programs of users that define
    evaluators, add rules to them and evaluate with them. *)
From Verif Require Import Py ModelTree ModelIntern ModelEval ModelDiff ModelSym ModelCas ModelApi ModelObjects ModelObjEval ModelObjExpr.

(** What a callback that gets a Tree (AtomFunc, HeadOp) can find out about it: all that the objects contain. [names]: the
    attribute [name] of the AtomTypes. *)
Fixpoint o_read (names : nat -> string) (fuel : nat) (a : addr) : prog tree :=
  match fuel with
  | O => Ret (Err OutOfFuel)
  | S fuel' =>
      Read a (fun o => match o with
        | OLeaf b => run (ty, v) <- o_atom_parts b; ret (Atm (mkAtom (mkType ty (names ty)) v))
        | ONode l => run us <- pmap (o_read names fuel') l; ret (Node us)
        | _ => Ret (Err AttributeError)
        end)
  end.
(** core/sym.py:436-439 star; [star_r] is the Tree [Star] of line 433 *)
Definition o_star (star_r e : addr) : prog addr :=
  run rep <- o_rep e;
  run x <- o_call star_r [rep];
  o_Expr x.
Definition addrs_eqb (l m : list addr) : bool := Nat.eqb (length l) (length m) && forallb (fun p => Nat.eqb (fst p) (snd p)) (combine l m).

(** core/sym.py:529-536: patterns, made of Exprs *)
Inductive o_pattern :=
| OPSym (e : addr)
| OPAtomValue (ty : atype) (wild : addr)
| OPAtomRule (wild : addr)
| OPHeadRule (head args : addr).
Definition o_pattern_args (p : o_pattern) : prog (list addr) :=
  match p with
  | OPSym e => o_args e
  | OPAtomValue _ w | OPAtomRule w => ret [w]
  | OPHeadRule h a => ret [h; a]
  end.

Section Rules.
  Context {V : Type} (none : V -> bool) (names : nat -> string) (fuel : nat).
  (** A callback on values: it does nothing to objects. *)
  Definition o_callable (f : callable V) : list (pyarg V) -> prog V := fun args => lift (f args).
  (** Callbacks that get a Tree. *)
  Definition o_head_op (f : tree -> list V -> res V) : addr -> list V -> prog V := fun h args => run u <- o_read names fuel h; lift (f u args).
  Definition o_atom_func (f : tree -> res V) : addr -> prog V := fun a => run u <- o_read names fuel a; lift (f u).
  (** core/evaluate.py:91-96, 31-40 (the error messages contain the Tree) *)
  Definition o_new_evaluator : o_evaluator V := mkOEval [] [] (o_head_op generic_operation_error) (o_atom_func generic_atom_error).
  (** core/evaluate.py:98-122 *)
  Definition o_add_atom (oe : o_evaluator V) (ty : nat) (f : pyval -> res V) : o_evaluator V :=
    mkOEval (dict_set Nat.eqb (oe_atoms oe) ty (fun v => lift (f v))) (oe_operations oe) (oe_generic_operation oe) (oe_generic_atom oe).
  Definition o_add_atom_generic (oe : o_evaluator V) (f : tree -> res V) : o_evaluator V :=
    mkOEval (oe_atoms oe) (oe_operations oe) (oe_generic_operation oe) (o_atom_func f).
  Definition o_add_op (oe : o_evaluator V) (head : addr) (f : callable V) (star_args : bool) : o_evaluator V :=
    mkOEval (oe_atoms oe) (dict_set Nat.eqb (oe_operations oe) head (o_callable f, star_args)) (oe_generic_operation oe) (oe_generic_atom oe).
  Definition o_add_op_generic (oe : o_evaluator V) (f : tree -> list V -> res V) : o_evaluator V :=
    mkOEval (oe_atoms oe) (oe_operations oe) (o_head_op f) (oe_generic_atom oe).
  (** core/sym.py:577-590 SymEvaluator.add_op *)
  Definition o_sym_add_op (oe : o_evaluator V) (head : addr) (op : pyfunc V) : prog (o_evaluator V) :=
    match op with
    | PyOp1 f | PyOp2 f => run r <- o_rep head; ret (o_add_op oe r f true)
    | PyOpN f => run r <- o_rep head; ret (o_add_op oe r f false)
    | _ => Ret (Err BadRuleError)
    end.
  (** The [__call__] methods of the PyFunc classes: as pyfunc_call in ModelSym.v *)
  Definition o_pyfunc_call (op : pyfunc V) (args : list addr) : prog (list addr) :=
    match op, args with
    | PyOp1 _, [_] | PyOpN _, [_] | PyFunc1 _, [_] | AtomFunc _, [_] => ret args
    | PyOp2 _, [_; _] | HeadOp _, [_; _] => ret args
    | _, _ => Ret (Err TypeError)
    end.
  (** core/sym.py:550-555 *)
  Definition o_signature_check (star_r : addr) (p : o_pattern) (op : pyfunc V) (args : list addr) : prog unit :=
    run pargs <- o_pattern_args p;
    match op with
    | PyOpN _ =>
        match args with
        | [callarg] =>                                                          (* 551 *)
            run st <- o_star star_r callarg;
            if negb (addrs_eqb pargs [st]) then Ret (Err BadRuleError) else ret tt (* 552-553 *)
        | _ => Ret (Err ValueError)
        end
    | _ => if negb (addrs_eqb pargs args) then Ret (Err BadRuleError) else ret tt (* 554-555 *)
    end.
  (** core/sym.py:529-575 SymEvaluator.__setitem__, of a call of a PyFunc *)
  Definition o_set_item (star_r : addr) (oe : o_evaluator V) (p : o_pattern) (op : pyfunc V) (args : list addr) : prog (o_evaluator V) :=
    run args' <- o_pyfunc_call op args;
    run _ <- o_signature_check star_r p op args';
    match p with
    | OPAtomRule _ =>                                                           (* 557-560 *)
        match op with AtomFunc f => ret (o_add_atom_generic oe f) | _ => Ret (Err BadRuleError) end
    | OPHeadRule _ _ =>                                                         (* 562-565 *)
        match op with HeadOp f => ret (o_add_op_generic oe f) | _ => Ret (Err BadRuleError) end
    | OPAtomValue ty _ =>                                                       (* 567-570 *)
        match op with PyFunc1 f => ret (o_add_atom oe (ty_id ty) f) | _ => Ret (Err BadRuleError) end
    | OPSym e =>                                                                (* 572-575 *)
        match op with
        | PyOp1 _ | PyOp2 _ | PyOpN _ => run h <- o_head e; o_sym_add_op oe h op
        | _ => Ret (Err BadRuleError)
        end
    end.
  (** core/sym.py:596-601 SymEvaluator.__call__; [values] is a dict *)
  Definition o_value_item (p : addr * V) : prog (addr * V) := run r <- o_rep (fst p); ret (r, snd p).
  Definition o_sym_evaluate (oe : o_evaluator V) (expr : addr) (values : option (dict addr V)) : prog V :=
    run values_rep <- (match values with
                       | None => ret []                                         (* 598 *)
                       | Some d => run l <- pmap o_value_item d; ret (dict_update Nat.eqb [] l) (* 600 *)
                       end);
    run rep <- o_rep expr;                                                      (* 601 *)
    o_evaluate none fuel oe rep values_rep.
End Rules.

(** ** Programs: the statements of ModelObjExpr.v, and statements about evaluators. Evaluators are numbered, as variables are.
    The results of evaluations are the output of a program. *)
Inductive rpattern :=
| RPSym (i : nat)                                                           (* v *)
| RPAtomValue (ty : atype) (i : nat)                                        (* Integer[v] *)
| RPAtomRule (i : nat)                                                      (* AtomRule[v] *)
| RPHeadRule (i j : nat).                                                   (* HeadRule(v, w) *)
Inductive rstatement (V : Type) :=
| RDo (c : ModelObjExpr.statement)
| RWild (name : string)                                                     (* Expr.new_wild("a") *)
| RStar (i : nat)                                                           (* star(v) *)
| REvaluator                                                                (* Expr.new_evaluator("ev", ...) *)
| RSet (k : nat) (p : rpattern) (op : pyfunc V) (args : list nat)           (* ev[pattern] = op(v, w) *)
| REval (k i : nat) (values : option (list (nat * V))).                     (* ev(v, {w: 1.0}) *)
Arguments RDo {V} c. Arguments RWild {V} name. Arguments RStar {V} i. Arguments REvaluator {V}.
Arguments RSet {V} k p op args. Arguments REval {V} k i values.

Section Programs.
  Context {V : Type} (none : V -> bool) (names : nat -> string) (fuel : nat) (g : o_module) (star_r : addr).
  (** Variables with the differentiation rules, evaluators, output. *)
  Definition o_rstate := ((list addr * o_diff_props) * list (o_evaluator V) * list V)%type.
  Definition o_rpattern (env : list addr) (p : rpattern) : prog o_pattern :=
    match p with
    | RPSym i => run e <- lift (getitem env i); ret (OPSym e)
    | RPAtomValue ty i => run e <- lift (getitem env i); ret (OPAtomValue ty e)
    | RPAtomRule i => run e <- lift (getitem env i); ret (OPAtomRule e)
    | RPHeadRule i j => run e <- lift (getitem env i); run f <- lift (getitem env j); ret (OPHeadRule e f)
    end.
  Definition o_rvalue (env : list addr) (p : nat * V) : prog (addr * V) := run e <- lift (getitem env (fst p)); ret (e, snd p).
  Definition o_rvalues (env : list addr) (values : option (list (nat * V))) : prog (option (dict addr V)) :=
    match values with
    | None => ret None
    | Some l => run m <- pmap (o_rvalue env) l; ret (Some (dict_update Nat.eqb [] m))
    end.
  Definition o_rstatement (st : o_rstate) (c : rstatement V) : prog o_rstate :=
    let '(env, p, evs, out) := st in
    match c with
    | RDo c' => run st' <- o_statement fuel g (env, p) c'; ret (st', evs, out)
    | RWild name => run e <- o_new_wild name; ret (env ++ [e], p, evs, out)
    | RStar i => run e <- lift (getitem env i); run e' <- o_star star_r e; ret (env ++ [e'], p, evs, out)
    | REvaluator => ret (env, p, evs ++ [o_new_evaluator names fuel], out)
    | RSet k pat op args =>
        run oe <- lift (getitem evs k);
        run l <- pmap (fun i => lift (getitem env i)) args;
        run pat' <- o_rpattern env pat;
        run oe' <- o_set_item names fuel star_r oe pat' op l;
        ret (env, p, firstn k evs ++ oe' :: skipn (S k) evs, out)
    | REval k i values =>
        run oe <- lift (getitem evs k);
        run e <- lift (getitem env i);
        run d <- o_rvalues env values;
        run v <- o_sym_evaluate none fuel oe e d;
        ret (env, p, evs, out ++ [v])
    end.
End Programs.
(** A program, after the import of core/sym.py and simplecas: its variables and its output. *)
Definition o_rsession {V} (none : V -> bool) (names : nat -> string) (fuel : nat) (l : list (rstatement V)) : prog (list addr * list V) :=
  run star_a <- o_Atom (ty_id T_Star) (VStr "Star");                            (* sym.py:433 *)
  run star_r <- o_Tr star_a;
  run (g, p) <- o_import fuel;
  run st <- pfold (o_rstatement none names fuel g star_r) l ([], p, [], []);
  ret (fst (fst (fst st)), snd st).

(** ** The evaluators of simplecas/functions.py, as programs. Their variables: *)
Definition fn_a := 0.           (* Expr.new_wild("a"): simplecas/functions.py:30-31 *)
Definition fn_b := 1.
Definition fn_star := 2.        (* star(a) *)
Definition fn_add := 5.         (* Add(star(a)) *)
Definition fn_mul := 6.         (* Mul(star(a)) *)
Definition fn_pow := 7.         (* a**b *)
Definition fn_sin := 9.         (* sin(a) *)
Definition fn_cos := 11.        (* cos(a) *)
Definition fn_vars {V} : list (rstatement V) :=
  [RWild "a"; RWild "b"; RStar fn_a; RDo (SFunction "Add"); RDo (SFunction "Mul"); RDo (SCall 3 [OE fn_star]); RDo (SCall 4 [OE fn_star]);
   RDo (SBinop OpPow fn_a (OE fn_b)); RDo (SFunction "sin"); RDo (SCall 8 [OE fn_a]); RDo (SFunction "cos"); RDo (SCall 10 [OE fn_a]); REvaluator].
(** simplecas/functions.py:47-52 *)
Definition fn_f64 {F} (o : float_ops F) : list (rstatement F) :=
  fn_vars ++
  [RSet 0 (RPAtomValue T_Integer fn_a) (PyFunc1 (fun v => match v with VInt z => fl_of_int o z | VStr _ => Err ValueError end)) [fn_a];
   RSet 0 (RPSym fn_add) (PyOpN (pyn (fl_fsum o))) [fn_a];
   RSet 0 (RPSym fn_mul) (PyOpN (pyn (fl_prod o))) [fn_a];
   RSet 0 (RPSym fn_pow) (PyOp2 (py2 (fl_pow o))) [fn_a; fn_b];
   RSet 0 (RPSym fn_sin) (PyOp1 (py1 (fl_sin o))) [fn_a];
   RSet 0 (RPSym fn_cos) (PyOp1 (py1 (fl_cos o))) [fn_a]].
(** simplecas/functions.py:69-76 *)
Definition fn_repr : list (rstatement string) :=
  fn_vars ++
  [RSet 0 (RPHeadRule fn_a fn_b) (HeadOp repr_call) [fn_a; fn_b];
   RSet 0 (RPAtomRule fn_a) (AtomFunc repr_atom) [fn_a];
   RSet 0 (RPAtomValue T_Integer fn_a) (PyFunc1 str_from) [fn_a];
   RSet 0 (RPAtomValue T_Symbol fn_a) (PyFunc1 str_from) [fn_a];
   RSet 0 (RPAtomValue T_Function fn_a) (PyFunc1 str_from) [fn_a];
   RSet 0 (RPSym fn_add) (PyOpN (pyn repr_add)) [fn_a];
   RSet 0 (RPSym fn_mul) (PyOpN (pyn repr_mul)) [fn_a];
   RSet 0 (RPSym fn_pow) (PyOp2 (py2 repr_pow)) [fn_a; fn_b]].
(** simplecas/functions.py:90-98 *)
Definition fn_latex : list (rstatement string) :=
  fn_vars ++
  [RSet 0 (RPHeadRule fn_a fn_b) (HeadOp repr_call) [fn_a; fn_b];
   RSet 0 (RPAtomValue T_Integer fn_a) (PyFunc1 str_from) [fn_a];
   RSet 0 (RPAtomValue T_Symbol fn_a) (PyFunc1 str_from) [fn_a];
   RSet 0 (RPAtomValue T_Function fn_a) (PyFunc1 str_from) [fn_a];
   RSet 0 (RPSym fn_add) (PyOpN (pyn latex_add)) [fn_a];
   RSet 0 (RPSym fn_mul) (PyOpN (pyn latex_mul)) [fn_a];
   RSet 0 (RPSym fn_pow) (PyOp2 (py2 latex_pow)) [fn_a; fn_b];
   RSet 0 (RPSym fn_sin) (PyOp1 (py1 latex_sin)) [fn_a];
   RSet 0 (RPSym fn_cos) (PyOp1 (py1 latex_cos)) [fn_a]].
