(** * Specification: what programs of users mean, when expressions are values (trees) *)
From Verif Require Import Py ModelTree ModelIntern SpecIntern ModelEval ModelDiff ModelSym ModelCas ModelApi ModelObjects SpecObjects ModelObjExpr.

(** The thread has the expression [u] at [e] in a variable. *)
Definition has_expr (names : nat -> string) (t : nat) (s : state pyval) (e : addr) (u : tree) : Prop :=
  In e (held (threads s t)) /\ exists a, heap s e = Some (OSym 0 a) /\ is_tree_obj names (heap s) a u.
(** The names of the atom types of simplecas. *)
Definition cas_names (names : nat -> string) : Prop :=
  Forall (fun ty => names (ty_id ty) = ty_name ty) [T_Integer; T_Symbol; T_Function; T_Wild].

(** The meaning of programs: the same statements, with the functions on trees. *)
Definition v_operand (env : list tree) (o : operand nat) : res pyobj :=
  match o with OE i => do u <- getitem env i; Ok (PExpr u) | OI z => Ok (PInt z) end.
Definition v_pair (env : list tree) (r : operand nat * operand nat) : res (pyobj * pyobj) :=
  do a <- v_operand env (fst r); do b <- v_operand env (snd r); Ok (a, b).
(** [==] of keys of a dict. *)
Definition key_eqb (a b : pyobj) : bool :=
  match a, b with PExpr u, PExpr v => tree_eqb u v | PInt z, PInt w => Z.eqb z w | _, _ => false end.
Definition op_of_operator (op : operator) : pyobj -> pyobj -> res tree :=
  match op with OpAdd => op_add | OpSub => op_sub | OpMul => op_mul | OpDiv => op_truediv | OpPow => op_pow end.
Definition v_statement (st : list tree * diff_props) (c : statement) : res (list tree * diff_props) :=
  let '(env, p) := st in
  let push (r : res tree) := do u <- r; Ok (env ++ [u], p) in
  match c with
  | SInteger z => push (Ok (Integer z))
  | SSymbol name => push (Ok (Symbol name))
  | SFunction name => push (Ok (Function name))
  | SBinop op i o => push (do u <- getitem env i; do o' <- v_operand env o; op_of_operator op (PExpr u) o')
  | SRbinop op z i => push (do u <- getitem env i; op_of_operator op (PInt z) (PExpr u))
  | SNeg i => push (do u <- getitem env i; Ok (expr_neg u))
  | SCall i args => push (do u <- getitem env i; do l <- mapM (v_operand env) args; expr_call u l)
  | SHead i => push (do u <- getitem env i; sym_head u)
  | SArg i k => push (do u <- getitem env i; getitem (sym_args u) k)
  | SXreplace i reps => push (do u <- getitem env i; do l <- mapM (v_pair env) reps; xreplace u (dict_update key_eqb [] l))
  | SBinExpand i => push (do u <- getitem env i; bin_expand u)
  | SDiff i j n => push (do u <- getitem env i; do x <- getitem env j; repeatM (fun d => sym_diff_call p d x 1) (Z.to_nat n) u)
  | SRule i j k =>
      do u <- getitem env i; do x <- getitem env j; do d <- getitem env k;
      let '(p', r) := diff_setitem p (STuple [u; x]) d in do _ <- r; Ok (env, p')
  | SDistributive i => do u <- getitem env i; Ok (env, add_distributive p u)
  end.
Definition v_program (p : diff_props) (l : list statement) : res (list tree * diff_props) := foldM v_statement l ([], p).
Definition v_session (l : list statement) : res (list tree) := do (env, _) <- v_program cas_diff l; Ok env.
