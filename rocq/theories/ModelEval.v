(** * Model of src/protosym/core/evaluate.py *)
From Verif Require Import Py ModelTree.

(** core/tree.py:156-162: whether [repr(t)] raises; the text is in ModelRepr.v. [self.value] of Tree() does. *)
Fixpoint repr_raises (t : tree) : res unit :=
  match t with
  | Atm _ => Ok tt
  | Node [] => Err AttributeError
  | Node cs => do _ <- mapM repr_raises cs; Ok tt
  end.

Section Eval.
  Context {V : Type}.
  (** [value is None]: whether a value of type _T is Python's None (evaluate.py:176). *)
  Variable is_none : V -> bool.

  (** A positional argument of a Python callable: one value, or a sequence of values. *)
  Inductive pyarg := AVal (v : V) | ASeq (vs : list V).
  (** A Python callable of positional arguments; a wrong number or kind of arguments is the
      callable's own [Err TypeError]. *)
  Definition callable := list pyarg -> res V.

  (** Callables with the signatures [f(a)], [f(a, b)] and [f(seq)] (evaluate.py:26-28). *)
  Definition py1 (f : V -> res V) : callable :=
    fun args => match args with [AVal v] => f v | _ => Err TypeError end.
  Definition py2 (f : V -> V -> res V) : callable :=
    fun args => match args with [AVal v; AVal w] => f v w | _ => Err TypeError end.
  Definition pyn (f : list V -> res V) : callable :=
    fun args => match args with [ASeq vs] => f vs | _ => Err TypeError end.

  (** core/evaluate.py:86-89: the attributes of an Evaluator. *)
  Record evaluator := mkEval {
    ev_atoms : dict atype (pyval -> res V);
    ev_operations : dict tree (callable * bool);
    ev_generic_operation : tree -> list V -> res V;
    ev_generic_atom : tree -> res V
  }.

  (** core/evaluate.py:31-34: [repr(head)] comes first. *)
  Definition generic_operation_error (head : tree) (argvals : list V) : res V :=
    do _ <- repr_raises head; Err NoEvaluationRuleError.
  (** core/evaluate.py:37-40 *)
  Definition generic_atom_error (value : tree) : res V :=
    do _ <- repr_raises value; Err NoEvaluationRuleError.

  (** core/evaluate.py:91-96 Evaluator.__init__ *)
  Definition new_evaluator : evaluator :=
    mkEval [] [] generic_operation_error generic_atom_error.

  (** core/evaluate.py:98-102 *)
  Definition add_atom (ev : evaluator) (t : atype) (func : pyval -> res V) : evaluator :=
    mkEval (dict_set atype_eqb (ev_atoms ev) t func) (ev_operations ev)
           (ev_generic_operation ev) (ev_generic_atom ev).
  (** core/evaluate.py:104-106 *)
  Definition add_atom_generic (ev : evaluator) (func : tree -> res V) : evaluator :=
    mkEval (ev_atoms ev) (ev_operations ev) (ev_generic_operation ev) func.
  (** core/evaluate.py:108-110 *)
  Definition add_op1 (ev : evaluator) (head : tree) (func : callable) : evaluator :=
    mkEval (ev_atoms ev) (dict_set tree_eqb (ev_operations ev) head (func, true))
           (ev_generic_operation ev) (ev_generic_atom ev).
  (** core/evaluate.py:112-114 *)
  Definition add_op2 (ev : evaluator) (head : tree) (func : callable) : evaluator :=
    mkEval (ev_atoms ev) (dict_set tree_eqb (ev_operations ev) head (func, true))
           (ev_generic_operation ev) (ev_generic_atom ev).
  (** core/evaluate.py:116-118 *)
  Definition add_opn (ev : evaluator) (head : tree) (func : callable) : evaluator :=
    mkEval (ev_atoms ev) (dict_set tree_eqb (ev_operations ev) head (func, false))
           (ev_generic_operation ev) (ev_generic_atom ev).
  (** core/evaluate.py:120-122 *)
  Definition add_op_generic (ev : evaluator) (func : tree -> list V -> res V) : evaluator :=
    mkEval (ev_atoms ev) (ev_operations ev) func (ev_generic_atom ev).

  (** core/evaluate.py:124-130 *)
  Definition eval_atom (ev : evaluator) (t : tree) : res V :=
    do atom_value <- tree_value t;                                            (* 126 *)
    match dict_get atype_eqb (ev_atoms ev) (atom_type atom_value) with        (* 127 *)
    | None => ev_generic_atom ev t                                            (* 128-129 *)
    | Some atom_func => atom_func (ModelTree.atom_value atom_value)           (* 130 *)
    end.

  (** core/evaluate.py:132-146 *)
  Definition eval_operation (ev : evaluator) (head : tree) (argvals : list V) : res V :=
    match dict_get tree_eqb (ev_operations ev) head with                      (* 134 *)
    | None => ev_generic_operation ev head argvals                            (* 136-137 *)
    | Some (op_func, star_args) =>
        if star_args then op_func (map AVal argvals)                          (* 141-142 *)
        else op_func [ASeq argvals]                                           (* 143-144 *)
    end.

  (** core/evaluate.py:152-165 *)
  Fixpoint eval_recursive (ev : evaluator) (values : dict tree V) (expr : tree) : res V :=
    match dict_get tree_eqb values expr with
    | Some v => Ok v                                                          (* 154-156 *)
    | None =>
        match expr with
        | Atm _ | Node [] => eval_atom ev expr                                (* 157-159 *)
        | Node (head :: args) =>
            do argvals <- mapM (eval_recursive ev values) args;               (* 162-164 *)
            eval_operation ev head argvals                                    (* 165 *)
        end
    end.

  (** core/evaluate.py:174-179: the value of one atom of the graph. *)
  Definition eval_leaf (ev : evaluator) (values : dict tree V) (t : tree) : res V :=
    match dict_get tree_eqb values t with                                     (* 175 *)
    | Some v => if is_none v then eval_atom ev t else Ok v                    (* 176-179 *)
    | None => eval_atom ev t
    end.

  (** core/evaluate.py:167-189 *)
  Definition eval_forward (ev : evaluator) (values : dict tree V) (expr : tree) : res V :=
    do graph <- forward_graph expr;                                           (* 170 *)
    do stack0 <- mapM (eval_leaf ev values) (g_atoms graph);                  (* 171-180 *)
    do stack <- foldM (run_op (eval_operation ev)) (g_operations graph) stack0; (* 183-185 *)
    last_item stack.                                                          (* 189 *)

  (** core/evaluate.py:148-150, 191-195 Evaluator.evaluate and __call__ *)
  Definition evaluate (ev : evaluator) (expr : tree) (values : option (dict tree V)) : res V :=
    eval_forward ev (match values with Some d => d | None => [] end) expr.

  (** ** The same loop, also recording every call of eval_atom and eval_operation.
      core/evaluate.py:167-189, instrumented: the list holds the calls made so far. *)
  Inductive event := CallAtom (t : tree) | CallOp (head : tree) (argvals : list V).

  Fixpoint traced_leaves (ev : evaluator) (values : dict tree V) (l : list tree)
      (trace : list event) (stack : list V) : list event * res (list V) :=
    match l with
    | [] => (trace, Ok stack)
    | t :: r =>
        let use_value := match dict_get tree_eqb values t with
                         | Some v => if is_none v then None else Some v
                         | None => None end in
        match use_value with
        | Some v => traced_leaves ev values r trace (stack ++ [v])
        | None => match eval_atom ev t with
                  | Ok v => traced_leaves ev values r (trace ++ [CallAtom t]) (stack ++ [v])
                  | Err x => (trace ++ [CallAtom t], Err x)
                  end
        end
    end.

  Fixpoint traced_ops (ev : evaluator) (ops : list (tree * list nat))
      (trace : list event) (stack : list V) : list event * res (list V) :=
    match ops with
    | [] => (trace, Ok stack)
    | (head, indices) :: r =>
        match mapM (getitem stack) indices with
        | Err x => (trace, Err x)
        | Ok argvals =>
            match eval_operation ev head argvals with
            | Ok v => traced_ops ev r (trace ++ [CallOp head argvals]) (stack ++ [v])
            | Err x => (trace ++ [CallOp head argvals], Err x)
            end
        end
    end.

  Definition eval_traced (ev : evaluator) (values : dict tree V) (expr : tree)
      : list event * res V :=
    match forward_graph expr with
    | Err x => ([], Err x)
    | Ok graph =>
        match traced_leaves ev values (g_atoms graph) [] [] with
        | (tr, Err x) => (tr, Err x)
        | (tr, Ok stack) =>
            match traced_ops ev (g_operations graph) tr stack with
            | (tr', Err x) => (tr', Err x)
            | (tr', Ok stack') => (tr', last_item stack')
            end
        end
    end.
End Eval.
Arguments pyarg : clear implicits.
Arguments callable : clear implicits.
Arguments evaluator : clear implicits.
Arguments event : clear implicits.

(** core/evaluate.py:257-260 Transformer.__init__ *)
Definition new_transformer : evaluator tree :=
  add_op_generic (add_atom_generic new_evaluator (fun atom => Ok atom))
    (fun head args => Ok (tree_call head args)).
