(** * Model of core/evaluate.py and core/differentiate.py at the level of objects, as in ModelObjects.v *)
From Verif Require Import Py ModelTree ModelIntern ModelEval ModelObjects.

(** The attributes [value] of a Tree and [atom_type], [value] of an Atom: tree.py:115, atom.py:143-146 *)
Definition o_value (a : addr) : prog addr :=
  Read a (fun o => match o with OLeaf b => ret b | _ => Ret (Err AttributeError) end).
Definition o_atom_parts (b : addr) : prog (nat * pyval) :=
  Read b (fun o => match o with OAtom ty v => ret (ty, v) | _ => Ret (Err AttributeError) end).

Section Eval.
  Context {A : Type} (is_none : A -> bool).
  (** core/evaluate.py:86-89: the callbacks are programs too. *)
  Record o_evaluator := mkOEval {
    oe_atoms : dict nat (pyval -> prog A);
    oe_operations : dict addr ((list (pyarg A) -> prog A) * bool);
    oe_generic_operation : addr -> list A -> prog A;
    oe_generic_atom : addr -> prog A
  }.
  (** core/evaluate.py:124-130 *)
  Definition o_eval_atom (ev : o_evaluator) (a : addr) : prog A :=
    run atom_value <- o_value a;                                                (* 126 *)
    run (ty, v) <- o_atom_parts atom_value;
    match dict_get Nat.eqb (oe_atoms ev) ty with                                (* 127 *)
    | None => oe_generic_atom ev a                                              (* 128-129 *)
    | Some atom_func => atom_func v                                             (* 130 *)
    end.
  (** core/evaluate.py:132-146 *)
  Definition o_eval_operation (ev : o_evaluator) (head : addr) (argvals : list A) : prog A :=
    match dict_get Nat.eqb (oe_operations ev) head with
    | None => oe_generic_operation ev head argvals
    | Some (op_func, star_args) =>
        if star_args then op_func (map AVal argvals) else op_func [ASeq argvals]
    end.
  (** core/evaluate.py:167-189 *)
  Definition o_eval_leaf (ev : o_evaluator) (values : dict addr A) (stack : list A) (a : addr) : prog (list A) :=
    run v <- (match dict_get Nat.eqb values a with
              | Some v => if is_none v then o_eval_atom ev a else ret v
              | None => o_eval_atom ev a
              end);
    ret (stack ++ [v]).
  Definition o_eval_op (ev : o_evaluator) (stack : list A) (op : addr * list nat) : prog (list A) :=
    run argvals <- lift (mapM (getitem stack) (snd op));
    run v <- o_eval_operation ev (fst op) argvals;
    ret (stack ++ [v]).
  Definition o_evaluate (fuel : nat) (ev : o_evaluator) (expr : addr) (values : dict addr A) : prog A :=
    run (atoms, _, operations) <- o_forward_graph fuel expr;                    (* 170 *)
    run stack0 <- pfold (o_eval_leaf ev values) atoms [];                       (* 174-180 *)
    run stack <- pfold (o_eval_op ev) operations stack0;                        (* 183-185 *)
    lift (last_item stack).                                                     (* 189 *)
End Eval.
Arguments o_evaluator : clear implicits.

(** core/evaluate.py:257-260 Transformer.__init__, with rules for atoms and heads *)
Definition o_transformer (atoms : dict nat (pyval -> prog addr)) (ops : dict addr ((list (pyarg addr) -> prog addr) * bool)) : o_evaluator addr :=
  mkOEval atoms ops (fun head args => o_call head args) (fun atom => ret atom).

(** core/differentiate.py:27-36 DiffProperties *)
Record o_diff_props := mkODiff {
  od_zero : addr;
  od_one : addr;
  od_add : addr;
  od_mul : addr;
  od_distributive : list addr;
  od_rules : dict (addr * nat) (nat * list addr * list (list nat))
}.
Definition o_rule_key_eqb (k1 k2 : addr * nat) : bool := Nat.eqb (fst k1) (fst k2) && Nat.eqb (snd k1) (snd k2).
(** core/differentiate.py:104-117 product_rule_forward *)
Definition o_product_step (args : list addr) (zero mul : addr) (terms : list addr) (p : nat * addr) : prog (list addr) :=
  let '(n, diff_arg) := p in
  if negb (Nat.eqb diff_arg zero)                                               (* 113 *)
  then run term <- o_call mul (firstn n args ++ [diff_arg] ++ skipn (n + 1) args); ret (terms ++ [term]) (* 115-116 *)
  else ret terms.
Definition o_product_rule (args diff_args : list addr) (zero mul : addr) : prog (list addr) :=
  pfold (o_product_step args zero mul) (enumerate_from 0 diff_args) [].
(** core/differentiate.py:120-138 chain_rule_forward *)
Definition o_chain_step (func : addr) (args : list addr) (zero one mul : addr)
    (diff_rules : dict (addr * nat) (nat * list addr * list (list nat))) (terms : list addr) (p : nat * addr) : prog (list addr) :=
  let '(n, diff_arg) := p in
  if negb (Nat.eqb diff_arg zero) then                                          (* 132 *)
    run pdiff <- lift (dict_getitem o_rule_key_eqb diff_rules (func, n));       (* 133 *)
    run diff_term <- o_subs_call pdiff args;                                    (* 134 *)
    run diff_term' <- (if negb (Nat.eqb diff_arg one) then o_call mul [diff_term; diff_arg] else ret diff_term); (* 135-136 *)
    ret (terms ++ [diff_term'])                                                 (* 137 *)
  else ret terms.
Definition o_chain_rule (func : addr) (args diff_args : list addr) (zero one mul : addr)
    (diff_rules : dict (addr * nat) (nat * list addr * list (list nat))) : prog (list addr) :=
  pfold (o_chain_step func args zero one mul diff_rules) (enumerate_from 0 diff_args) [].
Definition o_all_zero (diff_args : list addr) (zero : addr) : bool :=
  match diff_args with [] => false | _ => forallb (fun d => Nat.eqb d zero) diff_args end.
(** core/differentiate.py:73-86 *)
Definition o_diff_terms (p : o_diff_props) (func : addr) (args diff_args : list addr) : prog (list addr) :=
  if o_mem func (od_distributive p) then run d <- o_call func diff_args; ret [d]
  else if o_all_zero diff_args (od_zero p) then ret []
  else if Nat.eqb func (od_add p) then ret (filter (fun da => negb (Nat.eqb da (od_zero p))) diff_args)
  else if Nat.eqb func (od_mul p) then o_product_rule args diff_args (od_zero p) (od_mul p)
  else o_chain_rule func args diff_args (od_zero p) (od_one p) (od_mul p) (od_rules p).
(** core/differentiate.py:88-93 *)
Definition o_sum_terms (p : o_diff_props) (diff_terms : list addr) : prog addr :=
  match diff_terms with [] => ret (od_zero p) | [d] => ret d | _ => o_call (od_add p) diff_terms end.
(** core/differentiate.py:68-96 *)
Definition o_diff_step (p : o_diff_props) (acc : list addr * list addr) (op : addr * list nat) : prog (list addr * list addr) :=
  let '(stack, diff_stack) := acc in
  let '(func, indices) := op in
  run args <- lift (mapM (getitem stack) indices);                              (* 69 *)
  run diff_args <- lift (mapM (getitem diff_stack) indices);                    (* 70 *)
  run expr <- o_call func args;                                                 (* 71 *)
  run diff_terms <- o_diff_terms p func args diff_args;
  run derivative <- o_sum_terms p diff_terms;
  ret (stack ++ [expr], diff_stack ++ [derivative]).                            (* 95-96 *)
(** core/differentiate.py:47-101 diff_forward *)
Definition o_diff_forward (fuel : nat) (expression sym : addr) (p : o_diff_props) : prog addr :=
  run (atoms, _, operations) <- o_forward_graph fuel expression;                (* 63 *)
  run (_, diff_stack) <- pfold (o_diff_step p) operations
    (atoms, map (fun e => if Nat.eqb e sym then od_one p else od_zero p) atoms); (* 65-66 *)
  lift (last_item diff_stack).                                                  (* 101 *)
