(** * Model of core/evaluate.py and core/differentiate.py when other threads register rules meanwhile
    An Evaluator or a SymDifferentiator is a mutable object that all threads can use. While one thread evaluates or
    differentiates, others may register rules; what they registered is seen at the next time the thread reads the object.
    [seen n] is the state in which the n-th reading of this thread finds the object, so [seen] can be any history.
    Reading a dict, a set or an attribute is one step (as it is in CPython with the global interpreter lock).
    Simplifications: the functions of the rules have no side effects (see ModelEffects.v for those); the dict of
    values and the expression belong to the thread. *)
From Verif Require Import Py ModelTree ModelEval ModelDiff.

Section Reading.
  Context {X : Type} (seen : nat -> X).
  (** A computation that has read the object [n] times so far. *)
  Definition shared (A : Type) : Type := nat -> res A * nat.
  Definition slift {A} (r : res A) : shared A := fun n => (r, n).
  Definition sbind {A B} (p : shared A) (f : A -> shared B) : shared B :=
    fun n => match p n with (Ok a, n') => f a n' | (Err x, n') => (Err x, n') end.
  Definition sread : shared X := fun n => (Ok (seen n), S n).
  Definition smapM {A B} (f : A -> shared B) : list A -> shared (list B) :=
    fix go l := match l with
                | [] => slift (Ok [])
                | a :: r => sbind (f a) (fun b => sbind (go r) (fun bs => slift (Ok (b :: bs))))
                end.
  Definition sfoldM {A S} (f : S -> A -> shared S) : list A -> S -> shared S :=
    fix go l s := match l with [] => slift (Ok s) | a :: r => sbind (f s a) (fun s' => go r s') end.
End Reading.

Section Evaluate.
  Context {V : Type} (is_none : V -> bool) (seen : nat -> evaluator V).
  (** core/evaluate.py:124-130 *)
  Definition s_eval_atom (t : tree) : shared V :=
    sbind (slift (tree_value t)) (fun atom_value =>                                  (* 126 *)
    sbind (sread seen) (fun ev =>
      match dict_get atype_eqb (ev_atoms ev) (atom_type atom_value) with             (* 127 *)
      | None => sbind (sread seen) (fun ev => slift (ev_generic_atom ev t))          (* 128-129 *)
      | Some atom_func => slift (atom_func (ModelTree.atom_value atom_value))        (* 130 *)
      end)).
  (** core/evaluate.py:132-146 *)
  Definition s_eval_operation (head : tree) (argvals : list V) : shared V :=
    sbind (sread seen) (fun ev =>
      match dict_get tree_eqb (ev_operations ev) head with                           (* 134 *)
      | None => sbind (sread seen) (fun ev => slift (ev_generic_operation ev head argvals)) (* 136-137 *)
      | Some (op_func, star_args) =>
          slift (if star_args then op_func (map AVal argvals) else op_func [ASeq argvals]) (* 141-144 *)
      end).
  (** core/evaluate.py:174-179 *)
  Definition s_eval_leaf (values : dict tree V) (t : tree) : shared V :=
    match dict_get tree_eqb values t with                                            (* 175 *)
    | Some v => if is_none v then s_eval_atom t else slift (Ok v)                    (* 176-179 *)
    | None => s_eval_atom t
    end.
  (** core/evaluate.py:183-185 *)
  Definition s_run_op (stack : list V) (op : tree * list nat) : shared (list V) :=
    sbind (slift (mapM (getitem stack) (snd op))) (fun argvals =>
    sbind (s_eval_operation (fst op) argvals) (fun v => slift (Ok (stack ++ [v])))).
  (** core/evaluate.py:167-189 *)
  Definition s_eval_forward (values : dict tree V) (expr : tree) : shared V :=
    sbind (slift (forward_graph expr)) (fun graph =>                                 (* 170 *)
    sbind (smapM (s_eval_leaf values) (g_atoms graph)) (fun stack0 =>                (* 171-180 *)
    sbind (sfoldM s_run_op (g_operations graph) stack0) (fun stack =>                (* 183-185 *)
    slift (last_item stack)))).                                                      (* 189 *)
  (** core/evaluate.py:148-150, 191-195: the result, and how often the object was read. *)
  Definition s_evaluate (expr : tree) (values : option (dict tree V)) : res V * nat :=
    s_eval_forward (match values with Some d => d | None => [] end) expr 0.
End Evaluate.

Section Differentiate.
  (** DiffProperties is frozen: [zero], [one], [add] and [mul] never change (core/differentiate.py:27-34). *)
  Context (zero one add mul : tree) (seen : nat -> diff_props).
  (** core/differentiate.py:131-137 *)
  Definition s_chain_step (func : tree) (args : list tree) (terms : list tree) (p : nat * tree) : shared (list tree) :=
    let '(n, diff_arg) := p in
    if negb (tree_eqb diff_arg zero) then                                            (* 132 *)
      sbind (sread seen) (fun p =>
      sbind (slift (dict_getitem rule_key_eqb (dp_rules p) (func, n))) (fun pdiff => (* 133 *)
      sbind (slift (subs_call pdiff args)) (fun diff_term =>                         (* 134 *)
      slift (Ok (terms ++ [if negb (tree_eqb diff_arg one) then tree_call mul [diff_term; diff_arg] else diff_term]))))) (* 135-137 *)
    else slift (Ok terms).
  (** core/differentiate.py:73-86 *)
  Definition s_diff_terms_of (func : tree) (args diff_args : list tree) : shared (list tree) :=
    sbind (sread seen) (fun p =>
    if mem func (dp_distributive p) then slift (Ok [tree_call func diff_args])       (* 73-74 *)
    else if all_zero diff_args zero then slift (Ok [])                               (* 75-78 *)
    else if tree_eqb func add
    then slift (Ok (filter (fun da => negb (tree_eqb da zero)) diff_args))           (* 79-80 *)
    else if tree_eqb func mul
    then slift (Ok (product_rule_forward args diff_args zero mul))                   (* 81-82 *)
    else sfoldM (s_chain_step func args) (enumerate_from 0 diff_args) []).           (* 84-86, 130-138 *)
  (** core/differentiate.py:68-96 *)
  Definition s_diff_step (acc : list tree * list tree) (op : tree * list nat) : shared (list tree * list tree) :=
    let '(stack, diff_stack) := acc in
    let '(func, indices) := op in
    sbind (slift (mapM (getitem stack) indices)) (fun args =>                        (* 69 *)
    sbind (slift (mapM (getitem diff_stack) indices)) (fun diff_args =>              (* 70 *)
    sbind (s_diff_terms_of func args diff_args) (fun diff_terms =>
    slift (Ok (stack ++ [tree_call func args],                                       (* 71, 95 *)
      diff_stack ++ [match diff_terms with [] => zero | [t] => t | _ => tree_call add diff_terms end]))))). (* 88-93, 96 *)
  (** core/differentiate.py:47-101 *)
  Definition s_diff_forward (expression sym : tree) : shared tree :=
    sbind (slift (forward_graph expression)) (fun graph =>                           (* 63 *)
    sbind (sfoldM s_diff_step (g_operations graph)
      (g_atoms graph, map (fun e => if tree_eqb e sym then one else zero) (g_atoms graph))) (fun stacks => (* 65-66, 68-96 *)
    slift (last_item (snd stacks)))).                                                (* 101 *)
  (** core/sym.py:663-669 and simplecas/expr.py:421-468: the result, and how often the object was read. *)
  Fixpoint s_repeat (n : nat) (sym expr : tree) : shared tree :=
    match n with
    | O => slift (Ok expr)
    | S n' => sbind (s_diff_forward expr sym) (fun d => s_repeat n' sym d)
    end.
  Definition s_diff_call (expr sym : tree) (ntimes : Z) : res tree * nat := s_repeat (Z.to_nat ntimes) sym expr 0.
End Differentiate.
