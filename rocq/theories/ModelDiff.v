(** * Model of src/protosym/core/differentiate.py and of SymDifferentiator in core/sym.py *)
From Verif Require Import Py ModelTree.

(** Keys [(head, argnum)] of the rule dictionary. *)
Definition rule_key_eqb (k1 k2 : tree * nat) : bool :=
  tree_eqb (fst k1) (fst k2) && Nat.eqb (snd k1) (snd k2).

(** core/differentiate.py:27-36 class DiffProperties *)
Record diff_props := mkDiff {
  dp_zero : tree;
  dp_one : tree;
  dp_add : tree;
  dp_mul : tree;
  dp_distributive : list tree;
  dp_rules : dict (tree * nat) subs_func
}.

(** core/differentiate.py:38-40 *)
Definition add_distributive (p : diff_props) (head : tree) : diff_props :=
  mkDiff (dp_zero p) (dp_one p) (dp_add p) (dp_mul p)
         (set_add (dp_distributive p) head) (dp_rules p).

(** core/differentiate.py:42-44 *)
Definition add_diff_rule (p : diff_props) (head : tree) (argnum : nat) (func : subs_func) : diff_props :=
  mkDiff (dp_zero p) (dp_one p) (dp_add p) (dp_mul p) (dp_distributive p)
         (dict_set rule_key_eqb (dp_rules p) (head, argnum) func).

(** core/differentiate.py:104-117 product_rule_forward *)
Definition product_step (args : list tree) (zero mul : tree) (terms : list tree) (p : nat * tree)
    : list tree :=
  let '(n, diff_arg) := p in
  if negb (tree_eqb diff_arg zero)                                            (* 113 *)
  then terms ++ [tree_call mul (firstn n args ++ [diff_arg] ++ skipn (n + 1) args)] (* 115-116 *)
  else terms.
Definition product_rule_forward (args diff_args : list tree) (zero mul : tree) : list tree :=
  fold_left (product_step args zero mul) (enumerate_from 0 diff_args) [].

(** core/differentiate.py:120-138 chain_rule_forward *)
Definition chain_step (func : tree) (args : list tree) (zero one mul : tree)
    (diff_rules : dict (tree * nat) subs_func) (terms : list tree) (p : nat * tree)
    : res (list tree) :=
  let '(n, diff_arg) := p in
  if negb (tree_eqb diff_arg zero) then                                       (* 132 *)
    do pdiff <- dict_getitem rule_key_eqb diff_rules (func, n);               (* 133 *)
    do diff_term <- subs_call pdiff args;                                     (* 134 *)
    let diff_term' := if negb (tree_eqb diff_arg one)
                      then tree_call mul [diff_term; diff_arg]
                      else diff_term in                                       (* 135-136 *)
    Ok (terms ++ [diff_term'])                                                (* 137 *)
  else Ok terms.
Definition chain_rule_forward (func : tree) (args diff_args : list tree) (zero one mul : tree)
    (diff_rules : dict (tree * nat) subs_func) : res (list tree) :=
  foldM (chain_step func args zero one mul diff_rules) (enumerate_from 0 diff_args) [].

(** [set(diff_args) == {zero}] (core/differentiate.py:75): not empty and all equal to zero. *)
Definition all_zero (diff_args : list tree) (zero : tree) : bool :=
  match diff_args with
  | [] => false
  | _ => forallb (fun d => tree_eqb d zero) diff_args
  end.

(** core/differentiate.py:73-86: the terms of one derivative. *)
Definition diff_terms_of (p : diff_props) (func : tree) (args diff_args : list tree)
    : res (list tree) :=
  if mem func (dp_distributive p) then Ok [tree_call func diff_args]           (* 73-74 *)
  else if all_zero diff_args (dp_zero p) then Ok []                            (* 75-78 *)
  else if tree_eqb func (dp_add p)
  then Ok (filter (fun da => negb (tree_eqb da (dp_zero p))) diff_args)        (* 79-80 *)
  else if tree_eqb func (dp_mul p)
  then Ok (product_rule_forward args diff_args (dp_zero p) (dp_mul p))         (* 81-82 *)
  else chain_rule_forward func args diff_args (dp_zero p) (dp_one p) (dp_mul p) (dp_rules p).

(** core/differentiate.py:88-93: the derivative from its terms. *)
Definition sum_terms (p : diff_props) (diff_terms : list tree) : tree :=
  match diff_terms with
  | [] => dp_zero p
  | [t] => t
  | _ => tree_call (dp_add p) diff_terms
  end.

(** core/differentiate.py:68-96: loop body over the two stacks. *)
Definition diff_step (p : diff_props) (acc : list tree * list tree) (op : tree * list nat)
    : res (list tree * list tree) :=
  let '(stack, diff_stack) := acc in
  let '(func, indices) := op in
  do args <- mapM (getitem stack) indices;                                     (* 69 *)
  do diff_args <- mapM (getitem diff_stack) indices;                           (* 70 *)
  let expr := tree_call func args in                                           (* 71 *)
  do diff_terms <- diff_terms_of p func args diff_args;
  Ok (stack ++ [expr], diff_stack ++ [sum_terms p diff_terms]).                (* 95-96 *)

(** core/differentiate.py:47-101 diff_forward *)
Definition diff_forward (expression sym : tree) (p : diff_props) : res tree :=
  do graph <- forward_graph expression;                                        (* 63 *)
  let stack0 := g_atoms graph in                                               (* 65 *)
  let diff_stack0 := map (fun e => if tree_eqb e sym then dp_one p else dp_zero p) stack0 in (* 66 *)
  do (_, diff_stack) <- foldM (diff_step p) (g_operations graph) (stack0, diff_stack0);
  last_item diff_stack.                                                        (* 101 *)

(** ** SymDifferentiator (core/sym.py:604-669). A Sym is represented by its Tree. *)

(** core/sym.py:621-634 *)
Definition sym_diff_new (add mul zero one : tree) : diff_props :=
  mkDiff zero one add mul [] [].

(** A subscript [expr_sym]: a tuple, or something else. *)
Inductive subscript := STuple (l : list tree) | SOther (t : tree).

(** [t.count(x)] and [t.index(x)] of tuples. *)
Definition count (l : list tree) (t : tree) : nat := length (filter (tree_eqb t) l).
Fixpoint tuple_index (l : list tree) (t : tree) : res nat :=
  match l with
  | [] => Err ValueError
  | a :: r => if tree_eqb a t then Ok 0 else do i <- tuple_index r t; Ok (S i)
  end.

(** core/sym.py:643-661 SymDifferentiator.__setitem__: the properties after the call, and its
    outcome. *)
Definition diff_setitem (p : diff_props) (expr_sym : subscript) (dexpr : tree)
    : diff_props * res unit :=
  match expr_sym with
  | STuple [expr; sym] =>
      match
        (do head <- getitem (children expr) 0;                                 (* 654 *)
         let args_lhs := tl (children expr) in                                 (* 655 *)
         if negb (Nat.eqb (count args_lhs sym) 1) then Err TypeError           (* 656-657 *)
         else
           do index <- tuple_index args_lhs sym;                               (* 658 *)
           do rhsfunc <- subs_new dexpr args_lhs;                              (* 660 *)
           Ok (head, index, rhsfunc))
      with
      | Ok (head, index, rhsfunc) => (add_diff_rule p head index rhsfunc, Ok tt) (* 661 *)
      | Err x => (p, Err x)
      end
  | _ => (p, Err TypeError)                                                    (* 645-646 *)
  end.

(** [for _ in range(n): s = f(s)] *)
Fixpoint repeatM {S} (f : S -> res S) (n : nat) (s : S) : res S :=
  match n with
  | O => Ok s
  | S n' => do s' <- f s; repeatM f n' s'
  end.

(** core/sym.py:663-669 SymDifferentiator.__call__ ([range] of a negative int is empty). *)
Definition sym_diff_call (p : diff_props) (expr sym : tree) (ntimes : Z) : res tree :=
  repeatM (fun d => diff_forward d sym p) (Z.to_nat ntimes) expr.
