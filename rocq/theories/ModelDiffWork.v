(** * The work done by differentiation: the functions of ModelDiff.v, also recording the calls of Tree( *children) that they make.
    That they compute the same is proved in PropsDiffWork.v (C97). *)
From Verif Require Import Py ModelTree ModelDiff ModelCas.

(** A computation with the list of the [children] tuples given to the constructor. *)
Definition built (A : Type) : Type := list (list tree) * res A.
Definition b_ret {A} (a : A) : built A := ([], Ok a).
Definition b_lift {A} (r : res A) : built A := ([], r).
Definition b_bind {A B} (m : built A) (k : A -> built B) : built B :=
  match snd m with
  | Ok a => let r := k a in (fst m ++ fst r, snd r)
  | Err x => (fst m, Err x)
  end.
(** core/tree.py:99-122 Tree.__new__, 150-152 Tree.__call__ *)
Definition b_tree (cs : list tree) : built tree := ([cs], Ok (Node cs)).
Definition b_call (h : tree) (args : list tree) : built tree := b_tree (h :: args).
Section Fold.
  Context {A S : Type} (f : S -> A -> built S).
  Fixpoint b_fold (l : list A) (s : S) : built S :=
    match l with [] => b_ret s | x :: r => b_bind (f s x) (b_fold r) end.
End Fold.

(** core/tree.py:512-525 SubsFunc.__call__ and call *)
Definition b_subs_call (sf : subs_func) (args : list tree) : built tree :=
  if negb (Nat.eqb (length args) (sf_nargs sf)) then b_lift (Err TypeError)   (* 516-517 *)
  else
    b_bind (b_fold (fun stack indices =>
                      b_bind (b_lift (mapM (getitem stack) indices))          (* 522 *)
                        (fun cs => b_bind (b_tree cs) (fun t => b_ret (stack ++ [t])))) (* 523 *)
                   (sf_operations sf) (args ++ sf_atoms sf))                  (* 519-521 *)
      (fun stack => b_lift (last_item stack)).                                (* 525 *)

(** core/differentiate.py:104-117 product_rule_forward *)
Definition b_product_rule (args diff_args : list tree) (zero mul : tree) : built (list tree) :=
  b_fold (fun terms p =>
            if negb (tree_eqb (snd p) zero)                                   (* 113 *)
            then b_bind (b_call mul (firstn (fst p) args ++ [snd p] ++ skipn (fst p + 1) args)) (* 115 *)
                   (fun term => b_ret (terms ++ [term]))                      (* 116 *)
            else b_ret terms)
    (enumerate_from 0 diff_args) [].

(** core/differentiate.py:120-138 chain_rule_forward *)
Definition b_chain_rule (func : tree) (args diff_args : list tree) (zero one mul : tree) (diff_rules : dict (tree * nat) subs_func) : built (list tree) :=
  b_fold (fun terms p =>
            if negb (tree_eqb (snd p) zero) then                              (* 132 *)
              b_bind (b_lift (dict_getitem rule_key_eqb diff_rules (func, fst p))) (fun pdiff => (* 133 *)
              b_bind (b_subs_call pdiff args) (fun diff_term =>               (* 134 *)
              b_bind (if negb (tree_eqb (snd p) one) then b_call mul [diff_term; snd p] else b_ret diff_term) (fun diff_term' => (* 135-136 *)
              b_ret (terms ++ [diff_term']))))                                (* 137 *)
            else b_ret terms)
    (enumerate_from 0 diff_args) [].

(** core/differentiate.py:73-86 *)
Definition b_diff_terms (p : diff_props) (func : tree) (args diff_args : list tree) : built (list tree) :=
  if mem func (dp_distributive p) then b_bind (b_call func diff_args) (fun t => b_ret [t]) (* 73-74 *)
  else if all_zero diff_args (dp_zero p) then b_ret []                         (* 75-78 *)
  else if tree_eqb func (dp_add p)
  then b_ret (filter (fun da => negb (tree_eqb da (dp_zero p))) diff_args)     (* 79-80 *)
  else if tree_eqb func (dp_mul p)
  then b_product_rule args diff_args (dp_zero p) (dp_mul p)                    (* 81-82 *)
  else b_chain_rule func args diff_args (dp_zero p) (dp_one p) (dp_mul p) (dp_rules p).
(** core/differentiate.py:88-93 *)
Definition b_sum_terms (p : diff_props) (diff_terms : list tree) : built tree :=
  match diff_terms with
  | [] => b_ret (dp_zero p)
  | [t] => b_ret t
  | _ => b_call (dp_add p) diff_terms
  end.
(** core/differentiate.py:68-96 *)
Definition b_diff_step (p : diff_props) (acc : list tree * list tree) (op : tree * list nat) : built (list tree * list tree) :=
  b_bind (b_lift (mapM (getitem (fst acc)) (snd op))) (fun args =>             (* 69 *)
  b_bind (b_lift (mapM (getitem (snd acc)) (snd op))) (fun diff_args =>        (* 70 *)
  b_bind (b_call (fst op) args) (fun expr =>                                   (* 71 *)
  b_bind (b_diff_terms p (fst op) args diff_args) (fun diff_terms =>
  b_bind (b_sum_terms p diff_terms) (fun derivative =>
  b_ret (fst acc ++ [expr], snd acc ++ [derivative])))))).                     (* 95-96 *)
(** core/differentiate.py:47-101 diff_forward (forward_graph makes no trees) *)
Definition b_diff_forward (expression sym : tree) (p : diff_props) : built tree :=
  b_bind (b_lift (forward_graph expression)) (fun graph =>                     (* 63 *)
  b_bind (b_fold (b_diff_step p) (g_operations graph)
            (g_atoms graph, map (fun e => if tree_eqb e sym then dp_one p else dp_zero p) (g_atoms graph))) (fun stacks => (* 65-96 *)
  b_lift (last_item (snd stacks)))).                                           (* 101 *)
(** simplecas/expr.py:421-468 Expr.diff, through core/sym.py:663-669 SymDifferentiator.__call__ with ntimes 1 *)
Definition b_expr_diff (self sym : tree) (ntimes : Z) : built tree :=
  Nat.iter (Z.to_nat ntimes) (fun m => b_bind m (fun deriv => b_diff_forward deriv sym cas_diff)) (b_ret self).
