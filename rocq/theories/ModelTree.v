(** * Model of src/protosym/core/tree.py (pure level)

    Trees are immutable values here and Tree identity is structural equality: ModelIntern.v models
    the weak store and ProofIntern.v justifies this identification. *)
From Verif Require Import Py.

(** core/atom.py:33-85 class AtomType. AtomType has no [__eq__]: it is compared by identity,
    represented by [ty_id]; [name] is AtomType.name. The [typ] attribute is never used by the code
    and is left out. *)
Record atype := mkType { ty_id : nat; ty_name : string }.

(** core/atom.py:96-153 class Atom: atom_type and value. Simplification: at this level a value is
    an int or a str, the only kinds used by simplecas; ModelIntern.v treats arbitrary values. *)
Inductive pyval := VInt (z : Z) | VStr (s : string).
Record atom := mkAtom { atom_type : atype; atom_value : pyval }.

(** core/tree.py:31-117 class Tree. [Atm a] is the object built by Tree.atom (134-150);
    [Node cs] the one built by Tree.__new__ (118-132). [Node []] is the result of the call
    [Tree()]: it has no children, and its [value] attribute is never assigned. *)
Inductive tree :=
| Atm (a : atom)
| Node (cs : list tree).

(** core/tree.py:112 attribute [children] (set at 128 and 146). *)
Definition children (t : tree) : list tree :=
  match t with Atm _ => [] | Node cs => cs end.

(** core/tree.py:115 attribute [value]; AttributeError if the slot is unset. *)
Definition tree_value (t : tree) : res atom :=
  match t with Atm a => Ok a | Node _ => Err AttributeError end.

(** core/tree.py:152-154 Tree.__call__: the callee is the first child. *)
Definition tree_call (head : tree) (args : list tree) : tree := Node (head :: args).

(** Identity ([==], [in], hashing) of atoms and trees at the pure level. *)
Definition atype_eqb (t1 t2 : atype) : bool :=
  Nat.eqb (ty_id t1) (ty_id t2) && String.eqb (ty_name t1) (ty_name t2).
Definition pyval_eqb (v1 v2 : pyval) : bool :=
  match v1, v2 with
  | VInt a, VInt b => Z.eqb a b
  | VStr a, VStr b => String.eqb a b
  | _, _ => false
  end.
Definition atom_eqb (a b : atom) : bool :=
  atype_eqb (atom_type a) (atom_type b) && pyval_eqb (atom_value a) (atom_value b).
Fixpoint tree_eqb (s t : tree) {struct s} : bool :=
  match s, t with
  | Atm a, Atm b => atom_eqb a b
  | Node cs, Node ds =>
      (fix go (l m : list tree) : bool :=
         match l, m with
         | [], [] => true
         | x :: l', y :: m' => tree_eqb x y && go l' m'
         | _, _ => false
         end) cs ds
  | _, _ => false
  end.

(** [t in S] for a set or list of trees. *)
Definition mem (t : tree) (S : list tree) : bool := existsb (tree_eqb t) S.

(** core/tree.py:255-260 get_children, inner function of topological_sort: the (argument)
    children in reverse order. *)
Definition get_children (heads : bool) (e : tree) : list tree :=
  let cs := if heads then children e else tl (children e) in
  rev cs.

(** core/tree.py:201-285 topological_sort: the [while stack] loop of 273-283. The Python stack's
    last element is the first element of [stack] here. One iteration of this function is one
    iteration of the inner [while children] loop (275-280) or its [else] branch (281-283): as the
    frame's [children] list is mutated in place, leaving the inner loop body without [break] and
    re-reading [stack[-1]] are the same thing. *)
Fixpoint topo_loop (fuel : nat) (heads : bool) (seen : list tree)
    (stack : list (tree * list tree)) (expressions : list tree) : res (list tree) :=
  match fuel with
  | O => Err OutOfFuel
  | S fuel' =>
      match stack with
      | [] => Ok expressions                                                    (* 273, 285 *)
      | (top, cs) :: stack' =>                                                  (* 274 *)
          match pop cs with
          | Some (child, cs') =>                                                (* 275-276 *)
              if mem child seen                                                 (* 277 *)
              then topo_loop fuel' heads seen ((top, cs') :: stack') expressions
              else topo_loop fuel' heads (child :: seen)                        (* 278-280 *)
                     ((child, get_children heads child) :: (top, cs') :: stack') expressions
          | None => topo_loop fuel' heads seen stack' (expressions ++ [top])    (* 281-283 *)
          end
      end
  end.

(** Fuel for the loop: more than the number of its iterations (proved in ProofTopo.v). *)
Fixpoint topo_weight (t : tree) : nat :=
  match t with
  | Atm _ => 2
  | Node cs => 2 + list_sum (map topo_weight cs)
  end.

(** core/tree.py:201-285 topological_sort(expression, heads=..., exclude=...). [exclude = []] is
    also the default [None] (262-265). *)
Definition topological_sort (expression : tree) (heads : bool) (exclude : list tree)
    : res (list tree) :=
  let seen := exclude in                                                        (* 262-265 *)
  let stack := if mem expression seen then []
               else [(expression, get_children heads expression)] in            (* 268-271 *)
  topo_loop (S (topo_weight expression)) heads seen stack [].

(** core/tree.py:288-335 topological_split: loop 327-333. [heads] is a set: kept without
    duplicates. *)
Definition set_add (S : list tree) (t : tree) : list tree := if mem t S then S else S ++ [t].

Definition split_step (acc : list tree * list tree * list tree) (subexpr : tree)
    : list tree * list tree * list tree :=
  let '(atoms, heads, nodes) := acc in
  match children subexpr with
  | [] => (atoms ++ [subexpr], heads, nodes)                                    (* 329-330 *)
  | h :: _ => (atoms, set_add heads h, nodes ++ [subexpr])                      (* 331-333 *)
  end.

Definition topological_split (expr : tree) (exclude : list tree)
    : res (list tree * list tree * list tree) :=
  do subexpressions <- topological_sort expr false exclude;
  Ok (fold_left split_step subexpressions ([], [], [])).

(** core/tree.py:399-410 class ForwardGraph. *)
Record forward_graph_t := mkGraph {
  g_atoms : list tree;
  g_heads : list tree;
  g_operations : list (tree * list nat)
}.

(** core/tree.py:338-396 forward_graph: loop 389-394. *)
Definition fg_step (acc : list (tree * list nat) * dict tree nat) (p : nat * tree)
    : res (list (tree * list nat) * dict tree nat) :=
  let '(operations, indices) := acc in
  let '(index, subexpr) := p in
  do head <- getitem (children subexpr) 0;                                      (* 390 *)
  let args := tl (children subexpr) in                                          (* 391 *)
  do arg_indices <- mapM (dict_getitem tree_eqb indices) args;                  (* 392 *)
  Ok (operations ++ [(head, arg_indices)], dict_set tree_eqb indices subexpr index). (* 393-394 *)

Definition forward_graph (expr : tree) : res forward_graph_t :=
  do (atoms, heads, nodes) <- topological_split expr [];                       (* 382 *)
  let num_atoms := length atoms in                                              (* 384 *)
  let indices := dict_update tree_eqb [] (combine atoms (seq 0 num_atoms)) in   (* 387 *)
  do (operations, _) <- foldM fg_step (enumerate_from num_atoms nodes) ([], indices);
  Ok (mkGraph atoms heads operations).

(** core/tree.py:361-364, the documented "forward evaluation" loop, for any operation. *)
Definition run_op {V} (f : tree -> list V -> res V) (stack : list V) (op : tree * list nat)
    : res (list V) :=
  do args <- mapM (getitem stack) (snd op);
  do v <- f (fst op) args;
  Ok (stack ++ [v]).

Definition rebuild_stack (g : forward_graph_t) : res (list tree) :=
  foldM (run_op (fun head args => Ok (tree_call head args))) (g_operations g) (g_atoms g).

(** core/tree.py:413-525 class SubsFunc. *)
Record subs_func := mkSubs {
  sf_nargs : nat;
  sf_atoms : list tree;
  sf_operations : list (list nat)
}.

(** [set & set] is non-empty. *)
Definition intersects (A B : list tree) : bool := existsb (fun t => mem t B) A.

(** core/tree.py:469-484: the loop that separates atoms from nodes.
    State: atoms, nodes, has_args, node_children. *)
Definition subs_step (acc : list tree * list tree * list tree * list tree) (subexpr : tree)
    : list tree * list tree * list tree * list tree :=
  let '(atoms, nodes, has_args, node_children) := acc in
  match children subexpr with
  | [] => (atoms ++ [subexpr], nodes, has_args, node_children)                  (* 483-484 *)
  | cs =>
      if intersects cs has_args                                                 (* 473 *)
      then (atoms, nodes ++ [subexpr], subexpr :: has_args, cs ++ node_children) (* 474-476 *)
      else (atoms ++ [subexpr], nodes, has_args, node_children)                 (* 482 *)
  end.

(** core/tree.py:499-503: build the operations. *)
Definition subs_index_step (acc : list (list nat) * dict tree nat) (p : nat * tree)
    : res (list (list nat) * dict tree nat) :=
  let '(operations, indices) := acc in
  let '(index, node) := p in
  let indices' := dict_set tree_eqb indices node index in                       (* 501 *)
  do child_indices <- mapM (dict_getitem tree_eqb indices') (children node);    (* 502 *)
  Ok (operations ++ [child_indices], indices').                                 (* 503 *)

(** core/tree.py:458-510 SubsFunc.__new__. *)
Definition subs_new (expr : tree) (args : list tree) : res subs_func :=
  do subexpressions <- topological_sort expr true args;                         (* 461 *)
  let '(atoms0, nodes, _, node_children) :=
    fold_left subs_step subexpressions ([], [], args, []) in                    (* 463-484 *)
  let atoms :=
    match atoms0, nodes with
    | _ :: _, [] => [expr]                                                      (* 486-488 *)
    | _, _ => filter (fun a => mem a node_children) atoms0                      (* 489-491 *)
    end in
  let num_args := length args in                                                (* 493 *)
  let num_args_atoms := num_args + length atoms in                              (* 494 *)
  let indices0 := dict_update tree_eqb [] (combine args (seq 0 num_args)) in    (* 496 *)
  let indices := dict_update tree_eqb indices0
                   (combine atoms (seq num_args (length atoms))) in             (* 497 *)
  do (operations, _) <-
    foldM subs_index_step (enumerate_from num_args_atoms nodes) ([], indices);  (* 499-503 *)
  Ok (mkSubs num_args atoms operations).

(** core/tree.py:512-525 SubsFunc.__call__ and call. *)
Definition subs_call (sf : subs_func) (args : list tree) : res tree :=
  if negb (Nat.eqb (length args) (sf_nargs sf)) then Err TypeError              (* 516-517 *)
  else
    do stack <- foldM (fun stack indices =>
                         do cs <- mapM (getitem stack) indices;                 (* 522 *)
                         Ok (stack ++ [Node cs]))                               (* 523 *)
                      (sf_operations sf) (args ++ sf_atoms sf);                 (* 519-521 *)
    last_item stack.                                                            (* 525 *)

(** core/tree.py:176-178 Tr. *)
Definition Tr (a : atom) : tree := Atm a.
