(** * Model of core/tree.py at the level of objects: the same functions as in ModelTree.v, but as programs that a
    thread runs on the objects of ModelIntern.v, while other threads and the collector run too. Trees are addresses
    and are compared by identity; children are read from the objects; Trees are made by calls of the constructors. *)
From Verif Require Import Py ModelTree ModelIntern.

(** A program of one thread: it reads the attributes of an object, calls a constructor of unique objects, or returns
    or raises. Between two reads or calls it computes on its own variables only, so this takes no step here. *)
Inductive prog (A : Type) : Type :=
| Ret (r : res A)
| Read (a : addr) (c : obj pyval -> prog A)
| New (k : key pyval) (c : addr -> prog A).
Arguments Ret {A} r. Arguments Read {A} a c. Arguments New {A} k c.
Fixpoint pbind {A B} (p : prog A) (f : A -> prog B) : prog B :=
  match p with
  | Ret (Ok a) => f a
  | Ret (Err e) => Ret (Err e)
  | Read a c => Read a (fun o => pbind (c o) f)
  | New k c => New k (fun b => pbind (c b) f)
  end.
Notation "'run' x <- a ; b" := (pbind a (fun x => b)) (at level 200, x pattern, a at level 100, b at level 200, right associativity).
Definition ret {A} (a : A) : prog A := Ret (Ok a).
Definition lift {A} (r : res A) : prog A := Ret r.
Section Loops.
  Context {A S : Type} (f : S -> A -> prog S).
  (** [for x in l: acc = f(acc, x)] *)
  Fixpoint pfold (l : list A) (s : S) : prog S :=
    match l with [] => ret s | x :: r => run s' <- f s x; pfold r s' end.
End Loops.

(** The attribute [children] of a Tree: tree.py:112, set at 128 and 146. *)
Definition o_children (a : addr) : prog (list addr) :=
  Read a (fun o => match o with ONode l => ret l | OLeaf _ => ret [] | _ => Ret (Err AttributeError) end).
(** [t in S]: the hash and [==] of Tree are those of object, by identity. *)
Definition o_mem (a : addr) (S : list addr) : bool := existsb (Nat.eqb a) S.

(** core/tree.py:134-150 Tree.atom, 176-178 Tr, 118-132 Tree.__new__, 152-154 Tree.__call__; core/atom.py:155-174 Atom.__new__ *)
Definition o_Tr (a : addr) : prog addr := New (KLeaf a) ret.
Definition o_Tree (cs : list addr) : prog addr := New (KNode cs) ret.
Definition o_call (head : addr) (args : list addr) : prog addr := o_Tree (head :: args).
Definition o_Atom (ty : nat) (v : pyval) : prog addr := New (KAtom ty v) ret.

(** core/tree.py:255-260 get_children *)
Definition o_get_children (heads : bool) (a : addr) : prog (list addr) :=
  run cs <- o_children a;
  ret (rev (if heads then cs else tl cs)).
(** core/tree.py:273-283, as topo_loop in ModelTree.v *)
Fixpoint o_topo_loop (fuel : nat) (heads : bool) (seen : list addr) (stack : list (addr * list addr))
    (expressions : list addr) : prog (list addr) :=
  match fuel with
  | O => Ret (Err OutOfFuel)
  | S fuel' =>
      match stack with
      | [] => ret expressions
      | (top, cs) :: stack' =>
          match pop cs with
          | Some (child, cs') =>                                                (* 275-276 *)
              if o_mem child seen                                               (* 277 *)
              then o_topo_loop fuel' heads seen ((top, cs') :: stack') expressions
              else run ccs <- o_get_children heads child;                       (* 279 *)
                   o_topo_loop fuel' heads (child :: seen) ((child, ccs) :: (top, cs') :: stack') expressions
          | None => o_topo_loop fuel' heads seen stack' (expressions ++ [top])  (* 281-283 *)
          end
      end
  end.
(** core/tree.py:201-285 topological_sort; [fuel] bounds the iterations. *)
Definition o_topological_sort (fuel : nat) (expression : addr) (heads : bool) (exclude : list addr) : prog (list addr) :=
  run stack <- (if o_mem expression exclude then ret []                         (* 268-271 *)
                else run cs <- o_get_children heads expression; ret [(expression, cs)]);
  o_topo_loop fuel heads exclude stack [].

(** core/tree.py:288-335 topological_split *)
Definition o_set_add (S : list addr) (a : addr) : list addr := if o_mem a S then S else S ++ [a].
Definition o_split_step (acc : list addr * list addr * list addr) (subexpr : addr) : prog (list addr * list addr * list addr) :=
  let '(atoms, heads, nodes) := acc in
  run cs <- o_children subexpr;
  match cs with
  | [] => ret (atoms ++ [subexpr], heads, nodes)
  | h :: _ => ret (atoms, o_set_add heads h, nodes ++ [subexpr])
  end.
Definition o_topological_split (fuel : nat) (expr : addr) (exclude : list addr) : prog (list addr * list addr * list addr) :=
  run subexpressions <- o_topological_sort fuel expr false exclude;
  pfold o_split_step subexpressions ([], [], []).

(** core/tree.py:338-396 forward_graph: the atoms, the heads and the operations *)
Definition o_fg_step (acc : list (addr * list nat) * dict addr nat) (p : nat * addr) : prog (list (addr * list nat) * dict addr nat) :=
  let '(operations, indices) := acc in
  let '(index, subexpr) := p in
  run cs <- o_children subexpr;
  run head <- lift (getitem cs 0);                                              (* 390 *)
  run arg_indices <- lift (mapM (dict_getitem Nat.eqb indices) (tl cs));        (* 391-392 *)
  ret (operations ++ [(head, arg_indices)], dict_set Nat.eqb indices subexpr index). (* 393-394 *)
Definition o_forward_graph (fuel : nat) (expr : addr) : prog (list addr * list addr * list (addr * list nat)) :=
  run (atoms, heads, nodes) <- o_topological_split fuel expr [];               (* 382 *)
  let num_atoms := length atoms in                                              (* 384 *)
  let indices := dict_update Nat.eqb [] (combine atoms (seq 0 num_atoms)) in    (* 387 *)
  run (operations, _) <- pfold o_fg_step (enumerate_from num_atoms nodes) ([], indices);
  ret (atoms, heads, operations).
(** core/tree.py:361-364, the documented loop, with Tree.__call__ as the operation *)
Definition o_rebuild_op (stack : list addr) (op : addr * list nat) : prog (list addr) :=
  run args <- lift (mapM (getitem stack) (snd op));
  run v <- o_call (fst op) args;
  ret (stack ++ [v]).
Definition o_rebuild (fuel : nat) (expr : addr) : prog (list addr) :=
  run (atoms, _, operations) <- o_forward_graph fuel expr;
  pfold o_rebuild_op operations atoms.

(** core/tree.py:413-510 SubsFunc.__new__: nargs, atoms, operations *)
Definition o_intersects (A B : list addr) : bool := existsb (fun a => o_mem a B) A.
Definition o_subs_step (acc : list addr * list addr * list addr * list addr) (subexpr : addr)
    : prog (list addr * list addr * list addr * list addr) :=
  let '(atoms, nodes, has_args, node_children) := acc in
  run children <- o_children subexpr;                                           (* 470 *)
  match children with
  | [] => ret (atoms ++ [subexpr], nodes, has_args, node_children)              (* 483-484 *)
  | cs =>
      if o_intersects cs has_args                                               (* 473 *)
      then ret (atoms, nodes ++ [subexpr], subexpr :: has_args, cs ++ node_children) (* 474-476 *)
      else ret (atoms ++ [subexpr], nodes, has_args, node_children)             (* 482 *)
  end.
Definition o_subs_index_step (acc : list (list nat) * dict addr nat) (p : nat * addr) : prog (list (list nat) * dict addr nat) :=
  let '(operations, indices) := acc in
  let '(index, node) := p in
  let indices' := dict_set Nat.eqb indices node index in                        (* 501 *)
  run cs <- o_children node;
  run child_indices <- lift (mapM (dict_getitem Nat.eqb indices') cs);          (* 502 *)
  ret (operations ++ [child_indices], indices').                                (* 503 *)
Definition o_subs_new (fuel : nat) (expr : addr) (args : list addr) : prog (nat * list addr * list (list nat)) :=
  run subexpressions <- o_topological_sort fuel expr true args;                 (* 461 *)
  run (atoms0, nodes, _, node_children) <- pfold o_subs_step subexpressions ([], [], args, []); (* 463-484 *)
  let atoms :=
    match atoms0, nodes with
    | _ :: _, [] => [expr]                                                      (* 486-488 *)
    | _, _ => filter (fun a => o_mem a node_children) atoms0                    (* 489-491 *)
    end in
  let num_args := length args in                                                (* 493 *)
  let num_args_atoms := num_args + length atoms in                              (* 494 *)
  let indices0 := dict_update Nat.eqb [] (combine args (seq 0 num_args)) in     (* 496 *)
  let indices := dict_update Nat.eqb indices0 (combine atoms (seq num_args (length atoms))) in (* 497 *)
  run (operations, _) <- pfold o_subs_index_step (enumerate_from num_args_atoms nodes) ([], indices); (* 499-503 *)
  ret (num_args, atoms, operations).
(** core/tree.py:512-525 SubsFunc.__call__ and call *)
Definition o_subs_op (stack : list addr) (indices : list nat) : prog (list addr) :=
  run cs <- lift (mapM (getitem stack) indices);                                (* 522 *)
  run v <- o_Tree cs;                                                           (* 523 *)
  ret (stack ++ [v]).
Definition o_subs_call (sf : nat * list addr * list (list nat)) (args : list addr) : prog addr :=
  let '(nargs, atoms, operations) := sf in
  if negb (Nat.eqb (length args) nargs) then Ret (Err TypeError)                (* 516-517 *)
  else
    run stack <- pfold o_subs_op operations (args ++ atoms);                    (* 519-523 *)
    lift (last_item stack).                                                     (* 525 *)
(** SubsFunc(expr, args) and a call of it *)
Definition o_subs (fuel : nat) (expr : addr) (args values : list addr) : prog addr :=
  run sf <- o_subs_new fuel expr args;
  o_subs_call sf values.
