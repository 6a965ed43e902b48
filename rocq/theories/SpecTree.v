(** * Specifications for the tree algorithms: recursive definitions with no stacks, indices or
    dictionaries. *)
From Verif Require Import Py ModelTree.

(** The children that count: all of them, or only the arguments (all but the head). *)
Definition kids (heads : bool) (t : tree) : list tree :=
  if heads then children t else tl (children t).

(** [s] is reachable from [t] along a path of children none of which is excluded. *)
Inductive reach (heads : bool) (exclude : list tree) : tree -> tree -> Prop :=
| reach_here t : ~ In t exclude -> reach heads exclude t t
| reach_child t c s :
    ~ In t exclude -> In c (kids heads t) -> reach heads exclude c s -> reach heads exclude t s.

(** Naive post-order listing, with repetitions. *)
Fixpoint postorder (heads : bool) (exclude : list tree) (t : tree) : list tree :=
  if mem t exclude then [] else
  match t with
  | Atm _ => [t]
  | Node [] => [t]
  | Node (h :: args) =>
      (if heads then postorder heads exclude h else [])
        ++ flat_map (postorder heads exclude) args ++ [t]
  end.

(** Keep the first occurrence of everything. *)
Fixpoint keep_first (l : list tree) : list tree :=
  match l with
  | [] => []
  | x :: r => x :: filter (fun y => negb (tree_eqb x y)) (keep_first r)
  end.

(** [a] occurs strictly before [b] in [l]. *)
Definition before (l : list tree) (a b : tree) : Prop :=
  exists l1 l2 l3, l = l1 ++ a :: l2 ++ b :: l3.

(** A topological order of the subexpressions of [t]. *)
Definition is_topological_order (heads : bool) (exclude : list tree) (t : tree) (l : list tree) :=
  NoDup l /\
  (forall s, In s l <-> reach heads exclude t s) /\
  (forall s c, In s l -> In c (kids heads s) -> ~ In c exclude -> before l c s).

(** The replacement of [t], if it is one of [args]; for repeated [args] the last one counts. *)
Fixpoint replacement (args vals : list tree) (t : tree) : option tree :=
  match args, vals with
  | a :: args', v :: vals' =>
      match replacement args' vals' t with
      | Some w => Some w
      | None => if tree_eqb t a then Some v else None
      end
  | _, _ => None
  end.

(** Simultaneous substitution, outermost first, replacements not revisited. *)
Fixpoint subst (args vals : list tree) (t : tree) : tree :=
  match replacement args vals t with
  | Some v => v
  | None => match t with
            | Atm a => Atm a
            | Node cs => Node (map (subst args vals) cs)
            end
  end.

(** [a] occurs in [t] (in any position, [t] itself included). *)
Inductive occurs (a : tree) : tree -> Prop :=
| occurs_here : occurs a a
| occurs_in cs c : In c cs -> occurs a c -> occurs a (Node cs).
