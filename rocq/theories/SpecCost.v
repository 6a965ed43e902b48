(** * Specifications for the work done by the traversals *)
From Verif Require Import Py ModelTree SpecTree.

(** Nodes plus edges of a graph given by the list of its nodes. *)
Definition graph_cost (heads : bool) (nodes : list tree) : nat :=
  length nodes + list_sum (map (fun s => length (kids heads s)) nodes).

(** The loop of topological_sort finishes after exactly [n] iterations with result [l]: with fewer it
    is still running, with more nothing changes. *)
Definition sort_takes (expr : tree) (heads : bool) (exclude : list tree) (n : nat) (l : list tree) : Prop :=
  forall iterations,
    topo_loop (S iterations) heads exclude
      (if mem expr exclude then [] else [(expr, get_children heads expr)]) []
    = if n <=? iterations then Ok l else Err OutOfFuel.

(** The number of argument links of a graph. *)
Definition links (nodes : list tree) : nat := list_sum (map (fun s => length (kids false s)) nodes).
