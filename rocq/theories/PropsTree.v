(** * Properties of the tree algorithms: C07 - C15. *)
From Verif Require Import Py ModelTree SpecTree ProofBase ProofTopo ProofGraph ProofSubs ProofTree Samples.

(** C07. For every expression: no duplicates, exactly the subexpressions reachable through the
    arguments (and heads if asked for), children first, and the expression itself last. *)
Theorem C07_topological_sort_is_topological (expr : tree) (heads : bool) :
  exists l, topological_sort expr heads [] = Ok (l ++ [expr]) /\
    is_topological_order heads [] expr (l ++ [expr]).
Proof. exact (topological_sort_full expr heads). Qed.

Example C07_case : topological_sort e_shared false [] = Ok [x; y; tree_call g [x; y]; e_shared]
  /\ topological_sort e_shared true [] = Ok [f; g; x; y; tree_call g [x; y]; e_shared].
Proof. split; reflexivity. Qed.
Print Assumptions C07_topological_sort_is_topological.

(** C08. The output is the naive recursive post-order with later repetitions dropped. *)
Theorem C08_topological_sort_is_first_visit_postorder (expr : tree) (heads : bool) (exclude : list tree) :
  topological_sort expr heads exclude = Ok (keep_first (postorder heads exclude expr)).
Proof. exact (topological_sort_spec expr heads exclude). Qed.

Example C08_case : postorder false [] e_shared =
  [x; y; tree_call g [x; y]; x; y; tree_call g [x; y]; x; e_shared].
Proof. reflexivity. Qed.
Print Assumptions C08_topological_sort_is_first_visit_postorder.

(** C09. [exclude] prunes exactly what is only reachable through excluded subexpressions. *)
Theorem C09_exclude_prunes (expr : tree) (heads : bool) (exclude : list tree) :
  exists l, topological_sort expr heads exclude = Ok l /\
    is_topological_order heads exclude expr l /\
    (In expr exclude -> l = []) /\ (~ In expr exclude -> exists l', l = l' ++ [expr]).
Proof. exact (topological_sort_exclude expr heads exclude). Qed.

Example C09_case : topological_sort e_shared false [tree_call g [x; y]] = Ok [x; e_shared].
Proof. reflexivity. Qed.
Print Assumptions C09_exclude_prunes.

(** C10. [topological_split] partitions the sort. *)
Theorem C10_split_partitions (expr : tree) (exclude : list tree) :
  exists sort atoms heads nodes,
    topological_sort expr false exclude = Ok sort /\
    topological_split expr exclude = Ok (atoms, heads, nodes) /\
    atoms = filter (fun s => match children s with [] => true | _ => false end) sort /\
    nodes = filter (fun s => match children s with [] => false | _ => true end) sort /\
    length sort = length atoms + length nodes /\
    NoDup heads /\
    (forall h, In h heads <-> exists s args, In s nodes /\ s = Node (h :: args)).
Proof. exact (topological_split_partition expr exclude). Qed.

Example C10_case : topological_split e_shared [] = Ok ([x; y], [g; f], [tree_call g [x; y]; e_shared]).
Proof. reflexivity. Qed.
Print Assumptions C10_split_partitions.

(** C11. [forward_graph] never fails, and the documented loop rebuilds the expression. *)
Theorem C11_forward_graph_rebuilds (expr : tree) :
  exists g stack,
    forward_graph expr = Ok g /\ rebuild_stack g = Ok stack /\ last_item stack = Ok expr /\
    (* every index points to an earlier position *)
    (forall k head indices i, nth_error (g_operations g) k = Some (head, indices) ->
       In i indices -> i < length (g_atoms g) + k) /\
    (* one operation for each distinct compound subexpression *)
    (exists nodes, NoDup nodes /\ length nodes = length (g_operations g) /\
       forall s, In s nodes <-> reach false [] expr s /\ children s <> []) /\
    (exists atoms, g_atoms g = atoms /\ NoDup atoms /\
       forall s, In s atoms <-> reach false [] expr s /\ children s = []).
Proof. exact (forward_graph_rebuilds expr). Qed.

Example C11_case : forward_graph e_shared =
  Ok (mkGraph [x; y] [g; f] [(g, [0; 1]); (f, [2; 2; 0])]).
Proof. reflexivity. Qed.
Print Assumptions C11_forward_graph_rebuilds.

(** C12. The rebuilt stack is a topological order and has the elements of [topological_sort]... *)
Theorem C12_rebuilt_stack_is_a_topological_order (expr : tree) :
  exists g stack sort,
    forward_graph expr = Ok g /\ rebuild_stack g = Ok stack /\
    topological_sort expr false [] = Ok sort /\
    Permutation.Permutation stack sort /\ is_topological_order false [] expr stack.
Proof. exact (rebuilt_stack_order expr). Qed.
Print Assumptions C12_rebuilt_stack_is_a_topological_order.

(** ... but not the same order: they agree exactly if the sort lists all atoms first. *)
Theorem C12_rebuilt_stack_differs (expr : tree) g stack sort :
  forward_graph expr = Ok g -> rebuild_stack g = Ok stack ->
  topological_sort expr false [] = Ok sort ->
  (stack = sort <->
   ~ exists l1 n l2 a l3, sort = l1 ++ n :: l2 ++ a :: l3 /\ children n <> [] /\ children a = []).
Proof. exact (rebuilt_stack_same_iff expr g stack sort). Qed.
Print Assumptions C12_rebuilt_stack_differs.

(** Finding: the docstring's "stack == topological_sort(expr)" fails for [f(g(x), y)]. *)
Theorem C12_docstring_claim_refuted :
  exists g stack sort, forward_graph e_fgxy = Ok g /\ rebuild_stack g = Ok stack /\
    topological_sort e_fgxy false [] = Ok sort /\ stack <> sort.
Proof. exact forward_graph_docstring_refuted. Qed.
Print Assumptions C12_docstring_claim_refuted.

(** C13. SubsFunc is simultaneous substitution. *)
Theorem C13_subs_is_substitution (expr : tree) (args vals : list tree) :
  ~ In expr args -> length vals = length args ->
  (do sf <- subs_new expr args; subs_call sf vals) = Ok (subst args vals expr).
Proof. exact (subs_is_subst expr args vals). Qed.

Example C13_case :
  ~ In e_shared [tree_call g [x; y]; x; f] /\
  (do sf <- subs_new e_shared [tree_call g [x; y]; x; f]; subs_call sf [x; z; g])
  = Ok (tree_call g [x; x; z]).
Proof. split; [|reflexivity]. simpl. intuition discriminate. Qed.
Print Assumptions C13_subs_is_substitution.

(** C14. Finding: when the expression itself is to be replaced, the result is the last value. *)
Theorem C14_subs_of_root_is_last_value (expr : tree) (args vals : list tree) :
  In expr args -> length vals = length args ->
  (do sf <- subs_new expr args; subs_call sf vals) = last_item vals.
Proof. exact (subs_of_root expr args vals). Qed.

Theorem C14_subs_correct_iff (expr : tree) (args vals : list tree) :
  length vals = length args ->
  ((do sf <- subs_new expr args; subs_call sf vals) = Ok (subst args vals expr) <->
   (In expr args -> last_item vals = Ok (subst args vals expr))).
Proof. exact (subs_correct_iff expr args vals). Qed.

Theorem C14_subs_of_root_refuted :
  (do sf <- subs_new x [x; y]; subs_call sf [int 1; int 2]) = Ok (int 2) /\
  subst [x; y] [int 1; int 2] x = int 1.
Proof. split; reflexivity. Qed.
Print Assumptions C14_subs_of_root_is_last_value.
Print Assumptions C14_subs_correct_iff.
Print Assumptions C14_subs_of_root_refuted.

(** C15. Arity check, totality and amount of work. *)
Theorem C15_subs_arity (expr : tree) (args : list tree) :
  exists sf, subs_new expr args = Ok sf /\
    (forall vals, length vals <> length args -> subs_call sf vals = Err TypeError) /\
    (forall vals, length vals = length args -> exists t, subs_call sf vals = Ok t).
Proof. exact (subs_arity expr args). Qed.

Theorem C15_subs_minimal_work (expr : tree) (args : list tree) sf :
  subs_new expr args = Ok sf ->
  exists rebuilt, NoDup rebuilt /\ length (sf_operations sf) = length rebuilt /\
    (forall s, In s rebuilt <-> reach true args expr s /\ exists a, In a args /\ occurs a s).
Proof. exact (subs_minimal_work expr args sf). Qed.

Example C15_case : exists sf, subs_new (tree_call f [e_shared; tree_call g [x]]) [y] = Ok sf /\
  length (sf_operations sf) = 3 /\ subs_call sf [x; y] = Err TypeError.
Proof. eexists. split; [reflexivity|]. split; reflexivity. Qed.
Print Assumptions C15_subs_arity.
Print Assumptions C15_subs_minimal_work.
