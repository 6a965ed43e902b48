(** * Work and size: C58, C59. *)
From Verif Require Import Py ModelTree SpecTree ProofBase ProofTopo ProofTree ModelDiff ModelCas SpecCas SpecPrint ProofCas
  SpecCost ProofCost ProofSwell Samples.

(** C58. The loop of topological_sort runs exactly once for every node and every link of the graph (of
    what is not excluded), however often subexpressions are repeated in the tree. *)
Theorem C58_sort_takes_linear_time (expr : tree) (heads : bool) (exclude : list tree) :
  exists l, topological_sort expr heads exclude = Ok l /\ is_topological_order heads exclude expr l /\
    sort_takes expr heads exclude (graph_cost heads l) l.
Proof. exact (sort_cost expr heads exclude). Qed.
Example C58_case : graph_cost false [x; y; tree_call g [x; y]; e_shared] = 9 /\
  topo_loop 9 false [] [(e_shared, get_children false e_shared)] [] = Err OutOfFuel /\
  topo_loop 10 false [] [(e_shared, get_children false e_shared)] [] = Ok [x; y; tree_call g [x; y]; e_shared].
Proof. repeat split; reflexivity. Qed.
Print Assumptions C58_sort_takes_linear_time.

(** So for the documented family, whose trees have 2^(n+2)-3 nodes (C38), it is linear in n. *)
Theorem C58_documented_family (n : nat) : (1 <= n) ->
  exists k l, sort_takes (make_expression n) false [] k l /\
    topological_sort (make_expression n) false [] = Ok l /\ k <= 6 * n + 6.
Proof.
  intros Hn. destruct (sort_cost (make_expression n) false []) as (l & Hl & (_ & Hr & _) & Ht).
  exists (graph_cost false l), l. split; [exact Ht|]. split; [exact Hl|].
  assert (Hlen : length l = 2 * n + 2).
  { destruct n as [|n]; [lia|]. pose proof (make_graph n) as H. unfold count_ops_graph in H. rewrite Hl in H. cbn [bind] in H.
    injection H as H. lia. }
  assert (Hk : forall s, In s l -> length (kids false s) <= 2).
  { intros s Hs. apply Hr in Hs. clear -Hs. revert s Hs. induction n as [|n IH]; intros s Hs.
    - inversion Hs as [|? c ? _ Hc]; subst; [simpl; lia|destruct Hc].
    - apply reach_make in Hs as [->|[->|[->|Hs]]]; [simpl; lia|simpl; lia|simpl; lia|apply IH, Hs]. }
  unfold graph_cost. assert (list_sum (map (fun s => length (kids false s)) l) <= 2 * length l).
  { clear -Hk. induction l as [|s l IH]; [simpl; lia|]. cbn [map list_sum fold_right length].
    change (fold_right Nat.add 0) with list_sum. pose proof (Hk s (or_introl eq_refl)).
    specialize (IH (fun s Hs => Hk s (or_intror Hs))). lia. }
  lia.
Qed.
Example C58_case_family : count_ops_tree (make_expression 5) = Ok 125%Z /\
  topo_loop 37 false [] [(make_expression 5, get_children false (make_expression 5))] [] <> Err OutOfFuel.
Proof. split; [reflexivity|]. vm_compute. discriminate. Qed.
Print Assumptions C58_documented_family.

(** C59. The derivative of an expression has at most three times as many distinct subexpressions, plus the
    number of argument links of the graph, plus three: no expression swell, however deep the sharing. *)
Theorem C59_derivatives_stay_small (s : string) (e d : tree) (le ld : list tree) :
  arith e -> expr_diff e (Symbol s) 1 = Ok d ->
  topological_sort e false [] = Ok le -> topological_sort d false [] = Ok ld ->
  length ld <= 3 * length le + links le + 3.
Proof. exact (swell s e d le ld). Qed.

(** In terms of count_ops_graph, for expressions whose sums and products are binary. *)
Theorem C59_binary_expressions (s : string) (e d : tree) (n m : Z) :
  arith e -> binary e -> expr_diff e (Symbol s) 1 = Ok d ->
  count_ops_graph e = Ok n -> count_ops_graph d = Ok m -> (m <= 5 * n + 3)%Z.
Proof.
  intros Ha Hb Hd Hn Hm. unfold count_ops_graph in *.
  destruct (topological_sort_full e false) as (l1 & E1 & Ho & Hr & _). rewrite E1 in Hn.
  destruct (topological_sort_full d false) as (l2 & E2 & _). rewrite E2 in Hm. cbn [bind] in *.
  injection Hn as <-. injection Hm as <-. pose proof (swell s e d _ _ Ha Hd E1 E2) as H.
  assert (Hk : forall t, In t (l1 ++ [e]) -> length (kids false t) <= 2).
  { intros t Ht. apply Hr in Ht. assert (Hat : arith t).
    { clear -Ha Ht. induction Ht as [u _|u c t _ Hc _ IH]; [exact Ha|]. apply IH. clear IH. unfold kids in Hc.
      inversion Ha; subst; simpl in Hc; try tauto; try (rewrite Forall_forall in H; auto);
        destruct Hc as [<-|Hc]; try assumption; try tauto. destruct Hc as [<-|[]]. assumption. }
    destruct Hat as [n|n|args Hf|args Hf|a H1|a H1|a b H1 H2]; try (simpl; lia).
    - change (length args <= 2). rewrite (Hb _ args Ht); auto.
    - change (length args <= 2). rewrite (Hb _ args Ht); auto. }
  assert (links (l1 ++ [e]) <= 2 * length (l1 ++ [e])).
  { clear -Hk. unfold links. revert Hk. generalize (l1 ++ [e]) as l. intros l Hk. induction l as [|t l IH]; [simpl; lia|].
    cbn [map list_sum fold_right length]. change (fold_right Nat.add 0) with list_sum.
    pose proof (Hk t (or_introl eq_refl)). specialize (IH (fun s Hs => Hk s (or_intror Hs))). lia. }
  lia.
Qed.
Example C59_case : arith (make_expression 3) /\ binary (make_expression 3) /\
  count_ops_graph (make_expression 3) = Ok 8%Z /\
  (do d <- expr_diff (make_expression 3) (Symbol "x") 1; count_ops_graph d) = Ok 20%Z /\
  (do d <- expr_diff (make_expression 3) (Symbol "x") 1; count_ops_tree d) = Ok 83%Z.
Proof.
  assert (H : forall n, arith (make_expression n)).
  { induction n as [|n IH]; [apply ar_sym|]. cbn [make_expression]. apply ar_add.
    constructor; [apply ar_pow; [exact IH|apply ar_int]|]. constructor; [exact IH|constructor]. }
  split; [apply H|]. split.
  - intros h args Hr _. generalize dependent args. revert h. generalize 3 as n. induction n as [|n IH]; intros h args Hr.
    + inversion Hr as [|? c ? _ Hc]; subst. destruct Hc.
    + apply reach_make in Hr as [E|[E|[E|Hr]]].
      * injection E as -> ->. reflexivity.
      * injection E as -> ->. reflexivity.
      * discriminate.
      * apply (IH h args Hr).
  - repeat split; vm_compute; reflexivity.
Qed.
Print Assumptions C59_derivatives_stay_small.
Print Assumptions C59_binary_expressions.
