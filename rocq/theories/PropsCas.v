(** * Properties of simplecas expressions: C34, C37 - C41. *)
From Verif Require Import Py ModelTree SpecTree ProofBase ProofTopo ModelEval SpecEval ModelCas SpecReal SpecPrint
  ProofCas ProofBin ProofPrint Samples.
Local Open Scope string_scope.

(** C34. Every Python operand is an expression, an int (bools are ints) or neither. *)
Theorem C34_expressify :
  (forall t, expressify (PExpr t) = Ok t) /\
  (forall o t, expressify o = Ok t -> expressify (PExpr t) = expressify o) /\
  (forall m n, expressify (PInt m) = expressify (PInt n) -> m = n) /\
  (forall o, (exists t, expressify o = Ok t) <-> o <> POther) /\
  expressify POther = Err ExpressifyError.
Proof.
  repeat split.
  - intros o t H. rewrite H. reflexivity.
  - intros m n H. injection H as H. exact H.
  - intros [t H] ->. discriminate.
  - intros H. destruct o; try congruence; eexists; reflexivity.
Qed.
(** The operators: never another exception than TypeError, and that exactly for an unsupported operand
    or if neither is an expression. *)
Theorem C34_operators op l r : In op [op_add; op_sub; op_mul; op_truediv; op_pow] ->
  ((exists t, op l r = Ok t) <->
   l <> POther /\ r <> POther /\ ((exists t, l = PExpr t) \/ (exists t, r = PExpr t))) /\
  (forall x, op l r = Err x -> x = TypeError).
Proof.
  intros Hin. assert (Hop : exists m1 m2, op = binop m1 m2).
  { simpl in Hin. destruct Hin as [<-|[<-|[<-|[<-|[<-|[]]]]]]; eexists _, _; reflexivity. }
  destruct Hop as (m1 & m2 & ->). split.
  - split.
    + intros [t H]. destruct l, r; try discriminate; repeat split; try discriminate; eauto.
    + intros (Hl & Hr & [[t ->]|[t ->]]); [destruct r|destruct l]; try congruence; eexists; reflexivity.
  - intros e H. destruct l, r; simpl in H; try discriminate; injection H as <-; reflexivity.
Qed.
(** Calling an expression: all arguments are converted, in order; otherwise ExpressifyError. *)
Theorem C34_call h args :
  (forall ts, Forall2 (fun o t => expressify o = Ok t) args ts -> expr_call h args = Ok (tree_call h ts)) /\
  (In POther args <-> expr_call h args = Err ExpressifyError).
Proof.
  unfold expr_call. split.
  - intros ts H. assert (E : mapM expressify args = Ok ts); [|rewrite E; reflexivity].
    induction H as [|o t args ts Ho _ IH]; [reflexivity|]. cbn [mapM]. rewrite Ho, IH. reflexivity.
  - induction args as [|o args IH]; [split; [intros []|discriminate]|].
    cbn [mapM In]. destruct (expressify o) as [t|] eqn:Eo; cbn [bind].
    + destruct (mapM expressify args) as [ts|]; cbn [bind] in *.
      * split; [|discriminate]. intros [->|H]; [discriminate|]. apply IH in H. discriminate.
      * rewrite <- IH. split; [|auto]. intros [->|H]; [discriminate|exact H].
    + destruct o; try discriminate. simpl in Eo. injection Eo as <-. split; auto.
Qed.
Example C34_case :
  expr_call f [PExpr x; PInt 3; PBool true] = Ok (tree_call f [x; int 3; int 1]) /\
  expr_call f [PExpr x; POther] = Err ExpressifyError /\
  op_sub (PInt 2) (PExpr x) = Ok (m_add (int 2) (m_mul (int (-1)) x)) /\
  op_sub (PExpr x) POther = Err TypeError.
Proof. repeat split. Qed.
Print Assumptions C34_expressify.
Print Assumptions C34_operators.
Print Assumptions C34_call.

(** C37. [proper e]: no argument position of [e] holds the childless Tree(). *)
Theorem C37_counts e : proper e -> exists t g,
  count_ops_tree e = Ok (Z.of_nat t) /\ count_ops_graph e = Ok (Z.of_nat g) /\
  t = tree_size e /\
  (exists l, NoDup l /\ (forall s, In s l <-> reach false [] e s) /\ length l = g) /\
  g <= t /\
  (g = t <-> NoDup (postorder false [] e)).
Proof.
  intros Hp. exists (tree_size e), (length (keep_first (postorder false [] e))).
  split; [apply count_ops_tree_spec, Hp|]. split; [apply count_ops_graph_spec|]. split; [reflexivity|].
  assert (Hin : forall s, In s (keep_first (postorder false [] e)) <-> reach false [] e s).
  { intros s. rewrite keep_first_In. apply post_reach. }
  split; [|split].
  - exists (keep_first (postorder false [] e)). split; [apply keep_first_NoDup|]. split; [exact Hin|reflexivity].
  - rewrite tree_size_postorder. apply keep_first_length.
  - rewrite tree_size_postorder. split; [apply keep_first_full|].
    intros H. apply Nat.le_antisymm; [apply keep_first_length|].
    apply NoDup_incl_length; [exact H|]. intros s Hs. apply Hin, post_reach, Hs.
Qed.
Example C37_case : proper e_shared /\ count_ops_tree e_shared = Ok 8%Z /\ count_ops_graph e_shared = Ok 4%Z.
Proof.
  split; [|split; reflexivity]. unfold proper. rewrite <- post_reach. cbn. intuition discriminate.
Qed.
Print Assumptions C37_counts.

(** C38. The documented sizes, for all n; the graph formula starts at n = 1. *)
Theorem C38_documented_growth n :
  count_ops_tree (make_expression n) = Ok (2 ^ (Z.of_nat n + 2) - 3)%Z /\
  ((1 <= n)%nat -> count_ops_graph (make_expression n) = Ok (2 * Z.of_nat n + 2)%Z).
Proof.
  split.
  - rewrite count_ops_tree_spec by apply make_proper. f_equal. apply make_size.
  - intros H. destruct n as [|n]; [lia|]. apply make_graph.
Qed.
Theorem C38_graph_formula_at_zero_refuted : count_ops_graph (make_expression 0) = Ok 1%Z.
Proof. reflexivity. Qed.
Example C38_case : make_expression 2 =
  (let e := m_add (m_pow x (int 2)) x in m_add (m_pow e (int 2)) e) /\
  count_ops_tree (make_expression 5) = Ok 125%Z /\ count_ops_graph (make_expression 5) = Ok 12%Z.
Proof. repeat split. Qed.
Print Assumptions C38_documented_growth.

(** C39. *)
Theorem C39_bin_expand e e' : bin_expand e = Ok e' ->
  binary e' /\ bin_expand e' = Ok e' /\ forall env, reval env e' = reval env e.
Proof. apply bin_expand_result. Qed.
Theorem C39_when_bin_expand_succeeds e : proper e ->
  (no_empty e /\ exists e', bin_expand e = Ok e') \/ (~ no_empty e /\ bin_expand e = Err TypeError).
Proof. apply bin_expand_cases. Qed.
(** Only sums and products change. *)
Theorem C39_binary_unchanged e : proper e -> binary e -> bin_expand e = Ok e.
Proof. intros Hp Hb. apply bin_expand_meaning, bin_id; assumption. Qed.
Example C39_case :
  bin_expand (tree_call sin [tree_call Add [x; tree_call Mul [x; y; z; x]; y]])
  = Ok (tree_call sin [m_add (m_add x (m_mul (m_mul (m_mul x y) z) x)) y]) /\
  bin_expand (tree_call sin [tree_call Add []]) = Err TypeError.
Proof. split; reflexivity. Qed.
Print Assumptions C39_bin_expand.
Print Assumptions C39_when_bin_expand_succeeds.
Print Assumptions C39_binary_unchanged.

(** C40. The text is [pretty], defined by recursion on the expression. *)
Theorem C40_text e s : eval_repr e = Ok s <-> pretty e = Ok s.
Proof. apply eval_repr_eq. Qed.
Theorem C40_when_str_succeeds e : (exists s, eval_repr e = Ok s) <-> whole e /\ arity_is 2 Pow e.
Proof.
  rewrite <- pretty_iff. split; intros [s H]; exists s; apply eval_repr_eq, H.
Qed.
(** On [printable] expressions nothing is lost. *)
Theorem C40_str_injective e1 e2 s : printable e1 -> printable e2 ->
  eval_repr e1 = Ok s -> eval_repr e2 = Ok s -> e1 = e2.
Proof. rewrite !eval_repr_eq. apply pretty_inj. Qed.
Theorem C40_printable_succeeds e : printable e -> exists s, eval_repr e = Ok s.
Proof. intros H. exists (txt e). apply eval_repr_eq, printable_ok, H. Qed.
(** In general the text is ambiguous: (x**y)**z and x**(y**z); Add(x) and Mul(x); the integer 1 and a
    symbol named 1. *)
Theorem C40_str_ambiguous_refuted :
  (m_pow (m_pow x y) z <> m_pow x (m_pow y z) /\
   eval_repr (m_pow (m_pow x y) z) = Ok "x**y**z" /\ eval_repr (m_pow x (m_pow y z)) = Ok "x**y**z") /\
  (tree_call Add [x] <> tree_call Mul [x] /\ eval_repr (tree_call Add [x]) = Ok "(x)" /\ eval_repr (tree_call Mul [x]) = Ok "(x)") /\
  (int 1 <> sym "1" /\ eval_repr (int 1) = Ok "1" /\ eval_repr (sym "1") = Ok "1") /\
  eval_repr (m_pow (int (-1)) x) = Ok "-1**x".
Proof. repeat split; discriminate. Qed.
Example C40_case :
  printable (m_add (m_pow x (m_pow y (int (-2)))) (tree_call f [m_mul x y; int 12; tree_call g []])) /\
  eval_repr (m_add (m_pow x (m_pow y (int (-2)))) (tree_call f [m_mul x y; int 12; tree_call g []]))
  = Ok "(x**y**-2 + f((x*y), 12, g()))".
Proof.
  assert (Hx : forall s, identifier s -> printable (sym s)) by (intros; constructor; assumption).
  split; [|reflexivity]. apply pr_add; [simpl; lia|]. repeat constructor; try discriminate; try (intros [l E]; discriminate).
Qed.
Print Assumptions C40_text.
Print Assumptions C40_when_str_succeeds.
Print Assumptions C40_str_injective.
Print Assumptions C40_printable_succeeds.

(** C41. *)
Theorem C41_latex_text e s : eval_latex e = Ok s <-> latex e = Ok s.
Proof. apply eval_latex_eq. Qed.
Theorem C41_when_latex_succeeds e : (exists s, eval_latex e = Ok s) <->
  whole e /\ latex_atoms e /\ arity_is 2 Pow e /\ arity_is 1 sin e /\ arity_is 1 cos e.
Proof.
  rewrite <- latex_iff. split; intros [s H]; exists s; apply eval_latex_eq, H.
Qed.
Example C41_case :
  eval_latex (m_mul (tree_call sin [m_pow x (int 2)]) (tree_call f [y])) = Ok "(\sin(x^{2}) \times f(y))" /\
  eval_latex (m_mul x wa) = Err NoEvaluationRuleError /\
  eval_latex (tree_call sin [x; y]) = Err TypeError.
Proof. repeat split. Qed.
Print Assumptions C41_latex_text.
Print Assumptions C41_when_latex_succeeds.
