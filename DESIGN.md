# Formal model of protosym in Coq — design

Everything is in `/verif/rocq/theories` (logical name `Verif`). Four kinds of file:

* `Model*.v` – executable Gallina functions mirroring the Python, branch by branch, each with
  a comment citing file and lines. No proofs there.
* `Spec*.v` – short, independent specifications (recursive mathematical definitions, not loops).
* `Proof*.v` – lemmas.
* `Props*.v` – the property theorems (named `CNN_…`, mostly one-line applications of lemmas), a
  concrete non-vacuity `Example` (`CNN_case…`) beside each, and `Print Assumptions`. A theorem whose
  name ends in `_refuted` proves that a claim one might expect (or that a docstring makes) is false
  of the code, by exhibiting a reachable counterexample; the true statement stands beside it.

## Modelling decisions

* **Exceptions are values**: `res A := Ok a | Err e` where `e : exn` is one of the Python
  exception classes that the modelled code can raise.
* **Two levels.** The *heap level* (`ModelIntern.v`) models objects with identities, the weak
  stores, threads and garbage collection, and proves that identity of held objects coincides with
  structural equality. The *tree level* (everything else) is written over immutable structural
  trees with decidable equality: that is what the heap level justifies (`==` and hashing of Tree
  are identity based).
* **Trees**: `Atm a | Node children`; `Node []` is the object made by `Tree()` (no children and no
  value), for which `.value` raises AttributeError.
* **Python dict/set** are association lists/lists used only through get, set, membership, and
  insertion order where the code iterates.
* **Loops** are fuelled with an explicit error on exhaustion, and the theorems show that
  exhaustion never happens; or folds.
* **Rule functions** given by the user are arbitrary Gallina functions returning `res`, i.e. pure; rule functions with side
  effects on a state of the user's are C81 (`ModelEffects.v`), rule functions that make expressions C71.
* **Numbers**: Python ints are `Z`. Floating point is abstract (any type with any operations) for
  evaluation and code generation, `R` for the analytic claims, and Flocq/SpecFloat binary64 for the
  two claims about rounding.

## Properties: what is modelled and how it is proved

| Property | Model | Method |
|---|---|---|
| C01–C06 | `ModelIntern.v`: transition system with any number of threads; get / allocate / setdefault steps of `Atom.__new__`, `Tree.__new__`, `Tree.atom`, `Sym.__new__`; dropping references; collection with address reuse; switch for atomic or two-step `setdefault` | invariant by induction over executions; witness schedules for the findings |
| C07–C10 | `topological_sort` as the explicit-stack loop | loop = recursive DFS = first-occurrence dedup of naive post-order; corollaries |
| C11–C12 | `forward_graph`, documented rebuild loop | generic "fold over the graph" lemma; witness |
| C13–C15 | `SubsFunc.__new__`, `call` | invariant on the index dictionary; equality with recursive substitution |
| C16–C22 | `Evaluator`, `Transformer` with rule tables | generic graph lemma; trace-instrumented version for C19 |
| C23–C30 | `DiffProperties`, `diff_forward`, product and chain rules, `SymDifferentiator` | generic graph lemma to reduce to a recursion; stdlib `derivable_pt_lim` for C24 |
| C31–C33 | `SymEvaluator.__setitem__`, `add_op`, `Sym.head/args` | case analysis for all inputs |
| C34–C41 | `simplecas` operators, evaluators, printers | induction on trees, real semantics |
| C42–C45 | `Matrix` | induction on rows / entry maps; C23 for diff |
| C46–C51 | LLVM IR generator as instruction AST plus printer; SSA interpreter | generic graph lemma, symbolic execution invariant; Flocq for constants |
| C55 | the same transition system plus a reachability account of what is held | two-sided invariant between store contents and held references (classical) |
| C56 | the same; per-thread step counting | measure on the control state of a call |
| C57 | `Tree.__repr__`, Python string literals | a reader for the text, proved to invert it |
| C58 | iterations of the sorting loop | potential function: frames on the stack plus unseen nodes, decreases by one |
| C59 | `Expr.diff` by its recursion (C23) | every part of the derivative is an old node or one of the few made per node |
| C60 | `xreplace` as substitution (C13, C14) | induction on the expression |
| C61 | `Expr.diff` by its recursion (C23) | induction; derivatives are never bare symbols, so the zero and one tests are stable |
| C62 | `SymDifferentiator` with arbitrary registered rules, real semantics with arbitrary functions | induction on the expression; chain rule along the moving arguments |
| C63 | `eval_f64` with a correctly rounded `math.fsum`; generated code with IEEE addition | uniqueness of the nearest double (a double lies between any two with even significands); correctness of SpecFloat addition |
| C64 | `Expr.diff` by its recursion, real semantics | evaluation over dual numbers of an arbitrary algebra gives value and derivative; applied twice; symmetry of the two nilpotents |
| C65–C68 | `lambdify` and calls of its result over an abstract platform, Python's operator dispatch, `Matrix.__repr__`, `funcs_symbols` (`ModelApi.v`) | composition of C46–C48 with the dispatch; case analysis; injectivity from C40 |
| C69 | a reader and evaluator for the arithmetic part of Python (`SpecPyText.v`) applied to the printed text | token and grammar lemmas by induction on the expression; evaluation through the modelled operators |
| C70 | ModelObjects.v: the functions of core/tree.py as programs of one thread on the objects of ModelIntern.v (reads of children, calls of constructors, identity comparison); SpecObjects.v: runs of a program among other threads and the collector, and what objects represent | a refinement calculus (ProofObjects.v): what the thread holds stays and is compared as trees are; then each function refines its pure version, C07, C11, C13 apply |
| C71 | ModelObjEval.v: Evaluator, Transformer and diff_forward as programs of one thread on objects, with callbacks that are programs; SpecObjEval.v: when rules on objects stand for rules on trees | each function refines its pure version in the calculus of C70; then C16–C23 apply |
| C72 | the classes Sym, Expr, ExprFunction, SymDifferentiator and the import of simplecas as programs on objects (ModelObjExpr.v); user programs of 14 kinds of statements | refinement of each statement to the function on trees, fold over the program; identity of interned Syms |
| C73 | the generated text is parsed (SpecLLVM) and its instructions counted against the distinct operations of the expanded expression | loop invariant of the generator (one instruction per node), covering argument for bin_expand, covering of derivatives (C59); SpecCodeSize.v, PropsCodeSize.v |
| C74 | integer values of expressions (SpecExact), the semantics of the generated text and eval_f64 over SpecFloat doubles | exactness of rounding representable integers (Flocq), induction over the expression and the prefixes of sums and products |
| C75 | Sym as a pair of class and tree (ModelClasses.v); forgetting the class (SpecClasses.v) | equality of argument tuples splits into equality of trees and of classes; induction on events and on parts |
| C76 | bracketed sums of held matrices, real values of entries (SpecMatrixAlgebra.v) | C43 per addition, induction over the brackets, frame property of held matrices; deriv of Add |
| C77 | ModelWork.v: recursive_traced and from_sympy_traced, the functions of ModelEval.v and ModelSympy.v recording the calls they make (the theorems include that they compute the same) | trace = postorder of occurrences; 2^(n+1)-1 against n+1; from_sympy: the keys of the cache are the distinct parts, in dependency order |
| C78 | eval_latex (ModelCas.v) | injectivity by induction on size; a power is decomposed into its base and its exponents |
| C79 | ModelDepth.v: the self-calling functions with a bound on nested activations (frames per activation are abstracted to one) | induction on the expression; levels |
| C80 | SpecError.v: exact value, magnitude, roundings over the reals; machine and fsum from C46/C51 | PropsError.v: induction with the triple (computed, exact, magnitude), one IEEE rounding by Flocq; refuted for relative error by cancellation |
| C81 | ModelEffects.v: evaluate.py in a state monad; functions are numbers with arbitrary effects on tables, values and the rest | PropsEffects.v: induction along the forward graph against the relation of turns in SpecEffects.v; agreement with ModelEval.v when there are no effects |
| C82 | copy.copy as CPython runs it for a class with slots: the class is called without arguments, then the slots are assigned, on the interleaving model of C01–C03 (ModelCopy, SpecCopy). deepcopy is C104; pickle is not modelled: loading calls Atom.__new__ without arguments and raises TypeError at the first atom. | invariant that the store keeps the one object for the empty key while it is referenced, through any schedule (PropsCopy); a concrete run refutes "copying changes no tree" |
| C83 | ModelObjRules.v: SymEvaluator and rules at the level of objects (dicts keyed by identity), programs with evaluators; the callbacks are any functions of the values or of all that the Tree contains; callbacks that themselves make expressions are C71 | PropsObjRules.v: refinement in the style of C72; the evaluator of objects is related to that of values rule by rule |
| C84 | diff_forward, SubsFunc and xreplace with any registered rules | the recursion of SpecDiff commutes with substitution (induction on the expression, lemma for instances of rules); invariant on heads for repeated derivatives |
| C85 | Evaluator and diff_forward reading tables that other threads change between any two lookups (ModelShared.v) | one modular relation between the reading program and the program on a fixed state, instantiated three times |
| C86 | ModelIntern (step `s_interrupt`), SpecInterrupt | invariant of ProofIntern is kept by a step to Idle; ownership gives that an unstored object is unreferenced |
| C87 | ModelCas (eval_latex), ModelApi (repr_latex), SpecLatexForm | induction over expressions with an arbitrary rest of the text |
| C88 | Which exception: evaluation = first exception of the atoms left to right, else the recursion with its exceptions (SpecOutcome: leaves, first_error, f64_value) | the stack machine maps the recursion over atoms-then-operations order; removing repetitions and successful calls does not change the first exception; post-order of the recursion |
| C89 | Printing with the digit limit: ModelDigits repeats the printing functions with str of an int limited; SpecDigits.fits says all ints are below 10**limit | number of digits vs size of a number; simulation between the limited and the unlimited recursion, and C88 for the order of exceptions |
| C90 | ModelLists.v: one store with every list, the program's and the library's; SpecLists.v: programs that change any list they can reach | invariant: a matrix's own list is never in reach; explicit result of each call; simulation with ModelMatrix.v |
| C91 | `ModelJit.v`: a process as a state machine: heap and matrices, loaded code with the engines that keep it, functions, running calls with their registers and the rest of their body, arrays as blocks of one memory | an invariant over all histories: each running call, if left alone, ends with the right values; blocks are disjoint; instructions never read memory; C46 and C48 give the invariant at the start of a call |
| C92 | `SpecBound.v`: a value and an error bound for each expression by the rules of error propagation; the accuracy of sin, cos and pow is a parameter | induction over expressions; rounding with underflow by Flocq, sin and cos are 1-Lipschitz, powers over an interval; the case uses a platform whose functions return the nearest double |
| C93 | values of SymPy expressions (SpecSympyValue.v) with undefined functions interpreted by any F; ModelSympy.v unchanged | structural induction on both conversions; matrices by the history invariant; refutations by computation |
| C94 | tree_str of ModelCas.v | the text is parsed back by a deterministic reading relation; success by induction |
| C95 | subst, count_ops_graph, count_ops_tree of ModelCas.v; SpecGrowth.v counts occurrences | what is reachable in a substituted expression, union bound on lists without repetition; induction for trees; C59 iterated |
| C96 | the generators of the subexpressions of a derivative of any order, counted; a checked graph certificate for the documented example | PropsPoly: structural induction on the expression, strong induction on the order; reflection (ProofDag) for the documented numbers |
| C97 | ModelDiffWork.v: the functions of differentiate.py and SubsFunc.__call__ again, recording each Tree(*children) call; proved to compute the same results | Hoare-style bound on the record per operation, C96 for repeated derivatives; completeness of the record by an invariant on both stacks |
| C98 | expr_diff, bin_expand and count_ops_graph of ModelCas.v; nothing new | every distribution of the differentiations over the factors is shown to be a subexpression (counting 2^m of them); size of bin_expand by covering its subexpressions, then C96; equal values by uniqueness of derivatives and C24 |
| C99 | reuses the models of xreplace and diff; `slope`, `dot` as specification | induction over arithmetic expressions with a vector of partial derivatives (ProofChain.v); definedness is a conclusion, not a hypothesis |
| C100 | reuses the models of diff, bin_expand and to_llvm | definedness of `machine_value` is preserved by differentiation; sizes from C73, C96, C98 |
| C101 | reuses the models of diff; `is_derive_n` of Coquelicot as the k-th derivative of analysis | C24 iterated on neighbourhoods; `Taylor_Lagrange` of Coquelicot, mirrored for b < a |
| C102 | reuses the models of diff; curves are functions from the reals to environments | ProofCurve.v: induction over arithmetic expressions carrying the vector of partial derivatives; mean value theorem of the standard library |
| C103 | reuses the models of lambdify, eval_f64 and xreplace | PropsCompose.v: induction over the expression on the value the machine computes; no reasoning about rounding is needed |
| C104 | ModelDeepcopy.v: CPython's deepcopy over the heap of objects, with its memo and with the recursion limit | PropsDeepcopy.v: induction over the term an address stands for, with an invariant of the memo |
| C105 | an inductive set of the expressions that API calls can make, over the existing models | PropsClosed.v: one structural invariant (right numbers of arguments) preserved by every call; then the exact conditions of C37, C39–C41, C57, C65, C88, C94 |
| C106 | ModelBuiltins.v: the loops of sum and math.prod over the operators of ModelApi.v; int arithmetic exact | PropsBuiltins.v: induction on the list; C66, C65 and C76 for one step |
| C107 | reuses ModelLLVM.v, ModelApi.v | PropsCodeErrors.v: first errors over post-order lists of atoms and calls; bin_expand keeps the atoms and the calls other than sums and products |
| C108 | SpecFormula.v (value of a syntax tree of SpecPyText.v, which now reads / too), reuses ModelApi.v | PropsFormula.v: induction over formulas; then C24 and C92 |
| C109 | SpecOverflow.v (moderate estimates, platforms that are finite where the result is moderate); model of C65, C92 | PropsOverflow.v: induction; a moderate estimate bounds every computed operand, so the next rounding is in range |
| C110 | The matrix of the results of diff, made by Matrix(…), compiled by lambdify and called: every entry finite and within its bound of the partial derivative; a row times a velocity is within the summed bounds of the derivative along every curve | C24, C42, C92, C109, C102 combined; case: the Jacobian of (sin(x) + x**(-2), x*y) at (2, 2) and a ray |
| C111 | Local behaviour from derivatives: descent directions, extrema, the second-derivative test, roots; from exact values and from compiled values beyond their bounds | PropsOptimize.v: C24, C101, C102, C109, C110 with the mean and intermediate value theorems; cases x*y at (2, 2), x*x at 0, x*x - 3 between 1 and 2 |
| C112 | The objects of C72 in sessions that go on after exceptions and Ctrl-C, with deletions; between two statements everything that the variables, the module and the rules do not keep may be dropped and collected. Simplification: what a statement holds while it runs it holds to its end (its temporaries go after it, not during it) | PropsObjPrompt.v: relation of variables and rules restricted to what is live; C55 for the memory; case with a failed, a stopped and three kinds of later statements |
| C113 | matrix.py on the objects of C70–C72 (ModelObjMatrix.v). Simplification: a Matrix is the values of its attributes, its lists and dicts by their contents (C43, C90 show that no method changes them); indices are ints | PropsObjMatrix.v: refinement as for C72, with the dicts equal and the lists related entry by entry; zero entries are found by identity; the meanings are proved equal to ModelMatrix.v on its heap |
| C114 | lambdification.py on the objects of C70–C72 (ModelObjLLVM.v): bin_expand, forward_graph, the search of the arguments by identity, the comparison of the functions by identity, the text. llvmlite is not modelled beyond SpecLLVM.v | PropsObjLLVM.v: refinement as for C72 and C113; then C46 for the meaning of the text of an expression, and C48 with the well-formedness of every matrix of a program (ProofGoodMatrix.v) for that of a matrix |
| C115 | sympy_conversions.py on the objects of C70–C72 (ModelObjSympy.v): the cache of from_sympy and its dispatch, eval_to_sympy as rules of an Evaluator of objects (C83), the conversions of matrices (C113). SymPy is a parameter, as in C52–C54; the sources of identity of its objects are not modelled | PropsObjSympy.v: refinement as for C83, C113 and C114; then C53 on the values gives the round trips, with `is` by C72 |
| C116 | sessions at a prompt (SpecObjConsole.v), as in C112, with the statements of C115 and those of C83 (evaluators with the user's rules): the programs are those of ModelObjMatrix.v, ModelObjLLVM.v, ModelObjRules.v and ModelObjSympy.v; a statement gives its result to the session only when it ends | PropsObjConsole.v: what is live (names, rules, heads of the rules of to_sympy and of the evaluators, variables, matrices) is enough for the invariants of C83 and C115; ProofObjRules.v shows that evaluators need no more; memory by C55 |
| C117 | the texts of C40 and C41, with names and numbers of bounded length | PropsTextSize.v: induction on the expression, counting the characters that each operation adds; C37 and C38 for the counts; PropsSymbols.v for derivatives (C118, C96) |
| C118 | the differentiators of C84 (SpecRules.v), nothing new | PropsSymbols.v: induction on the recursion of SpecDiff; what is reachable in an instance of a right hand side |
| C119 | the chain of nested Mul nodes that repeated differentiation of s**n makes, in closed form, and its real value (SpecPowers: falling factorial times power, undefined where it divides by zero) | induction on the order; the finding by Coquelicot's k-th derivative of a power and a computed evaluation |
| C120 | the values of all derivatives up to an order as a sequence of reals (SpecLeibniz), with the binomial coefficients of the standard library | induction on the order for sums, then for products with the recursive form of the rule; Pascal's rule; the calculus part by C101 |
| C121 | polynomials of bounded degree as an inductive predicate on expressions (SpecPolynomial) | one differentiation lowers the bound, by induction on the expression; then induction on the order; the finding from the closed form of C119 |
| C122 | the sequence of the values of all derivatives (SpecLeibniz), sine waves as real sequences (SpecWaves) | induction on the order for sine and cosine together, over all phases, with C120 for the products and the sign |
| C123 | the polynomials of C121 with their real values; derivatives at a point as in C120 | derivatives of polynomials are defined where these are, by induction; Taylor's formula (C101) whose remainder vanishes by C121 |
| C124 | Matrix.diff (ModelMatrix.v) in a loop (SpecMatrixDiff) | C45 iterated over the histories of SpecMatrix; C121 for the entries |
| C125 | deriv and xreplace with any expression as the variable | PropsDiffBy.v: the induction of C61 with a variable that is any leaf; C25 for compound expressions |
| C126 | C102 along the curve t * env | PropsEuler.v: uniqueness of the limit, against the derivative of t^n * v |
| C52–C54 | inductive type of SymPy trees with abstract constructors | induction, memo-table invariant |

## Trusted base

1. **Coq's kernel** (8.16.1), with `vm_compute` used for the closed examples and a few closed
   computations. No `native_compute`, no plugins beyond those loaded by the standard library, no
   kernel check switched off, no `Axiom`/`Parameter`/section-less `Variable`.
2. **Axioms**: those listed by `Print Assumptions` below. All come from the Coq standard library
   (the real numbers, functional extensionality, excluded middle). Flocq and, for C101, C119 and C120, Coquelicot are
   used as libraries; Flocq is one of
   definitions and lemmas about binary64, Coquelicot of k-th derivatives; they add no axioms of their own.
3. **The correspondence between `Model*.v` and `/repo`**, which is by reading: every definition
   cites the lines it models. The mutation log `seeded/LOG.jsonl` shows which theorems notice which
   edits of the model.

### What `Print Assumptions` lists

<!-- ASSUM -->
* **closed under the global context** (no axioms):
  `C01_atoms_unique`, `C01_calls_agree`, `C02_objects_have_terms`, `C02_trees_unique`, `C03_syms_unique`, `C04_single_thread_unique`, `C04_two_threads_refuted`, `C05_calls_return_what_was_asked`, `C05_calls_raise_for_wrong_arguments`, `C05_same_value_refuted`, `C06_held_objects_stay`, `C06_nothing_dangles`, `C07_topological_sort_is_topological`, `C08_topological_sort_is_first_visit_postorder`, `C09_exclude_prunes`, `C10_split_partitions`, `C11_forward_graph_rebuilds`, `C12_rebuilt_stack_is_a_topological_order`, `C12_rebuilt_stack_differs`, `C12_docstring_claim_refuted`, `C13_subs_is_substitution`, `C14_subs_of_root_is_last_value`, `C14_subs_correct_iff`, `C14_subs_of_root_refuted`, `C15_subs_arity`, `C15_subs_minimal_work`, `C16_forward_is_recursive`, `C17_only_atom_values_matter`, `C17_compound_values_ignored`, `C17_none_values_ignored`, `C17_no_values`, `C17_forward_recursive_disagree_refuted`, `C18_missing_rules`, `C18_errors_come_from_rules`, `C19_each_subexpression_once`, `C20_operation_rule`, `C20_last_rule_wins`, `C20_atom_rule`, `C20_wrong_number_of_arguments`, `C21_transformer_identity`, `C22_evaluation_commutes_with_substitution`, `C23_diff_forward_is_the_recursion`, `C23_same_outcome`, `C25_absent_symbol_gives_zero`, `C26_when_diff_succeeds`, `C26_zero_iff_absent`, `C26_missing_rule_raises`, `C26_which_exception`, `C27_diff_method`, `C27_ntimes_is_iteration`, `C27_nonpositive_ntimes`, `C28_distributive`, `C28_distributive_outcome`, `C29_rule_contributes`, `C29_rule_fires`, `C29_rule_with_argument_as_rhs_refuted`, `C30_bad_rules_rejected`, `C30_rule_scope`, `C30_rule_scope_outcome`, `C31_rules_valid_or_rejected`, `C31_non_calls_rejected`, `C31_call_arity`, `C32_matched_by_head_only`, `C33_head_and_args`, `C34_expressify`, `C34_operators`, `C34_call`, `C37_counts`, `C38_documented_growth`, `C38_graph_formula_at_zero_refuted`, `C39_binary_unchanged`, `C40_text`, `C40_when_str_succeeds`, `C40_str_injective`, `C40_printable_succeeds`, `C40_str_ambiguous_refuted`, `C41_latex_text`, `C41_when_latex_succeeds`, `C42_construction_round_trip`, `C42_construction_rejected`, `C42_getitem`, `C43_addition_is_entrywise`, `C43_matrices_never_change`, `C43_shape_mismatch`, `C44_binop_entries`, `C45_diff_is_entrywise`, `C45_which_exception`, `C45_diff_by_zero_refuted`, `C47_names_clash_refuted`, `C47_injection_refuted`, `C49_surplus_arguments_refuted`, `C52_cache_is_transparent`, `C52_what_converts`, `C53_round_trip`, `C53_round_trip_exists`, `C53_assumptions_lost_refuted`, `C53_name_clash_refuted`, `C53_matrix_to_sympy`, `C53_matrix_round_trip`, `C54_empty_applications`, `C54_zero_matrices`, `C54_only_zero_matrices`, `C56_calls_are_short`, `C56_calls_never_block`, `C57_repr_reads_back`, `C57_when_repr_succeeds`, `C57_repr_injective`, `C57_same_type_name_refuted`, `C57_known_names`, `C58_sort_takes_linear_time`, `C58_documented_family`, `C59_derivatives_stay_small`, `C59_binary_expressions`, `C60_identity`, `C60_absent`, `C60_order_irrelevant`, `C60_sequence`, `C60_commute`, `C60_undo`, `C61_diff_commutes_with_xreplace`, `C61_diff_commutes_with_renaming`, `C64_repeated_derivatives_exist`, `C65_lambdify_rejects`, `C66_expressions`, `C66_matrices`, `C66_rejected`, `C66_diff_variable`, `C67_matrix_text`, `C67_when_repr_succeeds`, `C67_matrix_repr_injective`, `C68_within_a_call`, `C68_between_calls`, `C69_text_rebuilds`, `C69_binary_text_reads_back`, `C69_integers_fold_refuted`, `C70_objects_are_trees`, `C70_identity_is_equality`, `C70_topological_sort`, `C70_topological_sort_of_objects`, `C70_rebuild_is_the_same_object`, `C70_subs`, `C71_evaluation`, `C71_values`, `C71_transformer_identity`, `C71_new_transformer`, `C71_diff_forward`, `C71_diff_again`, `C72_user_programs`, `C72_comparison`, `C72_variables`, `C72_again`, `C72_head_args`, `C72_count_ops_graph`, `C75_same_classes`, `C75_mixed_classes_rejected`, `C75_evaluation_ignores_classes`, `C75_derivatives`, `C75_parts`, `C76_same_entries_refuted`, `C76_zero_matrix`, `C76_sum_is_differentiable`, `C77_recursive_evaluation_works_per_occurrence`, `C77_recursive_evaluation_is_exponential`, `C77_from_sympy_works_once`, `C78_latex_injective`, `C78_latexable_succeeds`, `C78_latex_ambiguous_refuted`, `C79_repr_limit`, `C79_str_limit`, `C79_recursive_evaluation_limit`, `C79_from_sympy_limit`, `C79_deep_expressions`, `C79_deep_sympy_objects`, `C81_side_effects`, `C81_number_of_calls`, `C81_without_effects`, `C81_determined`, `C81_adding_rules`, `C82_copy_overwrites`, `C82_atoms_and_syms_raise`, `C82_copies_are_one_object`, `C82_copy_keeps_trees_refuted`, `C83_rule_programs`, `C83_same_output`, `C83_str`, `C83_latex`, `C83_floats`, `C84_diff_commutes_with_xreplace`, `C84_diff_commutes_with_renaming`, `C84_projecting_rules_refuted`, `C84_distributive_refuted`, `C85_other_functions`, `C85_rules_added`, `C85_adding`, `C85_other_derivatives`, `C85_derivatives_added`, `C85_adding_derivatives`, `C85_diff`, `C85_replaced_rules_refuted`, `C85_replaced_derivatives_refuted`, `C86_nothing_is_lost`, `C86_uniqueness_survives`, `C86_call_again`, `C86_same_object_again`, `C86_leftovers_are_collected`, `C87_latex_is_well_formed`, `C87_double_superscript_refuted`, `C88_atoms_first`, `C88_compound`, `C88_same_exception_refuted`, `C88_str`, `C88_latex`, `C88_f64`, `C89_str`, `C89_latex`, `C89_repr`, `C90_matrices_keep_their_entries`, `C90_constructor_copies`, `C90_tolist_makes_new_lists`, `C90_calls_change_no_list`, `C90_same_as_contents`, `C90_attributes`, `C90_entrymap_shared_refuted`, `C91_shape_is_fixed_refuted`, `C94_text`, `C94_when_str_succeeds`, `C94_str_determines_tree`, `C94_types_do_not_show`, `C94_ambiguous_refuted`, `C95_substitution`, `C95_one_replacement`, `C95_tree_growth`, `C95_repeated_derivative`, `C96_repeated_derivative`, `C96_without_powers`, `C96_tree_is_exponential`, `C96_documented_example`, `C97_same_derivative`, `C97_linear_work`, `C97_binary_work`, `C97_repeated_work`, `C97_record_is_complete`, `C98_wide_products_refuted`, `C98_bin_expand_size`, `C103_evaluate_after_substitution`, `C104_syms_and_atoms_raise`, `C104_expressions_raise`, `C104_trees_with_atoms_raise`, `C104_atomless_trees`, `C104_deepcopy_copies_refuted`, `C105_texts`, `C105_diff`, `C105_eval_f64`, `C105_to_sympy`, `C106_numbers`, `C106_expressions`, `C106_start`, `C106_eval`, `C106_matrices_refuted`, `C107_only_these`, `C112_prompt`, `C112_identity`, `C113_matrix_programs`, `C113_entries`, `C113_graph`, `C113_meaning`, `C114_lambdify_programs`, `C114_matrix_meaning`, `C115_to_matrix_meaning`, `C115_from_matrix_meaning`, `C115_sympy_programs`, `C115_from_to_from`, `C115_to_from`, `C115_matrix_round_trip`, `C116_prompt`, `C116_identity`, `C117_derivatives`, `C117_exponential`, `C117_str`, `C117_latex`, `C117_family`, `C118_rules`, `C118_simplecas`, `C118_symbols`, `C119_eval_refuted`, `C121_derivatives`, `C121_zero`, `C121_constant`, `C121_powers_refuted`, `C124_entries`, `C124_when`, `C124_polynomials`, `C125_by_number`, `C125_by_compound`, `C125_by_itself_refuted`.

* `Classical_Prop.classic`:
  `C55_no_leaks`, `C55_all_is_freed`, `C112_freed`, `C116_freed`.

* `ClassicalDedekindReals.sig_forall_dec`, `FunctionalExtensionality.functional_extensionality_dep`:
  `C51_sums_differ_refuted`, `C62_one_argument`, `C63_sums_are_rounded_once`, `C63_order_of_terms_irrelevant`, `C63_code_depends_on_order_refuted`, `C80_growth`, `C80_without_signs`, `C80_relative_error_refuted`.

* `ClassicalDedekindReals.sig_forall_dec`, `ClassicalDedekindReals.sig_not_dec`, `Classical_Prop.classic`, `FunctionalExtensionality.functional_extensionality_dep`:
  `C24_diff_is_the_derivative`, `C24_diff_may_be_undefined_refuted`, `C35_operators_mean_arithmetic`, `C35_negation`, `C36_xreplace_is_substitution_of_values`, `C39_bin_expand`, `C39_when_bin_expand_succeeds`, `C43_addition_adds_values`, `C44_binop_mul_refuted`, `C46_code_computes_the_expression`, `C46_accepted`, `C47_scalar_ssa`, `C47_matrix_ssa`, `C48_code_fills_the_output`, `C48_zeros`, `C48_accepted`, `C48_stores_in_order`, `C49_code_agrees_with_eval_f64`, `C50_constants_exact`, `C50_constants_nearest`, `C62_user_rules_give_the_derivative`, `C63_two_terms_agree`, `C64_mixed_derivatives_agree`, `C65_lambdify_expression`, `C65_lambdify_matrix`, `C65_lambdify_matrix_accepts`, `C69_text_is_python`, `C69_negative_base_refuted`, `C73_one_instruction_per_operation`, `C73_linear`, `C73_binary`, `C73_derivative`, `C73_documented_family`, `C73_matrix`, `C74_code_exact`, `C74_eval_exact`, `C76_sums_of_values`, `C76_rearranged_sums`, `C76_derivative_of_a_sum`, `C80_eval_error`, `C80_lambdify_error`, `C80_lambdify_matrix_error`, `C80_derivative`, `C91_calls_return_the_values`, `C91_lambdify`, `C91_never_crashes`, `C91_calls_end`, `C91_arrays_change_only_by_the_program`, `C91_returned_arrays_are_new`, `C91_code_stays_loaded`, `C91_code_is_freed_refuted`, `C92_exact_value`, `C92_eval_error`, `C92_lambdify_error`, `C92_lambdify_matrix_error`, `C92_derivative`, `C92_eval_and_code`, `C93_from_sympy`, `C93_to_sympy`, `C93_there_and_back`, `C93_derivative`, `C93_matrix`, `C93_confused_names_refuted`, `C98_expand_then_differentiate`, `C98_same_values`, `C98_expanded_derivatives`, `C99_chain_rule`, `C99_one_replacement`, `C99_same_symbol`, `C100_derivatives_compile`, `C100_code_size`, `C100_expand_first`, `C100_lambdify`, `C101_kth_derivative`, `C101_taylor`, `C101_monotone`, `C101_zero_derivative`, `C101_without_powers`, `C102_total_derivative`, `C102_directional`, `C102_mean_value`, `C102_level_curves`, `C103_compile_after_substitution`, `C103_arguments`, `C105_operations`, `C105_lambdify`, `C106_values`, `C106_lambdify_accepts`, `C106_lambdify`, `C106_same_as_Add`, `C106_rounding_refuted`, `C106_matrices`, `C107_expression`, `C107_matrix`, `C107_lambdify`, `C107_lambdify_matrix`, `C108_means_what_it_says`, `C108_accepted`, `C108_derivative`, `C108_compiled`, `C108_compiled_derivative`, `C109_eval_f64`, `C109_lambdify`, `C109_lambdify_matrix`, `C109_derivative`, `C109_eval_and_code`, `C110_jacobian`, `C110_velocity`, `C111_descent`, `C111_computed_descent`, `C111_extremum`, `C111_computed_not_extremum`, `C111_second_derivative`, `C111_root`, `C111_at_most_one_root`, `C111_bracket`, `C114_code_computes`, `C114_matrix_code`, `C119_powers`, `C119_beyond_refuted`, `C120_linear`, `C120_leibniz`, `C120_calculus`, `C122_waves`, `C122_sine`, `C123_exact`, `C123_determined`, `C126_euler`, `C126_products`, `C126_sums`, `C126_symbols`.

<!-- /ASSUM -->

### What is modelled

* `core/atom.py`, `core/tree.py` (all of: `Atom.__new__`, `Tree.__new__`, `Tree.atom`, printing,
  `topological_sort`, `topological_split`, `forward_graph`, `ForwardGraph`, `SubsFunc`).
* `core/evaluate.py`, `core/differentiate.py`, `core/sym.py` (the parts with behaviour: rule tables,
  evaluation, transformers, differentiation rules, `SymEvaluator.__setitem__`, `add_op`, heads/args).
* `simplecas/`: expression operators, `expressify`, the registered rules of every evaluator
  (float evaluation, str, repr, latex, counting, bin_expand, derivatives), `Matrix`, conversion to
  and from SymPy, and the LLVM IR generator including the text of constants.

`Replay.v` replays the project's own tests and docstring examples on the model, as evidence that the
model behaves as the code does on everything the project itself checks (the code cannot be run here).

### What is simplified or outside the model

* The optional `rust_protosym` replacement, `__main__`, and typing machinery.
* LLVM's parser and compiler, llvmlite, `ctypes`, numpy (inside `_compile_llvm`, `_lambdify_llvm*`):
  C65 is stated for every platform that executes IR as the interpreter does (`SpecApi.faithful`, met by
  a sample platform that interprets the text). The IR is given meaning by a small SSA interpreter
  (`ModelLLVM.v`) whose arithmetic is a parameter, so the code theorems hold for any arithmetic,
  binary64 in particular; libm functions are parameters too.
* SymPy itself: its expressions are an inductive type, its constructors (which may evaluate) are
  parameters, and its `==` is structural equality.
* Atom types and Python classes are numbers; the three weak stores are modelled as one keyed store;
  Python's `hash` is assumed consistent with `==`; `WeakValueDictionary.get/setdefault` follow
  CPython's `weakref.py`; each `get`, allocation and `setdefault` step is atomic (with a switch that
  splits `setdefault`, which is where C04's race lives).
* Memory exhaustion; asynchronous exceptions except for C86; Python's recursion limit except for C79; side effects
  of user-given rule functions except for C71 and C81.
* Sharing of mutable objects with the calling program: lists in C90, arrays in C91; elsewhere arguments are values.
* In C91 a compiled function runs the instructions of the text one by one, none of them reading memory; what LLVM's
  optimiser does to them, and the lifetime of the matrix object that the closure keeps alive, are not modelled.
* Python `float` is a parameter except for the theorems that fix it to binary64 (Flocq), and the
  real-number theorems C24, C35, C36, C39, C43, which concern the mathematical meaning.
