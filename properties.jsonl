{"id": "C01", "title": "Atoms are unique", "statement": "While references to both are held, two Atoms obtained from the same AtomType with == values are the same object, and Atoms from different AtomTypes or unequal values are different objects (given an atomic setdefault on the store).", "quantifier": "every number of threads, every interleaving of constructor steps, every history of garbage collections and address reuse", "why_tests_cant": "Uniqueness is a property of all schedules and GC points; a test runs a handful.", "anchors": ["src/protosym/core/atom.py:Atom.__new__", "src/protosym/core/atom.py:_all_atoms"]}
{"id": "C02", "title": "Tree equality is structural equality", "statement": "While references are held, two Trees are the same object (hence ==) exactly when they are structurally equal: same atom, or equal children in the same order (given an atomic setdefault).", "quantifier": "every reachable state of every multi-threaded history with arbitrary garbage collection and address reuse", "why_tests_cant": "Needs an invariant over all histories; equality by identity is only right if no history ever duplicates a node.", "anchors": ["src/protosym/core/tree.py:Tree.__new__", "src/protosym/core/tree.py:Tree.atom", "src/protosym/core/tree.py:_all_trees"]}
{"id": "C03", "title": "Sym wrappers are unique per class", "statement": "Sym objects of one class wrapping structurally equal Trees are the same object while held; different classes never share a wrapper (given an atomic setdefault).", "quantifier": "every history of threads and collections", "why_tests_cant": "Same as C02.", "anchors": ["src/protosym/core/sym.py:Sym.__new__"]}
{"id": "C04", "title": "The store is not safe with CPython's setdefault and threads, but is safe in one thread", "statement": "With the two-step WeakValueDictionary.setdefault of CPython's weakref.py there is a two-thread schedule after which two live, structurally equal Atoms are different objects (finding); if only one thread constructs objects, uniqueness holds for every history even then.", "quantifier": "existence of a schedule; every single-threaded history", "why_tests_cant": "The race needs one specific preemption; tests never schedule it.", "anchors": ["src/protosym/core/atom.py:Atom.__new__", "src/protosym/core/atom.py:167-172"]}
{"id": "C05", "title": "The value of an Atom may be a different but equal object", "statement": "Calling an AtomType with v returns an atom of that type whose value is == v, but not necessarily the object v: with Integer(1) dead, Integer(True) then Integer(1) yields an atom whose value is True (finding).", "quantifier": "every history; every value type whose == is an equivalence", "why_tests_cant": "Depends on the order in which equal values were first used anywhere in the process.", "anchors": ["src/protosym/core/atom.py:Atom.__new__"]}
{"id": "C06", "title": "Held expressions never change or dangle", "statement": "As long as a reference is held, the object's type, value and children stay what they were when it was returned and all its subexpressions stay alive, whatever other threads or the collector do.", "quantifier": "every continuation of every reachable state", "why_tests_cant": "Quantifies over all future schedules.", "anchors": ["src/protosym/core/tree.py:Tree", "src/protosym/core/atom.py:Atom", "src/protosym/core/sym.py:Sym"]}
{"id": "C07", "title": "topological_sort lists each subexpression once, children first, expression last", "statement": "For every expression the list has no duplicates, contains exactly the subexpressions reachable through arguments (or through heads too with heads=True), every listed expression comes after its arguments and the last element is the expression itself; it always terminates.", "quantifier": "every finite expression, both settings of heads", "why_tests_cant": "Unbounded shapes with sharing.", "anchors": ["src/protosym/core/tree.py:topological_sort"]}
{"id": "C08", "title": "topological_sort order is the first-visit post-order", "statement": "The output is exactly the naive recursive post-order listing with only the first occurrence of each subexpression kept; so it is a function of the expression alone.", "quantifier": "every expression, heads flag and exclude set", "why_tests_cant": "An exact order for all DAG shapes.", "anchors": ["src/protosym/core/tree.py:topological_sort"]}
{"id": "C09", "title": "exclude prunes exactly the excluded subexpressions and what is reachable only through them", "statement": "With exclude=S the list holds exactly the subexpressions reachable along a path with no member of S, and nothing when the expression itself is in S.", "quantifier": "every expression and exclude set", "why_tests_cant": "All combinations of overlap between S and the expression.", "anchors": ["src/protosym/core/tree.py:topological_sort"]}
{"id": "C10", "title": "topological_split partitions the sort", "statement": "atoms and nodes are the childless and the compound members of the sort in the same order, nothing is lost, and heads is exactly the set of heads of the nodes.", "quantifier": "every expression and exclude set", "why_tests_cant": "All expressions.", "anchors": ["src/protosym/core/tree.py:topological_split"]}
{"id": "C11", "title": "forward_graph rebuilds the expression", "statement": "Running the documented forward evaluation on forward_graph(e) never fails an index lookup, ends with e on top of the stack, every index points to an earlier stack position, and there is exactly one operation per distinct compound subexpression.", "quantifier": "every expression", "why_tests_cant": "All DAG shapes; an off-by-one would only show for some.", "anchors": ["src/protosym/core/tree.py:forward_graph", "src/protosym/core/tree.py:ForwardGraph"]}
{"id": "C12", "title": "The rebuilt stack is a topological sort but not always topological_sort's order", "statement": "The documented claim 'stack is the topological sort of expr' holds as a permutation for every e but not as list equality: it fails for e.g. f(g(x), y) (finding).", "quantifier": "every expression for the permutation; existence for the failure", "why_tests_cant": "The doctest's single example happens to satisfy the false claim.", "anchors": ["src/protosym/core/tree.py:forward_graph docstring"]}
{"id": "C13", "title": "SubsFunc performs simultaneous substitution", "statement": "SubsFunc(e, args)(vals) with e not in args returns e with every outermost occurrence of args[i] (atomic or compound, head or argument position) replaced by vals[i], without re-substituting inside the replacements, and fails with no KeyError or IndexError.", "quantifier": "every expression, every argument list (also overlapping and repeated), every list of replacements", "why_tests_cant": "Overlap, sharing and depth are unbounded.", "anchors": ["src/protosym/core/tree.py:SubsFunc"]}
{"id": "C14", "title": "Substituting for the whole expression returns the last replacement", "statement": "If e itself is among args, SubsFunc(e, args)(vals) returns the LAST element of vals whichever argument e is, so x.xreplace({x: 1, y: 2}) is 2, not 1 (finding); it is right exactly when the replacement of e equals the last value.", "quantifier": "every expression and argument list containing it", "why_tests_cant": "Only multi-argument calls with the expression itself as a key show it.", "anchors": ["src/protosym/core/tree.py:SubsFunc.__new__", "src/protosym/core/tree.py:SubsFunc.call", "src/protosym/simplecas/expr.py:Expr.xreplace"]}
{"id": "C15", "title": "SubsFunc checks its number of arguments and does no unneeded work", "statement": "A call with the wrong number of replacements raises TypeError and any other call succeeds; the number of nodes rebuilt is the number of distinct subexpressions that contain a replaced expression.", "quantifier": "every SubsFunc and argument tuple", "why_tests_cant": "All shapes.", "anchors": ["src/protosym/core/tree.py:SubsFunc"]}
{"id": "C16", "title": "Forward evaluation equals recursive evaluation", "statement": "If values has only atomic keys (and no None values) then eval_forward and eval_recursive return the same value, or both raise.", "quantifier": "every evaluator, expression, values map, and rule functions that may raise", "why_tests_cant": "All rule sets and DAGs; the two algorithms visit in different orders.", "anchors": ["src/protosym/core/evaluate.py:Evaluator.eval_forward", "src/protosym/core/evaluate.py:Evaluator.eval_recursive"]}
{"id": "C17", "title": "Values for compound expressions are silently ignored by evaluation", "statement": "evaluator(e, values) depends only on values at the atoms of e in argument position: compound keys are ignored (while eval_recursive uses them: the two disagree - finding), and None values fall back to the rule.", "quantifier": "every evaluator, expression and values map; existence for the disagreement", "why_tests_cant": "All maps.", "anchors": ["src/protosym/core/evaluate.py:Evaluator.eval_forward", "src/protosym/core/evaluate.py:Evaluator.eval_recursive"]}
{"id": "C18", "title": "Missing rules raise NoEvaluationRuleError, and only them", "statement": "With total rule functions, evaluation of an expression without Tree() inside fails exactly when some argument-position atom has neither a supplied value nor a rule nor a generic rule, or some operation head has no rule; and the error is NoEvaluationRuleError. (If a head without a rule contains the childless Tree(), composing the message raises AttributeError instead.)", "quantifier": "every evaluator with total functions, every expression", "why_tests_cant": "All shapes.", "anchors": ["src/protosym/core/evaluate.py:Evaluator.eval_atom", "src/protosym/core/evaluate.py:Evaluator.eval_operation", "src/protosym/core/evaluate.py:_generic_operation_error", "src/protosym/core/evaluate.py:_generic_atom_error"]}
{"id": "C19", "title": "Each distinct subexpression is evaluated exactly once", "statement": "During one evaluation the evaluator calls the operation rule once for each distinct compound subexpression, in an order where arguments come first, and the atom rule at most once for each distinct atom.", "quantifier": "every evaluator and expression", "why_tests_cant": "Exponential blow-up appears only on shared DAGs.", "anchors": ["src/protosym/core/evaluate.py:Evaluator.eval_forward"]}
{"id": "C20", "title": "Registering a rule changes exactly that rule", "statement": "After adding a rule for a head or atom type, that head or atom type uses the latest function and all others evaluate as before. A head whose rule takes a fixed number of arguments raises TypeError where it is given another number.", "quantifier": "every sequence of registrations", "why_tests_cant": "All histories of registrations.", "anchors": ["src/protosym/core/evaluate.py:Evaluator.add_op1", "src/protosym/core/evaluate.py:Evaluator.add_opn", "src/protosym/core/evaluate.py:Evaluator.add_atom"]}
{"id": "C21", "title": "A Transformer leaves untouched what it has no rule for", "statement": "A Transformer returns e itself when no head or atom type of e has a rule and values is empty.", "quantifier": "every Transformer and expression", "why_tests_cant": "All expressions.", "anchors": ["src/protosym/core/evaluate.py:Transformer"]}
{"id": "C22", "title": "Evaluation commutes with substitution", "statement": "For atoms s occurring only in argument position, evaluating e.xreplace({s: r}) equals evaluating e with the value of r supplied for s.", "quantifier": "every evaluator, expression, replacement and value map", "why_tests_cant": "Relates three algorithms for all inputs.", "anchors": ["src/protosym/core/evaluate.py:Evaluator", "src/protosym/core/tree.py:SubsFunc"]}
{"id": "C23", "title": "diff_forward is the calculus recursion", "statement": "diff_forward(e, s) returns exactly the tree given by the recursive sum, product, chain and distributive rules on the tree or raises the exception that this recursion raises.", "quantifier": "every expression, symbol and rule set", "why_tests_cant": "All DAG shapes and rule sets.", "anchors": ["src/protosym/core/differentiate.py:diff_forward", "src/protosym/core/differentiate.py:product_rule_forward", "src/protosym/core/differentiate.py:chain_rule_forward"]}
{"id": "C24", "title": "simplecas derivatives are derivatives", "statement": "For every expression of simplecas over Integer, Symbol, Add, Mul, pow, sin, cos: if e.diff(x) succeeds and e and e.diff(x) are defined at a point then e is defined near it and e.diff(x) is there the derivative of e as a real function of x.", "quantifier": "every expression, every real environment", "why_tests_cant": "Real analysis over all expressions.", "anchors": ["src/protosym/simplecas/expr.py:diff rules 580-585", "src/protosym/core/differentiate.py:diff_forward"]}
{"id": "C25", "title": "Differentiating by an absent symbol gives zero and consults no rule", "statement": "If s is not an atom in argument position of e (in particular if s is compound) and e contains no distributive operation then diff gives exactly zero whatever rules are registered.", "quantifier": "every expression, rule set, s", "why_tests_cant": "All expressions.", "anchors": ["src/protosym/core/differentiate.py:diff_forward"]}
{"id": "C26", "title": "When differentiation succeeds", "statement": "simplecas diff succeeds on every expression built from Integer, Symbol, n-ary Add and Mul, unary sin and cos, and binary pow whose exponent does not contain the symbol; and raises KeyError if a dependent argument has no rule; with any registered rules the only exceptions are this KeyError and TypeError, where the rule of a dependent argument is for another number of arguments.", "quantifier": "every such expression", "why_tests_cant": "All shapes.", "anchors": ["src/protosym/core/differentiate.py:chain_rule_forward", "src/protosym/simplecas/expr.py:diff"]}
{"id": "C27", "title": "ntimes is iteration", "statement": "e.diff(x, n) is n-fold differentiation, diff(x, m+n) = diff(x, m).diff(x, n), n <= 0 returns e, and Expr.diff agrees with SymDifferentiator's own ntimes.", "quantifier": "all n, m, expressions", "why_tests_cant": "All n.", "anchors": ["src/protosym/simplecas/expr.py:Expr.diff", "src/protosym/core/sym.py:SymDifferentiator.__call__"]}
{"id": "C28", "title": "Distributive heads differentiate argument by argument", "statement": "diff of List(e1..en) is List(diff e1 .. diff en), always with n arguments even if all are zero. If an argument cannot be differentiated, the exception of the first such argument is raised.", "quantifier": "every argument list", "why_tests_cant": "All lengths.", "anchors": ["src/protosym/core/differentiate.py:diff_forward", "src/protosym/simplecas/expr.py:add_distributive_rule"]}
{"id": "C29", "title": "Registered differentiation rules fire as written", "statement": "After diff[f(a1..an), ai] = rhs the derivative of f(u1..un) contributes rhs with ui for ai times the derivative of ui, provided rhs is not itself one of the ai; if it is, the last argument un is used instead (finding).", "quantifier": "every rule, every call", "why_tests_cant": "All rules.", "anchors": ["src/protosym/core/sym.py:SymDifferentiator.__setitem__"]}
{"id": "C30", "title": "Invalid differentiation rules are rejected without effect", "statement": "diff[pattern] = rhs raises TypeError and registers nothing if the key is not a pair or the symbol does not occur exactly once among the pattern's arguments; otherwise only the rule for that head and position changes. In all other expressions nothing changes, not even which exception is raised.", "quantifier": "every pattern and registry", "why_tests_cant": "All registries.", "anchors": ["src/protosym/core/sym.py:SymDifferentiator.__setitem__"]}
{"id": "C31", "title": "Invalid evaluation rules are rejected without effect", "statement": "evaluator[pattern] = call raises BadRuleError and leaves the evaluator unchanged unless the pattern and call match in arguments and kind; a valid rule registers exactly one entry. Calling the rule function itself with a wrong number of arguments raises TypeError.", "quantifier": "every pattern, call and evaluator", "why_tests_cant": "All pattern and call kinds and registries.", "anchors": ["src/protosym/core/sym.py:SymEvaluator.__setitem__", "src/protosym/core/sym.py:SymEvaluator.add_op"]}
{"id": "C32", "title": "Patterns are matched by head only", "statement": "A valid operation rule applies to every call of that head whatever the pattern's arguments were, e.g. a rule given for cos(sin(a)) applies to every cos call.", "quantifier": "every accepted pattern", "why_tests_cant": "All patterns.", "anchors": ["src/protosym/core/sym.py:SymEvaluator.__setitem__"]}
{"id": "C33", "title": "head and args rebuild the expression", "statement": "For compound e, e.head(*e.args) is e; for atomic e args is () and head raises IndexError.", "quantifier": "every expression", "why_tests_cant": "All.", "anchors": ["src/protosym/core/sym.py:Sym.head", "src/protosym/core/sym.py:Sym.args", "src/protosym/simplecas/expr.py:Expr.__call__"]}
{"id": "C34", "title": "expressify is idempotent and total on Expr and int", "statement": "expressify returns an Expr unchanged, maps ints to Integer injectively, and otherwise raises ExpressifyError; binary operators with an unsupported operand raise TypeError.", "quantifier": "every object", "why_tests_cant": "All objects.", "anchors": ["src/protosym/simplecas/expr.py:expressify", "src/protosym/simplecas/expr.py:expressify_other"]}
{"id": "C35", "title": "Operators mean arithmetic", "statement": "For every real environment, e1+e2, e1-e2, e1*e2, e1/e2, e1**e2, -e and the reflected forms with ints denote the sum, difference, product, quotient (non-zero divisor), power and negation of the denotations, with the operands in source order.", "quantifier": "all expressions and environments", "why_tests_cant": "All operands.", "anchors": ["src/protosym/simplecas/expr.py:Expr.__add__ .. __rpow__"]}
{"id": "C36", "title": "xreplace of a symbol is substitution of its value", "statement": "The real value of e.xreplace({x: r}) is the value of e in the environment where x has the value of r.", "quantifier": "all expressions, symbols, replacements, environments", "why_tests_cant": "All shapes.", "anchors": ["src/protosym/simplecas/expr.py:Expr.xreplace", "src/protosym/simplecas/expr.py:ExprFunction"]}
{"id": "C37", "title": "count_ops_tree and count_ops_graph", "statement": "count_ops_tree is the number of subexpressions with multiplicity, count_ops_graph the number of distinct ones, graph <= tree always, with equality iff no repetition.", "quantifier": "all expressions", "why_tests_cant": "All shapes.", "anchors": ["src/protosym/simplecas/expr.py:Expr.count_ops_tree", "src/protosym/simplecas/expr.py:Expr.count_ops_graph"]}
{"id": "C38", "title": "Documented growth of the example family", "statement": "For every n the documented make_expression(n) has exactly 2^(n+2)-3 tree operations, and for every n >= 1 exactly 2n+2 graph operations; for n = 0 the documented graph formula is wrong (it is 1, not 2) (finding).", "quantifier": "all n", "why_tests_cant": "Tests stop at 100.", "anchors": ["src/protosym/simplecas/expr.py:count_ops_graph docstring"]}
{"id": "C39", "title": "bin_expand yields binary sums and products with the same value", "statement": "If bin_expand succeeds its result has only two-argument Add and Mul, is unchanged by bin_expand again and has the same real value; it succeeds iff no Add or Mul in argument position is empty (else TypeError).", "quantifier": "all expressions", "why_tests_cant": "All shapes.", "anchors": ["src/protosym/simplecas/expr.py:bin_expand"]}
{"id": "C40", "title": "What str(expr) prints, and that it is ambiguous", "statement": "str(e) is the documented recursive text, and succeeds exactly if no part of e is the childless Tree() and every power in argument position has two arguments. Two different expressions can print the same text: (x**y)**z and x**(y**z), Add(x) and Mul(x), Integer(1) and Symbol('1'); (-1)**x prints -1**x (findings). Expressions over identifier names with at least two-argument sums and products and powers whose base is not a power print injectively.", "quantifier": "all expressions; existence for the ambiguity", "why_tests_cant": "Injectivity over all pairs.", "anchors": ["src/protosym/simplecas/functions.py:eval_repr rules"]}
{"id": "C41", "title": "eval_latex output", "statement": "eval_latex(e) is the documented recursive LaTeX text; it succeeds exactly if no part of e is the childless Tree(), every atom in argument position is an Integer, Symbol or Function, every power there has two arguments and every sin and cos one.", "quantifier": "all expressions", "why_tests_cant": "All.", "anchors": ["src/protosym/simplecas/functions.py:eval_latex rules"]}
{"id": "C42", "title": "Matrix construction round-trips", "statement": "Matrix(rows).tolist() equals the expressified rows, M[i, j] equals the entry, out-of-range or negative indices raise IndexError, ragged rows raise TypeError and an empty list raises IndexError.", "quantifier": "all rows and indices", "why_tests_cant": "All shapes.", "anchors": ["src/protosym/simplecas/matrix.py:Matrix.__new__", "src/protosym/simplecas/matrix.py:Matrix.__getitem__", "src/protosym/simplecas/matrix.py:Matrix.tolist"]}
{"id": "C43", "title": "Matrix addition is entrywise and does not alter its operands", "statement": "(A+B)[i,j] is Add(A[i,j], B[i,j]) when both are stored, the stored one if only one is, zero otherwise; its real value is the sum of values; shape mismatch raises TypeError.", "quantifier": "all matrices reachable by the API", "why_tests_cant": "All shapes and sparsity patterns.", "anchors": ["src/protosym/simplecas/matrix.py:Matrix.binop", "src/protosym/simplecas/matrix.py:Matrix.__add__"]}
{"id": "C44", "title": "Matrix.binop is only right for functions with unit zero", "statement": "binop(B, f) returns the other operand's entry where one entry is absent, so for f = Mul the result differs from the entrywise product (finding).", "quantifier": "all matrices; existence for the failure", "why_tests_cant": "Sparsity patterns.", "anchors": ["src/protosym/simplecas/matrix.py:Matrix.binop"]}
{"id": "C45", "title": "Matrix.diff is entrywise differentiation", "statement": "M.diff(x)[i,j] equals M[i,j].diff(x) for all i, j and the shape is unchanged; it fails iff some stored entry's differentiation fails. The exception it then raises is one that a stored entry raises by itself, and nothing has changed.", "quantifier": "all matrices, symbols", "why_tests_cant": "Shared graph versus separate differentiation.", "anchors": ["src/protosym/simplecas/matrix.py:Matrix.diff"]}
{"id": "C46", "title": "Generated LLVM IR computes the expression", "statement": "For every expression accepted, the generated straight-line code run on the arguments gives the same result as evaluating the bin_expanded expression with the same floating-point operations, provided argument names do not collide.", "quantifier": "all expressions, arguments, floating-point operation tables", "why_tests_cant": "All DAG shapes.", "anchors": ["src/protosym/simplecas/lambdification.py:_to_llvm_f64"]}
{"id": "C47", "title": "Generated LLVM IR is in SSA form, unless a symbol is called '.0'", "statement": "Every identifier is defined once and before its use when symbol names are distinct, can be written in LLVM's quotes and do not look like '.n'; with Symbol('.0') as an argument the code defines a name twice, and a name with a quote can even close the function and make lambdify return valid code that computes something else (findings).", "quantifier": "all expressions and argument lists; existence for the failure", "why_tests_cant": "All names.", "anchors": ["src/protosym/simplecas/lambdification.py:_to_llvm_f64"]}
{"id": "C48", "title": "Generated LLVM IR for a matrix fills the output", "statement": "Running the code stores at i*ncols+j the value of M[i,j] for every stored entry, and touches nothing else. The text has exactly one store for each stored entry, in increasing order of i*ncols+j, after all computations and before the return.", "quantifier": "all matrices, arguments, machines and contents of the output", "why_tests_cant": "All shapes and all orders in which entries were stored.", "anchors": ["src/protosym/simplecas/lambdification.py:_to_llvm_f64_matrix"]}
{"id": "C49", "title": "Code generation ignores surplus arguments that evaluation rejects", "statement": "sin(x, y).to_llvm_ir succeeds and computes sin(x), while eval_f64 raises TypeError (finding).", "quantifier": "existence; all expressions of right arity agree", "why_tests_cant": "All arities.", "anchors": ["src/protosym/simplecas/lambdification.py:_to_llvm_f64", "src/protosym/simplecas/functions.py:eval_f64 rules"]}
{"id": "C50", "title": "Integer constants in LLVM IR are exact up to 2**53", "statement": "The hexadecimal constant generated for Integer(n), |n| <= 2**53, decodes to exactly n.", "quantifier": "all such n", "why_tests_cant": "2**54 values.", "anchors": ["src/protosym/simplecas/lambdification.py:_double_to_hex"]}
{"id": "C51", "title": "lambdify and eval_f64 can differ on sums of three or more terms", "statement": "For Add(2**53, 1, 1) eval_f64 (exact fsum) and the generated code (two rounded additions) give different doubles (finding).", "quantifier": "existence", "why_tests_cant": "Rounding corner.", "anchors": ["src/protosym/simplecas/lambdification.py:_to_llvm_f64", "src/protosym/simplecas/functions.py:f64_add"]}
{"id": "C52", "title": "from_sympy's cache is transparent", "statement": "The memoised conversion returns the same result as plain recursion: it succeeds iff every node is convertible and raises NotImplementedError otherwise - or TypeError if the input contains a SymPy function class that is not applied, such as to_sympy(Function('f')) gives (finding).", "quantifier": "all SymPy expression trees over the supported classes", "why_tests_cant": "All DAG shapes.", "anchors": ["src/protosym/simplecas/sympy_conversions.py:_from_sympy_cache"]}
{"id": "C53", "title": "SymPy round-trip", "statement": "If SymPy's constructors leave s unchanged when rebuilt and from_sympy(s) succeeds, and undefined function names do not clash with the built-in heads, then to_sympy(from_sympy(s)) == s.", "quantifier": "all SymPy expression trees", "why_tests_cant": "All shapes.", "anchors": ["src/protosym/simplecas/sympy_conversions.py:to_sympy", "src/protosym/simplecas/sympy_conversions.py:from_sympy"]}
{"id": "C54", "title": "from_sympy cannot convert empty containers", "statement": "Matrix.from_sympy of any all-zero SymPy matrix raises NotImplementedError, as does any application without arguments (finding).", "quantifier": "all shapes of zero matrices", "why_tests_cant": "The zero matrix of every shape.", "anchors": ["src/protosym/simplecas/sympy_conversions.py:from_sympy_matrix", "src/protosym/simplecas/sympy_conversions.py:_from_sympy_cache"]}
{"id": "C55", "title": "The stores leak nothing", "statement": "From every reachable state the collector can, by itself, free every Atom, Tree and Sym that no thread can reach and remove every dead entry of the stores; if no thread holds anything, every object and every entry goes.", "quantifier": "every reachable state of every multi-threaded history", "why_tests_cant": "A key of a store keeps its arguments alive, so freeing depends on the order of collections and callbacks; only an induction over all object graphs shows that the order always exists.", "anchors": ["src/protosym/core/atom.py:_all_atoms", "src/protosym/core/tree.py:_all_trees", "src/protosym/core/sym.py:Sym._all_expressions"]}
{"id": "C56", "title": "Constructor calls are wait-free", "statement": "A call of an AtomType, Tree, Tree.atom or Sym class finishes after a bounded number of steps of its own thread in every schedule, and never waits for another thread.", "quantifier": "every schedule, every reachable state", "why_tests_cant": "Quantifies over schedules.", "anchors": ["src/protosym/core/atom.py:Atom.__new__", "src/protosym/core/tree.py:Tree.__new__", "src/protosym/core/sym.py:Sym.__new__"]}
{"id": "C57", "title": "The raw representation reads back", "statement": "For every expression without a childless Tree() part, evaluating the text of repr(e) as Python, with Tree, Tr and the atom types in scope under their names, gives e itself, and the text is printable and on one line; so repr identifies the expression (for Tree and for Sym) as long as distinct atom types have distinct names. Two AtomTypes with one name give distinct expressions with the same repr.", "quantifier": "all expressions with int and str (code points below 256) values, all namespaces", "why_tests_cant": "Injectivity quantifies over all pairs of expressions and all contents of string values, including quotes, backslashes and control characters.", "anchors": ["src/protosym/core/atom.py: AtomType.__repr__, Atom.__repr__", "src/protosym/core/tree.py: Tree.__repr__", "src/protosym/core/sym.py: Sym.__repr__"]}
{"id": "C58", "title": "Traversal takes time linear in the graph", "statement": "The loop of topological_sort (on which evaluation, differentiation, counting, printing and code generation are built) performs exactly one iteration per distinct subexpression and one per argument link of the graph, however large the expression is as a tree; for the documented family, whose trees have 2^(n+2)-3 nodes, that is at most 6n+6.", "quantifier": "all expressions, both values of heads, all exclude sets", "why_tests_cant": "A cost bound over every shape of sharing; tests can only time a few sizes.", "anchors": ["src/protosym/core/tree.py: topological_sort", "src/protosym/simplecas/expr.py: count_ops_graph"]}
{"id": "C59", "title": "Differentiation does not swell the graph", "statement": "If e.diff(x) succeeds, its number of distinct subexpressions is at most 3*N + L + 3 where N and L are the numbers of distinct subexpressions and of argument links of e (at most 5*N + 3 when sums and products are binary), although the tree may grow exponentially.", "quantifier": "all arithmetic expressions of simplecas and all symbols", "why_tests_cant": "A bound for every expression and every pattern of sharing.", "anchors": ["src/protosym/core/differentiate.py: diff_forward, product_rule_forward, chain_rule_forward", "src/protosym/simplecas/expr.py: Expr.diff, count_ops_graph"]}
{"id": "C60", "title": "xreplace obeys the laws of substitution", "statement": "Replacing things by themselves or things that do not occur returns e; the order of the dict's items does not matter when e is not itself a key; e.xreplace({x: r}).xreplace({y: s}) is the simultaneous e.xreplace({x: r.xreplace({y: s}), y: s}) for an atom y and e other than x; independent replacements commute; replacing anything by a fresh atom can be undone.", "quantifier": "all expressions, keys (atomic or compound) and values", "why_tests_cant": "Algebraic laws over all expressions and all replacement dictionaries.", "anchors": ["src/protosym/simplecas/expr.py: Expr.xreplace, Expr.as_function, ExprFunction", "src/protosym/core/tree.py: SubsFunc"]}
{"id": "C61", "title": "Differentiation commutes with substitution for other symbols and with renaming", "statement": "For x != y and r not containing x, e.xreplace({y: r}).diff(x) is the same expression as e.diff(x).xreplace({y: r}) (or both raise KeyError), and for a symbol z not in e, e.xreplace({x: z}).diff(z) is e.diff(x).xreplace({x: z}).", "quantifier": "all arithmetic expressions e, r of simplecas and all symbols", "why_tests_cant": "Exact tree equality over all expressions; the special cases for zero and one derivatives could break it for some substitution only.", "anchors": ["src/protosym/simplecas/expr.py: Expr.diff, Expr.xreplace", "src/protosym/core/differentiate.py: diff_forward"]}
{"id": "C62", "title": "Correct user rules give correct derivatives", "statement": "Whatever functions exist and whatever rules diff[f(w1..wn), wi] = rhs and distributive heads have been registered (later rules replacing earlier ones): if each function's registered right hand sides are its partial derivatives and each distributive head is linear, then at every point where e and the result of diff(e, x) have a value, e is differentiable in x there and the result's value is its derivative. For a function of one argument the condition is just that the right hand side is its derivative.", "quantifier": "all sets of functions and their meanings, all rule registration histories, all expressions, symbols and points", "why_tests_cant": "Ranges over arbitrary user rules, their real meaning, and all expressions and points; needs the chain rule for every nesting.", "anchors": ["src/protosym/core/differentiate.py: DiffProperties, diff_forward", "src/protosym/core/sym.py: SymDifferentiator.__setitem__, SymDifferentiator.__call__", "src/protosym/simplecas/expr.py: diff"]}
{"id": "C63", "title": "Sums in eval_f64 are rounded once, so the order of terms does not matter; in compiled code it does", "statement": "With a correctly rounded math.fsum, eval_f64 of Add(t1..tn) is the double nearest to the exact sum of the terms' values, so permuting the terms does not change the number. For a sum of two symbols lambdify computes the same number (when it does not overflow). Finding: lambdified sums of three or more terms depend on the order of the terms.", "quantifier": "all sums, all permutations of terms, all finite values", "why_tests_cant": "Ranges over all expressions, all permutations and all floating point values, with ties and cancellation.", "anchors": ["src/protosym/simplecas/expr.py: Expr.eval_f64, eval_f64 rules", "src/protosym/simplecas/lambdification.py: _to_llvm_f64"]}
{"id": "C64", "title": "Repeated derivatives exist and mixed derivatives agree", "statement": "If e.diff(s) succeeds for each symbol s of a set then every sequence of differentiations by symbols of the set succeeds. And e.diff(x).diff(y) and e.diff(y).diff(x), though usually different expressions, have the same value at every point where e, the first and both mixed derivatives are defined.", "quantifier": "all arithmetic expressions, all symbols and sequences of symbols, all real points", "why_tests_cant": "The two derivatives are different trees; equality of their values at all points for all expressions needs an induction.", "anchors": ["src/protosym/simplecas/expr.py: Expr.diff", "src/protosym/core/differentiate.py: diff_forward"]}
{"id": "C65", "title": "lambdify returns a function that computes the expression or matrix", "statement": "Given a platform that executes LLVM IR as written, lambdify(args, e) succeeds exactly if every subexpression of e can be computed from the arguments; the returned function called with one double per argument returns the double computed by e's operations in order, and with too few arguments raises TypeError. For a matrix it returns an array of the matrix's shape holding entry (i,j) at [i][j], with zeros where nothing is stored, at any later time. Arguments that are not Expr raise AttributeError; anything else to compile raises TypeError.", "quantifier": "all expressions, matrices of any shape (up to 2^31 entries), argument lists, argument values, later histories", "why_tests_cant": "Ranges over all expressions, shapes and values; a wrong row/column order or shared memory shows only for some shapes.", "anchors": ["src/protosym/simplecas/lambdification.py: lambdify, _lambdify_llvm, _lambdify_llvm_matrix, _compile_llvm"]}
{"id": "C66", "title": "Operators accept exactly expressions, ints and matrices", "statement": "For every operator +,-,*,/,** and all operands of which one is an Expr and the other an Expr, int or bool (on either side), the result is the expression combining left and right in that order. Matrix + Matrix of equal shape adds entries. Every other combination involving an Expr or Matrix raises TypeError and changes nothing. diff by something that is not an Expr raises.", "quantifier": "all operators, all pairs of operands of any type", "why_tests_cant": "All pairs of operand types, with Python's reflected-operand protocol, and all values.", "anchors": ["src/protosym/simplecas/expr.py: Expr.__add__ ... Expr.__rpow__, expressify, expressify_other", "src/protosym/simplecas/matrix.py: Matrix.__add__, Matrix.diff"]}
{"id": "C67", "title": "repr of a matrix shows its entries", "statement": "repr(M) is 'Matrix([[...], ...])' with the texts of the entries in row-major order, including unstored zeros; it succeeds exactly if every entry can be printed; and two matrices of printable entries with equal text have the same entries.", "quantifier": "all matrices in all histories", "why_tests_cant": "All shapes and entries; injectivity compares every pair of matrices.", "anchors": ["src/protosym/simplecas/matrix.py: Matrix.__repr__, Matrix.tolist"]}
{"id": "C68", "title": "funcs_symbols makes fresh, distinct functions and symbols", "statement": "The functions and symbols made by one call of funcs_symbols are equal exactly when they have the same role and the same name, print as their names, and no function equals a symbol. Objects of different calls are never equal even if they print alike.", "quantifier": "all lists of names, all sequences of calls", "why_tests_cant": "Ranges over all name lists and all later calls.", "anchors": ["src/protosym/core/tree.py: funcs_symbols"]}
{"id": "C69", "title": "The printed text of an expression, evaluated as Python, is the expression", "statement": "If the names in e are Python names bound to the corresponding symbols and functions, no sum or product is empty, and no power has a power or a negative number as its base, then str(e) is a Python expression, and whenever Python evaluates it to an Expr or int, that has the same value as e at every point. If moreover Python never meets two ints as the first operands, eval(str(e)) succeeds and is exactly bin_expand(e); so it is e itself when e has only binary sums and products. Findings: sums of ints are folded, 2**-1 becomes a float, and str((-2)**2) is read as -(2**2).", "quantifier": "all expressions and namespaces, all values of the symbols", "why_tests_cant": "Precedence and associativity errors show only for particular nestings; the claim is about all expressions and all points.", "anchors": ["src/protosym/simplecas/functions.py: repr_call, eval_repr", "src/protosym/simplecas/expr.py: Expr.__repr__, expressify_other"]}
{"id": "C70", "title": "Traversal and substitution are right on shared objects, among threads and garbage collection", "statement": "While a thread runs topological_sort, forward_graph or SubsFunc on Tree objects that it holds, other threads may create, share and drop expressions and the garbage collector may run at any moment; still, every call finishes, and: topological_sort returns each Tree object below the expression exactly once, children first, the expression last; rebuilding an expression from its forward graph returns the very same object; SubsFunc(expr, args)(*values) returns a Tree that is the simultaneous substitution. Comparing Trees by identity is comparing expressions.", "quantifier": "for every reachable state of the stores and heap, every interleaving of steps of other threads and the collector with the steps of the call, every expression, args and values held by the thread, in every case where setdefault is atomic or only one thread constructs", "why_tests_cant": "the result depends on identity comparisons between objects whose addresses may be reused while the call runs; only a proof covers all schedules and collection points", "anchors": ["src/protosym/core/tree.py:topological_sort", "src/protosym/core/tree.py:topological_split", "src/protosym/core/tree.py:forward_graph", "src/protosym/core/tree.py:SubsFunc", "src/protosym/core/tree.py:Tree.__new__", "src/protosym/core/atom.py:Atom.__new__"]}
{"id": "C71", "title": "Evaluation, transformation and differentiation are right on shared objects, among threads and garbage collection", "statement": "While a thread evaluates, transforms or differentiates an expression whose Tree objects it holds, other threads may create, share and drop expressions and the garbage collector may run at any moment; still every call finishes, and: an Evaluator computes the value that its rules give for the expression, whether the rules return numbers or build further Trees themselves; a Transformer whose rules do not match returns the very same object; diff_forward returns a Tree that is the derivative by the textbook recursion, or raises the exception that the recursion raises; and asking for the same derivative twice gives the same object.", "quantifier": "for every reachable state of stores and heap, every interleaving of steps of other threads and of the collector with the steps of the call, every expression, rule set and values held by the thread, in every case where setdefault is atomic or only one thread constructs", "why_tests_cant": "rules and values are found by identity of objects, and new objects are interned while others are collected; only a proof covers all schedules and collection points", "anchors": ["src/protosym/core/evaluate.py:Evaluator", "src/protosym/core/evaluate.py:Transformer", "src/protosym/core/differentiate.py:diff_forward", "src/protosym/core/differentiate.py:product_rule_forward", "src/protosym/core/differentiate.py:chain_rule_forward"]}
{"id": "C72", "title": "User programs with threads and garbage collection mean what they mean on values", "statement": "A straight-line program that imports simplecas and then makes symbols, functions and integers, applies operators and functions, takes heads and arguments, substitutes, expands, differentiates and adds differentiation rules always ends with the same expressions in its variables, or with the same exception, as the same program computed on plain values, no matter what other threads construct and what the garbage collector frees between its steps. Two Exprs held by any threads are the same object exactly if they are the same expression; running the program again gives the identical objects; e.head(*e.args) is e for every compound e.", "quantifier": "all programs of these statements, all reachable states of the intern tables, all interleavings with other threads and the collector", "why_tests_cant": "a test runs one program under one schedule with one garbage collection pattern; the claim is about all programs and all schedules", "anchors": ["src/protosym/core/sym.py: Sym.__new__, Sym.head, Sym.args, SymDifferentiator", "src/protosym/simplecas/expr.py: Expr, ExprFunction, module level statements 538-585", "src/protosym/core/tree.py: Tree.__new__, SubsFunc", "src/protosym/core/differentiate.py: diff_forward"]}
{"id": "C73", "title": "Compiled code is as small as the graph, not as large as the tree", "statement": "For arguments with distinct legal names, the function generated for lambdify(args, expr) contains exactly one instruction for every distinct operation of the expression (after n-ary sums and products have been split into binary ones by bin_expand) plus the return, however often the subexpressions are repeated in the tree. So it has at most as many instructions as the graph has argument links, plus one; for expressions whose sums and products are binary at most one per distinct subexpression; the code of a derivative of such an expression has at most 5n+4 instructions, n the size of the graph of the original; for a matrix there is one instruction per distinct operation in all stored entries, two for every stored entry, and the return.", "quantifier": "all argument lists with good names, all accepted expressions and derivatives, all matrices of all histories", "why_tests_cant": "A test compares the size for a few expressions; that repeated subexpressions never get compiled twice, for any shape of the graph, is a statement about all expressions.", "anchors": ["src/protosym/simplecas/lambdification.py:_to_llvm_f64", "src/protosym/simplecas/lambdification.py:_to_llvm_f64_matrix", "src/protosym/simplecas/expr.py:bin_expand", "src/protosym/core/tree.py:forward_graph"]}
{"id": "C74", "title": "Integer polynomials are evaluated exactly up to 2**53", "statement": "Take an expression made of Integer constants, symbols, (non-empty) sums and products, and integer values for the symbols. If the value of every subexpression and every partial sum and product is at most 2**53 in magnitude, then with IEEE 754 addition and multiplication the function returned by lambdify accepts the expression and returns exactly the mathematical value; and eval_f64, if it returns, returns exactly that value too (math.fsum correctly rounded, math.prod from left to right). So the two agree, although they add in different ways.", "quantifier": "all such expressions, argument lists with good names, and integer values within the bound", "why_tests_cant": "Exactness of every rounding step for every expression and all integers below the bound; tests would sample a few.", "anchors": ["src/protosym/simplecas/lambdification.py:_to_llvm_f64", "src/protosym/simplecas/functions.py:eval_f64", "src/protosym/simplecas/expr.py:Expr.eval_f64"]}
{"id": "C75", "title": "Several Sym subclasses: rules must match in class, evaluation and derivatives look only at trees", "statement": "When a program has several Sym subclasses: a rule ev[pattern] = call whose pattern arguments and call arguments have the same classes is accepted or rejected, and acts, exactly as its trees alone determine; one whose arguments have the right trees but different classes is rejected (BadRuleError) and leaves the evaluator unchanged. Evaluating an expression of any class uses only its tree, and of several values given for the same tree under different classes the last one in the dict is used. A derivative always belongs to the class the differentiator was made for, and its tree does not depend on the classes of the operands or rules. head, args and all parts of an expression have the expression's own class, and head(*args) gives the expression back.", "quantifier": "all classes, evaluators, patterns, calls, expressions, value dicts and histories of rule registrations", "why_tests_cant": "Holds for every mixture of classes in every position; the project's tests use one class at a time.", "anchors": ["src/protosym/core/sym.py:Sym", "src/protosym/core/sym.py:SymEvaluator.__setitem__", "src/protosym/core/sym.py:SymEvaluator.__call__", "src/protosym/core/sym.py:SymDifferentiator", "src/protosym/core/sym.py:star"]}
{"id": "C76", "title": "Matrix sums form a commutative monoid in values, and differentiation is additive", "statement": "In any program, a sum of matrices of one shape, bracketed in any way, can be computed and each entry's real value is the sum of the values of the summands' entries (undefined if one of them is); so two sums of the same summands in any order and with any brackets have the same values. The entries as expressions may differ: A + B and B + A need not be equal (finding). Adding a matrix of zeros on either side leaves every entry as it is. (A + B).diff(s) exists exactly when A.diff(s) and B.diff(s) do, and has the same values as A.diff(s) + B.diff(s).", "quantifier": "all program histories, matrices, bracketed sums, symbols to differentiate by, and values of the symbols", "why_tests_cant": "Laws over all sums, orders, shapes, sparsity patterns and entries; a test compares a few small matrices.", "anchors": ["src/protosym/simplecas/matrix.py:Matrix.__add__", "src/protosym/simplecas/matrix.py:Matrix.binop", "src/protosym/simplecas/matrix.py:Matrix.diff", "src/protosym/simplecas/matrix.py:Matrix.__new__"]}
{"id": "C77", "title": "Amount of work: eval_recursive works once per occurrence, evaluate and from_sympy once per distinct part", "statement": "Evaluator.eval_recursive calls one rule for every occurrence of a subexpression that has no value in the dictionary of values, in the order of the text (arguments before the operation, left to right), so for an expression f(f(..), f(..)) nested n deep it makes 2**(n+1) - 1 calls, while calling the evaluator makes n + 1 calls and gives the same result. from_sympy converts no part of a SymPy object twice; when it succeeds it converts every distinct part exactly once, after its arguments, and makes one lookup plus one per argument of a distinct part.", "quantifier": "all evaluators, rules, values and expressions; all depths n; all SymPy objects in the model", "why_tests_cant": "The number of calls depends on the sharing in the expression and on failures; a test counts the calls for one expression.", "anchors": ["src/protosym/core/evaluate.py:Evaluator.eval_recursive", "src/protosym/core/evaluate.py:Evaluator.eval_forward", "src/protosym/core/evaluate.py:Evaluator.__call__", "src/protosym/simplecas/sympy_conversions.py:from_sympy", "src/protosym/simplecas/sympy_conversions.py:_from_sympy_cache", "src/protosym/simplecas/sympy_conversions.py:_from_sympy_cache_args"]}
{"id": "C78", "title": "LaTeX text identifies the expression", "statement": "For expressions made of integers, symbols and functions named by identifiers, sums and products of at least two terms, powers (also of powers) and sin and cos of one argument, eval_latex succeeds and two different expressions never have the same LaTeX text - unlike str, which cannot tell (x**y)**z from x**(y**z). Outside that class texts coincide: Add(x) and Mul(x), Function(r'\\sin')(x) and sin(x), Symbol('x^{y}') and x**y; (-1)**x gives -1^{x} (findings).", "quantifier": "all pairs of expressions of the class", "why_tests_cant": "Injectivity ranges over all pairs of expressions.", "anchors": ["src/protosym/simplecas/functions.py:eval_latex", "src/protosym/simplecas/expr.py:Expr.eval_latex", "src/protosym/simplecas/expr.py:Expr._repr_latex_"]}
{"id": "C79", "title": "Nesting depth: only raw printing, eval_recursive and from_sympy are limited by recursion", "statement": "repr and str of a Tree, Evaluator.eval_recursive and from_sympy call themselves once per level. If Python allows at least as many nested activations as the expression has levels (heads counted for repr and str; for eval_recursive only arguments, and nothing below an expression that has a value) they give their normal result; if fewer, they raise RecursionError instead of a result - never a wrong result. from_sympy may need fewer levels when parts are shared, but not for nested calls. An expression f(f(..x..)) nested k deep therefore cannot be printed raw or evaluated recursively with a limit up to k, while str of the Expr and the usual evaluation, which are loops, always work.", "quantifier": "all expressions, limits, evaluators and values; all SymPy objects in the model", "why_tests_cant": "The depth and the limit are unbounded.", "anchors": ["src/protosym/core/tree.py:Tree.__repr__", "src/protosym/core/tree.py:Tree.__str__", "src/protosym/core/evaluate.py:Evaluator.eval_recursive", "src/protosym/core/evaluate.py:Evaluator.eval_forward", "src/protosym/simplecas/sympy_conversions.py:_from_sympy_cache", "src/protosym/simplecas/sympy_conversions.py:_from_sympy_cache_args"]}
{"id": "C80", "title": "The rounding error of a polynomial's value is bounded", "statement": "Take any expression of integers, arguments, sums and products (of any size), and doubles for its arguments. If the number returned is finite and no product underflows, then its distance from the exact mathematical value is at most ((1+u)^n - 1) times the magnitude, with u = 2^-53: the magnitude is the value the expression would have if every number in it were made positive, and n counts the roundings on the way to the result: a product of k factors has k-1 plus those of its factors, an integer beyond 2^53 has one, and a sum of k terms has the most of any term plus one for eval_f64 (math.fsum) or plus k-1 for lambdify. The same holds for each entry of a lambdified matrix, and lambdify of e.diff(x) is that near to the true derivative of e. The bound is at most 2*n*2^-53 for any n up to 2^52, and relative to the result if nothing in the expression is negative; in general it is not: (x + 1) + y at x = 2**53, y = -2**53 gives 0 where the value is 1.", "quantifier": "All expressions of integers, arguments, sums and products, all finite doubles given to the arguments, all platforms with IEEE 754 addition and multiplication, all matrices and their histories.", "why_tests_cant": "The bound is over all doubles and expressions of any size and shape; the worst roundings are not hit by sampled inputs.", "anchors": ["src/protosym/simplecas/functions.py:eval_f64", "src/protosym/simplecas/lambdification.py:lambdify", "src/protosym/simplecas/lambdification.py:_to_llvm_f64", "src/protosym/simplecas/expr.py:Expr.diff"]}
{"id": "C81", "title": "Rules with side effects are called once each, in order, and see each other's effects", "statement": "The functions registered with an Evaluator may do anything: keep state, raise, register further rules, change the dict of values, evaluate other expressions. For every expression there is one order of its distinct subexpressions, atoms first and arguments before what they are arguments of, such that every evaluation gives each its turn in that order: an atom with a value in the dict (as it is then) takes that, otherwise exactly one function is called, the one registered at that moment, with the values its arguments got in their turns. The first exception ends the evaluation with the effects so far. So there are at most as many calls as distinct subexpressions, the outcome is determined by the state at the start, and functions without effects give the result of the other claims and change nothing. Adding a rule never raises, takes effect at once, and changes that rule and nothing else.", "quantifier": "All expressions, all behaviours of the registered functions (arbitrary state transformers, including reentrant ones), all rule tables and dicts of values at the start.", "why_tests_cant": "Tests use pure lambdas; arbitrary stateful functions and expressions of any shape are beyond enumeration.", "anchors": ["src/protosym/core/evaluate.py:Evaluator.eval_forward", "src/protosym/core/evaluate.py:Evaluator.eval_atom", "src/protosym/core/evaluate.py:Evaluator.eval_operation", "src/protosym/core/evaluate.py:Evaluator.evaluate"]}
{"id": "C82", "title": "copy.copy of a Tree returns the object of Tree(), overwritten", "statement": "Tree objects can be copied with copy.copy without an error, but the copy is not a new object: Tree() (the tree without children) is looked up or created and is given the children and the value of the original. So copy.copy(t) has the attributes of t and is another object than t (unless t is Tree() itself), and anyone who has Tree() has it changed under their hands. As long as somebody has a copy, every further copy.copy of any Tree by any thread returns this very object again, with the attributes of the tree copied last: all copies are one object. (copy.copy of an Atom or a Sym raises TypeError.)", "quantifier": "every reachable state of the memory, every interleaving with other threads and with garbage collection while the call runs, every tree copied, any number of threads holding references", "why_tests_cant": "A test copies one tree in one thread; that the lookup of the empty tree cannot produce a second object while other threads create trees and the collector runs, and that nothing between two copies can separate them, is a statement about all schedules.", "anchors": ["src/protosym/core/tree.py:Tree.__new__", "src/protosym/core/tree.py:Tree.__slots__", "src/protosym/core/atom.py:Atom.__new__", "src/protosym/core/sym.py:Sym.__new__"]}
{"id": "C83", "title": "Programs with user-defined evaluators mean the same on shared objects as on values", "statement": "A program that makes expressions, wildcards and evaluators, adds rules (for atom types, generic atoms, heads with one, two or any number of arguments, generic heads) and evaluates expressions with dictionaries of values, run in one thread while other threads make and drop expressions and the collector runs, gives exactly the values (or the exception) that the same program gives when expressions are plain values: rule lookup by object identity finds the rule of the head that was written, replacing a rule affects only later evaluations, and no history of other threads changes the output. In particular str(e), e.eval_latex() and e.eval_f64(values), whose rules the library registers in this way, give on shared objects what C40, C41 and C49 say of values.", "quantifier": "all programs of these statements, all callbacks on values, all callbacks that look at whole Trees, all starting states and schedules of other threads and the collector", "why_tests_cant": "Rules and values are found by the identity of weakly interned objects; a test runs one history, and the claim is about every schedule, every program and every set of callbacks.", "anchors": ["src/protosym/core/sym.py: SymEvaluator.__setitem__, SymEvaluator.add_op, SymEvaluator.__call__, star, PyFunc", "src/protosym/core/evaluate.py: Evaluator.add_atom, add_op1, add_opn, eval_forward, __call__", "src/protosym/core/tree.py: forward_graph", "src/protosym/simplecas/functions.py: eval_f64, eval_repr, eval_latex"]}
{"id": "C84", "title": "With any user-defined rules, differentiation commutes with substitution for other symbols", "statement": "Let a differentiator have any functions, rules and distributive functions registered. Replacing a symbol y in an expression with e.xreplace({y: r}), where r does not involve the variable, and then differentiating n times gives exactly the same tree as differentiating first and replacing then, and one succeeds iff the other does; renaming the variable itself gives the renamed derivative. This needs that y is not a function applied in the expression nor a constant in a rule, that r applies no distributive function, and - if a rule's right hand side is just one of its wilds - that r is neither 0 nor 1 (with diff[f(a,b),a]=b it fails for r=0); for more than one differentiation also that no rule applies one of its wilds as a function.", "quantifier": "all rule sets, distributive functions, expressions, atoms, replacements and orders n", "why_tests_cant": "infinitely many rule sets and expressions; the zero and one tests inside the chain rule could interact with the substituted value", "anchors": ["src/protosym/core/differentiate.py:diff_forward", "src/protosym/core/differentiate.py:chain_rule_forward", "src/protosym/core/sym.py:SymDifferentiator", "src/protosym/core/tree.py:SubsFunc", "src/protosym/simplecas/expr.py:Expr.xreplace"]}
{"id": "C85", "title": "Evaluating or differentiating while other threads register rules", "statement": "An Evaluator or a differentiator can be used by one thread while others register rules with it; what they registered is seen from the next lookup on. If the others leave the rules of the functions and atom types of the expression alone, evaluation and differentiation give exactly what they give alone. If rules are added but none replaced, a result that the rules at the start give is found, and a result that is found is the one that the rules give at the end and ever after; so e.diff(s, n) is unaffected by rules that other threads give to diff for further functions. If a rule is replaced meanwhile, one result may mix the old and the new rule: it is then the result of neither (finding).", "quantifier": "all expressions, dicts of values, evaluators and differentiators, and all histories of registrations between any two lookups", "why_tests_cant": "The registration can fall between any two of the lookups that an evaluation makes; tests cannot try all interleavings.", "anchors": ["src/protosym/core/evaluate.py: Evaluator.eval_forward, eval_atom, eval_operation", "src/protosym/core/differentiate.py: diff_forward, chain_rule_forward, DiffProperties", "src/protosym/core/sym.py: SymDifferentiator.__setitem__, __call__"]}
{"id": "C86", "title": "Interrupted constructor calls leave the stores intact", "statement": "If a call of Atom, Tree, Tr or a Sym class is left by KeyboardInterrupt or MemoryError at any point, no thread loses anything it has, objects made or returned later are still the same exactly if they are structurally equal, the call can be made again and then returns (or raises TypeError for wrong arguments) within six more steps, it returns the object that somebody kept if there is one, and an object that the interrupted call had made but not stored is garbage which the collector can take at once. (The interruption is a step of the model of all properties about the stores, so C01-C06, C55, C56, C70-C72, C82 and C83 also hold in programs with interrupted calls.)", "quantifier": "every history of calls of any number of threads, every point of interruption, everything that follows", "why_tests_cant": "The point at which the exception arrives, and what other threads and the collector do, are not under a test's control.", "anchors": ["src/protosym/core/atom.py:Atom.__new__", "src/protosym/core/tree.py:Tree.__new__", "src/protosym/core/tree.py:Tree.atom", "src/protosym/core/sym.py:Sym.__new__"]}
{"id": "C87", "title": "The LaTeX text is well-formed TeX, except for powers of powers", "statement": "For the expressions of C78, _repr_latex_ gives eval_latex's text between two dollar signs; the text has matching parentheses and braces and contains no dollar sign, so it is one formula. It has a superscript directly after a superscript (which TeX rejects) exactly if the base of some power in the expression is itself a power: (x**y)**z gives x^{y}^{z} (finding).", "quantifier": "every expression made of integers, symbols and functions named by identifiers, sums, products, powers, sin and cos", "why_tests_cant": "All expressions, arbitrarily nested.", "anchors": ["src/protosym/simplecas/functions.py:eval_latex", "src/protosym/simplecas/expr.py:Expr._repr_latex_", "src/protosym/simplecas/expr.py:Expr.eval_latex"]}
{"id": "C88", "title": "Which exception an evaluation raises", "statement": "An evaluation first evaluates all atoms, from left to right, and raises the exception of the first atom that raises (missing value or rule, failing rule); if no atom raises, it returns the same value or raises the same exception as the recursive evaluation (arguments left to right, then the operation's rule). Hence forward and recursive evaluation may raise different exceptions (finding). str(e) is exactly the recursive text or its exception, except that any Tree() in argument position raises AttributeError first; likewise LaTeX and eval_f64, where missing values are reported before any arithmetic failure.", "quantifier": "all evaluators, rules (including raising ones), values and expressions; all implementations of the float primitives", "why_tests_cant": "The exception depends on the positions of all failing atoms and operations in an arbitrary expression and on arbitrary rules.", "anchors": ["src/protosym/core/evaluate.py: Evaluator.eval_forward, Evaluator.eval_recursive", "src/protosym/core/tree.py: forward_graph, topological_split", "src/protosym/simplecas/functions.py: eval_repr, eval_latex, eval_f64"]}
{"id": "C89", "title": "Printing expressions with very long integers", "statement": "CPython refuses to print ints with more decimal digits than sys.get_int_max_str_digits() (initially 4300; 0: no limit). str(e), LaTeX and the raw repr are unaffected if every integer in e, heads included, has at most that many digits (|z| < 10**limit); if one has more, they never return a text, and raise ValueError if they would succeed without the limit.", "quantifier": "all limits and all expressions", "why_tests_cant": "Ranges over all expressions, positions of the long integer in them, and limits.", "anchors": ["src/protosym/simplecas/functions.py: eval_repr, eval_latex, str_from_int, repr_atom, repr_call", "src/protosym/core/tree.py: Tree.__str__, Tree.__repr__", "src/protosym/core/atom.py: Atom.__str__, Atom.__repr__"]}
{"id": "C90", "title": "Matrices share nothing with the program's lists", "statement": "Matrix(L) copies: whatever a program later does to L, to its rows, to the lists that M.tolist() returned, or to any other list, M.tolist() and M[i, j] are as before, and the entries of M are the ones that L contained when Matrix(L) was called. Each tolist() returns a new outer list of new rows, all different objects, so changing one row changes no other row, no matrix and no result of another call. No call of Matrix, +, binop, diff or tolist changes a list that exists. A new matrix has its own attributes elements and entrymap, except that M.diff(x) has the very entrymap of M, so a write to M.entrymap also changes the derivative (a finding).", "quantifier": "All programs that make lists, give any list they can get hold of any new contents, and call Matrix, binop, diff and tolist, in any order and number; lists may contain each other, the same row twice, or themselves.", "why_tests_cant": "Aliasing appears only after particular later mutations; a test looks at a few programs, not at every later history.", "anchors": ["src/protosym/simplecas/matrix.py: Matrix.__new__, Matrix._new, Matrix.tolist, Matrix.__getitem__, Matrix.binop, Matrix.diff"]}
{"id": "C91", "title": "Compiled functions keep working, and keep out of each other's arrays, in a running process", "statement": "Let a program create matrices, call lambdify on expressions and matrices, call the functions it got, from any number of threads at once, drop functions, keep, change and drop the arrays it got, while unreferenced execution engines are destroyed. Then lambdify returns a function unless no code can be generated, and a call never crashes: the code of a function that the program holds is loaded, a call with the right number of arguments begins (others raise TypeError), every call ends, and it stores inside of its own array only. A call returns the value of its expression, or an array with the values of the entries of its matrix, whatever else was running. An array the program got shares no memory with another, and changes only where the program writes to it. The price: code is never unloaded, also when no function is left, so that a program that compiles in a loop grows without bound (refuted: that it is freed); and a function asks the matrix object for its shape at each call, so that changing that attribute makes a later call store outside its array.", "quantifier": "every history of a process: any interleaving of matrix operations, lambdify calls, single instructions of concurrent calls, writes, drops and collections, with any machine arithmetic", "why_tests_cant": "The lifetime of machine code and the interleaving of native calls with the interpreter are properties of all schedules; use after free shows only when the collector happens to run, and an overrun of a neighbouring array only when the allocator places it there.", "anchors": ["src/protosym/simplecas/lambdification.py: lambdify, _exe_eng, _compile_llvm, _lambdify_llvm, _lambdify_llvm_matrix", "src/protosym/simplecas/matrix.py: Matrix.shape"]}
{"id": "C92", "title": "Error bounds for expressions with sin, cos and integer powers", "statement": "For an expression made of integers, arguments, sums, products, sin, cos and integer powers, take the error bound that the rules of error propagation give: an argument has none; a sum or product adds its own rounding to what its terms bring (products also half of the least double, for underflow); sin and cos add the accuracy of the platform's function; the n-th power adds that of pow to the change of the n-th power over the interval of the base, which must exclude 0 for a negative n. Whenever eval_f64 or the function made by lambdify (of the expression, or of a matrix with it as an entry) returns a finite double, and the computed bases of negative powers are finite, the double differs from the mathematical value of the expression by at most this bound. No condition on underflow is needed. If the expression is a derivative returned by diff, the mathematical value is the derivative of the original expression as a function of real numbers. eval_f64 and the compiled function differ by at most the sum of their bounds.", "quantifier": "all such expressions (exponents that are integers or sums and products of integers within 2**53), all double arguments, all platforms with IEEE additions and multiplications and any stated accuracy of sin, cos and pow", "why_tests_cant": "Tests compare a few values with a tolerance chosen by hand; a bound for every expression and argument needs an induction over expressions and error analysis over the reals.", "anchors": ["src/protosym/simplecas/functions.py:eval_f64", "src/protosym/simplecas/lambdification.py:lambdify", "src/protosym/simplecas/expr.py:Expr.diff"]}
{"id": "C93", "title": "Converting to and from SymPy keeps the mathematical value", "statement": "If Expr.from_sympy(s) succeeds then the result has, as a real number, the value that s has, for all values of the symbols and every interpretation of the undefined functions, provided no undefined function has the name of a built-in head (Add, Mul, Pow, sin, cos, ...) and symbols with the same name have the same value. to_sympy keeps the value as long as SymPy's own constructors do, so that there-and-back keeps it too, and converting an expression from SymPy, differentiating it and converting the result back gives a derivative of the SymPy expression. The entries of Matrix.from_sympy(M), read at any later time, are the conversions of the entries of M and have their values. Finding: without the condition on the names it is false: a SymPy function named cos becomes the cosine, and SymPy symbols with the same name but different assumptions are merged, so x - x' becomes 0.", "quantifier": "all SymPy expressions in the modelled fragment, all values of the symbols, all interpretations of undefined functions, all SymPy sparse matrices and later histories", "why_tests_cant": "Tests compare a few converted expressions structurally; that the value is kept for every expression, environment and interpretation of the functions is a statement over all of them.", "anchors": ["src/protosym/simplecas/sympy_conversions.py:to_sympy", "src/protosym/simplecas/sympy_conversions.py:from_sympy", "src/protosym/simplecas/sympy_conversions.py:from_sympy_matrix", "src/protosym/simplecas/expr.py:Expr.from_sympy", "src/protosym/simplecas/matrix.py:Matrix.from_sympy"]}
{"id": "C94", "title": "The text of a raw Tree determines it up to the types of its atoms", "statement": "str of a Tree is the text of the atom's value, or head(arg, ..., arg) built from the texts of the children; it succeeds exactly if there is no Tree() inside (else AttributeError). Two trees whose atoms have non-empty texts without parentheses and commas have the same text if and only if they are the same tree up to the types of the atoms. Finding: without that condition texts are ambiguous (f() and f of the symbol with empty name; f(x, y) and f of the symbol named 'x, y'), and the types never show.", "quantifier": "all trees, including those with compound heads and Tree() inside", "why_tests_cant": "That no two different trees have the same text is a claim about all pairs of trees.", "anchors": ["src/protosym/core/tree.py:Tree.__str__", "src/protosym/core/atom.py:Atom.__str__"]}
{"id": "C95", "title": "How substitution and repeated differentiation make expressions grow", "statement": "count_ops_graph of e.xreplace({k1: r1, ...}) is at most that of e plus those of the r_i, however often the replacements are put in; for one k that occurs in e as an argument, at most that of e minus 1 plus that of r. As a tree it grows with every occurrence: count_ops_tree is exactly that of e plus (number of occurrences of k) times (that of r minus that of k). The derivative of an expression with binary sums and products has binary sums and products again, and count_ops_graph of the n-th derivative plus 1 is at most 5**n times (count_ops_graph of e plus 1).", "quantifier": "all expressions, replacement dicts, symbols and numbers of differentiations", "why_tests_cant": "Bounds on sizes for every expression and every substitution; tests can only sample sizes.", "anchors": ["src/protosym/simplecas/expr.py:Expr.xreplace", "src/protosym/simplecas/expr.py:Expr.count_ops_graph", "src/protosym/simplecas/expr.py:Expr.count_ops_tree", "src/protosym/simplecas/expr.py:Expr.diff", "src/protosym/core/tree.py:SubsFunc"]}
{"id": "C96", "title": "Repeated differentiation stays polynomial in the graph", "statement": "Differentiating an arithmetic expression with binary sums and products k times gives, for every k, an expression whose count_ops_graph is at most 5*n*(k+1)^4+3, where n is the count_ops_graph of the original (and at most 5*n*(k+1)^3+3 if it has no powers), although its count_ops_tree can be 2^k or more: derivatives share their subexpressions. The example in the documentation of Expr.diff, sin(sin(sin(sin(sin(x))))).diff(x, 10), has count_ops_graph 1552 and count_ops_tree 893621974.", "quantifier": "every arithmetic expression with binary Add and Mul, every symbol, every order of differentiation; the lower bound for every order", "why_tests_cant": "A test can try a few expressions and orders; that no expression makes repeated differentiation blow up needs an argument about which subexpressions can occur in a derivative of any order. The tests and docstring check two numbers for one expression.", "anchors": ["src/protosym/simplecas/expr.py:Expr.diff", "src/protosym/simplecas/expr.py:Expr.count_ops_graph", "src/protosym/simplecas/expr.py:Expr.count_ops_tree", "src/protosym/core/differentiate.py:diff_forward", "src/protosym/core/tree.py:topological_sort"]}
{"id": "C97", "title": "Differentiation does linear work, repeated differentiation polynomial work", "statement": "Expr.diff constructs at most five trees per distinct subexpression plus one per argument link (at most five per distinct subexpression when sums and products are binary), whether it returns or raises; differentiating k times an arithmetic expression with binary sums and products and n distinct subexpressions makes at most 5k(5n k^4 + 3) Tree constructions in total. Every operation in the returned derivative was made by one of these constructions.", "quantifier": "all expressions, all variables, all numbers of differentiations", "why_tests_cant": "A cost bound over all expressions and all orders of differentiation; timing tests only sample sizes and cannot exclude an input with exponential work", "anchors": ["src/protosym/core/differentiate.py: diff_forward, product_rule_forward, chain_rule_forward", "src/protosym/core/tree.py: SubsFunc.__call__, Tree.__new__", "src/protosym/simplecas/expr.py: Expr.diff"]}
{"id": "C98", "title": "Wide products make repeated derivatives exponential; bin_expand first keeps them polynomial", "statement": "Finding: the m-th derivative of the product of 2m factors sin(x), made by one call of Mul, has at least 2**m distinct subexpressions, though the product itself has only three. If an arithmetic expression with n distinct subexpressions and l argument links is passed through bin_expand first, the result has at most n+l distinct subexpressions and its k-th derivative at most 5(n+l)(k+1)^4+3. The derivatives of the expanded expression have the same values as those of the original, and generally expressions with the same values have k-th derivatives with the same value wherever these and the lower ones are defined.", "quantifier": "all m; all arithmetic expressions, symbols, numbers of differentiations, values of the symbols", "why_tests_cant": "The lower bound is about every m and the upper bound about every expression; examples small enough to run do not show the difference between exponential and polynomial growth", "anchors": ["src/protosym/core/differentiate.py: product_rule_forward, diff_forward", "src/protosym/simplecas/expr.py: Expr.diff, Expr.bin_expand, Expr.count_ops_graph"]}
{"id": "C99", "title": "The chain rule holds for xreplace", "statement": "If distinct symbols are replaced at once by expressions or integers, e.xreplace({x1: r1, ...}).diff(y) succeeds, is defined, and has the value sum of e.diff(x_i) (at the replaced values) times r_i.diff(y), plus e.diff(y) at the replaced values if y itself is not replaced - provided e, the e.diff(x_i) and the r_i.diff(y) succeed and are defined at the point. In particular for one replacement x := r: e.diff(x)(r) * r.diff(y) + e.diff(y)(r), and for y = x: e.diff(x)(r) * r.diff(x). (If e is itself one of the replaced symbols it must be the last one: C14.)", "quantifier": "all expressions, lists of distinct symbols and replacements (which may contain the replaced symbols), symbols y and values of the symbols", "why_tests_cant": "It relates two operations (substitution and differentiation) on all expressions; the derivative of the replaced expression is a different tree from the sum, so only their values can be compared, at infinitely many points", "anchors": ["src/protosym/simplecas/expr.py: Expr.xreplace, Expr.diff", "src/protosym/core/differentiate.py: diff_forward, DiffProperties", "src/protosym/core/tree.py: SubsFunc"]}
{"id": "C100", "title": "Derivatives of compilable expressions compile, to code of polynomial size", "statement": "If lambdify (or to_llvm_ir) accepts an arithmetic expression e for some arguments, it accepts e.diff(x, k) for every k for which that succeeds. For an expression with binary sums and products and n distinct subexpressions the code of the k-th derivative has at most 5n(k+1)^4+4 instructions; for any arithmetic expression with n distinct subexpressions and l argument links the same holds of the derivatives of e.bin_expand() with n+l for n.", "quantifier": "all arithmetic expressions, argument lists, symbols, numbers of differentiations", "why_tests_cant": "It is about every expression and every k; the text of the code cannot be generated for more than a few", "anchors": ["src/protosym/simplecas/lambdification.py: lambdify, _to_llvm_f64", "src/protosym/simplecas/expr.py: Expr.diff, Expr.bin_expand"]}
{"id": "C101", "title": "e.diff(x, k) is the k-th derivative, and Taylor's formula holds for its values", "statement": "Where e and its derivatives up to order k are defined, the value of e.diff(x, k) is the k-th derivative of the function of x that e describes. Between two points where (and between which) they are defined, Taylor's formula with the Lagrange remainder holds with the values of e.diff(x, j) as coefficients; in particular an expression whose derivative is nowhere negative between the points does not decrease and one whose derivative is zero there has the same value at both. For expressions without powers there is nothing to check: they are defined everywhere.", "quantifier": "all arithmetic expressions, symbols, orders of differentiation, and real values of the symbols", "why_tests_cant": "A statement about limits, all orders and all real points; a test sees finitely many numeric values", "anchors": ["src/protosym/simplecas/expr.py: Expr.diff", "src/protosym/core/differentiate.py: diff_forward, DiffProperties", "src/protosym/core/sym.py: SymDifferentiator.__call__"]}
{"id": "C102", "title": "The partial derivatives give the derivative along every curve", "statement": "If the values of distinct symbols move along a differentiable curve (the other symbols of e being fixed), then where e and its partial derivatives e.diff(s) are defined, e is defined along the curve nearby and its value has the derivative sum of e.diff(s) times the velocity of s. So directional derivatives are dot products with the gradient, the change of e along a segment is the directional derivative somewhere on it, and along a curve on which e keeps its value the velocity is orthogonal to the gradient.", "quantifier": "all arithmetic expressions, lists of distinct symbols, differentiable curves and points", "why_tests_cant": "A limit statement over all differentiable curves in any number of variables", "anchors": ["src/protosym/simplecas/expr.py: Expr.diff", "src/protosym/core/differentiate.py: diff_forward, DiffProperties"]}
{"id": "C103", "title": "Substituting before compiling or evaluating is composing the functions, to the last bit", "statement": "If lambdify(ss, e) and every lambdify(names, r_i) succeed and their functions return values, then lambdify(names, e.xreplace({s_i: r_i})) succeeds and returns exactly lambdify(ss, e)(lambdify(names, r_1)(...), ..., lambdify(names, r_n)(...)), bit for bit. The order of the arguments and arguments that do not occur make no difference to the values. The same holds for eval_f64 with the values of the r_i as the values of the s_i. (If e is itself one of the s_i it must be the last one: C14.)", "quantifier": "all expressions, lists of distinct symbols, replacements, argument lists and arguments (floats including infinities and NaN)", "why_tests_cant": "A bit-exact equality over all expressions, replacements and doubles", "anchors": ["src/protosym/simplecas/lambdification.py: lambdify", "src/protosym/simplecas/expr.py: Expr.xreplace, Expr.eval_f64", "src/protosym/core/sym.py: SymEvaluator"]}
{"id": "C104", "title": "copy.deepcopy never copies: it raises TypeError, or makes Tree() contain itself", "statement": "copy.deepcopy of an Expr, a Sym or an Atom raises TypeError and changes nothing; so does copy.deepcopy of the Tree of every expression, whatever its shape and sharing. Of a Tree that holds an atom, but only after parts without atoms, it raises TypeError but may leave the shared object Tree() with itself as children; of a Tree without atoms it returns Tree(), which then has itself as a child as often as the original has children. So no Tree but Tree() has a deep copy that is a tree.", "quantifier": "all Trees, with any sharing, all Atoms and Exprs; nested calls within the recursion limit", "why_tests_cant": "A statement about every shape and sharing of trees; tests of deepcopy try a few objects, and the corruption shows in another object", "anchors": ["src/protosym/core/tree.py: Tree.__new__, Tree.__slots__", "src/protosym/core/atom.py: Atom.__new__", "src/protosym/core/sym.py: Sym.__new__"]}
{"id": "C105", "title": "Well-made expressions never go wrong", "statement": "Take any expression that a program makes with Integer, Symbol, Function, the operators (also with ints and bools), calls, e.args, xreplace of symbols, bin_expand, diff and from_sympy, as long as it calls pow, sin and cos with the right number of arguments and Add and Mul with at least one. Then repr, LaTeX and the raw texts exist; counting, bin_expand, the operators and xreplace of symbols succeed; diff by anything, any number of times, succeeds or raises KeyError; to_sympy succeeds if SymPy's constructors do. If it contains no other functions, eval_f64 with values for its symbols raises only what Python's float arithmetic raises, and lambdify with its symbols among the arguments succeeds unless an integer is too large for a double.", "quantifier": "all sequences of API calls, hence all expressions that such programs can make; all values, platforms and SymPy constructors", "why_tests_cant": "It is a closure property over all programs: an operation that returned something unprintable would only show in a later call", "anchors": ["src/protosym/simplecas/expr.py: Expr", "src/protosym/simplecas/functions.py: eval_repr, eval_latex, eval_f64", "src/protosym/simplecas/lambdification.py: lambdify", "src/protosym/simplecas/sympy_conversions.py: from_sympy, to_sympy", "src/protosym/core/differentiate.py: diff_forward"]}
{"id": "C106", "title": "sum() and math.prod() of expressions", "statement": "sum(l) and math.prod(l) of a list of expressions, ints and bools add up (multiply) the numbers before the first expression and then make sums (products) of two terms from left to right; nothing is changed, and a list of numbers gives an int. The value is the sum (product) of the values of the items. lambdify accepts the result exactly if it accepts each item, and the code returns bit for bit what adding (multiplying) the results of the items' code one after another from 0.0 (1.0) gives; with IEEE addition that is the result for Add(*l) unless the first value is -0.0. eval_f64 rounds after every addition, so it can differ from eval_f64(Add(*l)), which rounds once. Finding: sum of a list of matrices raises TypeError; with a matrix as start it is the sum entry by entry.", "quantifier": "all lists, start values, arguments, machines, float operations and matrices of one shape", "why_tests_cant": "Lists of every length and mixture of types, and all doubles", "anchors": ["src/protosym/simplecas/expr.py: Expr.__add__, Expr.__radd__, Expr.__mul__, Expr.__rmul__", "src/protosym/simplecas/matrix.py: Matrix.__add__", "src/protosym/simplecas/lambdification.py: lambdify"]}
{"id": "C107", "title": "Which exception code generation raises", "statement": "For an expression, or a matrix of expressions, lambdify and to_llvm_ir raise at code generation exactly if one of these is present, and the exception is decided in this order: a sum or product of nothing (Add() or Mul()) gives TypeError; otherwise the first atom, from left to right, that is not one of the arguments and not a representable integer gives OverflowError if it is an integer too large for a double and LLVMNotImplementedError otherwise; otherwise the first call, innermost and leftmost first, of pow with fewer than two or sin or cos with no arguments gives IndexError, and of any function other than Add, Mul, pow, sin and cos gives LLVMNotImplementedError. No other exception is raised at this stage, on any platform, and nothing is changed.", "quantifier": "all expressions whose integer atoms hold ints, all argument lists, all matrices of such expressions built through the API, all platforms", "why_tests_cant": "Any number of faults of any kind at any depth, in any order, with shared subexpressions", "anchors": ["src/protosym/simplecas/lambdification.py: lambdify, _to_llvm_f64, _to_llvm_f64_matrix", "src/protosym/simplecas/expr.py: Expr.to_llvm_ir, Expr.bin_expand", "src/protosym/simplecas/matrix.py: Matrix.to_llvm_ir"]}
{"id": "C108", "title": "A formula written in Python means what it says", "statement": "Let Python evaluate a formula made of ints, names, + - * / **, unary minus, parentheses and calls, where the names stand for expressions (also functions) and ints. It gives an expression or int exactly if no two ints are divided or raised to a negative power by Python itself (as in x*(1/2), which raises TypeError; x/2 is fine), all names are bound and only expressions are called; an expression if the formula mentions one. Nothing is changed. The object has exactly the value of the formula read as mathematics over the reals, for all values of the symbols, and is undefined where the formula is. Its diff is the derivative of the formula. If lambdify compiles it (or its diff), the double that the code returns is within the error bound of C92 of the value (the derivative) of the formula.", "quantifier": "all formulas of any size and nesting, all bindings of names to expressions and ints, all values of the symbols, all platforms of the stated accuracy", "why_tests_cant": "Formulas of any shape; real values; each operator is overloaded and reflected, and Python does part of the arithmetic itself", "anchors": ["src/protosym/simplecas/expr.py: Expr.__add__ and the other operators, expressify, Expr.__call__, Expr.diff", "src/protosym/simplecas/lambdification.py: lambdify"]}
{"id": "C109", "title": "Whether anything can overflow can be decided in advance", "statement": "Take the values of the arguments as finite doubles, and from them the exact values of all subexpressions and of the partial sums and products, with the error bounds of C92. If none of them, value plus bound, exceeds 2**1000, and no base of a negative power may be 0 within its bound, then lambdify accepts the expression, the function returns a finite double and it is within the bound of the exact value. So do the functions for matrices (each entry), for derivatives (of the true derivative), and eval_f64, and eval_f64 and the compiled code differ by at most the sum of the bounds. No assumption is made about what is computed on the way: no step overflows, gives nan or raises.", "quantifier": "all expressions and matrices of any size, all finite arguments whose estimates are moderate, all platforms of a stated accuracy whose sin, cos and pow are finite where the result is moderate", "why_tests_cant": "Overflow depends on all intermediate values, for uncountably many reals and every order of operations", "anchors": ["src/protosym/simplecas/lambdification.py: lambdify, _to_llvm_f64", "src/protosym/simplecas/expr.py: Expr.eval_f64, Expr.diff", "src/protosym/simplecas/functions.py: eval_f64 rules"]}
{"id": "C110", "title": "A compiled Jacobian contains the partial derivatives", "statement": "Take expressions e1, ..., em and symbols s1, ..., sn, build the Matrix of the results of ei.diff(sj), and lambdify it with the symbols as arguments. If the (computable) estimates of the entries at some doubles are moderate, then constructing and compiling the matrix succeed, the returned function gives an m by n array of finite doubles, and the entry (i, j) is within its error bound of the true partial derivative of ei by sj at those values, which exists. Moreover the product of row i with a velocity vector is, up to the sum of bound times absolute velocity component, the derivative of the value of ei along every differentiable curve that passes through the point with that velocity.", "quantifier": "all lists of expressions, all lists of distinct argument symbols, all finite doubles where the expressions are defined and the estimates moderate, all program histories before the matrix is made, all differentiable curves, all platforms that satisfy the stated accuracy", "why_tests_cant": "Combines differentiation, matrix construction, code generation, the layout of the output buffer and rounding; a transposed Jacobian or an entry with a wrong chain-rule term would only show on particular shapes and values, and tests compare with a few numbers up to a tolerance", "anchors": ["src/protosym/simplecas/expr.py: Expr.diff", "src/protosym/simplecas/matrix.py: Matrix.__new__", "src/protosym/simplecas/lambdification.py: lambdify, _to_llvm_f64_matrix"]}
{"id": "C111", "title": "What computed derivatives prove: descent, extrema, minima and roots", "statement": "Values of e.diff(s) decide the local behaviour of e, and computed values decide it too when they exceed their error bounds. A direction with a negative slope (row of the gradient times direction) is a direction of descent: all small enough steps are defined and give smaller values; for a compiled gradient it suffices that the computed slope is negative by more than the summed bounds. At a local extremum along s the derivative is 0; so where a compiled derivative is further from 0 than its bound there are both smaller and larger values arbitrarily near. Where e.diff(s) is 0 and e.diff(s, 2) positive there is a strict local minimum along s. If a compiled function takes values of opposite signs at two points, each further from 0 than its bound, and e and its derivative are defined in between, e has a root strictly between, and only one if the derivative is nowhere 0.", "quantifier": "all expressions, points, directions, intervals and finite arguments with moderate estimates, all platforms of the stated accuracy", "why_tests_cant": "The conclusions speak of all points of a neighbourhood or interval, or of the existence of a real number; a sign error or dropped term in a derivative rule can keep every tested value positive", "anchors": ["src/protosym/simplecas/expr.py: Expr.diff", "src/protosym/core/differentiate.py: diff_forward", "src/protosym/simplecas/functions.py: derivative rules", "src/protosym/simplecas/lambdification.py: lambdify"]}
{"id": "C112", "title": "Sessions at a prompt: failed and interrupted statements, deleted variables and collected temporaries change nothing else", "statement": "A user at a prompt enters statements (making, calling, differentiating, replacing, adding rules, ...). A statement that raises, or that Ctrl-C stops anywhere, changes no variable and no rule, and the session goes on; variables may be deleted; what a statement made only for itself may be collected at any later time, while other threads use the library. The user sees exactly the exceptions that the same statements give when expressions are plain values, the variables have exactly those expressions, two variables are the same object if and only if their expressions are equal, and nothing leaks: at any point, memory can be freed so that all that stays of Trees are the parts of the expressions of the variables, of the library's names and of the rules (or what other threads have), and all that stays of Exprs are the variables and the library's names.", "quantifier": "all sessions (lists of statements, stopped statements and deletions), all interleavings with any other threads and the collector, all points of interruption, all moments of dropping and collecting", "why_tests_cant": "The moments at which objects are dropped, collected, made again or a statement is interrupted are up to the scheduler and the collector; a rule or a constant that only a temporary keeps alive is lost only in some of them", "anchors": ["src/protosym/core/sym.py: Sym.__new__, SymDifferentiator", "src/protosym/core/tree.py: Tree.__new__", "src/protosym/core/atom.py: Atom.__new__", "src/protosym/core/differentiate.py: DiffProperties", "src/protosym/simplecas/expr.py: Expr"]}
{"id": "C113", "title": "Programs with matrices, on shared objects with threads and a collector", "statement": "A program makes expressions and matrices of them (Matrix([[...]]), M[i, j], M.tolist(), M.elements, M.elements_graph, +, binop, diff) and uses them in any order with any other statements (calls, replacements, rules of differentiation). Whatever other threads and the collector do meanwhile, it ends; its variables hold exactly the expressions and the matrices of expressions that the same program gives when expressions are plain values, or it raises the same exception. M[i, j] is N[k, l], for any two matrices of any threads, if and only if the two entries are the same expression; M.elements_graph is List(*M.elements). The meaning on plain values is the one of the lists and dicts of matrix.py as Python objects, for every matrix that calls can make.", "quantifier": "all programs, all matrices of all shapes, all interleavings with any other threads and the collector, all histories of matrix calls", "why_tests_cant": "Whether two entries are one object depends on what was collected and made again, and by which thread; the constructor decides by identity which entries are zero", "anchors": ["src/protosym/simplecas/matrix.py: Matrix.__new__, Matrix._new, Matrix.__getitem__, Matrix.tolist, Matrix.__add__, Matrix.binop, Matrix.diff", "src/protosym/core/sym.py: Sym.__new__", "src/protosym/core/tree.py: Tree.__new__"]}
{"id": "C114", "title": "lambdify on shared objects with threads and a collector", "statement": "A program makes expressions and matrices and calls lambdify(args, expr) and lambdify(args, matrix) at any places, between any other statements. Whatever other threads and the collector do meanwhile, it ends, and the texts that it gives to llvmlite are exactly, and in order, those that the same program gives when expressions are plain values; or it raises the same exception (LLVMNotImplementedError, IndexError and so on). The last text of a program that ends with lambdify([v, w], u), compiled and called with numbers for the arguments, returns the value of the expression that u was then. Likewise for a matrix: the code writes at each place of a zeroed output the value of that entry, and nothing elsewhere. The arguments are found by identity in lists and dicts of the code generator, and the functions (Add, Mul, Pow, sin, cos) too.", "quantifier": "all programs, all argument lists, all expressions and matrices, all interleavings with any other threads and the collector, all machine operations and inputs", "why_tests_cant": "The code generator compares objects by identity with objects of the module and of the user; whether an equal expression is the same object depends on what other threads and the collector did", "anchors": ["src/protosym/simplecas/lambdification.py: lambdify, _to_llvm_f64, _to_llvm_f64_matrix", "src/protosym/simplecas/expr.py: bin_expand", "src/protosym/core/tree.py: Tree.__new__, forward_graph"]}
{"id": "C115", "title": "Conversion to and from SymPy keeps its meaning on shared expression objects, among threads and a collector", "statement": "A program that builds, differentiates and simplifies expressions and matrices and, at any places, calls Expr.from_sympy, Expr.to_sympy, Matrix.from_sympy and Matrix.to_sympy ends, whatever other threads do and whenever the garbage collector runs, with the expressions, matrices, texts and SymPy objects that the same program has when expressions are plain values, or with the same exception. In particular, at any point of any such program: for a SymPy object x that SymPy's constructors leave as it is, e = from_sympy(x); y = e.to_sympy(); f = from_sympy(y) leaves y == x and f is e; an expression v whose conversion to SymPy converts back to its value gives from_sympy(v.to_sympy()) is v; and Matrix.from_sympy(m).to_sympy() has the shape of m and sets exactly the entries of m, in order.", "quantifier": "all behaviours of SymPy's constructors, all SymPy objects and matrices, all programs, all schedules of other threads and of the collector from any state after any history", "why_tests_cant": "the conversions build objects through the shared weak tables of expressions while other threads build and drop equal objects; tests run one thread, with a few expressions, and cannot cover the schedules or every SymPy object", "anchors": ["src/protosym/simplecas/sympy_conversions.py:_from_sympy_cache", "src/protosym/simplecas/sympy_conversions.py:from_sympy", "src/protosym/simplecas/sympy_conversions.py:from_sympy_matrix", "src/protosym/simplecas/sympy_conversions.py:to_sympy", "src/protosym/simplecas/sympy_conversions.py:to_sympy_matrix", "src/protosym/simplecas/expr.py:Expr", "src/protosym/simplecas/matrix.py:Matrix"]}
{"id": "C116", "title": "Sessions at a prompt with matrices, evaluators, compiled functions and SymPy: errors, Ctrl-C, deletions and collected temporaries change nothing else", "statement": "A user at a prompt enters statements of every kind: making, calling, differentiating and replacing expressions, adding rules, building and differentiating matrices, making evaluators, giving them rules (patterns of simplecas's atom types) and evaluating with them, compiling expressions and matrices with lambdify, converting to and from SymPy. A statement that raises, or that Ctrl-C stops anywhere, changes no variable, matrix, evaluator or rule and the session goes on; variables, matrices and evaluators may be deleted; what a statement made only for itself may be collected at any later time, while other threads use the library. The user sees exactly the exceptions that the same statements give when expressions are plain values; the variables and matrices have exactly those expressions, the compiled functions those texts, the evaluated values are those, and SymPy gets those objects; two expressions anywhere in variables or matrices are the same object if and only if they are equal; and nothing leaks: at any point memory can be freed so that what stays of Trees are parts of the expressions of the variables and matrices, of the library's names, the differentiation rules and the heads of the evaluators' rules (or what other threads have), and what stays of Exprs are those in variables and matrices and the library's names.", "quantifier": "all sequences of statements, failures, interruptions at any point, and deletions; all behaviours of SymPy's constructors; all schedules of other threads and of the collector from any state after any history", "why_tests_cant": "the outcome must not depend on where an exception or Ctrl-C strikes, on what the collector frees in between and on what other threads build; tests run statements to their ends in one thread and cannot enumerate the points, the schedules or the histories", "anchors": ["src/protosym/core/sym.py:Sym", "src/protosym/core/sym.py:SymEvaluator", "src/protosym/core/tree.py:Tree", "src/protosym/core/atom.py:Atom", "src/protosym/simplecas/expr.py:Expr", "src/protosym/simplecas/matrix.py:Matrix", "src/protosym/simplecas/lambdification.py:lambdify", "src/protosym/simplecas/sympy_conversions.py:from_sympy", "src/protosym/simplecas/sympy_conversions.py:to_sympy"]}
{"id": "C117", "title": "The printed text is as long as the tree, not as short as the graph", "statement": "If the names and numbers in an expression have at least one and at most h characters, then the number of characters of str(e) is at least e.count_ops_tree() and at most (h+6)*e.count_ops_tree()-3, and that of the LaTeX text at least e.count_ops_tree() and at most (h+16)*e.count_ops_tree()-8, so that printing an expression with shared parts can need exponentially more memory than the expression: for the documented make_expression(n) with count_ops_graph 2n+2 both texts have at least 2^(n+2)-3 characters; the same bounds hold for the texts of the derivatives of any order of an arithmetic expression, and the k-th derivative of sin(x)*sin(x) has at least 2^k characters although its count_ops_graph is at most 15*(k+1)^3+3.", "quantifier": "all expressions that can be printed, with all names, numbers and heads; all n", "why_tests_cant": "a bound for every expression, of whatever shape and sharing; the texts at which it matters are too long to make", "anchors": ["src/protosym/simplecas/expr.py:eval_repr", "src/protosym/simplecas/expr.py:eval_latex", "src/protosym/simplecas/expr.py:Expr.__str__", "src/protosym/simplecas/expr.py:Expr.count_ops_tree", "src/protosym/simplecas/expr.py:Expr.count_ops_graph", "src/protosym/simplecas/expr.py:Expr.diff"]}
{"id": "C118", "title": "Derivatives contain only the symbols of the expression", "statement": "For every expression e (of any shape), any v and any k, every symbol in e.diff(v, k) occurs in e, and every other atom of the derivative occurs in e or is 0, 1 or -1. With any user-defined differentiator: an atom of a derivative of any order is an atom of the expression, 0 or 1, or written on the right hand side of a registered rule where it is not one of the rule's own wilds.", "quantifier": "all expressions, all variables, all orders, all registered rules and distributive functions", "why_tests_cant": "expressions, rules and orders are unbounded; a wild of a rule or a symbol of one subexpression that leaks into the result of another shows only in some combinations", "anchors": ["src/protosym/core/differentiate.py:diff_forward", "src/protosym/core/differentiate.py:chain_rule_forward", "src/protosym/core/sym.py:SymDifferentiator", "src/protosym/core/tree.py:SubsFunc", "src/protosym/simplecas/expr.py:Expr.diff"]}
{"id": "C119", "title": "Derivatives of powers: right at every order, but not computable at 0 beyond the exponent", "statement": "For every symbol s, every integer n (negative ones too) and every number of times k, (s**n).diff(s, k) succeeds and the value of the result at s = u is n(n-1)...(n-k+1) * u**(n-k), the mathematical derivative; it is not defined exactly where that formula divides by zero, at u = 0 with n < k. Finding: for 0 <= n < k the mathematical derivative at 0 exists (it is 0), so the derivative expression loses a point of the function's domain: (x**2).diff(x, 3).eval_f64({x: 0.0}) raises ValueError while at every other point it is 0.", "quantifier": "all symbols, all integer exponents, all orders of differentiation, all real points", "why_tests_cant": "there are infinitely many exponents, orders and points, and the tests differentiate a few powers once or twice and evaluate none of the results at 0", "anchors": ["src/protosym/simplecas/expr.py:Expr.diff", "src/protosym/simplecas/expr.py:diff", "src/protosym/simplecas/expr.py:eval_f64", "src/protosym/core/differentiate.py:diff_forward"]}
{"id": "C120", "title": "Repeated derivatives of sums and products (Leibniz's rule)", "statement": "If e.diff(s, j) and f.diff(s, j) exist and have values a(j), b(j) for every j up to k, then so do the derivatives up to order k of e + f, e - f, -e, n*e and e*f, with the values a(j)+b(j), a(j)-b(j), -a(j), n*a(j) and, for the product, the sum over i <= j of binomial(j, i) a(i) b(j-i); whatever zero and one terms differentiation drops, no derivative of a product is lost or undefined where those of its factors are not. At that point the k-th derivative of the function that e*f denotes is this sum.", "quantifier": "all pairs of expressions, all symbols, all values of the symbols, all orders of differentiation", "why_tests_cant": "the k-th derivative of a product is an expression with up to 2**k terms whose shape depends on which derivatives vanish; the tests look at first derivatives of a few products", "anchors": ["src/protosym/core/differentiate.py:product_rule_forward", "src/protosym/core/differentiate.py:diff_forward", "src/protosym/simplecas/expr.py:Expr.diff", "src/protosym/simplecas/expr.py:Expr.__mul__", "src/protosym/simplecas/expr.py:Expr.__sub__", "src/protosym/simplecas/expr.py:diff"]}
{"id": "C121", "title": "Differentiating a polynomial often enough gives exactly 0", "statement": "If e is written with + and * (any number of terms) from a symbol s and from coefficients that do not contain s, and has degree at most n in s, then all its derivatives exist, e.diff(s, k) has degree at most n - k, e.diff(s, n) does not contain s any more, and e.diff(s, k) is the expression 0 itself (the same object as Integer(0)) for every k > n. Finding: with s**n in place of a product of n factors s no derivative of any order is the expression 0.", "quantifier": "all polynomials of every size and degree with any coefficients, all symbols, all orders of differentiation", "why_tests_cant": "there are infinitely many polynomials and degrees; that terms vanish, and not only have the value 0, depends on every zero derivative being dropped at every level", "anchors": ["src/protosym/core/differentiate.py:product_rule_forward", "src/protosym/core/differentiate.py:diff_forward", "src/protosym/simplecas/expr.py:Expr.diff", "src/protosym/simplecas/expr.py:diff"]}
{"id": "C122", "title": "Repeated derivatives of sine waves", "statement": "If the value of g has derivative c in s and all its higher derivatives that are computed are 0 there, then for every k sin(g).diff(s, k) and cos(g).diff(s, k) exist and their values are c**k sin(v + k pi/2) and c**k cos(v + k pi/2), where v is the value of g. In particular this holds for g = n*s + e with any integer n and any expression e that has a value and does not contain s.", "quantifier": "all phases, frequencies and symbols, all orders of differentiation, all values of the symbols", "why_tests_cant": "each differentiation wraps the last result in one more factor and one more sign, at every order; the tests differentiate sin and cos once or twice", "anchors": ["src/protosym/simplecas/expr.py:diff", "src/protosym/simplecas/expr.py:Expr.diff", "src/protosym/core/differentiate.py:chain_rule_forward", "src/protosym/core/differentiate.py:diff_forward"]}
{"id": "C123", "title": "Taylor expansions of polynomials are exact", "statement": "If e is a polynomial of degree at most n in s, written with + and *, whose coefficients have values, then around every point a the values of its computed derivatives e.diff(s, j) at a give its value everywhere: e(b) is the sum over j <= n of (b - a)**j / j! times the value of e.diff(s, j) at a. So two such polynomials, however they are written, whose derivatives up to their degrees have the same values at one point have the same value at every point.", "quantifier": "all polynomials of every size and degree, all pairs of points, all values of the other symbols", "why_tests_cant": "it relates the values at all points to derivatives of every order at one; a single wrong or lost term of one derivative breaks it", "anchors": ["src/protosym/core/differentiate.py:product_rule_forward", "src/protosym/core/differentiate.py:diff_forward", "src/protosym/simplecas/expr.py:Expr.diff", "src/protosym/simplecas/expr.py:diff"]}
{"id": "C124", "title": "Differentiating a matrix several times", "statement": "Calling M.diff(s) k times in a row, each on the result of the last, works exactly if the k-th derivative of every entry exists, and the result has the shape of M and the k-th derivatives of its entries; M and all other matrices stay. If all entries are polynomials in s of lower degree than k (written with + and *), it works and every entry of the result is the expression 0.", "quantifier": "all matrices that any program has made, all symbols, all numbers of differentiations", "why_tests_cant": "sharing of the entry map and of the graph between a matrix and its derivatives adds up over any number of steps and after any history; the tests differentiate matrices once", "anchors": ["src/protosym/simplecas/matrix.py:Matrix.diff", "src/protosym/simplecas/matrix.py:Matrix._new", "src/protosym/simplecas/matrix.py:Matrix.__getitem__", "src/protosym/simplecas/expr.py:Expr.diff"]}
{"id": "C125", "title": "Differentiating by numbers and by compound expressions", "statement": "diff accepts any expression as the variable. An integer that does not occur in e can play the variable: e.xreplace({x: n}).diff(n) and e.diff(x).xreplace({x: n}) are the same expression or raise the same exception. Differentiating any arithmetic expression by a compound expression gives the expression 0, at every order from the first on. Finding: that is so also for e.diff(e), so sin(x).diff(sin(x)) is 0 while x.diff(x) is 1; no exception tells the user that the variable was not a symbol.", "quantifier": "all arithmetic expressions, all integers and compound expressions as variables, all orders of differentiation", "why_tests_cant": "the tests differentiate by symbols only; that the rules' own constants, and the tests for 0 and 1, never meet the integer that is the variable must hold for every expression", "anchors": ["src/protosym/simplecas/expr.py:Expr.diff", "src/protosym/core/differentiate.py:diff_forward", "src/protosym/simplecas/expr.py:Expr.xreplace"]}
{"id": "C126", "title": "Euler's theorem for homogeneous expressions", "statement": "If multiplying the values of all the symbols by any t near 1 multiplies the value of an arithmetic expression e by t to the n, the sum over its symbols s of the value of e.diff(s) times the value of s is n times the value of e. Symbols have the degree 1, the product of expressions of the degrees m and n has the degree m+n, the sum of two of the same degree keeps it.", "quantifier": "all arithmetic expressions, all numbers of symbols, all degrees, all real points at which e and its derivatives are defined", "why_tests_cant": "a relation between the partial derivatives by all the symbols at once, at every real point and for every expression; tests compare single derivatives with expected trees", "anchors": ["src/protosym/simplecas/expr.py:Expr.diff", "src/protosym/core/differentiate.py:diff_forward", "src/protosym/core/evaluate.py:Evaluator.eval_forward"]}
