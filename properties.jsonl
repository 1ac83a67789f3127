{"id": "C01", "title": "Arithmetic operators mean arithmetic", "statement": "For the operators + - * / % ** unary - and abs applied to expressions and ints (in either operand position that the library supports), evaluating the resulting object under a substitution gives exactly the Python integer result of applying the operator ( / meaning floor division) to the values of the operands, whatever constant folding, flattening or neutral/absorbing-element shortcuts were taken while building it.", "quantifier": "all operand objects (arbitrarily nested), all substitutions, all parameter values for which the operands evaluate and the integer operation is defined", "why_tests_cant": "expression trees are unbounded and the simplifier has a dozen interacting shortcuts; a test samples a few shapes", "anchors": ["src/satisfy/expression.py:Expression.__add__", "src/satisfy/expression.py:Const.__mul__", "src/satisfy/expression.py:_make_accumulate", "src/satisfy/expression.py:Accumulation.__init__"]}
{"id": "C02", "title": "Comparison and logical operators mean what they say", "statement": "== != < <= > >= & | applied to expressions and ints build an object whose value is truthy exactly when the comparison / conjunction / disjunction of the operand values is; this holds whichever operand's method Python dispatches to (including the swapped Variable/Parameter case).", "quantifier": "all operands, substitutions and parameter values for which the operands evaluate", "why_tests_cant": "dispatch depends on the dynamic classes of both operands; unbounded nesting", "anchors": ["src/satisfy/expression.py:Expression.__eq__", "src/satisfy/expression.py:Const.__eq__", "src/satisfy/expression.py:And", "src/satisfy/expression.py:Or", "src/satisfy/expression.py:Parameter"]}
{"id": "C03", "title": "A whole formula written by the user means the formula", "statement": "Any formula written with ints, model variables, parameters and the library operators (nested to any depth) evaluates to its mathematical value (& and | being taken on truth values 0/1): composing C01/C02 over the whole formula never changes its meaning.", "quantifier": "all formulas, all assignments and parameter values on which the formula is mathematically defined", "why_tests_cant": "composition of rewritings over unbounded trees", "anchors": ["src/satisfy/expression.py:Expression", "src/satisfy/expression.py:_make_accumulate"]}
{"id": "C04", "title": "vars() is exactly what an expression needs", "statement": "evaluate() succeeds without EvaluationError whenever every name reported by vars() is bound, its result depends only on the bindings of those names (and parameter values), vars() contains no duplicates, and each name it reports really occurs in the formula.", "quantifier": "all expressions and all pairs of substitutions agreeing on vars()", "why_tests_cant": "ranges over all expressions and all substitutions", "anchors": ["src/satisfy/expression.py:Collection.__init__", "src/satisfy/expression.py:Collection.free_vars", "src/satisfy/expression.py:Variable.evaluate"]}
{"id": "C05", "title": "Compiled evaluation agrees with interpreted evaluation", "statement": "For every expression, calling the function returned by compile_py_function()/as_function() with the substitution as keyword arguments returns the same value as evaluate(substitution).", "quantifier": "all expressions, substitutions and parameter values for which evaluate() returns a value", "why_tests_cant": "depends on how Python re-parses generated text: operator precedence over unbounded nesting", "anchors": ["src/satisfy/expression.py:Expression.py_source", "src/satisfy/expression.py:Expression.compile_py_function", "src/satisfy/expression.py:BinOp.py_expr", "src/satisfy/expression.py:Or.py_expr", "src/satisfy/expression.py:Not.py_expr", "src/satisfy/expression.py:Neg.py_expr"]}
{"id": "C06", "title": "A failed compilation falls back to interpretation", "statement": "If the generated source does not compile, constraint evaluation still works, through evaluate().", "quantifier": "all expressions whose generated source is rejected by Python", "why_tests_cant": "error path over an unbounded class of expressions", "anchors": ["src/satisfy/expression.py:Expression.as_function", "src/satisfy/constraint.py:ExpressionConstraint.evaluate"]}
{"id": "C07", "title": "equals() only identifies expressions with the same meaning", "statement": "If a.equals(b) returns a true value then a and b evaluate to the same value under every substitution.", "quantifier": "all pairs of expressions, all substitutions", "why_tests_cant": "quantifies over pairs of unbounded trees", "anchors": ["src/satisfy/expression.py:Collection.equals", "src/satisfy/expression.py:Const.equals", "src/satisfy/expression.py:Variable.equals"]}
{"id": "C08", "title": "Division of an int by an expression", "statement": "n / expr builds an expression denoting floor division of n by expr, as expr / n does.", "quantifier": "all ints n and expressions", "why_tests_cant": "operator dispatch over all operand classes", "anchors": ["src/satisfy/expression.py:Expression.__rtruediv__", "src/satisfy/expression.py:Expression.__rdiv__"]}
{"id": "C09", "title": "Parameter updates take effect in later solves", "statement": "After parameter.value is assigned, a solve() started afterwards uses the new value in every constraint mentioning the parameter, whether or not constraints are compiled.", "quantifier": "all models, all histories of solves with either compile_constraints setting, all parameter updates", "why_tests_cant": "depends on the history of compilations of shared constraint objects", "anchors": ["src/satisfy/expression.py:Parameter.value", "src/satisfy/expression.py:Parameter.py_expr", "src/satisfy/constraint.py:ExpressionConstraint.compile", "src/satisfy/solver.py:Solver._setup"]}
{"id": "C10", "title": "Variable and parameter names are unique and auto-names are fresh", "statement": "In every model, after any sequence of API calls, no two variables/parameters share a name; a variable or parameter added without a name never replaces an existing one; adding a name twice raises ValueError; parameters of different names are separate objects whose values only change by assignment; get_var_domain returns the domain of a name.", "quantifier": "all histories of add_int_variable/add_bool_variable/add_parameter/add_constraint/optimize calls", "why_tests_cant": "quantifies over all call histories", "anchors": ["src/satisfy/model.py:Model._get_variable", "src/satisfy/model.py:Model._get_parameter", "src/satisfy/model.py:Model.add_int_variable", "src/satisfy/model.py:Model.add_parameter"]}
{"id": "C11", "title": "Every stored constraint refers to declared names", "statement": "After any sequence of model-building calls every constraint returned by model.constraints() mentions only names present in model.variables().", "quantifier": "all histories of model-building calls", "why_tests_cant": "quantifies over all call histories", "anchors": ["src/satisfy/model.py:Model.add_constraint"]}
{"id": "C12", "title": "A failing model-building call changes nothing", "statement": "If add_int_variable, add_bool_variable, add_parameter, add_constraint or add_all_different_constraint raises, then variables(), constraints() and solvable() are unchanged.", "quantifier": "all models and all arguments", "why_tests_cant": "all models and arguments", "anchors": ["src/satisfy/model.py:Model.add_int_variable", "src/satisfy/model.py:Model.add_constraint"]}
{"id": "C13", "title": "Constant constraints decide solvability", "statement": "Adding a constraint without variables that evaluates to true has no effect on the model; adding one that evaluates to false makes every later solve of the model yield nothing, permanently.", "quantifier": "all models, all later histories of calls", "why_tests_cant": "ranges over all later histories", "anchors": ["src/satisfy/model.py:Model.add_constraint", "src/satisfy/model.py:Model.solvable", "src/satisfy/solver.py:Solver.solve"]}
{"id": "C14", "title": "set_solvable controls solvable()", "statement": "After model.set_solvable(b), model.solvable() returns b.", "quantifier": "all models and booleans", "why_tests_cant": "all states", "anchors": ["src/satisfy/model.py:Model.set_solvable"]}
{"id": "C15", "title": "A constraint on parameters only follows the parameter", "statement": "A constraint mentioning only parameters restricts the solutions of a solve according to the parameter values at the time of the solve.", "quantifier": "all models, all parameter updates between add_constraint and solve", "why_tests_cant": "history dependent", "anchors": ["src/satisfy/model.py:Model.add_constraint"]}
{"id": "C16", "title": "solve() is sound", "statement": "Every dictionary yielded by solve() binds exactly the non-parameter variables of the model, each to a value of its declared domain, and satisfies every constraint of the model and every additional constraint over variables of the model (as decided by constraint.evaluate(solution) in the state in which solve() leaves the program); whatever the policy, limit, timeout, clock behaviour or random shuffle, and even if the search later raises.", "quantifier": "all models, options, clocks and shuffles; every prefix of the enumeration", "why_tests_cant": "all models, all schedules of clock readings", "anchors": ["src/satisfy/solver.py:Solver.solve", "src/satisfy/solver.py:Solver._setup"]}
{"id": "C17", "title": "solve() is complete", "statement": "With no limit and no timeout, if no constraint evaluation raises, solve() on a model with at least one variable yields every assignment of the variables from their domains that satisfies all constraints.", "quantifier": "all models with at least one variable, all policies, all shuffles", "why_tests_cant": "all models", "anchors": ["src/satisfy/solver.py:Solver.solve", "src/satisfy/solver.py:Solver._setup"]}
{"id": "C18", "title": "solve() never repeats a solution", "statement": "No two dictionaries yielded by one solve() are equal.", "quantifier": "all models, options, clocks", "why_tests_cant": "all models", "anchors": ["src/satisfy/solver.py:Solver.solve", "src/satisfy/model.py:Model.add_int_variable"]}
{"id": "C19", "title": "solve() terminates", "statement": "The enumeration always ends after finitely many loop iterations, even if the consumer changes parameter values between solutions.", "quantifier": "all models, all consumer behaviours, all clocks", "why_tests_cant": "termination", "anchors": ["src/satisfy/solver.py:Solver.solve"]}
{"id": "C20", "title": "Variable selection policy does not change the solution set", "statement": "Two unlimited solves of the same model with different policies (and different random shuffles) yield the same solutions up to order; each policy visits a permutation of the variables.", "quantifier": "all models, all pairs of policies and shuffles", "why_tests_cant": "all models and shuffles", "anchors": ["src/satisfy/solver.py:Solver.solve", "src/satisfy/solver.py:VarSelectionPolicy"]}
{"id": "C21", "title": "Solutions come in lexicographic order of the selected variable order", "statement": "Solutions are enumerated in lexicographic order with respect to the selected variable order and the order of values in each domain.", "quantifier": "all models", "why_tests_cant": "all models", "anchors": ["src/satisfy/solver.py:Solver.solve"]}
{"id": "C22", "title": "limit truncates the enumeration", "statement": "With limit = n >= 1 the yielded solutions are exactly the first min(n, total) solutions of the unlimited enumeration, and the interrupt is 'limit' iff n solutions were yielded.", "quantifier": "all models, all n", "why_tests_cant": "all models and limits", "anchors": ["src/satisfy/solver.py:Solver.solve"]}
{"id": "C23", "title": "limit = 0 yields nothing", "statement": "With limit = 0 no solution is yielded.", "quantifier": "all models", "why_tests_cant": "boundary over all models", "anchors": ["src/satisfy/solver.py:Solver.solve"]}
{"id": "C24", "title": "timeout truncates the enumeration", "statement": "With a timeout, for every behaviour of the clock, the yielded solutions are a prefix of the unlimited enumeration; if the search stops early without an exception or limit the interrupt is 'timeout', and then the clock really showed more than timeout seconds of search time.", "quantifier": "all models, all clock readings", "why_tests_cant": "all clock behaviours", "anchors": ["src/satisfy/solver.py:Solver.solve", "src/satisfy/utils.py:Timer"]}
{"id": "C25", "title": "No interrupt means exhaustive", "statement": "After solve() has been consumed to its end without exception, if get_stats().interrupt is None every solution was yielded; it is 'limit' only if the limit was reached and 'timeout' only if the clock showed more than timeout seconds of search; and get_stats().count equals the number of yielded solutions.", "quantifier": "all models, options, clocks", "why_tests_cant": "all executions", "anchors": ["src/satisfy/solver.py:Solver.get_stats", "src/satisfy/solver.py:Solver.solve", "src/satisfy/utils.py:Timer.stats"]}
{"id": "C26", "title": "get_stats().elapsed accounts for the whole search", "statement": "After solve() has been consumed to its end, elapsed is the time spent searching (excluding time spent by the consumer between solutions).", "quantifier": "all models and clock behaviours", "why_tests_cant": "all clocks", "anchors": ["src/satisfy/solver.py:Solver.get_stats", "src/satisfy/utils.py:Timer"]}
{"id": "C27", "title": "Timer discipline", "statement": "start/stop/abort/elapsed behave as a stopwatch for every sequence of calls: start on a running timer and stop on a stopped one raise RuntimeError and change nothing; elapsed is the sum of the completed intervals plus the current one; count is the number of successful stops weighted by count; the solver itself never triggers these errors.", "quantifier": "all call sequences and clock readings", "why_tests_cant": "all histories", "anchors": ["src/satisfy/utils.py:Timer"]}
{"id": "C28", "title": "All-different means pairwise different", "statement": "An all-different constraint accepts exactly the assignments giving pairwise different values to the listed variables, both when evaluated directly and when enforced incrementally by solve().", "quantifier": "all models, variable lists and assignments", "why_tests_cant": "all models", "anchors": ["src/satisfy/constraint.py:AllDifferentConstraint", "src/satisfy/solver.py:Solver._setup", "src/satisfy/solver.py:Solver.solve"]}
{"id": "C29", "title": "A satisfiable model without variables", "statement": "solve() on a model whose constraints all hold yields at least one solution even if the model has no variables (the empty assignment).", "quantifier": "all models without variables", "why_tests_cant": "boundary", "anchors": ["src/satisfy/solver.py:Solver.solve"]}
{"id": "C30", "title": "Additional constraints are conjoined", "statement": "solve(model, additional_constraints=cs) yields exactly the solutions of the model that also satisfy every constraint in cs.", "quantifier": "all models and constraint lists", "why_tests_cant": "all models", "anchors": ["src/satisfy/solver.py:Solver._setup", "src/satisfy/solver.py:Solver.solve"]}
{"id": "C31", "title": "Solving does not modify the model", "statement": "solve() leaves variables(), constraints() and solvable() unchanged and solving again yields the same sequence of solutions (with the policy RANDOM: the same solutions, in an order that may differ).", "quantifier": "all models, any number of repetitions", "why_tests_cant": "all histories", "anchors": ["src/satisfy/solver.py:Solver.solve", "src/satisfy/solver.py:Solver._setup"]}
{"id": "C32", "title": "Exceptions do not corrupt earlier results", "statement": "If evaluating a constraint raises during the search, solve() propagates that exception after having yielded only correct solutions; it never silently swallows it and never yields afterwards.", "quantifier": "all models and failure points", "why_tests_cant": "all failure points", "anchors": ["src/satisfy/solver.py:Solver.solve"]}
{"id": "C33", "title": "Statistics of a solver used by interleaved enumerations", "statement": "If two enumerations started from the same Solver are advanced alternately, get_stats().interrupt reflects the most recently started enumeration.", "quantifier": "all interleavings", "why_tests_cant": "all schedules", "anchors": ["src/satisfy/solver.py:Solver._reset", "src/satisfy/solver.py:Solver.get_stats"]}
{"id": "C34", "title": "Interleaved enumerations yield the right solutions", "statement": "Two enumerations of the same solver and model advanced in any interleaving each yield exactly what they would yield alone.", "quantifier": "all interleavings of next() calls", "why_tests_cant": "all schedules", "anchors": ["src/satisfy/solver.py:Solver.solve"]}
{"id": "C35", "title": "optimize() only yields feasible solutions", "statement": "Every solution yielded by optimize() satisfies all constraints of the model.", "quantifier": "all models, objectives, options, clocks", "why_tests_cant": "all models", "anchors": ["src/satisfy/solver.py:Solver.optimize", "src/satisfy/objective.py:MinMaxConstraint"]}
{"id": "C36", "title": "is_optimal=True means optimal", "statement": "If optimal_solution() returns is_optimal=True for a single objective then no solution of the model has a strictly better objective value than the returned one.", "quantifier": "all models and objectives", "why_tests_cant": "all models and objectives", "anchors": ["src/satisfy/solver.py:Solver.optimal_solution", "src/satisfy/solver.py:Solver.solve", "src/satisfy/objective.py:MinMaxConstraint"]}
{"id": "C37", "title": "optimize() visits an optimum", "statement": "If the enumeration of optimize() ends without interrupt, then the best solution among those it yielded is optimal for the model; for several objectives, every solution of the model either was yielded or fails to be strictly better in some objective than some yielded solution.", "quantifier": "all models, objectives and policies for which no evaluation raises", "why_tests_cant": "all models", "anchors": ["src/satisfy/solver.py:Solver.optimize"]}
{"id": "C38", "title": "optimal_solution() finds a solution when there is one", "statement": "If the model has a solution and at least one variable and the search is not interrupted, optimal_solution() returns a solution (not None) flagged is_optimal; if it has none, it returns None with is_optimal False; if interrupted is_optimal is False.", "quantifier": "all models and objectives", "why_tests_cant": "all models", "anchors": ["src/satisfy/solver.py:Solver.optimal_solution"]}
{"id": "C39", "title": "optimize() improves strictly", "statement": "Each solution yielded by optimize() with one objective is strictly better than the previous one.", "quantifier": "all models and objectives", "why_tests_cant": "all models", "anchors": ["src/satisfy/solver.py:Solver.optimize", "src/satisfy/objective.py:MinMaxConstraint.set_bound"]}
{"id": "C40", "title": "optimize() does not change the problem", "statement": "After optimize()/optimal_solution(), the variables, domains, constraints and the solution set of the model are the same as before (only auxiliary parameters are added).", "quantifier": "all models, objectives and histories", "why_tests_cant": "all histories", "anchors": ["src/satisfy/objective.py:MinMaxConstraint.__init__", "src/satisfy/solver.py:Solver.optimize"]}
{"id": "C41", "title": "Knapsack results are feasible and consistently reported", "statement": "A KnapsackOptimizer result with a solution selects items (0/1 each) whose total weight fits every capacity, and value/weights are the totals of the selected items.", "quantifier": "all item lists, capacities, weights (as re-iterable sequences), options", "why_tests_cant": "all instances", "anchors": ["src/satisfy/knapsack.py:KnapsackOptimizer"]}
{"id": "C42", "title": "Knapsack results flagged optimal are optimal", "statement": "If is_optimal is True no feasible selection has a larger total value.", "quantifier": "all instances", "why_tests_cant": "all instances", "anchors": ["src/satisfy/knapsack.py:KnapsackOptimizer", "src/satisfy/solver.py:Solver.optimal_solution"]}
{"id": "C43", "title": "Knapsack accepts any iterable of weights", "statement": "Weights given as a one-shot iterator constrain the problem in the same way as a list.", "quantifier": "all instances", "why_tests_cant": "all instances", "anchors": ["src/satisfy/knapsack.py:KnapsackOptimizer.__init__"]}
{"id": "C44", "title": "Sudoku solutions are valid completions, and all are found", "statement": "For a 9x9 schema with at least one empty cell and no conflicting givens, SudokuSolver yields exactly the valid completed grids agreeing with the givens (up to limit), none twice.", "quantifier": "all schemas", "why_tests_cant": "all schemas", "anchors": ["src/satisfy/sudoku.py:SudokuSolver"]}
{"id": "C45", "title": "Sudoku never yields an invalid grid", "statement": "Every grid yielded by SudokuSolver is a valid sudoku grid, whatever the schema.", "quantifier": "all schemas", "why_tests_cant": "all schemas", "anchors": ["src/satisfy/sudoku.py:SudokuSolver"]}
{"id": "C46", "title": "Nonogram solutions match the clues, and all are found", "statement": "For clues made of positive run lengths with at least one run, NonogramSolver yields exactly the pixmaps whose row and column runs are the clues, none twice.", "quantifier": "all clue lists", "why_tests_cant": "all puzzles", "anchors": ["src/satisfy/nonogram.py:NonogramSolver"]}
{"id": "C47", "title": "pixmap_to_nonogram computes the runs", "statement": "For every rectangular pixmap, the clues list for each row and column the lengths of the maximal runs of non-zero cells in order; solving the clues of a pixmap with at least one non-zero cell yields that pixmap among the solutions.", "quantifier": "all rectangular pixmaps", "why_tests_cant": "all pixmaps", "anchors": ["src/satisfy/nonogram.py:pixmap_to_nonogram"]}
{"id": "C48", "title": "N-queens boards are exactly the non-attacking placements", "statement": "For board_size n >= 1 QueensSolver yields exactly the boards with one queen per row and no two queens sharing a column or diagonal, none twice.", "quantifier": "all n >= 1", "why_tests_cant": "all board sizes", "anchors": ["src/satisfy/tool/queens.py:QueensSolver"]}
{"id": "C49", "title": "Graph labelings are exactly the proper colourings", "statement": "For every non-empty graph and list of distinct labels GraphLabelingSolver yields exactly the maps from nodes to labels giving different labels to adjacent nodes, none twice; with the default policy they come in lexicographic order (nodes in the order of the graph, labels in the listed order).", "quantifier": "all graphs and label lists", "why_tests_cant": "all graphs", "anchors": ["src/satisfy/graph_labeling.py:GraphLabelingSolver"]}
{"id": "C50", "title": "Cryptarithm words denote decimal numbers", "statement": "In the expression built by CryptarithmSolver each maximal run of letters and digits denotes the decimal number obtained by substituting digits for letters; text outside words is left untouched.", "quantifier": "all source strings and digit assignments", "why_tests_cant": "all strings", "anchors": ["src/satisfy/cryptarithm.py:CryptarithmSolver.__init__"]}
{"id": "C51", "title": "Cryptarithm solutions", "statement": "CryptarithmSolver yields exactly the assignments of distinct digits to letters, with non-zero leading letters, that make the equation true.", "quantifier": "all equations (and chains of them) between signed sums/differences/products of words", "why_tests_cant": "all equations", "anchors": ["src/satisfy/cryptarithm.py:CryptarithmSolver"]}
{"id": "C52", "title": "avoid_leading_zeros=False allows leading zeros", "statement": "With avoid_leading_zeros=False leading letters may be assigned 0.", "quantifier": "all sources", "why_tests_cant": "all sources", "anchors": ["src/satisfy/cryptarithm.py:CryptarithmSolver.__init__"]}
{"id": "C53", "title": "Ascii map regions are the connected components", "statement": "AsciiMapColoringSolver groups cells into the maximal 8-connected regions of equal characters (ignoring ' ' and '.'), and two regions are linked iff some cells of them are 8-neighbours. The drawings are exactly the colourings in which linked regions differ; with the default policy they come in lexicographic order, so that the single default drawing is the first one.", "quantifier": "all ascii maps", "why_tests_cant": "all maps", "anchors": ["src/satisfy/tool/ascii_map_coloring.py:AsciiMapColoringSolver.__init__"]}
{"id": "C54", "title": "Einstein riddle answer", "statement": "EinsteinRiddleSolver yields exactly the arrangements satisfying the 15 statements; there is exactly one and in it the German owns the zebra.", "quantifier": "all arrangements of 5x5 attributes", "why_tests_cant": "29 variables: the space cannot be enumerated by tests", "anchors": ["src/satisfy/tool/einstein_riddle.py:EinsteinRiddleSolver"]}
{"id": "C55", "title": "image/pixmap round trip", "statement": "pixmap_to_image followed by image_to_pixmap is the identity on rectangular 0/1 pixmaps with at least one row.", "quantifier": "all such pixmaps", "why_tests_cant": "all pixmaps", "anchors": ["src/satisfy/tool/demo_nonogram.py:image_to_pixmap", "src/satisfy/tool/demo_nonogram.py:pixmap_to_image"]}
{"id": "C56", "title": "Printed statistics are truthful", "statement": "print_solve_stats announces 'all' or 'unique' only when the enumeration was exhaustive, and the announced number is the number of yielded solutions.", "quantifier": "all executions", "why_tests_cant": "all executions", "anchors": ["src/satisfy/tool/demo_utils.py:print_solve_stats"]}
{"id": "C57", "title": "Solutions of solve() satisfy the constraints mathematically", "statement": "The dictionaries yielded by an unlimited solve() are exactly the assignments that make every constraint of the model (over its variables) mathematically true, whether constraints are compiled or interpreted.", "quantifier": "all models, policies, shuffles and parameter values for which no evaluation raises", "why_tests_cant": "all models; depends on the text generated for each constraint", "anchors": ["src/satisfy/solver.py:Solver.solve", "src/satisfy/constraint.py:ExpressionConstraint.evaluate", "src/satisfy/expression.py:Expression.compile_py_function"]}
{"id": "C58", "title": "INFINITY means no bound", "statement": "timeout=INFINITY and limit=INFINITY mean no timeout and no limit, as solver attributes and as arguments of solve().", "quantifier": "all models", "why_tests_cant": "all models", "anchors": ["src/satisfy/solver.py:Solver.timeout", "src/satisfy/solver.py:Solver.limit", "src/satisfy/solver.py:Solver.solve", "src/satisfy/utils.py:Infinity"]}
{"id": "C59", "title": "No constraint is ignored", "statement": "Every constraint accepted by add_constraint is satisfied by every yielded solution.", "quantifier": "all models", "why_tests_cant": "all models", "anchors": ["src/satisfy/model.py:Model.add_constraint", "src/satisfy/solver.py:Solver._setup"]}
{"id": "C60", "title": "An interrupt means that solutions are missing", "statement": "If get_stats().interrupt is not None after solve(), the enumeration was not exhaustive.", "quantifier": "all models and options", "why_tests_cant": "all executions", "anchors": ["src/satisfy/solver.py:Solver.solve"]}
{"id": "C61", "title": "Malformed sudoku schemas are rejected", "statement": "SudokuSolver raises an exception for every schema that is not a 9x9 schema of None and 0..9, namely ValueError if the number of rows is wrong or if all rows have 9 entries and some value is wrong.", "quantifier": "all schemas of ints and None", "why_tests_cant": "all schemas", "anchors": ["src/satisfy/sudoku.py:SudokuSolver.__init__"]}
{"id": "C62", "title": "Selection policies sort as named", "statement": "The keys of every yielded dictionary are in the order of the selection policy: declaration order, reversed, shuffled, by increasing or decreasing size of the declared domain, by increasing or decreasing number of formulas over several names, or by (first all-different constraint, number of other names, size) for GROUPS; ties are stable (reversed for GROUPS).", "quantifier": "all models, policies and options", "why_tests_cant": "all models; the order is invisible to tests that compare sets of solutions", "anchors": ["src/satisfy/solver.py:Solver.solve", "src/satisfy/solver.py:Solver._setup"]}
{"id": "C63", "title": "Timeouts are noticed at once", "statement": "With a timeout, the clock is read at least once before each solution, no solution is yielded if the reading before it found that the search had lasted longer than the timeout, and the first such reading interrupts the search.", "quantifier": "all models, options and clocks", "why_tests_cant": "depends on real time", "anchors": ["src/satisfy/solver.py:Solver.solve"]}
{"id": "C64", "title": "Announced optima were found", "statement": "print_optimization_stats announces an optimal solution exactly when one was found and the search was not interrupted, announces no solution when none was found, and the announced number of iterations is the number of solutions found.", "quantifier": "all executions", "why_tests_cant": "all executions", "anchors": ["src/satisfy/tool/demo_utils.py:print_optimization_stats", "src/satisfy/solver.py:Solver.optimal_solution"]}
{"id": "C65", "title": "Running enumerations are isolated from the loop body", "statement": "What the consumer of solve() does to the program's objects between two solutions (adding variables, parameters and constraints, assigning parameters) does not change the remaining solutions, the way the enumeration ends or its statistics, and remains in effect afterwards.", "quantifier": "all models, options and loop bodies that make any calls on the model after each solution", "why_tests_cant": "all consumers; tests iterate without side effects", "anchors": ["src/satisfy/solver.py:Solver.solve", "src/satisfy/solver.py:Solver._setup", "src/satisfy/constraint.py:ExpressionConstraint.compile", "src/satisfy/model.py:Model.add_constraint"]}
{"id": "C66", "title": "Printed chessboards", "statement": "The queens demo prints every yielded placement under its number as a grid of 2n+1 lines with a queen exactly in the occupied squares, so that different boards look different; nothing is printed twice, and 'all' or 'unique' is announced only if every placement was printed.", "quantifier": "all board sizes, limits, timeouts, clocks", "why_tests_cant": "all sizes; tests do not read the output", "anchors": ["src/satisfy/tool/demo_queens.py:queens", "src/satisfy/tool/demo_queens.py:print_queens_board"]}
{"id": "C67", "title": "Printed sudoku schemas", "statement": "The sudoku demo prints the schema and its solutions as 13 lines of 31 characters where each cell shows its digit, or a dot if it is unknown; only schemas that differ in 0 for None look alike.", "quantifier": "all schemas", "why_tests_cant": "all schemas", "anchors": ["src/satisfy/tool/demo_sudoku.py:sudoku", "src/satisfy/tool/demo_sudoku.py:print_sudoku_schema"]}
{"id": "C68", "title": "Printed cryptarithms are true", "statement": "The last line printed for a solution of a cryptarithm is the source with digits for its letters, and it is a true equation between numbers.", "quantifier": "all equations", "why_tests_cant": "all equations and solutions", "anchors": ["src/satisfy/tool/demo_cryptarithm.py:cryptarithm", "src/satisfy/tool/demo_cryptarithm.py:print_cryptarithm_solution"]}
{"id": "C69", "title": "The printed answer of the riddle", "statement": "Without timeout (and with no limit below 2) the einstein demo prints one solution of five lines, marks the German's house as the one with the zebra, and announces a unique solution.", "quantifier": "all clocks, shuffles and limits", "why_tests_cant": "all executions", "anchors": ["src/satisfy/tool/demo_einstein_riddle.py:einstein", "src/satisfy/tool/demo_einstein_riddle.py:print_einstein_riddle_solution"]}
{"id": "C70", "title": "Switches", "statement": "type_on_off accepts exactly on/true, off/false in any case and the texts of integers, the non-zero ones meaning on; it raises ValueError for all other texts.", "quantifier": "all ASCII texts", "why_tests_cant": "all texts", "anchors": ["src/satisfy/tool/__init__.py:type_on_off"]}
{"id": "C71", "title": "Printed nonograms", "statement": "The nonogram demo prints every yielded picture under its number, each once, with # for black cells, and 'all' or 'unique' is announced only if every picture matching the clues was printed.", "quantifier": "all positive clues that are not all empty", "why_tests_cant": "all clues", "anchors": ["src/satisfy/tool/demo_nonogram.py:nonogram", "src/satisfy/tool/demo_nonogram.py:print_nonogram_pixmap"]}
{"id": "C72", "title": "What compiled expressions do when evaluation raises", "statement": "A compiled expression whose text is free of the precedence bugs evaluates from left to right and raises what its first failing operation raises, except that & and | skip their second operand when the first decides; so without & and | it raises exactly what evaluate() raises, with them it may return a value where evaluate() raises; it raises TypeError if a variable is missing.", "quantifier": "all expressions of the safe class of C05, all substitutions and parameter values", "why_tests_cant": "all expressions; error paths", "anchors": ["src/satisfy/expression.py:Expression.compile_py_function", "src/satisfy/expression.py:Expression.evaluate", "src/satisfy/expression.py:And", "src/satisfy/expression.py:Or"]}
{"id": "C73", "title": "Printed expressions are unambiguous", "statement": "Two expressions built with the operators from ints and the variables and parameters of one model that have the same str() have the same value (or raise the same exception) for every substitution.", "quantifier": "all pairs of formulas, all substitutions and parameter values", "why_tests_cant": "quantifies over pairs of unbounded trees", "anchors": ["src/satisfy/expression.py:BinOp.__str__", "src/satisfy/expression.py:Accumulation._as_str", "src/satisfy/expression.py:_make_accumulate", "src/satisfy/expression.py:Neg.__str__", "src/satisfy/expression.py:Const.__str__", "src/satisfy/expression.py:Variable.__str__"]}
{"id": "C74", "title": "free_vars() lists what is missing", "statement": "free_vars(substitution) yields exactly the variables of the expression that the substitution does not define, each once; if there are none, evaluate() raises no EvaluationError.", "quantifier": "all expressions and substitutions", "why_tests_cant": "all expressions", "anchors": ["src/satisfy/expression.py:Collection.free_vars", "src/satisfy/expression.py:UnOp.free_vars", "src/satisfy/expression.py:Variable.free_vars", "src/satisfy/expression.py:Parameter.free_vars"]}
{"id": "C75", "title": "Chained comparisons and Python's logical operators", "statement": "a < b < c, and the operators and, or, not, applied to expressions build expressions that mean what they say in Python.", "quantifier": "all formulas", "why_tests_cant": "Python evaluates them silently to something else", "anchors": ["src/satisfy/expression.py:Expression.__not__", "src/satisfy/expression.py:Collection.__len__", "src/satisfy/expression.py:Expression.__lt__"]}
{"id": "C76", "title": "The knapsack program", "statement": "satisfy-tool knapsack prints a feasible selection with its value and weights, announces optimality only of optimal selections, and its output can be read back.", "quantifier": "all instances, timeouts, limits", "why_tests_cant": "all instances", "anchors": ["src/satisfy/tool/demo_knapsack.py:knapsack", "src/satisfy/tool/demo_utils.py:print_optimization_stats"]}
{"id": "C77", "title": "The graph labeling program", "statement": "satisfy-tool graph_labeling prints each proper colouring exactly once as a dict that can be read back, and a true summary.", "quantifier": "all graphs with distinct labels, timeouts, limits", "why_tests_cant": "all graphs", "anchors": ["src/satisfy/tool/demo_graph_labeling.py:graph_labeling"]}
{"id": "C78", "title": "The map colouring program", "statement": "satisfy-tool ascii_map_coloring prints colourings of the given map in which touching regions have different colours, and a true summary.", "quantifier": "all maps, colours, timeouts, limits", "why_tests_cant": "all maps", "anchors": ["src/satisfy/tool/demo_ascii_map_coloring.py:ascii_map_coloring"]}
{"id": "C79", "title": "The alternative search _solve_forbidden", "statement": "Solver._solve_forbidden enumerates the same solutions as solve.", "quantifier": "all models, constraints, policies, timeouts", "why_tests_cant": "all models", "anchors": ["src/satisfy/solver.py:Solver._solve_forbidden"]}
{"id": "C80", "title": "What the generated Python text means", "statement": "The source generated for an expression is read by Python as the expression given by a small precedence-aware specification: operators between disjunctions take only their neighbours, not takes as much as it can, a minus sign stays outside a power, and everything below -( ) and abs( ) is read with the symbols of __str__.", "quantifier": "all expressions whose names are not keywords or names of the generated code and whose sums and products have at least three printed values, whether faithfully printed or not", "why_tests_cant": "unbounded nesting of forms printed without parentheses", "anchors": ["src/satisfy/expression.py:Expression.py_source", "src/satisfy/expression.py:BinOp.py_expr", "src/satisfy/expression.py:Or.py_expr", "src/satisfy/expression.py:Not.py_expr", "src/satisfy/expression.py:Neg.py_expr"]}
{"id": "C81", "title": "The shown model is the model", "statement": "The output of show_model (print_model) determines the model: two models that are shown alike have the same variables with the same domains, constraints with the same meaning, and the same solutions.", "quantifier": "all models with identifier names whose expressions are built by the operators, all domain objects (tuple, list, set, range)", "why_tests_cant": "unbounded models; texts of different kinds of constraints and domains might coincide", "anchors": ["src/satisfy/tool/demo_utils.py:print_model", "src/satisfy/constraint.py:ExpressionConstraint.__str__", "src/satisfy/constraint.py:AllDifferentConstraint.__repr__"]}
{"id": "C82", "title": "Timeouts and limits keep the first results of a puzzle", "statement": "For each puzzle class, the results of an object with a timeout or a limit are the first results of the same object without them; all of them if nothing interrupted the enumeration; exactly the first n with a limit n >= 1 and no timeout (1 by default for sudoku and map colouring).", "quantifier": "all inputs of the puzzle classes, all policies, timeouts, limits and clocks", "why_tests_cant": "the clock and the sizes of the puzzles are unbounded", "anchors": ["src/satisfy/solver.py:Solver.solve", "src/satisfy/solver.py:ModelSolverBase", "src/satisfy/sudoku.py:SudokuSolver.__init__", "src/satisfy/tool/queens.py:QueensSolver", "src/satisfy/nonogram.py:NonogramSolver"]}
{"id": "C83", "title": "The programs read their input correctly", "statement": "json.loads accepts exactly the JSON texts and returns the value they denote; the sudoku, nonogram, knapsack and graph programs called with a file are the programs for the data in the file, with the built-in text if no file is given; other texts are errors of the right class; show_model inserts the model of the solver into the output and changes nothing else.", "quantifier": "all texts, timeouts, limits, clocks and orders of variables", "why_tests_cant": "JSON texts are unbounded and nested, with escapes, repeated keys and blanks everywhere", "anchors": ["src/satisfy/tool/demo_sudoku.py:sudoku", "src/satisfy/tool/demo_nonogram.py:nonogram", "src/satisfy/tool/demo_knapsack.py:knapsack", "src/satisfy/tool/demo_graph_labeling.py:graph_labeling", "src/satisfy/tool/demo_utils.py:print_model"]}
{"id": "C84", "title": "The command line is read correctly", "statement": "Each command accepts its options in all spellings (letter, long name, unambiguous beginning, value in the next word, after an equals sign or glued, flags in one word), in any order; its program runs exactly for the valid lines, with the last value of each option and the defaults otherwise; invalid values, unknown options and commands end with status 2 and help with status 0; words have at most one reading.", "quantifier": "all command lines without the word --, all files and conversions of timeouts", "why_tests_cant": "command lines are unbounded sequences of words with many spellings for each option", "anchors": ["src/satisfy/tool/__init__.py:main", "src/satisfy/tool/__init__.py:type_on_off"]}
{"id": "C85", "title": "Several models, solvers and enumerations in one program", "statement": "In a program with any number of models, solvers and enumerations, with constraints and parameters shared between them: every statement ends; a model is changed only by calls on it; an enumeration yields what its call would yield alone at the moment it is started, whatever is executed between its steps, if no parameter is assigned; solving one model does not depend on what is done with the others; the statistics of a solver count the solutions of its latest enumeration.", "quantifier": "all programs, models, solvers, interleavings, options, clocks", "why_tests_cant": "programs and interleavings are unbounded and objects can be shared in any way", "anchors": ["src/satisfy/solver.py:Solver.solve", "src/satisfy/model.py:Model", "src/satisfy/constraint.py:ExpressionConstraint.compile"]}
{"id": "C86", "title": "The representation of expressions, constraints and objectives", "statement": "repr() of an expression determines it: two expressions over the same variables and parameters with the same repr() are the same; likewise constraints (all-different constraints up to the order of their variables) and objectives; Python reads the repr() of an expression in exactly one way, and eval(repr(e)) makes e again.", "quantifier": "all expressions with ASCII names, constraints, objectives", "why_tests_cant": "expressions are nested to any depth and names are arbitrary", "anchors": ["src/satisfy/expression.py:Const.__repr__", "src/satisfy/expression.py:Collection.__repr__", "src/satisfy/expression.py:Accumulation.__repr__", "src/satisfy/expression.py:Variable.__repr__", "src/satisfy/constraint.py:AllDifferentConstraint.__repr__", "src/satisfy/objective.py:Objective.__repr__"]}
{"id": "C87", "title": "Optimizations among the enumerations of a program", "statement": "A program may hold several generators of solve() and optimize(), of the same or different models and solvers, and call next() on them in any order. Each of them returns what it would return run alone from its first next() to its end; they leave the models as they are, except for the parameters that optimize() adds for its bounds, and they do not change the program's own parameters.", "quantifier": "all programs of calls on models, solve(), optimize(), next() and close(), in any order; compiling solvers, and any solvers in programs which compile nothing; no time limit", "why_tests_cant": "the number of generators, their interleaving and the objectives are unbounded; a leak of the bounds of one optimization into another search shows only in particular interleavings", "anchors": ["src/satisfy/solver.py:Solver.optimize", "src/satisfy/solver.py:Solver.solve", "src/satisfy/objective.py:MinMaxConstraint", "src/satisfy/objective.py:MinMax.add_solution"]}
{"id": "C88", "title": "Variables and constraints added to a puzzle", "statement": "If the user adds variables, and constraints on them and on the puzzle's variables, to the model of a puzzle object before iterating over it, the results are exactly the results of the puzzle for which values of the added variables in their domains exist such that the added constraints hold, where each variable of the puzzle has the value that its result shows; a result comes once for each such choice of values. The exception are constraints both sides of which simplify to constants: adding them raises TypeError.", "quantifier": "all puzzles of the classes QueensSolver, GraphLabelingSolver, SudokuSolver, CryptarithmSolver, NonogramSolver and EinsteinRiddleSolver, all options, and all lists of added variables, of all-different constraints, and of constraints that have a value for all values in the domains of their variables", "why_tests_cant": "the number and shape of the added constraints is unbounded, and they must agree with the auxiliary variables of the puzzle (the diagonals of the queens) and its reduced domains", "anchors": ["src/satisfy/solver.py:ModelSolverBase.model", "src/satisfy/tool/queens.py:QueensSolver", "src/satisfy/graph_labeling.py:GraphLabelingSolver", "src/satisfy/sudoku.py:SudokuSolver", "src/satisfy/cryptarithm.py:CryptarithmSolver", "src/satisfy/nonogram.py:NonogramSolver", "src/satisfy/tool/einstein_riddle.py:EinsteinRiddleSolver"]}
{"id": "C89", "title": "Solutions belong to the caller", "statement": "A loop over solve() may do what it likes with the solutions it has received: every solution is a new dict that the search does not use again, so clearing or changing it does not change the solutions that follow or how the loop ends; solutions that are left alone keep their contents; and the search changes no object of the program, the domain lists given to add_int_variable in particular.", "quantifier": "all models, solver options and arguments, all contents of the program's dicts and lists, and all loop bodies, which may differ at every solution, that change received solutions, new objects and objects of the program that are not domains", "why_tests_cant": "aliasing is invisible in tests that read the solutions but do not change them; the interleaving of the body with the search is unbounded", "anchors": ["src/satisfy/solver.py:Solver.solve", "src/satisfy/solver.py:Solver._setup", "src/satisfy/model.py:Model.add_int_variable"]}
{"id": "C90", "title": "Puzzle objects can be used again", "statement": "A puzzle object can be iterated any number of times, completely or with break, while variables and constraints are added to its model and the timeout, limit and policy of its solver are set in between: nothing raises, and every iteration gives exactly the results allowed by what has been added before it, under the settings of that moment; iterating again gives the same list, which is also that of a new object with these settings and additions (without timeout and with a policy other than RANDOM); a loop left with break has received the first results.", "quantifier": "all sequences of additions, settings and loops, all puzzles of the six classes (with at least one variable), all options, clocks and shuffles (a different one in every loop)", "why_tests_cant": "state left behind by an iteration (compiled constraints, timers, interrupts) shows only in sequences of uses, of which there are infinitely many", "anchors": ["src/satisfy/solver.py:ModelSolverBase", "src/satisfy/solver.py:Solver.solve", "src/satisfy/constraint.py:ExpressionConstraint.compile", "src/satisfy/nonogram.py:NonogramSolver.__iter__"]}
{"id": "C91", "title": "Puzzles can share a Model", "statement": "Puzzles of the six classes and variables and constraints of the user can be put into one Model (model=m), in any order: if no puzzle has a variable that is there already, nothing raises and iterating one of the puzzles gives exactly its solutions in the combinations (values of the user's variables, a solution of every puzzle) that meet all the constraints, each combination once, under the options of the Solver it was given (solver=s) or else its own; without relating constraints these are all combinations; a puzzle with a variable that is there already raises ValueError.", "quantifier": "all programs of such statements, all arguments of the puzzles, all options, clocks and shuffles", "why_tests_cant": "the classes are only ever tested alone, with a Model of their own; the combinations of puzzles are infinitely many", "anchors": ["src/satisfy/solver.py:ModelSolverBase", "src/satisfy/solver.py:ModelSolver", "src/satisfy/model.py:Model._get_variable", "src/satisfy/solver.py:Solver.solve"]}
{"id": "C92", "title": "Knapsack problems with additions", "statement": "If the user adds variables and constraints to the model of a KnapsackOptimizer before calling it, the call returns and does not raise; the reported selection is a packing that meets the added constraints for some values of the added variables, with its value and weights; without a selection and without an interrupt there is no such packing; a selection reported as optimal has the greatest value among them if no value is negative and two values are not 0 (it need not if there is one item and an added variable).", "quantifier": "all values, capacities, weights, additions (C88) without parameters, options, clocks and shuffles", "why_tests_cant": "the knapsack is only ever tested with a fixed instance and no further constraints", "anchors": ["src/satisfy/knapsack.py:KnapsackOptimizer", "src/satisfy/solver.py:ModelOptimizer", "src/satisfy/solver.py:ModelSolverBase", "src/satisfy/solver.py:Solver.optimize"]}
{"id": "C93", "title": "What the search extends", "statement": "The partial assignments with which Solver.solve tests the values of a further variable bind the first variables of one fixed order of the variables to values of their domains, violate no constraint whose variables are all bound and give no two variables of an all-different constraint the same value; none is tried twice, they come depth first (before their extensions, otherwise in lexicographic order), and unless an exception, the limit or the timeout ends the search, every such partial assignment is tried. Then the loop takes two iterations for each of them and one for each solution, less one.", "quantifier": "all models, solvers, options, clocks and shuffles; observed by recording, which changes nothing (C93_observing)", "why_tests_cant": "pruning only shows in running time, which no test looks at, and only for particular models", "anchors": ["src/satisfy/solver.py:Solver.solve"]}
{"id": "C94", "title": "What an optimisation extends", "statement": "The partial assignments with which Solver.optimize tests the values of a further variable bind the first variables of one fixed order, come depth first and are never tried twice; an assignment is extended, or yielded if it binds all variables, only if it violates no constraint and each value in it that completed an objective of several variables gave that objective a better value than the last solution yielded before the values of that variable were tested; unless an exception, the limit or the timeout ends the search, every such assignment is extended or yielded.", "quantifier": "all models, objectives, solvers, options, clocks and shuffles; observed by recording, which changes nothing (C94_observing)", "why_tests_cant": "how much a bound prunes only shows in running time; which assignments are pruned depends on the order in which solutions were found", "anchors": ["src/satisfy/solver.py:Solver.optimize", "src/satisfy/solver.py:Solver.solve", "src/satisfy/objective.py:MinMaxConstraint"]}
{"id": "C95", "title": "Limits, timeouts and statistics of optimisations", "statement": "An optimisation with any limit and timeout yields the first solutions of the one without, of the same model and objectives; all of them unless an interrupt is reported; with limit n at most max(n, 1), in which case the limit is reported; a reported timeout means that the elapsed time had exceeded it. The reported count is the number of solutions found and the reported time the sum of disjoint intervals, one per solution. An exception comes from an argument that is not an Objective, a constraint that raises, an ill-formed all-different constraint, an INFINITY argument, or an objective without a value.", "quantifier": "all models, objectives, solvers, options and pairs of clocks, after any earlier searches", "why_tests_cant": "needs every limit, every behaviour of the clock and a comparison of two runs; the bound moves with each solution found", "anchors": ["src/satisfy/solver.py:Solver.optimize", "src/satisfy/solver.py:Solver.solve", "src/satisfy/solver.py:Solver.get_stats"]}
{"id": "C96", "title": "What the puzzle objects try", "statement": "While a GraphLabelingSolver is consumed, the partial labelings that the search extends are exactly those of the first nodes in which adjacent nodes differ, each once, in the given order of the nodes by default; likewise a SudokuSolver extends exactly the ways to fill the first blank cells without a repetition in a row, column or block. A QueensSolver of size n >= 2, with its default policy, extends all the placements of queens of whole rows in different columns, also those in which queens attack each other in a diagonal, so that an uninterrupted search takes more than 2 n! iterations.", "quantifier": "all graphs without loops, label sets, sudoku schemas, board sizes, options, clocks and permutations", "why_tests_cant": "tests see the solutions only, not what the search tried, and cannot run over all sizes", "anchors": ["src/satisfy/graph_labeling.py:GraphLabelingSolver.__iter__", "src/satisfy/sudoku.py:SudokuSolver.__iter__", "src/satisfy/tool/queens.py:QueensSolver.__init__", "src/satisfy/tool/queens.py:QueensSolver.__iter__", "src/satisfy/solver.py:Solver.solve"]}
{"id": "C97", "title": "The digits tried for a cryptarithm", "statement": "If the truth of the equation depends on every letter, a CryptarithmSolver extends exactly the assignments of different digits to the first letters of some order that give no word a leading 0, each once: the equation is tested with all the letters only and rules out no partial assignment. With k + 1 letters, an uninterrupted search therefore takes at least 2 * 9 * 8 * ... * (10 - k) - 1 iterations.", "quantifier": "all texts of equations, orders of the set of letters, options, clocks and permutations", "why_tests_cant": "tests see the solutions only, not what the search tried, and cannot run over all equations", "anchors": ["src/satisfy/cryptarithm.py:CryptarithmSolver.__init__", "src/satisfy/solver.py:ModelSolver.__iter__", "src/satisfy/solver.py:Solver.solve"]}
{"id": "C98", "title": "The runs drawn by the search for nonograms", "statement": "NonogramSolver extends exactly the drawings of the first runs of some order of all runs, each drawn within its room in the line (the other runs of the line fit before and behind it) and behind the previous run of the line, for which row and column agree about every cell such that all runs that can cover it or end just before it are drawn; each drawing once. The narrower test, which does not wait for runs that can only end just before the cell, is not what the code does.", "quantifier": "all nonograms with positive clues, options, clocks and permutations", "why_tests_cant": "tests see the solutions only, not what the search tried, and cannot run over all nonograms", "anchors": ["src/satisfy/nonogram.py:NonogramSolver.__init__", "src/satisfy/nonogram.py:NonogramSolver.__iter__", "src/satisfy/solver.py:Solver.solve"]}
{"id": "C99", "title": "The selections tried by the search for knapsack problems", "statement": "The search of a KnapsackOptimizer extends only selections of the first items of some order that exceed no capacity for which every item with a weight other than 0 is decided, each once, and, uninterrupted, all of them as long as an item with a value is undecided. Hence, if every item has a value and a weight for every capacity, exactly 2^n - 1 selections are extended: no capacity ever cuts the search. What is returned is the last solution found. That a selection is given up as soon as its items exceed a capacity is not what the code does.", "quantifier": "all well-formed knapsack problems, options, clocks and permutations", "why_tests_cant": "tests see the result only, not what the search tried, and cannot run over all problems", "anchors": ["src/satisfy/knapsack.py:KnapsackOptimizer.__init__", "src/satisfy/knapsack.py:KnapsackOptimizer.__call__", "src/satisfy/solver.py:Solver.solve", "src/satisfy/solver.py:Solver.optimize"]}
{"id": "C100", "title": "The number of iterations of optimisations", "statement": "In an optimisation that is neither interrupted nor raises, the loop of the search begins 2 * t + s - 1 iterations for t > 0 extended partial assignments and s solutions found, and otherwise at most 2 more, although the objectives' constraints change during the search. Hence the search of a KnapsackOptimizer with n items begins at most 2^(n+1) + s - 1 iterations, and exactly 2^(n+1) + s - 3 if it is not interrupted and every item has a value and a weight for every capacity.", "quantifier": "all models, objectives, options, clocks and permutations; all well-formed knapsack problems", "why_tests_cant": "tests do not count iterations, and cannot run over all models", "anchors": ["src/satisfy/solver.py:Solver.solve", "src/satisfy/solver.py:Solver.optimize", "src/satisfy/knapsack.py:KnapsackOptimizer.__call__"]}
{"id": "C101", "title": "The order and number of the solutions of optimisations", "statement": "However it ends and whatever the objectives are, optimize finds no solution twice, and the solutions come in the lexicographic order of the declared domains for one order of the variables (that of the policy, counting one more constraint for each objective, on its variables). A KnapsackOptimizer with n items finds at most 2^n solutions, each a selection of the items, and begins less than 3 * 2^n iterations.", "quantifier": "all models, objectives, options, limits, timeouts, clocks and permutations; all well-formed knapsack problems", "why_tests_cant": "tests compare single results; they cannot exclude a repeated solution for all models", "anchors": ["src/satisfy/solver.py:Solver.solve", "src/satisfy/solver.py:Solver.optimize", "src/satisfy/knapsack.py:KnapsackOptimizer.__call__"]}
{"id": "C102", "title": "The work of the search and the sizes of the domains", "statement": "However it ends and whatever the constraints and objectives are, the search of solve or optimize extends at most 1 + d1 + d1*d2 + ... partial assignments and finds at most d1*...*dn solutions, where d1, ..., dn are the sizes of the declared domains in the order of the policy, and begins at most 2 * (1 + d1 + d1*d2 + ...) + d1*...*dn + 1 iterations. An unlimited solve whose constraints exclude nothing reaches the first two bounds, with 2 less iterations than the third. With MIN_BOUND this bound is the smallest possible over all orders of the variables. That MIN_BOUND never needs more iterations than another policy is false: it ignores what constraints on one variable leave of its domain.", "quantifier": "all models, constraints, objectives, policies, limits, timeouts, clocks and permutations", "why_tests_cant": "tests do not count the work of the search, and cannot run over all models and orders", "anchors": ["src/satisfy/solver.py:Solver.solve", "src/satisfy/solver.py:Solver.optimize"]}
{"id": "C103", "title": "More constraints do not make the search longer", "statement": "With the policies ORDERED, REVERSED, RANDOM, MIN_BOUND and MAX_BOUND: compared to a complete search, a search of the same model with more additional constraints, however it ends, extends no other partial assignments and finds no other solutions, and if it is complete it begins no more iterations of its loop. With the default policy, GROUPS, this is false: an additional constraint that is always true can make the search longer.", "quantifier": "all models, additional constraints, solvers, limits, timeouts, clocks and permutations", "why_tests_cant": "tests do not observe the work of the search, and cannot compare all pairs of constraint lists", "anchors": ["src/satisfy/solver.py:Solver.solve", "src/satisfy/solver.py:Solver._setup"]}
{"id": "C104", "title": "Limits and timeouts cut the search short", "statement": "A search that differs from a complete search only in its limit, its timeout and the clock, however it ends, extends the first of the same partial assignments in the same order, finds the first of the same solutions, and begins at most two iterations more.", "quantifier": "all models, additional constraints, policies, solvers, limits, timeouts, clocks and permutations", "why_tests_cant": "tests with a limit look at the solutions only, for single models; timeouts depend on the clock", "anchors": ["src/satisfy/solver.py:Solver.solve"]}
{"id": "C105", "title": "The order and the repetition of constraints do not matter", "statement": "With the policies ORDERED, REVERSED, RANDOM, MIN_BOUND and MAX_BOUND, two complete searches of the same model under the same set of constraints, in whatever order and however often each is given, extend the same partial assignments in the same order, find the same solutions in the same order and begin equally many iterations. With MIN_CONSTRAINT and MAX_CONSTRAINT this holds for permutations of the additional constraints, but repetitions matter. With the default policy, GROUPS, the order of the constraints can change the order and the length of the search.", "quantifier": "all models, lists of additional constraints, solvers, clocks and permutations", "why_tests_cant": "tests run each model with one list of constraints only and do not look at the search", "anchors": ["src/satisfy/solver.py:Solver.solve", "src/satisfy/solver.py:Solver._setup"]}
