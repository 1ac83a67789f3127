#!/usr/bin/env python3
"""Regenerates /verif/properties.jsonl (kept as a script only for JSON escaping)."""
import json, os
P = []
def p(id, title, statement, quantifier, why, anchors):
    P.append(dict(id=id, title=title, statement=statement, quantifier=quantifier,
                  why_tests_cant=why, anchors=anchors))

E="src/satisfy/expression.py"; M="src/satisfy/model.py"; C="src/satisfy/constraint.py"
S="src/satisfy/solver.py"; O="src/satisfy/objective.py"; U="src/satisfy/utils.py"

p("C01","Arithmetic operators mean arithmetic",
  "For the operators + - * / % ** unary - and abs applied to expressions and ints (in either operand position that the library supports), evaluating the resulting object under a substitution gives exactly the Python integer result of applying the operator ( / meaning floor division) to the values of the operands, whatever constant folding, flattening or neutral/absorbing-element shortcuts were taken while building it.",
  "all operand objects (arbitrarily nested), all substitutions, all parameter values for which the operands evaluate and the integer operation is defined",
  "expression trees are unbounded and the simplifier has a dozen interacting shortcuts; a test samples a few shapes",
  [E+":Expression.__add__",E+":Const.__mul__",E+":_make_accumulate",E+":Accumulation.__init__"])
p("C02","Comparison and logical operators mean what they say",
  "== != < <= > >= & | applied to expressions and ints build an object whose value is truthy exactly when the comparison / conjunction / disjunction of the operand values is; this holds whichever operand's method Python dispatches to (including the swapped Variable/Parameter case).",
  "all operands, substitutions and parameter values for which the operands evaluate",
  "dispatch depends on the dynamic classes of both operands; unbounded nesting",
  [E+":Expression.__eq__",E+":Const.__eq__",E+":And",E+":Or",E+":Parameter"])
p("C03","A whole formula written by the user means the formula",
  "Any formula written with ints, model variables, parameters and the library operators (nested to any depth) evaluates to its mathematical value (& and | being taken on truth values 0/1): composing C01/C02 over the whole formula never changes its meaning.",
  "all formulas, all assignments and parameter values on which the formula is mathematically defined",
  "composition of rewritings over unbounded trees",
  [E+":Expression",E+":_make_accumulate"])
p("C04","vars() is exactly what an expression needs",
  "evaluate() succeeds without EvaluationError whenever every name reported by vars() is bound, its result depends only on the bindings of those names (and parameter values), vars() contains no duplicates, and each name it reports really occurs in the formula.",
  "all expressions and all pairs of substitutions agreeing on vars()",
  "ranges over all expressions and all substitutions",
  [E+":Collection.__init__",E+":Collection.free_vars",E+":Variable.evaluate"])
p("C05","Compiled evaluation agrees with interpreted evaluation",
  "For every expression, calling the function returned by compile_py_function()/as_function() with the substitution as keyword arguments returns the same value as evaluate(substitution).",
  "all expressions, substitutions and parameter values for which evaluate() returns a value",
  "depends on how Python re-parses generated text: operator precedence over unbounded nesting",
  [E+":Expression.py_source",E+":Expression.compile_py_function",E+":BinOp.py_expr",E+":Or.py_expr",E+":Not.py_expr",E+":Neg.py_expr"])
p("C06","A failed compilation falls back to interpretation",
  "If the generated source does not compile, constraint evaluation still works, through evaluate().",
  "all expressions whose generated source is rejected by Python",
  "error path over an unbounded class of expressions",
  [E+":Expression.as_function",C+":ExpressionConstraint.evaluate"])
p("C07","equals() only identifies expressions with the same meaning",
  "If a.equals(b) returns a true value then a and b evaluate to the same value under every substitution.",
  "all pairs of expressions, all substitutions",
  "quantifies over pairs of unbounded trees",
  [E+":Collection.equals",E+":Const.equals",E+":Variable.equals"])
p("C08","Division of an int by an expression",
  "n / expr builds an expression denoting floor division of n by expr, as expr / n does.",
  "all ints n and expressions", "operator dispatch over all operand classes",
  [E+":Expression.__rtruediv__",E+":Expression.__rdiv__"])
p("C09","Parameter updates take effect in later solves",
  "After parameter.value is assigned, a solve() started afterwards uses the new value in every constraint mentioning the parameter, whether or not constraints are compiled.",
  "all models, all histories of solves with either compile_constraints setting, all parameter updates",
  "depends on the history of compilations of shared constraint objects",
  [E+":Parameter.value",E+":Parameter.py_expr",C+":ExpressionConstraint.compile",S+":Solver._setup"])
p("C10","Variable and parameter names are unique and auto-names are fresh",
  "In every model, after any sequence of API calls, no two variables/parameters share a name; a variable or parameter added without a name never replaces an existing one; adding a name twice raises ValueError; parameters of different names are separate objects whose values only change by assignment; get_var_domain returns the domain of a name.",
  "all histories of add_int_variable/add_bool_variable/add_parameter/add_constraint/optimize calls",
  "quantifies over all call histories",
  [M+":Model._get_variable",M+":Model._get_parameter",M+":Model.add_int_variable",M+":Model.add_parameter"])
p("C11","Every stored constraint refers to declared names",
  "After any sequence of model-building calls every constraint returned by model.constraints() mentions only names present in model.variables().",
  "all histories of model-building calls", "quantifies over all call histories",
  [M+":Model.add_constraint"])
p("C12","A failing model-building call changes nothing",
  "If add_int_variable, add_bool_variable, add_parameter, add_constraint or add_all_different_constraint raises, then variables(), constraints() and solvable() are unchanged.",
  "all models and all arguments", "all models and arguments",
  [M+":Model.add_int_variable",M+":Model.add_constraint"])
p("C13","Constant constraints decide solvability",
  "Adding a constraint without variables that evaluates to true has no effect on the model; adding one that evaluates to false makes every later solve of the model yield nothing, permanently.",
  "all models, all later histories of calls", "ranges over all later histories",
  [M+":Model.add_constraint",M+":Model.solvable",S+":Solver.solve"])
p("C14","set_solvable controls solvable()",
  "After model.set_solvable(b), model.solvable() returns b.",
  "all models and booleans", "all states", [M+":Model.set_solvable"])
p("C15","A constraint on parameters only follows the parameter",
  "A constraint mentioning only parameters restricts the solutions of a solve according to the parameter values at the time of the solve.",
  "all models, all parameter updates between add_constraint and solve", "history dependent",
  [M+":Model.add_constraint"])
p("C16","solve() is sound",
  "Every dictionary yielded by solve() binds exactly the non-parameter variables of the model, each to a value of its declared domain, and satisfies every constraint of the model and every additional constraint over variables of the model (as decided by constraint.evaluate(solution) in the state in which solve() leaves the program); whatever the policy, limit, timeout, clock behaviour or random shuffle, and even if the search later raises.",
  "all models, options, clocks and shuffles; every prefix of the enumeration",
  "all models, all schedules of clock readings",
  [S+":Solver.solve",S+":Solver._setup"])
p("C17","solve() is complete",
  "With no limit and no timeout, if no constraint evaluation raises, solve() on a model with at least one variable yields every assignment of the variables from their domains that satisfies all constraints.",
  "all models with at least one variable, all policies, all shuffles", "all models",
  [S+":Solver.solve",S+":Solver._setup"])
p("C18","solve() never repeats a solution",
  "No two dictionaries yielded by one solve() are equal.",
  "all models, options, clocks", "all models", [S+":Solver.solve",M+":Model.add_int_variable"])
p("C19","solve() terminates",
  "The enumeration always ends after finitely many loop iterations, even if the consumer changes parameter values between solutions.",
  "all models, all consumer behaviours, all clocks", "termination", [S+":Solver.solve"])
p("C20","Variable selection policy does not change the solution set",
  "Two unlimited solves of the same model with different policies (and different random shuffles) yield the same solutions up to order; each policy visits a permutation of the variables.",
  "all models, all pairs of policies and shuffles", "all models and shuffles",
  [S+":Solver.solve",S+":VarSelectionPolicy"])
p("C21","Solutions come in lexicographic order of the selected variable order",
  "Solutions are enumerated in lexicographic order with respect to the selected variable order and the order of values in each domain.",
  "all models", "all models", [S+":Solver.solve"])
p("C22","limit truncates the enumeration",
  "With limit = n >= 1 the yielded solutions are exactly the first min(n, total) solutions of the unlimited enumeration, and the interrupt is 'limit' iff n solutions were yielded.",
  "all models, all n", "all models and limits", [S+":Solver.solve"])
p("C23","limit = 0 yields nothing",
  "With limit = 0 no solution is yielded.", "all models", "boundary over all models", [S+":Solver.solve"])
p("C24","timeout truncates the enumeration",
  "With a timeout, for every behaviour of the clock, the yielded solutions are a prefix of the unlimited enumeration; if the search stops early without an exception or limit the interrupt is 'timeout', and then the clock really showed more than timeout seconds of search time.",
  "all models, all clock readings", "all clock behaviours", [S+":Solver.solve",U+":Timer"])
p("C25","No interrupt means exhaustive",
  "After solve() has been consumed to its end without exception, if get_stats().interrupt is None every solution was yielded; it is 'limit' only if the limit was reached and 'timeout' only if the clock showed more than timeout seconds of search; and get_stats().count equals the number of yielded solutions.",
  "all models, options, clocks", "all executions", [S+":Solver.get_stats",S+":Solver.solve",U+":Timer.stats"])
p("C26","get_stats().elapsed accounts for the whole search",
  "After solve() has been consumed to its end, elapsed is the time spent searching (excluding time spent by the consumer between solutions).",
  "all models and clock behaviours", "all clocks", [S+":Solver.get_stats",U+":Timer"])
p("C27","Timer discipline",
  "start/stop/abort/elapsed behave as a stopwatch for every sequence of calls: start on a running timer and stop on a stopped one raise RuntimeError and change nothing; elapsed is the sum of the completed intervals plus the current one; count is the number of successful stops weighted by count; the solver itself never triggers these errors.",
  "all call sequences and clock readings", "all histories", [U+":Timer"])
p("C28","All-different means pairwise different",
  "An all-different constraint accepts exactly the assignments giving pairwise different values to the listed variables, both when evaluated directly and when enforced incrementally by solve().",
  "all models, variable lists and assignments", "all models", [C+":AllDifferentConstraint",S+":Solver._setup",S+":Solver.solve"])
p("C29","A satisfiable model without variables",
  "solve() on a model whose constraints all hold yields at least one solution even if the model has no variables (the empty assignment).",
  "all models without variables", "boundary", [S+":Solver.solve"])
p("C30","Additional constraints are conjoined",
  "solve(model, additional_constraints=cs) yields exactly the solutions of the model that also satisfy every constraint in cs.",
  "all models and constraint lists", "all models", [S+":Solver._setup",S+":Solver.solve"])
p("C31","Solving does not modify the model",
  "solve() leaves variables(), constraints() and solvable() unchanged and solving again yields the same sequence of solutions (with the policy RANDOM: the same solutions, in an order that may differ).",
  "all models, any number of repetitions", "all histories", [S+":Solver.solve",S+":Solver._setup"])
p("C32","Exceptions do not corrupt earlier results",
  "If evaluating a constraint raises during the search, solve() propagates that exception after having yielded only correct solutions; it never silently swallows it and never yields afterwards.",
  "all models and failure points", "all failure points", [S+":Solver.solve"])
p("C33","Statistics of a solver used by interleaved enumerations",
  "If two enumerations started from the same Solver are advanced alternately, get_stats().interrupt reflects the most recently started enumeration.",
  "all interleavings", "all schedules", [S+":Solver._reset",S+":Solver.get_stats"])
p("C34","Interleaved enumerations yield the right solutions",
  "Two enumerations of the same solver and model advanced in any interleaving each yield exactly what they would yield alone.",
  "all interleavings of next() calls", "all schedules", [S+":Solver.solve"])
p("C35","optimize() only yields feasible solutions",
  "Every solution yielded by optimize() satisfies all constraints of the model.",
  "all models, objectives, options, clocks", "all models", [S+":Solver.optimize",O+":MinMaxConstraint"])
p("C36","is_optimal=True means optimal",
  "If optimal_solution() returns is_optimal=True for a single objective then no solution of the model has a strictly better objective value than the returned one.",
  "all models and objectives", "all models and objectives", [S+":Solver.optimal_solution",S+":Solver.solve",O+":MinMaxConstraint"])
p("C37","optimize() visits an optimum",
  "If the enumeration of optimize() ends without interrupt, then the best solution among those it yielded is optimal for the model; for several objectives, every solution of the model either was yielded or fails to be strictly better in some objective than some yielded solution.",
  "all models, objectives and policies for which no evaluation raises", "all models", [S+":Solver.optimize"])
p("C38","optimal_solution() finds a solution when there is one",
  "If the model has a solution and at least one variable and the search is not interrupted, optimal_solution() returns a solution (not None) flagged is_optimal; if it has none, it returns None with is_optimal False; if interrupted is_optimal is False.",
  "all models and objectives", "all models", [S+":Solver.optimal_solution"])
p("C39","optimize() improves strictly",
  "Each solution yielded by optimize() with one objective is strictly better than the previous one.",
  "all models and objectives", "all models", [S+":Solver.optimize",O+":MinMaxConstraint.set_bound"])
p("C40","optimize() does not change the problem",
  "After optimize()/optimal_solution(), the variables, domains, constraints and the solution set of the model are the same as before (only auxiliary parameters are added).",
  "all models, objectives and histories", "all histories", [O+":MinMaxConstraint.__init__",S+":Solver.optimize"])
p("C41","Knapsack results are feasible and consistently reported",
  "A KnapsackOptimizer result with a solution selects items (0/1 each) whose total weight fits every capacity, and value/weights are the totals of the selected items.",
  "all item lists, capacities, weights (as re-iterable sequences), options", "all instances", ["src/satisfy/knapsack.py:KnapsackOptimizer"])
p("C42","Knapsack results flagged optimal are optimal",
  "If is_optimal is True no feasible selection has a larger total value.",
  "all instances", "all instances", ["src/satisfy/knapsack.py:KnapsackOptimizer",S+":Solver.optimal_solution"])
p("C43","Knapsack accepts any iterable of weights",
  "Weights given as a one-shot iterator constrain the problem in the same way as a list.",
  "all instances", "all instances", ["src/satisfy/knapsack.py:KnapsackOptimizer.__init__"])
p("C44","Sudoku solutions are valid completions, and all are found",
  "For a 9x9 schema with at least one empty cell and no conflicting givens, SudokuSolver yields exactly the valid completed grids agreeing with the givens (up to limit), none twice.",
  "all schemas", "all schemas", ["src/satisfy/sudoku.py:SudokuSolver"])
p("C45","Sudoku never yields an invalid grid",
  "Every grid yielded by SudokuSolver is a valid sudoku grid, whatever the schema.",
  "all schemas", "all schemas", ["src/satisfy/sudoku.py:SudokuSolver"])
p("C46","Nonogram solutions match the clues, and all are found",
  "For clues made of positive run lengths with at least one run, NonogramSolver yields exactly the pixmaps whose row and column runs are the clues, none twice.",
  "all clue lists", "all puzzles", ["src/satisfy/nonogram.py:NonogramSolver"])
p("C47","pixmap_to_nonogram computes the runs",
  "For every rectangular pixmap, the clues list for each row and column the lengths of the maximal runs of non-zero cells in order; solving the clues of a pixmap with at least one non-zero cell yields that pixmap among the solutions.",
  "all rectangular pixmaps", "all pixmaps", ["src/satisfy/nonogram.py:pixmap_to_nonogram"])
p("C48","N-queens boards are exactly the non-attacking placements",
  "For board_size n >= 1 QueensSolver yields exactly the boards with one queen per row and no two queens sharing a column or diagonal, none twice.",
  "all n >= 1", "all board sizes", ["src/satisfy/tool/queens.py:QueensSolver"])
p("C49","Graph labelings are exactly the proper colourings",
  "For every non-empty graph and list of distinct labels GraphLabelingSolver yields exactly the maps from nodes to labels giving different labels to adjacent nodes, none twice; with the default policy they come in lexicographic order (nodes in the order of the graph, labels in the listed order).",
  "all graphs and label lists", "all graphs", ["src/satisfy/graph_labeling.py:GraphLabelingSolver"])
p("C50","Cryptarithm words denote decimal numbers",
  "In the expression built by CryptarithmSolver each maximal run of letters and digits denotes the decimal number obtained by substituting digits for letters; text outside words is left untouched.",
  "all source strings and digit assignments", "all strings", ["src/satisfy/cryptarithm.py:CryptarithmSolver.__init__"])
p("C51","Cryptarithm solutions",
  "CryptarithmSolver yields exactly the assignments of distinct digits to letters, with non-zero leading letters, that make the equation true.",
  "all equations (and chains of them) between signed sums/differences/products of words", "all equations", ["src/satisfy/cryptarithm.py:CryptarithmSolver"])
p("C52","avoid_leading_zeros=False allows leading zeros",
  "With avoid_leading_zeros=False leading letters may be assigned 0.",
  "all sources", "all sources", ["src/satisfy/cryptarithm.py:CryptarithmSolver.__init__"])
p("C53","Ascii map regions are the connected components",
  "AsciiMapColoringSolver groups cells into the maximal 8-connected regions of equal characters (ignoring ' ' and '.'), and two regions are linked iff some cells of them are 8-neighbours. The drawings are exactly the colourings in which linked regions differ; with the default policy they come in lexicographic order, so that the single default drawing is the first one.",
  "all ascii maps", "all maps", ["src/satisfy/tool/ascii_map_coloring.py:AsciiMapColoringSolver.__init__"])
p("C54","Einstein riddle answer",
  "EinsteinRiddleSolver yields exactly the arrangements satisfying the 15 statements; there is exactly one and in it the German owns the zebra.",
  "all arrangements of 5x5 attributes", "29 variables: the space cannot be enumerated by tests", ["src/satisfy/tool/einstein_riddle.py:EinsteinRiddleSolver"])
p("C55","image/pixmap round trip",
  "pixmap_to_image followed by image_to_pixmap is the identity on rectangular 0/1 pixmaps with at least one row.",
  "all such pixmaps", "all pixmaps", ["src/satisfy/tool/demo_nonogram.py:image_to_pixmap","src/satisfy/tool/demo_nonogram.py:pixmap_to_image"])
p("C56","Printed statistics are truthful",
  "print_solve_stats announces 'all' or 'unique' only when the enumeration was exhaustive, and the announced number is the number of yielded solutions.",
  "all executions", "all executions", ["src/satisfy/tool/demo_utils.py:print_solve_stats"])
p("C57","Solutions of solve() satisfy the constraints mathematically",
  "The dictionaries yielded by an unlimited solve() are exactly the assignments that make every constraint of the model (over its variables) mathematically true, whether constraints are compiled or interpreted.",
  "all models, policies, shuffles and parameter values for which no evaluation raises", "all models; depends on the text generated for each constraint",
  [S+":Solver.solve",C+":ExpressionConstraint.evaluate",E+":Expression.compile_py_function"])
p("C58","INFINITY means no bound",
  "timeout=INFINITY and limit=INFINITY mean no timeout and no limit, as solver attributes and as arguments of solve().",
  "all models", "all models", [S+":Solver.timeout",S+":Solver.limit",S+":Solver.solve",U+":Infinity"])
p("C59","No constraint is ignored",
  "Every constraint accepted by add_constraint is satisfied by every yielded solution.",
  "all models", "all models", [M+":Model.add_constraint",S+":Solver._setup"])
p("C60","An interrupt means that solutions are missing",
  "If get_stats().interrupt is not None after solve(), the enumeration was not exhaustive.",
  "all models and options", "all executions", [S+":Solver.solve"])
p("C61","Malformed sudoku schemas are rejected",
  "SudokuSolver raises an exception for every schema that is not a 9x9 schema of None and 0..9, namely ValueError if the number of rows is wrong or if all rows have 9 entries and some value is wrong.",
  "all schemas of ints and None", "all schemas", ["src/satisfy/sudoku.py:SudokuSolver.__init__"])
p("C62","Selection policies sort as named",
  "The keys of every yielded dictionary are in the order of the selection policy: declaration order, reversed, shuffled, by increasing or decreasing size of the declared domain, by increasing or decreasing number of formulas over several names, or by (first all-different constraint, number of other names, size) for GROUPS; ties are stable (reversed for GROUPS).",
  "all models, policies and options", "all models; the order is invisible to tests that compare sets of solutions", [S+":Solver.solve",S+":Solver._setup"])
p("C63","Timeouts are noticed at once",
  "With a timeout, the clock is read at least once before each solution, no solution is yielded if the reading before it found that the search had lasted longer than the timeout, and the first such reading interrupts the search.",
  "all models, options and clocks", "depends on real time", [S+":Solver.solve"])
p("C64","Announced optima were found",
  "print_optimization_stats announces an optimal solution exactly when one was found and the search was not interrupted, announces no solution when none was found, and the announced number of iterations is the number of solutions found.",
  "all executions", "all executions", ["src/satisfy/tool/demo_utils.py:print_optimization_stats",S+":Solver.optimal_solution"])
p("C65","Running enumerations are isolated from the loop body",
  "What the consumer of solve() does to the program's objects between two solutions (adding variables, parameters and constraints, assigning parameters) does not change the remaining solutions, the way the enumeration ends or its statistics, and remains in effect afterwards.",
  "all models, options and loop bodies that make any calls on the model after each solution", "all consumers; tests iterate without side effects",
  [S+":Solver.solve",S+":Solver._setup",C+":ExpressionConstraint.compile",M+":Model.add_constraint"])
p("C66","Printed chessboards",
  "The queens demo prints every yielded placement under its number as a grid of 2n+1 lines with a queen exactly in the occupied squares, so that different boards look different; nothing is printed twice, and 'all' or 'unique' is announced only if every placement was printed.",
  "all board sizes, limits, timeouts, clocks", "all sizes; tests do not read the output", ["src/satisfy/tool/demo_queens.py:queens","src/satisfy/tool/demo_queens.py:print_queens_board"])
p("C67","Printed sudoku schemas",
  "The sudoku demo prints the schema and its solutions as 13 lines of 31 characters where each cell shows its digit, or a dot if it is unknown; only schemas that differ in 0 for None look alike.",
  "all schemas", "all schemas", ["src/satisfy/tool/demo_sudoku.py:sudoku","src/satisfy/tool/demo_sudoku.py:print_sudoku_schema"])
p("C68","Printed cryptarithms are true",
  "The last line printed for a solution of a cryptarithm is the source with digits for its letters, and it is a true equation between numbers.",
  "all equations", "all equations and solutions", ["src/satisfy/tool/demo_cryptarithm.py:cryptarithm","src/satisfy/tool/demo_cryptarithm.py:print_cryptarithm_solution"])
p("C69","The printed answer of the riddle",
  "Without timeout (and with no limit below 2) the einstein demo prints one solution of five lines, marks the German's house as the one with the zebra, and announces a unique solution.",
  "all clocks, shuffles and limits", "all executions", ["src/satisfy/tool/demo_einstein_riddle.py:einstein","src/satisfy/tool/demo_einstein_riddle.py:print_einstein_riddle_solution"])
p("C70","Switches",
  "type_on_off accepts exactly on/true, off/false in any case and the texts of integers, the non-zero ones meaning on; it raises ValueError for all other texts.",
  "all ASCII texts", "all texts", ["src/satisfy/tool/__init__.py:type_on_off"])
p("C71","Printed nonograms",
  "The nonogram demo prints every yielded picture under its number, each once, with # for black cells, and 'all' or 'unique' is announced only if every picture matching the clues was printed.",
  "all positive clues that are not all empty", "all clues", ["src/satisfy/tool/demo_nonogram.py:nonogram","src/satisfy/tool/demo_nonogram.py:print_nonogram_pixmap"])
p("C72","What compiled expressions do when evaluation raises",
  "A compiled expression whose text is free of the precedence bugs evaluates from left to right and raises what its first failing operation raises, except that & and | skip their second operand when the first decides; so without & and | it raises exactly what evaluate() raises, with them it may return a value where evaluate() raises; it raises TypeError if a variable is missing.",
  "all expressions of the safe class of C05, all substitutions and parameter values", "all expressions; error paths",
  [E+":Expression.compile_py_function",E+":Expression.evaluate",E+":And",E+":Or"])
p("C73","Printed expressions are unambiguous",
  "Two expressions built with the operators from ints and the variables and parameters of one model that have the same str() have the same value (or raise the same exception) for every substitution.",
  "all pairs of formulas, all substitutions and parameter values", "quantifies over pairs of unbounded trees",
  [E+":BinOp.__str__",E+":Accumulation._as_str",E+":_make_accumulate",E+":Neg.__str__",E+":Const.__str__",E+":Variable.__str__"])
p("C74","free_vars() lists what is missing",
  "free_vars(substitution) yields exactly the variables of the expression that the substitution does not define, each once; if there are none, evaluate() raises no EvaluationError.",
  "all expressions and substitutions", "all expressions", [E+":Collection.free_vars",E+":UnOp.free_vars",E+":Variable.free_vars",E+":Parameter.free_vars"])
p("C75","Chained comparisons and Python's logical operators",
  "a < b < c, and the operators and, or, not, applied to expressions build expressions that mean what they say in Python.",
  "all formulas", "Python evaluates them silently to something else", [E+":Expression.__not__",E+":Collection.__len__",E+":Expression.__lt__"])
p("C76","The knapsack program",
  "satisfy-tool knapsack prints a feasible selection with its value and weights, announces optimality only of optimal selections, and its output can be read back.",
  "all instances, timeouts, limits", "all instances", ["src/satisfy/tool/demo_knapsack.py:knapsack","src/satisfy/tool/demo_utils.py:print_optimization_stats"])
p("C77","The graph labeling program",
  "satisfy-tool graph_labeling prints each proper colouring exactly once as a dict that can be read back, and a true summary.",
  "all graphs with distinct labels, timeouts, limits", "all graphs", ["src/satisfy/tool/demo_graph_labeling.py:graph_labeling"])
p("C78","The map colouring program",
  "satisfy-tool ascii_map_coloring prints colourings of the given map in which touching regions have different colours, and a true summary.",
  "all maps, colours, timeouts, limits", "all maps", ["src/satisfy/tool/demo_ascii_map_coloring.py:ascii_map_coloring"])
p("C79","The alternative search _solve_forbidden",
  "Solver._solve_forbidden enumerates the same solutions as solve.",
  "all models, constraints, policies, timeouts", "all models", ["src/satisfy/solver.py:Solver._solve_forbidden"])
p("C80","What the generated Python text means",
  "The source generated for an expression is read by Python as the expression given by a small precedence-aware specification: operators between disjunctions take only their neighbours, not takes as much as it can, a minus sign stays outside a power, and everything below -( ) and abs( ) is read with the symbols of __str__.",
  "all expressions whose names are not keywords or names of the generated code and whose sums and products have at least three printed values, whether faithfully printed or not",
  "unbounded nesting of forms printed without parentheses",
  ["src/satisfy/expression.py:Expression.py_source", "src/satisfy/expression.py:BinOp.py_expr", "src/satisfy/expression.py:Or.py_expr", "src/satisfy/expression.py:Not.py_expr", "src/satisfy/expression.py:Neg.py_expr"])
p("C81","The shown model is the model",
  "The output of show_model (print_model) determines the model: two models that are shown alike have the same variables with the same domains, constraints with the same meaning, and the same solutions.",
  "all models with identifier names whose expressions are built by the operators, all domain objects (tuple, list, set, range)",
  "unbounded models; texts of different kinds of constraints and domains might coincide",
  ["src/satisfy/tool/demo_utils.py:print_model", "src/satisfy/constraint.py:ExpressionConstraint.__str__", "src/satisfy/constraint.py:AllDifferentConstraint.__repr__"])
p("C82","Timeouts and limits keep the first results of a puzzle",
  "For each puzzle class, the results of an object with a timeout or a limit are the first results of the same object without them; all of them if nothing interrupted the enumeration; exactly the first n with a limit n >= 1 and no timeout (1 by default for sudoku and map colouring).",
  "all inputs of the puzzle classes, all policies, timeouts, limits and clocks",
  "the clock and the sizes of the puzzles are unbounded",
  ["src/satisfy/solver.py:Solver.solve", "src/satisfy/solver.py:ModelSolverBase", "src/satisfy/sudoku.py:SudokuSolver.__init__", "src/satisfy/tool/queens.py:QueensSolver", "src/satisfy/nonogram.py:NonogramSolver"])
p("C83","The programs read their input correctly",
  "json.loads accepts exactly the JSON texts and returns the value they denote; the sudoku, nonogram, knapsack and graph programs called with a file are the programs for the data in the file, with the built-in text if no file is given; other texts are errors of the right class; show_model inserts the model of the solver into the output and changes nothing else.",
  "all texts, timeouts, limits, clocks and orders of variables",
  "JSON texts are unbounded and nested, with escapes, repeated keys and blanks everywhere",
  ["src/satisfy/tool/demo_sudoku.py:sudoku", "src/satisfy/tool/demo_nonogram.py:nonogram", "src/satisfy/tool/demo_knapsack.py:knapsack", "src/satisfy/tool/demo_graph_labeling.py:graph_labeling", "src/satisfy/tool/demo_utils.py:print_model"])
p("C84","The command line is read correctly",
  "Each command accepts its options in all spellings (letter, long name, unambiguous beginning, value in the next word, after an equals sign or glued, flags in one word), in any order; its program runs exactly for the valid lines, with the last value of each option and the defaults otherwise; invalid values, unknown options and commands end with status 2 and help with status 0; words have at most one reading.",
  "all command lines without the word --, all files and conversions of timeouts",
  "command lines are unbounded sequences of words with many spellings for each option",
  ["src/satisfy/tool/__init__.py:main", "src/satisfy/tool/__init__.py:type_on_off"])
p("C85","Several models, solvers and enumerations in one program",
  "In a program with any number of models, solvers and enumerations, with constraints and parameters shared between them: every statement ends; a model is changed only by calls on it; an enumeration yields what its call would yield alone at the moment it is started, whatever is executed between its steps, if no parameter is assigned; solving one model does not depend on what is done with the others; the statistics of a solver count the solutions of its latest enumeration.",
  "all programs, models, solvers, interleavings, options, clocks",
  "programs and interleavings are unbounded and objects can be shared in any way",
  ["src/satisfy/solver.py:Solver.solve", "src/satisfy/model.py:Model", "src/satisfy/constraint.py:ExpressionConstraint.compile"])
p("C86","The representation of expressions, constraints and objectives",
  "repr() of an expression determines it: two expressions over the same variables and parameters with the same repr() are the same; likewise constraints (all-different constraints up to the order of their variables) and objectives; Python reads the repr() of an expression in exactly one way, and eval(repr(e)) makes e again.",
  "all expressions with ASCII names, constraints, objectives",
  "expressions are nested to any depth and names are arbitrary",
  ["src/satisfy/expression.py:Const.__repr__","src/satisfy/expression.py:Collection.__repr__","src/satisfy/expression.py:Accumulation.__repr__","src/satisfy/expression.py:Variable.__repr__","src/satisfy/constraint.py:AllDifferentConstraint.__repr__","src/satisfy/objective.py:Objective.__repr__"])
p("C87","Optimizations among the enumerations of a program",
  "A program may hold several generators of solve() and optimize(), of the same or different models and solvers, and call next() on them in any order. Each of them returns what it would return run alone from its first next() to its end; they leave the models as they are, except for the parameters that optimize() adds for its bounds, and they do not change the program's own parameters.",
  "all programs of calls on models, solve(), optimize(), next() and close(), in any order; compiling solvers, and any solvers in programs which compile nothing; no time limit",
  "the number of generators, their interleaving and the objectives are unbounded; a leak of the bounds of one optimization into another search shows only in particular interleavings",
  ["src/satisfy/solver.py:Solver.optimize","src/satisfy/solver.py:Solver.solve","src/satisfy/objective.py:MinMaxConstraint","src/satisfy/objective.py:MinMax.add_solution"])
p("C88","Variables and constraints added to a puzzle",
  "If the user adds variables, and constraints on them and on the puzzle's variables, to the model of a puzzle object before iterating over it, the results are exactly the results of the puzzle for which values of the added variables in their domains exist such that the added constraints hold, where each variable of the puzzle has the value that its result shows; a result comes once for each such choice of values. The exception are constraints both sides of which simplify to constants: adding them raises TypeError.",
  "all puzzles of the classes QueensSolver, GraphLabelingSolver, SudokuSolver, CryptarithmSolver, NonogramSolver and EinsteinRiddleSolver, all options, and all lists of added variables, of all-different constraints, and of constraints that have a value for all values in the domains of their variables",
  "the number and shape of the added constraints is unbounded, and they must agree with the auxiliary variables of the puzzle (the diagonals of the queens) and its reduced domains",
  ["src/satisfy/solver.py:ModelSolverBase.model","src/satisfy/tool/queens.py:QueensSolver","src/satisfy/graph_labeling.py:GraphLabelingSolver","src/satisfy/sudoku.py:SudokuSolver","src/satisfy/cryptarithm.py:CryptarithmSolver","src/satisfy/nonogram.py:NonogramSolver","src/satisfy/tool/einstein_riddle.py:EinsteinRiddleSolver"])
p("C89","Solutions belong to the caller",
  "A loop over solve() may do what it likes with the solutions it has received: every solution is a new dict that the search does not use again, so clearing or changing it does not change the solutions that follow or how the loop ends; solutions that are left alone keep their contents; and the search changes no object of the program, the domain lists given to add_int_variable in particular.",
  "all models, solver options and arguments, all contents of the program's dicts and lists, and all loop bodies, which may differ at every solution, that change received solutions, new objects and objects of the program that are not domains",
  "aliasing is invisible in tests that read the solutions but do not change them; the interleaving of the body with the search is unbounded",
  ["src/satisfy/solver.py:Solver.solve","src/satisfy/solver.py:Solver._setup","src/satisfy/model.py:Model.add_int_variable"])
p("C90","Puzzle objects can be used again",
  "A puzzle object can be iterated any number of times, completely or with break, while variables and constraints are added to its model and the timeout, limit and policy of its solver are set in between: nothing raises, and every iteration gives exactly the results allowed by what has been added before it, under the settings of that moment; iterating again gives the same list, which is also that of a new object with these settings and additions (without timeout and with a policy other than RANDOM); a loop left with break has received the first results.",
  "all sequences of additions, settings and loops, all puzzles of the six classes (with at least one variable), all options, clocks and shuffles (a different one in every loop)",
  "state left behind by an iteration (compiled constraints, timers, interrupts) shows only in sequences of uses, of which there are infinitely many",
  ["src/satisfy/solver.py:ModelSolverBase","src/satisfy/solver.py:Solver.solve","src/satisfy/constraint.py:ExpressionConstraint.compile","src/satisfy/nonogram.py:NonogramSolver.__iter__"])
p("C91","Puzzles can share a Model",
  "Puzzles of the six classes and variables and constraints of the user can be put into one Model (model=m), in any order: if no puzzle has a variable that is there already, nothing raises and iterating one of the puzzles gives exactly its solutions in the combinations (values of the user's variables, a solution of every puzzle) that meet all the constraints, each combination once, under the options of the Solver it was given (solver=s) or else its own; without relating constraints these are all combinations; a puzzle with a variable that is there already raises ValueError.",
  "all programs of such statements, all arguments of the puzzles, all options, clocks and shuffles",
  "the classes are only ever tested alone, with a Model of their own; the combinations of puzzles are infinitely many",
  ["src/satisfy/solver.py:ModelSolverBase","src/satisfy/solver.py:ModelSolver","src/satisfy/model.py:Model._get_variable","src/satisfy/solver.py:Solver.solve"])
p("C92","Knapsack problems with additions",
  "If the user adds variables and constraints to the model of a KnapsackOptimizer before calling it, the call returns and does not raise; the reported selection is a packing that meets the added constraints for some values of the added variables, with its value and weights; without a selection and without an interrupt there is no such packing; a selection reported as optimal has the greatest value among them if no value is negative and two values are not 0 (it need not if there is one item and an added variable).",
  "all values, capacities, weights, additions (C88) without parameters, options, clocks and shuffles",
  "the knapsack is only ever tested with a fixed instance and no further constraints",
  ["src/satisfy/knapsack.py:KnapsackOptimizer","src/satisfy/solver.py:ModelOptimizer","src/satisfy/solver.py:ModelSolverBase","src/satisfy/solver.py:Solver.optimize"])
p("C93","What the search extends",
  "The partial assignments with which Solver.solve tests the values of a further variable bind the first variables of one fixed order of the variables to values of their domains, violate no constraint whose variables are all bound and give no two variables of an all-different constraint the same value; none is tried twice, they come depth first (before their extensions, otherwise in lexicographic order), and unless an exception, the limit or the timeout ends the search, every such partial assignment is tried. Then the loop takes two iterations for each of them and one for each solution, less one.",
  "all models, solvers, options, clocks and shuffles; observed by recording, which changes nothing (C93_observing)",
  "pruning only shows in running time, which no test looks at, and only for particular models",
  ["src/satisfy/solver.py:Solver.solve"])
p("C94","What an optimisation extends",
  "The partial assignments with which Solver.optimize tests the values of a further variable bind the first variables of one fixed order, come depth first and are never tried twice; an assignment is extended, or yielded if it binds all variables, only if it violates no constraint and each value in it that completed an objective of several variables gave that objective a better value than the last solution yielded before the values of that variable were tested; unless an exception, the limit or the timeout ends the search, every such assignment is extended or yielded.",
  "all models, objectives, solvers, options, clocks and shuffles; observed by recording, which changes nothing (C94_observing)",
  "how much a bound prunes only shows in running time; which assignments are pruned depends on the order in which solutions were found",
  ["src/satisfy/solver.py:Solver.optimize", "src/satisfy/solver.py:Solver.solve", "src/satisfy/objective.py:MinMaxConstraint"])
p("C95","Limits, timeouts and statistics of optimisations",
  "An optimisation with any limit and timeout yields the first solutions of the one without, of the same model and objectives; all of them unless an interrupt is reported; with limit n at most max(n, 1), in which case the limit is reported; a reported timeout means that the elapsed time had exceeded it. The reported count is the number of solutions found and the reported time the sum of disjoint intervals, one per solution. An exception comes from an argument that is not an Objective, a constraint that raises, an ill-formed all-different constraint, an INFINITY argument, or an objective without a value.",
  "all models, objectives, solvers, options and pairs of clocks, after any earlier searches",
  "needs every limit, every behaviour of the clock and a comparison of two runs; the bound moves with each solution found",
  ["src/satisfy/solver.py:Solver.optimize", "src/satisfy/solver.py:Solver.solve", "src/satisfy/solver.py:Solver.get_stats"])
p("C96","What the puzzle objects try",
  "While a GraphLabelingSolver is consumed, the partial labelings that the search extends are exactly those of the first nodes in which adjacent nodes differ, each once, in the given order of the nodes by default; likewise a SudokuSolver extends exactly the ways to fill the first blank cells without a repetition in a row, column or block. A QueensSolver of size n >= 2, with its default policy, extends all the placements of queens of whole rows in different columns, also those in which queens attack each other in a diagonal, so that an uninterrupted search takes more than 2 n! iterations.",
  "all graphs without loops, label sets, sudoku schemas, board sizes, options, clocks and permutations",
  "tests see the solutions only, not what the search tried, and cannot run over all sizes",
  ["src/satisfy/graph_labeling.py:GraphLabelingSolver.__iter__", "src/satisfy/sudoku.py:SudokuSolver.__iter__", "src/satisfy/tool/queens.py:QueensSolver.__init__", "src/satisfy/tool/queens.py:QueensSolver.__iter__", "src/satisfy/solver.py:Solver.solve"])
p("C97","The digits tried for a cryptarithm",
  "If the truth of the equation depends on every letter, a CryptarithmSolver extends exactly the assignments of different digits to the first letters of some order that give no word a leading 0, each once: the equation is tested with all the letters only and rules out no partial assignment. With k + 1 letters, an uninterrupted search therefore takes at least 2 * 9 * 8 * ... * (10 - k) - 1 iterations.",
  "all texts of equations, orders of the set of letters, options, clocks and permutations",
  "tests see the solutions only, not what the search tried, and cannot run over all equations",
  ["src/satisfy/cryptarithm.py:CryptarithmSolver.__init__", "src/satisfy/solver.py:ModelSolver.__iter__", "src/satisfy/solver.py:Solver.solve"])
p("C98","The runs drawn by the search for nonograms",
  "NonogramSolver extends exactly the drawings of the first runs of some order of all runs, each drawn within its room in the line (the other runs of the line fit before and behind it) and behind the previous run of the line, for which row and column agree about every cell such that all runs that can cover it or end just before it are drawn; each drawing once. The narrower test, which does not wait for runs that can only end just before the cell, is not what the code does.",
  "all nonograms with positive clues, options, clocks and permutations",
  "tests see the solutions only, not what the search tried, and cannot run over all nonograms",
  ["src/satisfy/nonogram.py:NonogramSolver.__init__", "src/satisfy/nonogram.py:NonogramSolver.__iter__", "src/satisfy/solver.py:Solver.solve"])
p("C99","The selections tried by the search for knapsack problems",
  "The search of a KnapsackOptimizer extends only selections of the first items of some order that exceed no capacity for which every item with a weight other than 0 is decided, each once, and, uninterrupted, all of them as long as an item with a value is undecided. Hence, if every item has a value and a weight for every capacity, exactly 2^n - 1 selections are extended: no capacity ever cuts the search. What is returned is the last solution found. That a selection is given up as soon as its items exceed a capacity is not what the code does.",
  "all well-formed knapsack problems, options, clocks and permutations",
  "tests see the result only, not what the search tried, and cannot run over all problems",
  ["src/satisfy/knapsack.py:KnapsackOptimizer.__init__", "src/satisfy/knapsack.py:KnapsackOptimizer.__call__", "src/satisfy/solver.py:Solver.solve", "src/satisfy/solver.py:Solver.optimize"])
p("C100","The number of iterations of optimisations",
  "In an optimisation that is neither interrupted nor raises, the loop of the search begins 2 * t + s - 1 iterations for t > 0 extended partial assignments and s solutions found, and otherwise at most 2 more, although the objectives' constraints change during the search. Hence the search of a KnapsackOptimizer with n items begins at most 2^(n+1) + s - 1 iterations, and exactly 2^(n+1) + s - 3 if it is not interrupted and every item has a value and a weight for every capacity.",
  "all models, objectives, options, clocks and permutations; all well-formed knapsack problems",
  "tests do not count iterations, and cannot run over all models",
  ["src/satisfy/solver.py:Solver.solve", "src/satisfy/solver.py:Solver.optimize", "src/satisfy/knapsack.py:KnapsackOptimizer.__call__"])
p("C101","The order and number of the solutions of optimisations",
  "However it ends and whatever the objectives are, optimize finds no solution twice, and the solutions come in the lexicographic order of the declared domains for one order of the variables (that of the policy, where it fixes one). A KnapsackOptimizer with n items finds at most 2^n solutions, each a selection of the items, and begins less than 3 * 2^n iterations.",
  "all models, objectives, options, limits, timeouts, clocks and permutations; all well-formed knapsack problems",
  "tests compare single results; they cannot exclude a repeated solution for all models",
  ["src/satisfy/solver.py:Solver.solve", "src/satisfy/solver.py:Solver.optimize", "src/satisfy/knapsack.py:KnapsackOptimizer.__call__"])
p("C102","The work of the search and the sizes of the domains",
  "However it ends and whatever the constraints and objectives are, the search of solve or optimize extends at most 1 + d1 + d1*d2 + ... partial assignments and finds at most d1*...*dn solutions, where d1, ..., dn are the sizes of the declared domains in the order of the policy, and begins at most 2 * (1 + d1 + d1*d2 + ...) + d1*...*dn + 1 iterations. With MIN_BOUND this bound is the smallest possible over all orders of the variables. That MIN_BOUND never needs more iterations than another policy is false: it ignores what constraints on one variable leave of its domain.",
  "all models, constraints, objectives, policies, limits, timeouts, clocks and permutations",
  "tests do not count the work of the search, and cannot run over all models and orders",
  ["src/satisfy/solver.py:Solver.solve", "src/satisfy/solver.py:Solver.optimize"])
out = os.path.join(os.path.dirname(__file__), "..", "properties.jsonl")
with open(out, "w") as f:
    for x in P: f.write(json.dumps(x) + "\n")
print(len(P))
