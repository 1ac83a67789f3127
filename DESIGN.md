# satisfy - formal model and proofs (Rocq / Coq 8.16.1)

## Approach

Shallow, executable Gallina model, function by function, of `/repo/src/satisfy`.
Exceptions are values (`res A = Ok a | Err exn`).  Mutable objects (parameters, compiled
constraint functions, the Model object, timers, the solver's `_interrupt`) live in an
explicit `world`/`env` record that is threaded through.  Generators are step machines
emitting events.  Python's `eval` of generated text is modelled by a lexer, a
recursive-descent parser and an evaluator for the expression sub-language that the library
generates, so that operator-precedence bugs in `py_expr` are visible.

Each property is stated in a `Properties_*.v` file against a `Spec*.v` file that says what
is meant without using the model's helpers.  A property that is false of the code is
refuted by a witness (`…_refuted`), what holds of it is proved with the suffix `_partial`,
and where possible a companion theorem says what the code does instead.

## Files

Model files (no proofs):

| file | models |
|---|---|
| `Py.v` | exceptions, `res`, dicts, Python int operators |
| `Dec.v` | `str(int)` |
| `Expr.v` | `expression.py`: classes, operator overloading, simplifier, `vars`, `free_vars`, `evaluate`, `equals` |
| `PyText.v` | `__str__`, `py_expr`, `py_source`, Python lexer/parser/evaluator, `as_function` |
| `Repr.v` | `__repr__` of expressions, constraints and objectives; what Python's `eval` does with the text |
| `PyLogic.v` | Python's `and`, `or`, `not`, chained comparisons on expression objects |
| `Model.v` | `constraint.py`, `model.py` |
| `Solver.v` | `utils.Timer`, `solver.py` (`_setup`, variable orders, `solve`, `get_stats`) |
| `PuzzleAgain.v` | a puzzle object that is used several times: additions, settings, loops with `break` |
| `PuzzleShared.v` | puzzles of the six classes with the arguments `model=` and `solver=` |
| `KnapsackUser.v` | a KnapsackOptimizer to whose model the user adds variables and constraints |
| `SolverWatch.v` | the generator of `Solver.v`, with a record of the partial assignments it tries to extend and the number of its iterations |
| `PuzzleWatch.v` `CryWatch.v` `NonogramWatch.v` `KnapsackWatch.v` | the same record for the searches of `QueensSolver`, `GraphLabelingSolver`, `SudokuSolver`, `CryptarithmSolver`, `NonogramSolver` and (as for optimisations) `KnapsackOptimizer` |
| `OptimizeCost.v` | the iterations of the search loop (solver.py:234) of optimisations and of `KnapsackOptimizer` |
| `OptimizeWatch.v` | the loop of `optimize`, with a record of what it tries to extend and what it finds |
| `HeapSolver.v` | the loop of `solve` with dicts and lists as mutable objects |
| `Program.v` | programs with several Model and Solver objects and enumerations |
| `OptProgram.v` | programs with optimizations as well |
| `PuzzleUser.v` | puzzles to whose model the user adds variables and constraints |
| `Forbidden.v` | `Solver._solve_forbidden` |
| `Optimize.v` | `objective.py`, `Solver.optimize`, `Solver.optimal_solution` |
| `Puzzle.v` | `ModelSolverBase`, `ModelSolver`, and what the puzzle classes have in common |
| `Knapsack.v` `Sudoku.v` `Nonogram.v` `Graph.v` `Cryptarithm.v` | `knapsack.py` `sudoku.py` `nonogram.py` `graph_labeling.py` `cryptarithm.py` |
| `Queens.v` `AsciiMap.v` `Einstein.v` | `tool/queens.py` `tool/ascii_map_coloring.py` `tool/einstein_riddle.py` |
| `DemoImage.v` `DemoStats.v` `DemoArgs.v` | image functions of `demo_nonogram.py`; `demo_utils.py`; `type_on_off` |
| `DemoPrint.v` `DemoRun.v` `DemoMore.v` `DemoModel.v` | the printing functions and the demo programs of `tool/`; `print_model` |
| `DemoMain.v` | `main` of `tool/__init__.py`, with `argparse` of CPython |
| `Json.v` `DemoInput.v` | `json.loads` of CPython; the functions of the subcommands, with their input, the built-in data and `show_model` |

`Spec*.v` are specifications; `*Facts.v`, `*Props.v`, `*More.v`, `*Extra.v`, `*Run.v`,
`*Cases.v`, `CryptarithmText.v`, `CryptarithmWord.v`, `CryptarithmChain.v`, `AsciiCells.v`, `AsciiGroups.v`,
`EinsteinUnique.v`, `OptimizeSingle.v`, `KnapsackSingle.v`, `InterleaveStats.v`, `ProgramInv.v`, `ProgramStats.v`, `ProgramTotal.v`, `ProgramMore.v`, `OptProgramInv.v`, `OptProgramSim.v`, `OptProgramTotal.v`, `SolverAgain.v`, `PuzzleAgainFacts.v`, `PuzzleAgainProps.v`, `PuzzleFrame.v`, `PuzzleSharedFacts.v`, `PuzzleSharedProps.v`, `ParamFacts.v`, `KnapsackUserFacts.v`, `WatchFacts.v`, `WatchProps.v`, `WatchCost.v`, `WatchCases.v`, `BoundFacts.v`, `BoundProps.v`, `BoundCases.v`, `OptimizeCut.v`, `OptimizeErrors.v`, `CutCases.v`, `TriesFacts.v`, `TriesGraph.v`, `TriesQueens.v`, `TriesSudoku.v`, `TriesCry.v`, `DigitsCases.v`, `TriesRuns.v`, `TriesRuns2.v`, `TriesRuns3.v`, `RunsCases.v`, `TriesKnap.v`, `TriesKnap2.v`, `TriesKnap3.v`, `KnapCases.v`, `CostOptimize.v`, `CostKnap.v`, `CostKnap2.v`, `OptimizeOrder.v`, `OptimizeVisits.v`, `PruneFacts.v`, `TruncateFacts.v`, `SameFacts.v`, `CostSpace.v`, `CostSpace2.v`, `CostSpace3.v`, `SpaceCases.v`, `VisitCases.v`, `PruneCases.v`, `TriesCases.v`, `PuzzleRel.v`, `PuzzleUserFacts.v`, `PuzzleUserRel.v`, `PuzzleUserProps.v`, `PuzzleUserProps2.v`,
`ReadingSolve.v`, `PuzzleTruncate.v`, `PuzzleOrder.v`, `PuzzleCuts.v`, `CryptarithmCut.v` are proofs; `Properties_*.v` hold only the property theorems, each closed
by `exact` and followed by `Print Assumptions`, and Examples.

## Per-property plan

* C01-C03: denotation `uden` of user formulas over total assignments (spec) vs `build` (operator overloading) then `evaluate`; case analysis on operand classes and induction on formulas.
* C04: induction on expressions.
* C05: text -> tokens -> AST round trip for a syntactic "safe" fragment (`_partial`); precedence counter-examples (`_refuted`).  C80: the exact reading of every text, faithful or not, against a token-free specification; fuel monotonicity of the parser for the texts that do not parse.  C72: the same for evaluations that raise, against a specification with short-circuit `and`/`or`.
* C06, C07, C08: counter-examples in the model (`_refuted`); `Properties_Exact.v` says exactly what happens.
* C09: world-history model; proved for compiling solvers, `_refuted` for a non-compiling solver after a compiling one.
* C10-C12: invariants over all histories of model operations.
* C13: history theorem; C14, C15: `_refuted`.
* C16-C22, C24, C25, C28, C30-C32, C57-C60, C62, C63: the stack machine is proved equivalent to a recursive search, which is proved equivalent to the declarative solution set; limit/timeout are truncations of the machine's event sequence under an arbitrary clock oracle.  C23, C29 `_refuted`.
* C26: `_refuted` (last segment is lost) and exact formula for what is reported.  C27: stopwatch refinement.
* C33 `_refuted` with its exact replacement for every schedule (whose count and whose interrupt get_stats reports), C34 proved: any number of generators of one solver advanced in any order.  C65: a consumer that changes the program's objects between two solutions.
* C35, C37-C40: generalised search with a world transformer at each solution.  C36, C39 `_refuted` + `_partial` (monotone objective).
* C41-C43: knapsack.  C42 `_refuted` + `_partial`.  C43 `_refuted`.
* C44-C56, C61: each puzzle constructor is modelled as model-building calls; the built model's solution set is related to the puzzle's specification and combined with C16-C18.
* C64, C66-C71, C76-C78: the programs as functions from arguments to the list of printed texts; what is printed is described by the specification of the puzzle.
* C73: a parser for `__str__` and a round trip.  C74, C75: induction and case analysis.  C79: a simulation of the search of `solve`; `_refuted` for the rest.  C81: injectivity of the output, with the parser of C73.
* C83: a grammar of JSON and the scanner, by mutual induction; then the programs are those of C64-C78.
* C84: a relation between words and options for any well-formed table of options, equivalent to the parser; then the last value of each option by induction from the end.
* C85: invariants over all runs of a program; an enumeration in the program is simulated by the same call alone; a weight of the search stack that decreases whatever the constraints answer.
* C86: the texts are proved to be read in one way by a grammar (`reads`, in the specification: calls, numbers, string literals, keyword arguments) and to be produced from the tree of the expression; injectivity follows.  `eval` is `_refuted` for Sum, Prod and parameters, exact otherwise (`_partial`).
* C87: the invariant of C85 extended by the parameters that optimizations keep to themselves; an optimization in the program is simulated by `optimize_all` in the model it finds, step by step.
* C88: the premises of C44 to C52 for each puzzle class are kept as one statement (`describes`).  A model built so far is described relative to the values that its variables may have (`rbuilt` in `PuzzleRel.v`), so that added constraints such as `x % y == 0` need a value on the domains only; variables that the simplification of an expression drops are given any value of their domains.  With added variables the results are the first components of an exact enumeration of pairs (result, values of the added variables).
* C89: a heap of dicts and lists; the abstraction function to the values of `Solver.v` commutes with every step, since the search writes only to objects that nobody else knows.  `_refuted` for domain lists changed by the program.
* C90: the description of a model built so far allows constraints that an earlier iteration has compiled; an iteration changes the state of the program by compiling a prefix of the constraints only.
* C91: what a constructor adds to a model (`adds`) is a derivation from calls, so that the same calls can be followed in a model that has other variables already, or to the first call that fails.
* C92: the premises of C34 to C39 from the description of the model used in C88; added variables do not change the objective.  `_partial` and `_refuted` as C42.
* C93: what remains to be extended is a function of the stack and the stored domains, and each iteration takes its first element if it computes a domain; the elements are the nodes of the tree of accepted prefixes, which are the consistent ones. The cost follows from a weight of the stack that each iteration lowers by one.
* C94: the invariant of C93 for a filter that changes with the solutions found: the record so far determines which values were worth trying when a domain was computed (`reached`), and the stored domains are the kept values. `_refuted`: a domain is not filtered again when a better solution is found.
* C95: the real loop against the untimed one, for a loop body that changes the state and may raise; the untimed one depends on neither clock nor limits.
* C96: C93 on the built models of the puzzles; for the queens, C62 gives that their group comes first, and an enumeration of the permutations gives the factorial.
* C97: as C96; that simplification loses no letter follows from the meaning of the built expression, not from its shape.
* C98: as C97.  The runs that the constraint of a cell mentions are consecutive, so at most one of them covers the cell once they are drawn.
* C99: C94 on the built model; the items that a capacity or the objective mentions are those with a weight or value other than 0 (`x * 0` is simplified to 0, and the others matter for the meaning).
* C100: the counting of C93 (every extended assignment costs two iterations, a solution one) holds for one step of the loop in any world, so also when the objectives' constraints change between the steps; for the knapsack, the number of selections from C99.
* C101: with any consumer, what the search finds is a subsequence of the list of all assignments, which is in lexicographic order. Its order of the variables is that of `solve` with the constraints made from the objectives as additional ones (C101_policy).
* C102: the extended assignments and the solutions are different members of lists of known length (C93, C94's record with a trivial invariant, C101); exchanging two neighbours shows that ascending sizes give the smallest tree.
* C103: C93 says exactly which partial assignments a complete search extends; the compiled code of a constraint does not depend on the other constraints, so these sets can be compared.
* C104: both searches walk the same tree (C93), the second one a prefix of it.
* C105: C103 in both directions; lists sorted by the same asymmetric relation with the same members are equal.
  The number of constraints on a variable does not change under permutations, so MIN_CONSTRAINT and MAX_CONSTRAINT keep the order;
  GROUPS numbers the all-different constraints and does not.

## Not modelled

* Floats: true division of two ints and negative powers give the error value `FloatResult`.  The clock is an integer, advanced by an arbitrary oracle.
* Domain values that are not ints; domains that are not sequences (a one-shot iterator); names that are not ASCII.
* Python's recursion and parser nesting limits, the digit limit of `int`/`str` conversion, memory.
* Text that the library does not generate: a character outside the generated sub-language is a `SyntaxError`, and `sum`/`prod` occur only as functions being called.
* `Expression.evaluate(**kw)` called by the failing fallback is always a `TypeError`, also if a variable is named `substitution`.
* Hash order of sets: irrelevant to the result (`frozenset` in `_setup`), or an explicit parameter (`cryptarithm.py`, `ascii_map_coloring.py`), or ascending (small ints in `sudoku.py`).
* `random.shuffle` is an arbitrary function of the list assumed to return a permutation.  In statements about several calls of `solve` or several generators, each has a function of its own (C20, C30, C31, C33, C34, C40, C85, C87, C90): two generators with the policy RANDOM may shuffle the same list in different ways.  The exceptions are the statements comparing the same call with different options (C22, C23, C24, C36, C60), where both runs shuffle alike: they say what the option changes, given the same random choices.
* Outside `Program.v` a program has one Model object (C85_valid carries the theorems about a call of `solve` over to programs with several); the puzzle classes create their own Model and Solver (in `PuzzleUser.v`, `KnapsackUser.v` and `PuzzleAgain.v` the user adds variables and constraints to that Model, no parameters) except in `PuzzleShared.v`.  In `Program.v` and `OptProgram.v` exceptions are caught statement by statement.  In `Optimize.v` the caller of `optimize` only collects solutions (in `OptProgram.v` it does anything between two calls of `next`), and if an exception leaves `optimize`, assignments made by the step that raised are dropped.
* Puzzles: `board_size` is a natural number; nodes, labels and colours are strings; sudoku entries are ints or None and domains are computed directly instead of by emptying sets; nonogram `VarInfo` is kept with the variable's name; knapsack rows are indexable sequences; cryptarithm sources are ASCII and the class of an exception raised by `eval` of other texts is not specified; maps are ASCII lines, group numbers are written as strings, `networkx` graphs keep insertion order, `termcolor.colored` is a parameter; the riddle's variables are represented by their names.
* Programs: output is the list of printed texts as UTF-8, and output before an exception is dropped; domain objects are tuples, lists, sets or ranges; of `argparse` (CPython 3.8 to 3.11) the word `--` and the texts of help and errors are not modelled, and the contents of files and `float` are parameters; JSON texts are sequences of bytes, floats in them are one value, and documents whose data has other types than expected are not modelled (the result is `None`); `networkx.node_link_graph` is modelled for undirected graphs whose nodes are strings; the format `{:.3f}` of elapsed times is a parameter; `repr` is that of ASCII strings; `type_on_off` is for ASCII texts.
* `repr`: names are ASCII strings (for which `repr(str)` is the model `py_repr` of `DemoMore.v`), and Const objects hold ints; the reading of `eval` is the part of Python's grammar of which the texts are made.
* Logging.

The comment above each definition says where it simplifies the code.

## Trusted base

* Coq 8.16.1's kernel, including its `vm_compute` reduction machine.
* Assumptions: none.  `Print Assumptions` is run on every theorem of every `Properties_*.v` file and answers "Closed under the global context" for each of them; there is no axiom of the standard library or of this development.
* That the model is the code: the definitions in the model files were written by reading `/repo` and cite files and lines.  They were never run against the Python code.  The parts modelled are those of the table above, with the exceptions just listed.
* That CPython behaves as `Py.v`, `Dec.v`, `PyText.v` and `PyLogic.v` say (integer arithmetic, `str` of ints, precedence and chaining of operators, short-circuit evaluation, insertion order of dicts, stability of `sorted`).
* That the specifications (`Spec*.v`) and the statements in `Properties_*.v` say what the titles in `properties.jsonl` mean.  The seeded bugs of `seeded/LOG.jsonl` test this: each line is an edit of the model that falsifies a claim, with the theorems that stopped proving.
