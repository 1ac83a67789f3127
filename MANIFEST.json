{
 "claims": [
  {
   "property": "C01",
   "status": "proved",
   "theorems": [
    "C01_undefined",
    "C01_arithmetic_operators",
    "C01_unary_operators"
   ],
   "note": ""
  },
  {
   "property": "C02",
   "status": "proved",
   "theorems": [
    "C02_comparison_operators",
    "C02_logical_operators"
   ],
   "note": "for & and | at least one operand is an Expression; two ints are plain Python"
  },
  {
   "property": "C03",
   "status": "proved",
   "theorems": [
    "C03_formula_meaning",
    "C03_formula_builds",
    "C03_logic_on_collapsed_constants_refuted"
   ],
   "note": "& and | are given a meaning on truth values 0/1; the refuted theorem shows why"
  },
  {
   "property": "C04",
   "status": "proved",
   "theorems": [
    "C04_vars",
    "C04_vars_of_formula"
   ],
   "note": ""
  },
  {
   "property": "C05",
   "status": "partial",
   "theorems": [
    "C05_compiled_agrees_partial",
    "C05_compiled_formula_partial",
    "C05_or_inside_and_refuted",
    "C05_abs_of_and_refuted",
    "C05_pow_of_neg_refuted",
    "C05_not_inside_eq_refuted"
   ],
   "note": "false of the code in general (precedence bugs in the generated text); proved for all expressions of a syntactic safe class and all formulas of a safe class, for evaluations that do not raise"
  },
  {
   "property": "C06",
   "status": "partial",
   "theorems": [
    "C06_fallback_refuted",
    "C06_keyword_name_refuted",
    "C06_keywords",
    "C06_no_fallback_needed_partial",
    "C06_fallback_iff",
    "C06_formula_compiles",
    "C06_no_solution"
   ],
   "note": "false of the code: the fallback is called with keyword arguments and raises TypeError; proved exactly which expressions fall back, and that no formula written with operators does"
  },
  {
   "property": "C07",
   "status": "partial",
   "theorems": [
    "C07_equals_refuted",
    "C07_equals_atoms_partial",
    "C07_equals_operators",
    "C07_equals_unary",
    "C07_equals_collections"
   ],
   "note": "false of the code: operands are compared by the truth value of an Eq object"
  },
  {
   "property": "C08",
   "status": "partial",
   "theorems": [
    "C08_int_div_expr_refuted",
    "C08_expr_div_int_partial"
   ],
   "note": "false of the code: int / expr always raises TypeError"
  },
  {
   "property": "C09",
   "status": "partial",
   "theorems": [
    "C09_parameter_update_partial",
    "C09_stale_refuted"
   ],
   "note": "false when a compiled constraint is later used by a solver with compile_constraints=False; proved when the solver compiles (safe class) or the constraints were never compiled"
  },
  {
   "property": "C10",
   "status": "proved",
   "theorems": [
    "C10_names_unique",
    "C10_auto_variable",
    "C10_auto_parameter",
    "C10_duplicate_rejected",
    "C10_entry_stable",
    "C10_parameters_separate",
    "C10_parameter_value",
    "C10_domain"
   ],
   "note": ""
  },
  {
   "property": "C100",
   "status": "proved",
   "theorems": [
    "C100_optimize",
    "C100_knapsack"
   ],
   "note": "iterations of the while loop of solver.py:234 are counted, not the tests of values inside one iteration"
  },
  {
   "property": "C101",
   "status": "proved",
   "theorems": [
    "C101_order",
    "C101_policy",
    "C101_knapsack"
   ],
   "note": "domains without repeated values (opt_valid)"
  },
  {
   "property": "C102",
   "status": "proved",
   "theorems": [
    "C102_solve",
    "C102_exact",
    "C102_min_bound",
    "C102_min_bound_refuted",
    "C102_optimize",
    "C102_optimize_min_bound"
   ],
   "note": "the refuted claim: MIN_BOUND never needs more iterations than another policy.  For optimize the order is not identified for GROUPS, MIN_CONSTRAINT and MAX_CONSTRAINT, which also count the constraints made from the objectives"
  },
  {
   "property": "C103",
   "status": "proved",
   "theorems": [
    "C103_prune",
    "C103_groups_refuted"
   ],
   "note": "the refuted claim: the same with the policy GROUPS"
  },
  {
   "property": "C104",
   "status": "proved",
   "theorems": [
    "C104_truncated"
   ],
   "note": "for the same shuffling of the variables, if the policy is RANDOM"
  },
  {
   "property": "C105",
   "status": "proved",
   "theorems": [
    "C105_same",
    "C105_permuted",
    "C105_groups_refuted",
    "C105_repeated_refuted"
   ],
   "note": "Equal searches for the policies that do not look at the constraints, and for permutations with every policy but GROUPS; refuted for permutations with GROUPS and for repetitions with MAX_CONSTRAINT."
  },
  {
   "property": "C11",
   "status": "proved",
   "theorems": [
    "C11_constraints_declared"
   ],
   "note": ""
  },
  {
   "property": "C12",
   "status": "proved",
   "theorems": [
    "C12_failing_call"
   ],
   "note": ""
  },
  {
   "property": "C13",
   "status": "proved",
   "theorems": [
    "C13_constant_expression",
    "C13_constant_bool",
    "C13_unsolvable_forever",
    "C13_no_solution"
   ],
   "note": ""
  },
  {
   "property": "C14",
   "status": "partial",
   "theorems": [
    "C14_set_solvable_refuted",
    "C14_no_effect"
   ],
   "note": "false of the code: set_solvable assigns another attribute"
  },
  {
   "property": "C15",
   "status": "partial",
   "theorems": [
    "C15_parameter_only_refuted",
    "C15_frozen"
   ],
   "note": "false of the code: evaluated once, when added"
  },
  {
   "property": "C16",
   "status": "proved",
   "theorems": [
    "C16_sound",
    "C16_valid_reachable"
   ],
   "note": ""
  },
  {
   "property": "C17",
   "status": "proved",
   "theorems": [
    "C17_complete"
   ],
   "note": ""
  },
  {
   "property": "C18",
   "status": "proved",
   "theorems": [
    "C18_distinct"
   ],
   "note": ""
  },
  {
   "property": "C19",
   "status": "proved",
   "theorems": [
    "C19_terminates"
   ],
   "note": ""
  },
  {
   "property": "C20",
   "status": "proved",
   "theorems": [
    "C20_policy_independent",
    "C21_ordered"
   ],
   "note": ""
  },
  {
   "property": "C21",
   "status": "proved",
   "theorems": [
    "C21_ordered"
   ],
   "note": ""
  },
  {
   "property": "C22",
   "status": "proved",
   "theorems": [
    "C22_limit_truncates"
   ],
   "note": ""
  },
  {
   "property": "C23",
   "status": "partial",
   "theorems": [
    "C23_limit_zero_refuted",
    "C23_low_limit"
   ],
   "note": "false of the code: one solution is yielded"
  },
  {
   "property": "C24",
   "status": "proved",
   "theorems": [
    "C24_timeout_truncates"
   ],
   "note": ""
  },
  {
   "property": "C25",
   "status": "proved",
   "theorems": [
    "C25_stats_exhaustive",
    "C25_interrupts"
   ],
   "note": ""
  },
  {
   "property": "C26",
   "status": "partial",
   "theorems": [
    "C26_elapsed_partial",
    "C26_elapsed_refuted"
   ],
   "note": "false of the code: the time after the last solution is not counted; proved what elapsed is"
  },
  {
   "property": "C27",
   "status": "proved",
   "theorems": [
    "C27_stopwatch",
    "C27_errors",
    "C27_solver_discipline"
   ],
   "note": ""
  },
  {
   "property": "C28",
   "status": "proved",
   "theorems": [
    "C28_alldiff_evaluate",
    "C28_alldiff_enforced",
    "C17_complete"
   ],
   "note": ""
  },
  {
   "property": "C29",
   "status": "partial",
   "theorems": [
    "C29_no_variables_refuted",
    "C29_yields_partial"
   ],
   "note": "false of the code"
  },
  {
   "property": "C30",
   "status": "partial",
   "theorems": [
    "C30_additional_partial",
    "C30_constant_refuted"
   ],
   "note": "false for additional constraints without variables, which are ignored; proved for the others"
  },
  {
   "property": "C31",
   "status": "proved",
   "theorems": [
    "C31_solve_again",
    "C31_random",
    "C31_random_refuted",
    "C31_model_unchanged"
   ],
   "note": "with the policy RANDOM the same solutions, in an order that may differ (the refuted statement is that the sequence is the same)"
  },
  {
   "property": "C32",
   "status": "proved",
   "theorems": [
    "C32_exceptions",
    "C32_generator_finished"
   ],
   "note": ""
  },
  {
   "property": "C33",
   "status": "partial",
   "theorems": [
    "C33_interleaved_stats_refuted",
    "C33_interleaved_count",
    "C33_interleaved_interrupt"
   ],
   "note": "false of the code; for every schedule: the count is that of the enumeration started last, the interrupt (without timeouts) that of any enumeration interrupted since"
  },
  {
   "property": "C34",
   "status": "proved",
   "theorems": [
    "C34_interleaved",
    "C34_interleaved_runs"
   ],
   "note": "any number of enumerations of one solver, without timeout"
  },
  {
   "property": "C35",
   "status": "proved",
   "theorems": [
    "C35_valid_reachable",
    "C35_feasible",
    "C35_feasible_holds"
   ],
   "note": ""
  },
  {
   "property": "C36",
   "status": "partial",
   "theorems": [
    "C36_single_variable_refuted",
    "C36_several_variables_refuted",
    "C36_optimal_partial",
    "C36_single_variable",
    "C36_last_solution"
   ],
   "note": "false of the code; proved for objectives that get no worse along the domains (and are not over a single variable chosen later)"
  },
  {
   "property": "C37",
   "status": "proved",
   "theorems": [
    "C37_best_found",
    "C37_best_exists",
    "C37_covers"
   ],
   "note": ""
  },
  {
   "property": "C38",
   "status": "proved",
   "theorems": [
    "C38_terminates",
    "C38_found",
    "C38_flag",
    "C38_none"
   ],
   "note": ""
  },
  {
   "property": "C39",
   "status": "partial",
   "theorems": [
    "C39_improves_refuted",
    "C39_never_worse_partial",
    "C39_strict_partial"
   ],
   "note": "false of the code; proved (non-strictly and strictly) for objectives that improve along the domains"
  },
  {
   "property": "C40",
   "status": "proved",
   "theorems": [
    "C40_state",
    "C40_solve_after"
   ],
   "note": ""
  },
  {
   "property": "C41",
   "status": "proved",
   "theorems": [
    "C41_feasible",
    "C41_terminates",
    "C41_arguments",
    "C41_no_items_refuted"
   ],
   "note": "for at least one item; without items the constructor succeeds and the call raises AttributeError"
  },
  {
   "property": "C42",
   "status": "partial",
   "theorems": [
    "C42_optimal_partial",
    "C42_optimal_refuted",
    "C42_negative_refuted",
    "C42_values_ignored",
    "C42_last_packing"
   ],
   "note": "false in general; true for values >= 0 with one item, only zeros, or two values that are not zero; with at most one value that is not zero the values are ignored and the last packing is returned"
  },
  {
   "property": "C43",
   "status": "partial",
   "theorems": [
    "C43_iterator_refuted",
    "C43_weightless_partial"
   ],
   "note": "false of the code: an iterator is exhausted by the check, and the problem without weights is solved"
  },
  {
   "property": "C44",
   "status": "proved",
   "theorems": [
    "C44_solutions",
    "C44_full_refuted"
   ],
   "note": "C44_full_refuted: a blank cell is needed"
  },
  {
   "property": "C45",
   "status": "partial",
   "theorems": [
    "C45_completions_partial",
    "C45_conflict_refuted"
   ],
   "note": "false of the code when givens contradict each other; every blank cell is filled correctly"
  },
  {
   "property": "C46",
   "status": "proved",
   "theorems": [
    "C46_pixmaps",
    "C46_blank_refuted",
    "C46_zero_refuted"
   ],
   "note": "the _refuted theorems show that both hypotheses (some run, positive lengths) are needed"
  },
  {
   "property": "C47",
   "status": "proved",
   "theorems": [
    "C47_runs",
    "C47_unique",
    "C47_round_trip",
    "C47_ragged"
   ],
   "note": ""
  },
  {
   "property": "C48",
   "status": "proved",
   "theorems": [
    "C48_queens"
   ],
   "note": "every size, options, clock; results exact unless interrupted"
  },
  {
   "property": "C49",
   "status": "proved",
   "theorems": [
    "C49_colourings",
    "C49_order",
    "C49_repeated_label_refuted",
    "C49_empty_refuted"
   ],
   "note": "the _refuted theorems show that both hypotheses (distinct labels, non-empty) are needed"
  },
  {
   "property": "C50",
   "status": "proved",
   "theorems": [
    "C50_words"
   ],
   "note": "ASCII sources"
  },
  {
   "property": "C51",
   "status": "partial",
   "theorems": [
    "C51_solutions_partial",
    "C51_chain_partial",
    "C51_constant_refuted",
    "C51_letterless_refuted",
    "C51_chain_refuted"
   ],
   "note": "false of the code when no side depends on the letters (TypeError, or nothing found); proved otherwise, and for chains of relations the link that counts is identified"
  },
  {
   "property": "C52",
   "status": "partial",
   "theorems": [
    "C52_leading_zero_refuted",
    "C52_no_effect"
   ],
   "note": "false of the code: the option has no effect"
  },
  {
   "property": "C53",
   "status": "proved",
   "theorems": [
    "C53_regions",
    "C53_regions_unique",
    "C53_colourings",
    "C53_order",
    "C53_lines",
    "C53_no_lines",
    "C53_blank_refuted"
   ],
   "note": "the groups, the edges and the drawings; C53_blank_refuted shows that a map without regions yields nothing"
  },
  {
   "property": "C54",
   "status": "proved",
   "theorems": [
    "C54_solutions",
    "C54_unique",
    "C54_run"
   ],
   "note": "exactly the arrangements satisfying the statements; there is one; every untimed run yields it"
  },
  {
   "property": "C55",
   "status": "proved",
   "theorems": [
    "C55_round_trip",
    "C55_shows",
    "C55_shows_unique",
    "C55_drawn",
    "C55_normalised",
    "C55_image_round_trip",
    "C55_solved",
    "C55_empty_refuted"
   ],
   "note": "any two characters; also ragged pixmaps, and solving the nonogram of an image; without rows it fails, as the hypothesis says"
  },
  {
   "property": "C56",
   "status": "partial",
   "theorems": [
    "C56_truthful_partial",
    "C56_kind",
    "C56_reason",
    "C56_no_variables_refuted"
   ],
   "note": "false for models without variables: 'all 0 solutions'"
  },
  {
   "property": "C57",
   "status": "partial",
   "theorems": [
    "C57_mathematical_partial",
    "C57_no_error_total",
    "C57_miscompiled_refuted",
    "C57_compiled"
   ],
   "note": "false for miscompiled constraints; proved for the safe class and for interpreted constraints; for every compiled constraint, proved with the exact reading of its text"
  },
  {
   "property": "C58",
   "status": "partial",
   "theorems": [
    "C58_infinity_attribute_partial",
    "C58_infinity_argument_refuted"
   ],
   "note": "true of the attributes, false of the arguments of solve"
  },
  {
   "property": "C59",
   "status": "partial",
   "theorems": [
    "C59_ignored_constraint_refuted",
    "C59_respected_partial"
   ],
   "note": "false of the code"
  },
  {
   "property": "C60",
   "status": "partial",
   "theorems": [
    "C60_interrupt_exhaustive_refuted",
    "C60_limit_exact",
    "C25_stats_exhaustive"
   ],
   "note": "only one direction is true (C25)"
  },
  {
   "property": "C61",
   "status": "proved",
   "theorems": [
    "C61_rejects"
   ],
   "note": ""
  },
  {
   "property": "C62",
   "status": "proved",
   "theorems": [
    "C62_policy_order",
    "C62_order_determined"
   ],
   "note": "every policy, with ties"
  },
  {
   "property": "C63",
   "status": "proved",
   "theorems": [
    "C63_timeout_noticed"
   ],
   "note": "in terms of the readings of the clock"
  },
  {
   "property": "C64",
   "status": "partial",
   "theorems": [
    "C64_optimum",
    "C64_iterations",
    "C64_no_solution_refuted"
   ],
   "note": "false without solutions: an optimal or sub-optimal one is announced"
  },
  {
   "property": "C65",
   "status": "partial",
   "theorems": [
    "C65_building",
    "C65_parameters",
    "C65_interpreted_refuted",
    "C65_nested_refuted"
   ],
   "note": "proved for building the model, and for assigning parameters when the constraints are compiled; false for parameters of interpreted constraints, and for constraints compiled again by a nested enumeration"
  },
  {
   "property": "C66",
   "status": "proved",
   "theorems": [
    "C66_drawn",
    "C66_readable",
    "C66_program"
   ],
   "note": "the whole output of the program"
  },
  {
   "property": "C67",
   "status": "proved",
   "theorems": [
    "C67_drawn",
    "C67_cells",
    "C67_readable",
    "C67_short",
    "C67_program"
   ],
   "note": "C67_program: for consistent schemas with a blank cell, see C44"
  },
  {
   "property": "C68",
   "status": "partial",
   "theorems": [
    "C68_printed_partial",
    "C68_program_partial",
    "C68_lower_refuted"
   ],
   "note": "proved for sources without lower-case letters; false with them, they are not replaced"
  },
  {
   "property": "C69",
   "status": "proved",
   "theorems": [
    "C69_program"
   ],
   "note": "the text of the riddle, printed before, is not modelled"
  },
  {
   "property": "C70",
   "status": "proved",
   "theorems": [
    "C70_switch",
    "C70_error"
   ],
   "note": "ASCII texts; the limit on the number of digits of an int is not modelled"
  },
  {
   "property": "C71",
   "status": "proved",
   "theorems": [
    "C71_program"
   ],
   "note": ""
  },
  {
   "property": "C72",
   "status": "proved",
   "theorems": [
    "C72_short_circuit",
    "C72_errors",
    "C72_interpreted_raises",
    "C72_missing"
   ],
   "note": "for the safe class of C05"
  },
  {
   "property": "C73",
   "status": "proved",
   "theorems": [
    "C73_unambiguous",
    "C73_formulas",
    "C73_constructed_refuted"
   ],
   "note": "for everything the operators build; sums and products of two elements made with the constructors are ambiguous"
  },
  {
   "property": "C74",
   "status": "partial",
   "theorems": [
    "C74_free_vars_partial",
    "C74_evaluable",
    "C74_parameter_refuted"
   ],
   "note": "false of the code for a parameter alone or below unary operators, where free_vars() raises TypeError; proved for all other expressions"
  },
  {
   "property": "C75",
   "status": "partial",
   "theorems": [
    "C75_chained_refuted",
    "C75_chained_partial",
    "C75_logic_partial"
   ],
   "note": "false of the code: expressions are true as Python objects; what is built instead is proved"
  },
  {
   "property": "C76",
   "status": "partial",
   "theorems": [
    "C76_knapsack_partial",
    "C76_readable",
    "C76_readable_weights",
    "C76_optimal_refuted",
    "C76_no_items_refuted"
   ],
   "note": "false of the code in the cases of C42 (one non-zero value among several, negative values) and without items; proved otherwise"
  },
  {
   "property": "C77",
   "status": "proved",
   "theorems": [
    "C77_graph",
    "C77_literal",
    "C77_readable"
   ],
   "note": "non-empty graphs whose nodes and labels are ASCII strings, distinct labels"
  },
  {
   "property": "C78",
   "status": "partial",
   "theorems": [
    "C78_map_partial",
    "C78_file_refuted"
   ],
   "note": "false of the code with an input file, which is opened twice; proved for the built-in way of giving the map"
  },
  {
   "property": "C79",
   "status": "partial",
   "theorems": [
    "C79_first_partial",
    "C79_refuted",
    "C79_sound",
    "C79_no_solution",
    "C79_terminates",
    "C79_stats",
    "C79_unsolvable_refuted",
    "C79_no_variable",
    "C79_timeout"
   ],
   "note": "false of the code, which raises NameError after its first solution and ignores model.solvable(); proved: the first solution is that of solve, and it finds one if there is one"
  },
  {
   "property": "C80",
   "status": "proved",
   "theorems": [
    "C80_reading",
    "C80_call",
    "C80_disjunction_left",
    "C80_disjunction_right",
    "C80_not_disjunction",
    "C80_not_operand",
    "C80_negative_base"
   ],
   "note": "names are ASCII identifiers; sums and products with fewer than three values (never built by the operators) are left out"
  },
  {
   "property": "C81",
   "status": "partial",
   "theorems": [
    "C81_shown_partial",
    "C81_solutions_partial",
    "C81_parameter_refuted",
    "C81_false_refuted"
   ],
   "note": "false of the code for parameters, whose values are not shown, and for a variable named False; proved for models with equal parameter values whose expressions are not only a name True or False"
  },
  {
   "property": "C82",
   "status": "proved",
   "theorems": [
    "C82_queens",
    "C82_graph",
    "C82_map",
    "C82_sudoku",
    "C82_nonogram",
    "C82_einstein",
    "C82_cryptarithm"
   ],
   "note": "inputs are well-formed: at least one queen, a graph, a map with a region, a grid with a blank cell, positive clues; any text for CryptarithmSolver"
  },
  {
   "property": "C83",
   "status": "proved",
   "theorems": [
    "C83_json",
    "C83_json_error",
    "C83_json_unique",
    "C83_sudoku",
    "C83_nonogram",
    "C83_image",
    "C83_knapsack",
    "C83_graph",
    "C83_invalid",
    "C83_no_object",
    "C83_nonogram_missing",
    "C83_knapsack_missing",
    "C83_default",
    "C83_default_cryptarithm",
    "C83_others",
    "C83_map_file",
    "C83_show_sudoku",
    "C83_show_nonogram",
    "C83_show_knapsack",
    "C83_show_graph",
    "C83_show_map",
    "C83_show_cryptarithm",
    "C83_show_einstein",
    "C83_show_queens"
   ],
   "note": "floats in documents are not represented; graphs are undirected, with strings as nodes"
  },
  {
   "property": "C84",
   "status": "proved",
   "theorems": [
    "C84_commands",
    "C84_options",
    "C84_one_reading",
    "C84_runs",
    "C84_line_runs",
    "C84_usage",
    "C84_help",
    "C84_no_line",
    "C84_unknown",
    "C84_source_taken",
    "C84_source_refuted"
   ],
   "note": "argparse is modelled after CPython 3.8 to 3.11; that options may come before the source of a cryptarithm is false: -z, -l and -t take it as their value (C84_source_refuted)"
  },
  {
   "property": "C85",
   "status": "partial",
   "theorems": [
    "C85_valid",
    "C85_runs",
    "C85_frame",
    "C85_independent_partial",
    "C85_independent_refuted",
    "C85_interleaved",
    "C85_interpreted",
    "C85_stats",
    "C85_options",
    "C85_generator",
    "C85_close",
    "C85_stats_frame",
    "C85_stats_new"
   ],
   "note": "proved for compiling solvers and for programs which compile nothing; false of the code for a solver which does not compile, when the model shares a constraint with a model that another solver compiles (C85_independent_refuted)"
  },
  {
   "property": "C86",
   "status": "partial",
   "theorems": [
    "C86_repr",
    "C86_constraint",
    "C86_objective",
    "C86_eval_partial",
    "C86_eval_refuted",
    "C86_eval_value_refuted"
   ],
   "note": "eval(repr(e)) is false of the code for expressions with parameters (whose values are not shown) and with Sum or Prod objects (which take a list): TypeError; proved for all others"
  },
  {
   "property": "C87",
   "status": "proved",
   "theorems": [
    "C87_interleaved",
    "C87_interpreted",
    "C87_frame",
    "C87_parameters",
    "C87_runs",
    "C87_generator",
    "C87_close"
   ],
   "note": "solvers which do not compile are covered in programs that compile nothing; in other programs C85_independent_refuted applies to them"
  },
  {
   "property": "C88",
   "status": "proved",
   "theorems": [
    "C88_queens",
    "C88_graph",
    "C88_sudoku",
    "C88_cryptarithm",
    "C88_nonogram",
    "C88_einstein",
    "C88_constraints",
    "C88_constant_refuted"
   ],
   "note": "constraints must have a value for all values of their variables; a constraint both sides of which simplify to constants raises TypeError (C88_constant_refuted)"
  },
  {
   "property": "C89",
   "status": "proved",
   "theorems": [
    "C89_solutions",
    "C89_current",
    "C89_new",
    "C89_kept",
    "C89_frame",
    "C89_domain_refuted",
    "C89_repeated_refuted"
   ],
   "note": "about objects (Python's dicts and lists with their identity); the refuted statements are the corresponding ones for domain lists that the program changes later"
  },
  {
   "property": "C90",
   "status": "proved",
   "theorems": [
    "C90_queens",
    "C90_graph",
    "C90_sudoku",
    "C90_cryptarithm",
    "C90_nonogram",
    "C90_einstein",
    "C90_break"
   ],
   "note": "additions as in C88; the setting compile_constraints stays as it is; loop bodies do not add or set anything"
  },
  {
   "property": "C91",
   "status": "proved",
   "theorems": [
    "C91_exactly",
    "C91_unrelated",
    "C91_taken",
    "C91_options_refuted"
   ],
   "note": "the user's additions are as in C88; one puzzle is iterated once; options given beside solver= are not looked at (C91_options_refuted)"
  },
  {
   "property": "C92",
   "status": "partial",
   "theorems": [
    "C92_terminates",
    "C92_feasible",
    "C92_optimal_partial",
    "C92_optimal_refuted"
   ],
   "note": "optimality fails when a single value is not 0 and there are further variables (C92_optimal_refuted), as in C42; the additions are as in C88, without parameters"
  },
  {
   "property": "C93",
   "status": "proved",
   "theorems": [
    "C93_observing",
    "C93_pruning",
    "C93_cost"
   ],
   "note": "consistency is decided by constraint.evaluate in the state of the run, as in C16; C57 relates it to the mathematical meaning"
  },
  {
   "property": "C94",
   "status": "proved",
   "theorems": [
    "C94_observing",
    "C94_bounding",
    "C94_bound_refuted"
   ],
   "note": "the domains are filtered once, when their variable is reached; that every extended assignment beats the best solution so far is false (C94_bound_refuted)"
  },
  {
   "property": "C95",
   "status": "proved",
   "theorems": [
    "C95_truncated",
    "C95_stats",
    "C95_stats_refuted",
    "C95_exceptions"
   ],
   "note": "the statistics are those of an earlier search if an objective is not an Objective (C95_stats_refuted); as in C26, the time after the last solution is never added"
  },
  {
   "property": "C96",
   "status": "proved",
   "theorems": [
    "C96_colourings",
    "C96_grids",
    "C96_placements",
    "C96_factorial",
    "C96_attacked",
    "C96_placements_refuted"
   ],
   "note": "that the search for boards only places queens that do not attack each other is false (C96_placements_refuted, C96_attacked): the diagonals are variables of their own, assigned after all the queens"
  },
  {
   "property": "C97",
   "status": "proved",
   "theorems": [
    "C97_digits",
    "C97_cost"
   ],
   "note": "for equations, not chains of them; an equation that does not depend on one of its letters may lose it when the expression is simplified and is not covered"
  },
  {
   "property": "C98",
   "status": "proved",
   "theorems": [
    "C98_drawings",
    "C98_drawings_refuted"
   ],
   "note": "the refuted claim: a drawing is given up as soon as row and column disagree about a cell that no remaining run can cover; VarInfo.end_value is one too large, so the constraint of a cell also waits for runs that can only end just before it"
  },
  {
   "property": "C99",
   "status": "proved",
   "theorems": [
    "C99_result",
    "C99_selections",
    "C99_exponential",
    "C99_overload_refuted"
   ],
   "note": "the refuted claim: a selection is given up as soon as its items exceed a capacity; a capacity is tested only when all its items are decided.  Which selections are extended when all items with a value are decided but others are not follows from C94, and is not restated"
  }
 ]
}
