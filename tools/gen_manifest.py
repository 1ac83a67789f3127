#!/usr/bin/env python3
"""Writes MANIFEST.json."""
import json, os

CLAIMS = {
    "C01": ("proved", ["C01_undefined", "C01_arithmetic_operators", "C01_unary_operators"], ""),
    "C02": ("proved", ["C02_comparison_operators", "C02_logical_operators"],
            "for & and | at least one operand is an Expression; two ints are plain Python"),
    "C03": ("proved", ["C03_formula_meaning", "C03_formula_builds", "C03_logic_on_collapsed_constants_refuted"],
            "& and | are given a meaning on truth values 0/1; the refuted theorem shows why"),
    "C04": ("proved", ["C04_vars", "C04_vars_of_formula"], ""),
    "C05": ("partial", ["C05_compiled_agrees_partial", "C05_compiled_formula_partial",
                        "C05_or_inside_and_refuted", "C05_abs_of_and_refuted",
                        "C05_pow_of_neg_refuted", "C05_not_inside_eq_refuted"],
            "false of the code in general (precedence bugs in the generated text); proved for all "
            "expressions of a syntactic safe class and all formulas of a safe class, for evaluations that do not raise"),
    "C06": ("partial", ["C06_fallback_refuted", "C06_keyword_name_refuted", "C06_keywords", "C06_no_fallback_needed_partial", "C06_fallback_iff", "C06_formula_compiles", "C06_no_solution"],
            "false of the code: the fallback is called with keyword arguments and raises TypeError; proved exactly which expressions fall back, and that no formula written with operators does"),
    "C07": ("partial", ["C07_equals_refuted", "C07_equals_atoms_partial", "C07_equals_operators", "C07_equals_unary", "C07_equals_collections"],
            "false of the code: operands are compared by the truth value of an Eq object"),
    "C08": ("partial", ["C08_int_div_expr_refuted", "C08_expr_div_int_partial"],
            "false of the code: int / expr always raises TypeError"),
    "C09": ("partial", ["C09_parameter_update_partial", "C09_stale_refuted"],
            "false when a compiled constraint is later used by a solver with compile_constraints=False; "
            "proved when the solver compiles (safe class) or the constraints were never compiled"),
    "C10": ("proved", ["C10_names_unique", "C10_auto_variable", "C10_auto_parameter", "C10_duplicate_rejected", "C10_entry_stable", "C10_parameters_separate", "C10_parameter_value", "C10_domain"], ""),
    "C11": ("proved", ["C11_constraints_declared"], ""),
    "C12": ("proved", ["C12_failing_call"], ""),
    "C13": ("proved", ["C13_constant_expression", "C13_constant_bool", "C13_unsolvable_forever", "C13_no_solution"], ""),
    "C14": ("partial", ["C14_set_solvable_refuted", "C14_no_effect"], "false of the code: set_solvable assigns another attribute"),
    "C15": ("partial", ["C15_parameter_only_refuted", "C15_frozen"], "false of the code: evaluated once, when added"),
    "C16": ("proved", ["C16_sound", "C16_valid_reachable"], ""),
    "C17": ("proved", ["C17_complete"], ""),
    "C18": ("proved", ["C18_distinct"], ""),
    "C19": ("proved", ["C19_terminates"], ""),
    "C20": ("proved", ["C20_policy_independent", "C21_ordered"], ""),
    "C21": ("proved", ["C21_ordered"], ""),
    "C22": ("proved", ["C22_limit_truncates"], ""),
    "C23": ("partial", ["C23_limit_zero_refuted", "C23_low_limit"], "false of the code: one solution is yielded"),
    "C24": ("proved", ["C24_timeout_truncates"], ""),
    "C25": ("proved", ["C25_stats_exhaustive", "C25_interrupts"], ""),
    "C26": ("partial", ["C26_elapsed_partial", "C26_elapsed_refuted"],
            "false of the code: the time after the last solution is not counted; proved what elapsed is"),
    "C27": ("proved", ["C27_stopwatch", "C27_errors", "C27_solver_discipline"], ""),
    "C28": ("proved", ["C28_alldiff_evaluate", "C28_alldiff_enforced", "C17_complete"], ""),
    "C29": ("partial", ["C29_no_variables_refuted", "C29_yields_partial"], "false of the code"),
    "C30": ("partial", ["C30_additional_partial", "C30_constant_refuted"],
            "false for additional constraints without variables, which are ignored; proved for the others"),
    "C31": ("proved", ["C31_solve_again", "C31_random", "C31_random_refuted", "C31_model_unchanged"], "with the policy RANDOM the same solutions, in an order that may differ (the refuted statement is that the sequence is the same)"),
    "C32": ("proved", ["C32_exceptions", "C32_generator_finished"], ""),
    "C33": ("partial", ["C33_interleaved_stats_refuted", "C33_interleaved_count", "C33_interleaved_interrupt"],
            "false of the code; for every schedule: the count is that of the enumeration started last, the interrupt (without timeouts) that of any enumeration interrupted since"),
    "C34": ("proved", ["C34_interleaved", "C34_interleaved_runs"], "any number of enumerations of one solver, without timeout"),
    "C35": ("proved", ["C35_valid_reachable", "C35_feasible", "C35_feasible_holds"], ""),
    "C36": ("partial", ["C36_single_variable_refuted", "C36_several_variables_refuted", "C36_optimal_partial", "C36_single_variable", "C36_last_solution"],
            "false of the code; proved for objectives that get no worse along the domains (and are not over a single variable chosen later)"),
    "C37": ("proved", ["C37_best_found", "C37_best_exists", "C37_covers"], ""),
    "C38": ("proved", ["C38_terminates", "C38_found", "C38_flag", "C38_none"], ""),
    "C39": ("partial", ["C39_improves_refuted", "C39_never_worse_partial", "C39_strict_partial"],
            "false of the code; proved (non-strictly and strictly) for objectives that improve along the domains"),
    "C40": ("proved", ["C40_state", "C40_solve_after"], ""),
    "C41": ("proved", ["C41_feasible", "C41_terminates", "C41_arguments", "C41_no_items_refuted"],
            "for at least one item; without items the constructor succeeds and the call raises AttributeError"),
    "C42": ("partial", ["C42_optimal_partial", "C42_optimal_refuted", "C42_negative_refuted", "C42_values_ignored", "C42_last_packing"],
            "false in general; true for values >= 0 with one item, only zeros, or two values that are not zero; with at most one value that is not zero the values are ignored and the last packing is returned"),
    "C43": ("partial", ["C43_iterator_refuted", "C43_weightless_partial"],
            "false of the code: an iterator is exhausted by the check, and the problem without weights is solved"),
    "C44": ("proved", ["C44_solutions", "C44_full_refuted"], "C44_full_refuted: a blank cell is needed"),
    "C45": ("partial", ["C45_completions_partial", "C45_conflict_refuted"],
            "false of the code when givens contradict each other; every blank cell is filled correctly"),
    "C46": ("proved", ["C46_pixmaps", "C46_blank_refuted", "C46_zero_refuted"],
            "the _refuted theorems show that both hypotheses (some run, positive lengths) are needed"),
    "C47": ("proved", ["C47_runs", "C47_unique", "C47_round_trip", "C47_ragged"], ""),
    "C48": ("proved", ["C48_queens"], "every size, options, clock; results exact unless interrupted"),
    "C49": ("proved", ["C49_colourings", "C49_order", "C49_repeated_label_refuted", "C49_empty_refuted"],
            "the _refuted theorems show that both hypotheses (distinct labels, non-empty) are needed"),
    "C50": ("proved", ["C50_words"], "ASCII sources"),
    "C51": ("partial", ["C51_solutions_partial", "C51_chain_partial", "C51_constant_refuted", "C51_letterless_refuted", "C51_chain_refuted"],
            "false of the code when no side depends on the letters (TypeError, or nothing found); proved otherwise, and for chains of relations the link that counts is identified"),
    "C52": ("partial", ["C52_leading_zero_refuted", "C52_no_effect"], "false of the code: the option has no effect"),
    "C53": ("proved", ["C53_regions", "C53_regions_unique", "C53_colourings", "C53_order", "C53_lines", "C53_no_lines", "C53_blank_refuted"],
            "the groups, the edges and the drawings; C53_blank_refuted shows that a map without regions yields nothing"),
    "C54": ("proved", ["C54_solutions", "C54_unique", "C54_run"],
            "exactly the arrangements satisfying the statements; there is one; every untimed run yields it"),
    "C55": ("proved", ["C55_round_trip", "C55_shows", "C55_shows_unique", "C55_drawn", "C55_normalised", "C55_image_round_trip", "C55_solved", "C55_empty_refuted"],
            "any two characters; also ragged pixmaps, and solving the nonogram of an image; without rows it fails, as the hypothesis says"),
    "C56": ("partial", ["C56_truthful_partial", "C56_kind", "C56_reason", "C56_no_variables_refuted"],
            "false for models without variables: 'all 0 solutions'"),
    "C57": ("partial", ["C57_mathematical_partial", "C57_no_error_total", "C57_miscompiled_refuted", "C57_compiled"],
            "false for miscompiled constraints; proved for the safe class and for interpreted constraints; for every compiled constraint, proved with the exact reading of its text"),
    "C58": ("partial", ["C58_infinity_attribute_partial", "C58_infinity_argument_refuted"],
            "true of the attributes, false of the arguments of solve"),
    "C59": ("partial", ["C59_ignored_constraint_refuted", "C59_respected_partial"], "false of the code"),
    "C60": ("partial", ["C60_interrupt_exhaustive_refuted", "C60_limit_exact", "C25_stats_exhaustive"], "only one direction is true (C25)"),
    "C61": ("proved", ["C61_rejects"], ""),
    "C62": ("proved", ["C62_policy_order", "C62_order_determined"], "every policy, with ties"),
    "C63": ("proved", ["C63_timeout_noticed"], "in terms of the readings of the clock"),
    "C64": ("partial", ["C64_optimum", "C64_iterations", "C64_no_solution_refuted"],
            "false without solutions: an optimal or sub-optimal one is announced"),
    "C65": ("partial", ["C65_building", "C65_parameters", "C65_interpreted_refuted", "C65_nested_refuted"],
            "proved for building the model, and for assigning parameters when the constraints are compiled; false for parameters of interpreted constraints, and for constraints compiled again by a nested enumeration"),
    "C66": ("proved", ["C66_drawn", "C66_readable", "C66_program"], "the whole output of the program"),
    "C67": ("proved", ["C67_drawn", "C67_cells", "C67_readable", "C67_short", "C67_program"], "C67_program: for consistent schemas with a blank cell, see C44"),
    "C68": ("partial", ["C68_printed_partial", "C68_program_partial", "C68_lower_refuted"],
            "proved for sources without lower-case letters; false with them, they are not replaced"),
    "C69": ("proved", ["C69_program"], "the text of the riddle, printed before, is not modelled"),
    "C70": ("proved", ["C70_switch", "C70_error"], "ASCII texts; the limit on the number of digits of an int is not modelled"),
    "C71": ("proved", ["C71_program"], ""),
    "C72": ("proved", ["C72_short_circuit", "C72_errors", "C72_interpreted_raises", "C72_missing"], "for the safe class of C05"),
    "C73": ("proved", ["C73_unambiguous", "C73_formulas", "C73_constructed_refuted"],
            "for everything the operators build; sums and products of two elements made with the constructors are ambiguous"),
    "C74": ("partial", ["C74_free_vars_partial", "C74_evaluable", "C74_parameter_refuted"],
            "false of the code for a parameter alone or below unary operators, where free_vars() raises TypeError; proved for all other expressions"),
    "C75": ("partial", ["C75_chained_refuted", "C75_chained_partial", "C75_logic_partial"],
            "false of the code: expressions are true as Python objects; what is built instead is proved"),
    "C76": ("partial", ["C76_knapsack_partial", "C76_readable", "C76_readable_weights", "C76_optimal_refuted", "C76_no_items_refuted"],
            "false of the code in the cases of C42 (one non-zero value among several, negative values) and without items; proved otherwise"),
    "C77": ("proved", ["C77_graph", "C77_literal", "C77_readable"],
            "non-empty graphs whose nodes and labels are ASCII strings, distinct labels"),
    "C78": ("partial", ["C78_map_partial", "C78_file_refuted"],
            "false of the code with an input file, which is opened twice; proved for the built-in way of giving the map"),
    "C79": ("partial", ["C79_first_partial", "C79_refuted", "C79_sound", "C79_no_solution", "C79_terminates", "C79_stats", "C79_unsolvable_refuted", "C79_no_variable", "C79_timeout"],
            "false of the code, which raises NameError after its first solution and ignores model.solvable(); proved: the first solution is that of solve, and it finds one if there is one"),
    "C80": ("proved", ["C80_reading", "C80_call", "C80_disjunction_left", "C80_disjunction_right", "C80_not_disjunction", "C80_not_operand", "C80_negative_base"],
            "names are ASCII identifiers; sums and products with fewer than three values (never built by the operators) are left out"),
    "C81": ("partial", ["C81_shown_partial", "C81_solutions_partial", "C81_parameter_refuted", "C81_false_refuted"],
            "false of the code for parameters, whose values are not shown, and for a variable named False; proved for models with equal parameter values whose expressions are not only a name True or False"),
    "C82": ("proved", ["C82_queens", "C82_graph", "C82_map", "C82_sudoku", "C82_nonogram", "C82_einstein", "C82_cryptarithm"],
            "inputs are well-formed: at least one queen, a graph, a map with a region, a grid with a blank cell, positive clues; any text for CryptarithmSolver"),
    "C83": ("proved", ["C83_json", "C83_json_error", "C83_json_unique", "C83_sudoku", "C83_nonogram", "C83_image", "C83_knapsack", "C83_graph",
            "C83_invalid", "C83_no_object", "C83_nonogram_missing", "C83_knapsack_missing", "C83_default", "C83_default_cryptarithm", "C83_others", "C83_map_file",
            "C83_show_sudoku", "C83_show_nonogram", "C83_show_knapsack", "C83_show_graph", "C83_show_map", "C83_show_cryptarithm", "C83_show_einstein", "C83_show_queens"],
            "floats in documents are not represented; graphs are undirected, with strings as nodes"),
    "C84": ("proved", ["C84_commands", "C84_options", "C84_one_reading", "C84_runs", "C84_line_runs", "C84_usage", "C84_help", "C84_no_line", "C84_unknown",
            "C84_source_taken", "C84_source_refuted"],
            "argparse is modelled after CPython 3.8 to 3.11; that options may come before the source of a cryptarithm is false: -z, -l and -t take it as their value (C84_source_refuted)"),
    "C85": ("partial", ["C85_valid", "C85_runs", "C85_frame", "C85_independent_partial", "C85_independent_refuted", "C85_interleaved", "C85_interpreted", "C85_stats", "C85_options", "C85_generator", "C85_close", "C85_stats_frame", "C85_stats_new"],
            "proved for compiling solvers and for programs which compile nothing; false of the code for a solver which does not compile, when the model shares a constraint with a model that another solver compiles (C85_independent_refuted)"),
    "C86": ("partial", ["C86_repr", "C86_constraint", "C86_objective", "C86_eval_partial", "C86_eval_refuted", "C86_eval_value_refuted"],
            "eval(repr(e)) is false of the code for expressions with parameters (whose values are not shown) and with Sum or Prod objects (which take a list): TypeError; proved for all others"),
    "C87": ("proved", ["C87_interleaved", "C87_interpreted", "C87_frame", "C87_parameters", "C87_runs", "C87_generator", "C87_close"],
            "solvers which do not compile are covered in programs that compile nothing; in other programs C85_independent_refuted applies to them"),
    "C88": ("proved", ["C88_queens", "C88_graph", "C88_sudoku", "C88_cryptarithm", "C88_nonogram", "C88_einstein", "C88_constraints", "C88_constant_refuted"],
            "constraints must have a value for all values of their variables; a constraint both sides of which simplify to constants raises TypeError (C88_constant_refuted)"),
    "C89": ("proved", ["C89_solutions", "C89_current", "C89_new", "C89_kept", "C89_frame", "C89_domain_refuted", "C89_repeated_refuted"],
            "about objects (Python's dicts and lists with their identity); the refuted statements are the corresponding ones for domain lists that the program changes later"),
    "C90": ("proved", ["C90_queens", "C90_graph", "C90_sudoku", "C90_cryptarithm", "C90_nonogram", "C90_einstein", "C90_break"],
            "additions as in C88; the setting compile_constraints stays as it is; loop bodies do not add or set anything"),
    "C91": ("proved", ["C91_exactly", "C91_unrelated", "C91_taken", "C91_options_refuted"],
            "the user's additions are as in C88; one puzzle is iterated once; options given beside solver= are not looked at (C91_options_refuted)"),
    "C92": ("partial", ["C92_terminates", "C92_feasible", "C92_optimal_partial", "C92_optimal_refuted"],
            "optimality fails when a single value is not 0 and there are further variables (C92_optimal_refuted), as in C42; the additions are as in C88, without parameters"),
    "C93": ("proved", ["C93_observing", "C93_pruning", "C93_cost"],
            "consistency is decided by constraint.evaluate in the state of the run, as in C16; C57 relates it to the mathematical meaning"),
    "C94": ("proved", ["C94_observing", "C94_bounding", "C94_bound_refuted"],
            "the domains are filtered once, when their variable is reached; that every extended assignment beats the best solution so far is false (C94_bound_refuted)"),
    "C95": ("proved", ["C95_truncated", "C95_stats", "C95_stats_refuted", "C95_exceptions"],
            "the statistics are those of an earlier search if an objective is not an Objective (C95_stats_refuted); as in C26, the time after the last solution is never added"),
    "C96": ("proved", ["C96_colourings", "C96_grids", "C96_placements", "C96_factorial", "C96_attacked", "C96_placements_refuted"],
            "that the search for boards only places queens that do not attack each other is false (C96_placements_refuted, C96_attacked): the diagonals are variables of their own, assigned after all the queens"),
    "C97": ("proved", ["C97_digits", "C97_cost"],
            "for equations, not chains of them; an equation that does not depend on one of its letters may lose it when the expression is simplified and is not covered"),
    "C98": ("proved", ["C98_drawings", "C98_drawings_refuted"],
            "the refuted claim: a drawing is given up as soon as row and column disagree about a cell that no remaining run can cover; VarInfo.end_value is one too large, so the constraint of a cell also waits for runs that can only end just before it"),
    "C99": ("proved", ["C99_result", "C99_selections", "C99_exponential", "C99_overload_refuted"],
            "the refuted claim: a selection is given up as soon as its items exceed a capacity; a capacity is tested only when all its items are decided.  Which selections are extended when all items with a value are decided but others are not follows from C94, and is not restated"),
    "C100": ("proved", ["C100_optimize", "C100_knapsack"],
            "iterations of the while loop of solver.py:234 are counted, not the tests of values inside one iteration"),
    "C101": ("proved", ["C101_order", "C101_knapsack"],
            "domains without repeated values (opt_valid)"),
    "C102": ("proved", ["C102_solve", "C102_min_bound", "C102_min_bound_refuted", "C102_optimize"],
            "the refuted claim: MIN_BOUND never needs more iterations than another policy.  For optimize the order is identified for ORDERED, REVERSED and RANDOM only"),
}

root = os.path.dirname(os.path.dirname(os.path.abspath(__file__)))
with open(os.path.join(root, "MANIFEST.json"), "w") as f:
    json.dump({"claims": [
        {"property": k, "status": v[0], "theorems": v[1], "note": v[2]}
        for k, v in sorted(CLAIMS.items())]}, f, indent=1)
    f.write("\n")
