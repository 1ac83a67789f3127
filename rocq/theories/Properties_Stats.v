(** Properties of the statistics printed by demo_utils.py. *)
From Verif Require Import DemoStats SpecStats SpecSolve SpecOptimize SolverCases OptimizeCases StatsFacts.
Open Scope string_scope.
Open Scope list_scope.
Open Scope Z_scope.

(** C56, for models with a variable: after an enumeration that ended without an exception, a
    unique solution, all solutions or a number of partial solutions are announced; the number
    is right, and the first two are announced only if no solution is missing.  Missing: models
    without variables (refuted below). *)
Theorem C56_truthful_partial : forall seconds clk shuffle f e sv a ys e',
  valid shuffle e a -> solve_all clk shuffle f e sv a = Some (ys, e', None) ->
  let m := w_model (e_world e) in let out := print_solve_stats seconds (get_stats e') in
  m_solvable m = true -> has_variable m ->
  (says out "Found unique solution in " -> len ys = 1 /\ exhausts (evaluates_true (e_world e')) m (all_cons m a) ys) /\
  (forall n, says out ("Found all " ++ str_int n ++ " solutions in ") -> len ys = n /\ exhausts (evaluates_true (e_world e')) m (all_cons m a) ys) /\
  (forall n, says out ("Found " ++ str_int n ++ " partial solution") -> len ys = n) /\
  (says out "Found unique solution in " \/ says out ("Found all " ++ str_int (len ys) ++ " solutions in ") \/
   says out ("Found " ++ str_int (len ys) ++ " partial solution")).
Proof. exact truthful. Qed.
Print Assumptions C56_truthful_partial.

(** C56: which of them, and the reason given. *)
Theorem C56_kind : forall seconds stats,
  (says (print_solve_stats seconds stats) "Found unique solution in " <-> fst (fst stats) = 1 /\ snd stats = None) /\
  (forall n, says (print_solve_stats seconds stats) ("Found all " ++ str_int n ++ " solutions in ") <-> fst (fst stats) = n /\ n <> 1 /\ snd stats = None) /\
  (forall n, says (print_solve_stats seconds stats) ("Found " ++ str_int n ++ " partial solution") <-> fst (fst stats) = n /\ snd stats <> None).
Proof. intros seconds stats. split; [exact (says_unique seconds stats)|]. split; [exact (says_all seconds stats)|exact (says_partial seconds stats)]. Qed.
Print Assumptions C56_kind.

Theorem C56_reason : forall seconds stats,
  match snd stats with
  | None => ends (print_solve_stats seconds stats) " seconds"
  | Some ILimit => ends (print_solve_stats seconds stats) " seconds [limit reached]"
  | Some ITimeout => ends (print_solve_stats seconds stats) " seconds [timeout reached]"
  end.
Proof. exact says_reason. Qed.
Print Assumptions C56_reason.

Example C56_case :
  valid noshuffle e_small no_args /\ m_solvable (w_model (e_world e_small)) = true /\ has_variable (w_model (e_world e_small)) /\
  print_solve_stats str_int (get_stats (env_of e_small (small_run default_solver no_args))) =
    String (ascii_of_nat 10) "Found all 3 solutions in 3 seconds" /\
  print_solve_stats str_int (get_stats (env_of e_small (small_run default_solver (with_limit (LNum 1) no_args)))) =
    String (ascii_of_nat 10) "Found 1 partial solution in 1 seconds [limit reached]".
Proof.
  split; [exact small_valid|]. split; [reflexivity|]. split; [exists "x", [1; 2; 3]; apply small_variable; now left|].
  split; vm_compute; reflexivity.
Qed.

(** C56: without variables "all 0 solutions" are announced, although the empty assignment
    satisfies every constraint. *)
Theorem C56_no_variables_refuted : exists clk shuffle f e a e' out, forall seconds,
  valid shuffle e a /\ solve_all clk shuffle f e default_solver a = Some ([], e', None) /\
  print_solve_stats seconds (get_stats e') = out seconds /\ says (out seconds) "Found all 0 solutions in " /\
  solves (evaluates_true (e_world e')) (w_model (e_world e)) (all_cons (w_model (e_world e)) a) [].
Proof. exact no_variable_printed. Qed.
Print Assumptions C56_no_variables_refuted.

(** C64: with the flag returned by optimal_solution, an optimal solution is announced exactly
    if a solution was found and nothing interrupted the search. *)
Theorem C64_optimum : forall seconds clk shuffle f e sv os a e' b sol, optimal_solution clk shuffle f e sv os a = Some (e', Ok (b, sol)) ->
  (says (print_optimization_stats seconds (get_stats e') (Some b)) "Found optimal solution in " <-> sol <> None /\ e_interrupt e' = None).
Proof. exact optimum. Qed.
Print Assumptions C64_optimum.

(** C64: the number of iterations is the number of solutions found. *)
Theorem C64_iterations : forall seconds clk shuffle f e sv os a ys e' b, optimize_all clk shuffle f e sv os a = Some (ys, e', None) ->
  exists kind, In kind ["optimal"; "sub-optimal"] /\
    print_optimization_stats seconds (get_stats e') b =
    (String (ascii_of_nat 10) "" ++ "Found " ++ kind ++ " solution in " ++ seconds (snd (fst (get_stats e'))) ++ " seconds after " ++ str_int (len ys) ++
     (if (len ys =? 1)%Z then " solve iteration" else " solve iterations") ++
     match e_interrupt e' with None => "" | Some ILimit => " [limit reached]" | Some ITimeout => " [timeout reached]" end)%string.
Proof. exact optimum_count. Qed.
Print Assumptions C64_iterations.

Example C64_case :
  optimal_solution clk0 noshuffle 200 e_opt default_solver os_opt no_args = Some (env_of e_opt all_opt, Ok (true, Some [("y", 1); ("x", 2)])) /\
  print_optimization_stats str_int (get_stats (env_of e_opt all_opt)) (Some true) =
    String (ascii_of_nat 10) "Found optimal solution in 4 seconds after 4 solve iterations".
Proof. split; [exact opt_case_optimal|]. vm_compute. reflexivity. Qed.

(** C64 fails without solutions: an optimal one is announced by default, a sub-optimal one with
    the flag of optimal_solution. *)
Theorem C64_no_solution_refuted : exists clk shuffle f e os e', opt_valid shuffle e os no_args /\
  optimal_solution clk shuffle f e default_solver os no_args = Some (e', Ok (false, None)) /\
  (forall sat t, ~ solves sat (w_model (e_world e)) (all_cons (w_model (e_world e)) no_args) t) /\
  forall seconds, says (print_optimization_stats seconds (get_stats e') None) "Found optimal solution in " /\
    says (print_optimization_stats seconds (get_stats e') (Some false)) "Found sub-optimal solution in ".
Proof. exact none_announced. Qed.
Print Assumptions C64_no_solution_refuted.
