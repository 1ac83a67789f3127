(** Property theorems about the number of iterations of the search loop (solver.py:234) in
    optimisations (C100).

    [optimize_iterations clk shuffle f e sv os a] and [knapsack_iterations clk shuffle f ...]: the
    iterations begun during the runs that [optimize_watched] (C94) and [knapsack_watched] (C99)
    record. *)
From Verif Require Import OptimizeCost SpecOptimize SpecSafe SpecSolve SpecBound SpecKnapsack SpecSelections SolverCases
  OptimizeCases BoundCases KnapCases CostOptimize CostKnap.
Open Scope string_scope.
Open Scope list_scope.
Open Scope Z_scope.

(** The loop begins, in an optimisation that is neither interrupted nor raises, two iterations for
    every extended assignment and one for every solution, less one; and never many more than
    that, though the constraints for the objectives change during the search. *)
Theorem C100_optimize : forall clk shuffle f e sv os a vs e' r,
  opt_valid shuffle e os a -> optimize_watched clk shuffle f e sv os a = Some (vs, e', r) ->
  let n := Z.of_nat (optimize_iterations clk shuffle f e sv os a) in
  n <= 2 * len (tried vs) + len (found vs) + 1 /\
  (r = None -> e_interrupt e' = None -> tried vs <> [] -> n = 2 * len (tried vs) + len (found vs) - 1).
Proof. exact optimize_cost. Qed.
Print Assumptions C100_optimize.

(** The run of C94_case: four assignments extended, four solutions found. *)
Example C100_optimize_case : opt_valid noshuffle e_opt os_opt no_args /\
  optimize_iterations clk0 noshuffle 200 e_opt default_solver os_opt no_args = 11%nat.
Proof. split; [apply opt_case_valid; intros o [E|[]]; inversion E; reflexivity|vm_compute; reflexivity]. Qed.

(** The search of a KnapsackOptimizer with n items begins at most 2^(n+1) iterations more than it
    finds solutions; and, if nothing interrupts it, every item has a value and every capacity a
    weight for every item, at least 2^(n+1) - 3 iterations, whatever the capacities are. *)
Theorem C100_knapsack : forall clk shuffle f o values caps rows (again : bool) vs r i, instance values caps rows -> shuffles shuffle ->
  knapsack_watched clk shuffle f (map Some values) (map Some caps) (Weights (map (map Some) rows) again) o = Some (vs, r, i) ->
  let n := Z.of_nat (knapsack_iterations clk shuffle f (map Some values) (map Some caps) (Weights (map (map Some) rows) again) o) in
  n <= 2 ^ (len values + 1) + len (found vs) - 1 /\
  (i = None -> (forall k, (k < length values)%nat -> nth k values 0 <> 0) -> all_weighted (length values) caps (if again then rows else []) ->
   n = 2 ^ (len values + 1) + len (found vs) - 3).
Proof. exact knapsack_cost. Qed.
Print Assumptions C100_knapsack.

(** The three items of C99_exponential_case, two solutions found. *)
Example C100_knapsack_case : instance full_values full_caps full_rows /\ (forall k, (k < length full_values)%nat -> nth k full_values 0 <> 0) /\
  all_weighted (length full_values) full_caps full_rows /\
  knapsack_iterations clk0 noshuffle 100 (map Some full_values) (map Some full_caps) (Weights (map (map Some) full_rows) true) ordered = 15%nat.
Proof. destruct full_case as (H1 & H2 & H3 & _). split; [exact H1|]. split; [exact H2|]. split; [exact H3|vm_compute; reflexivity]. Qed.
