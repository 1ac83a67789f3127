(** A KnapsackOptimizer to whose model the user adds variables and constraints before calling it:
    the attribute [model] of ModelSolverBase, solver.py:453-455, and knapsack.py. *)
From Verif Require Export Knapsack PuzzleUser.
Open Scope string_scope.
Open Scope Z_scope.

(** [obj = KnapsackOptimizer(values, capacities, weights, **options)], the statements, [r = obj()]:
    the result, and [obj.get_stats().interrupt]. *)
Definition knapsack_user_run (clk : nat -> Z) (shuffle : list name -> list name) (fuel : nat)
           (values capacities : list (option Z)) (weights : weights_arg) (o : options) (us : list ustmt)
  : option (res ksolution * option interrupt) :=
  match construct (with_user (knapsack_init values capacities weights) us) with
  | Err ex => Some (Err ex, None)
  | Ok (k, e) =>
      match knapsack_call clk shuffle fuel e (options_solver GROUPS o) k with
      | None => None
      | Some (e', r) => Some (r, e_interrupt e')
      end
  end.
