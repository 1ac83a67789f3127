(** The iterations of the search loop (solver.py:234) during an optimisation: [iterates] of
    SolverWatch.v, summed along the run that OptimizeWatch.v observes. *)
From Verif Require Export SolverWatch KnapsackWatch.
Open Scope string_scope.
Open Scope list_scope.
Open Scope Z_scope.

Section Count.
Variable clk : nat -> Z.
Variable shuffle : list name -> list name.

(** [observe], counting the iterations of [while stack] that are begun. *)
Fixpoint loop_count (fuel : nat) (consumer : nat -> world -> subst -> res world) (k : nat)
         (e : env) (g : gen) : nat :=
  match fuel with
  | O => 0%nat
  | S f =>
      (iterates g +
       match micro clk shuffle e g with
       | (e', g', EvNone) => loop_count f consumer k e' g'
       | (e', g', EvYield s) =>
           match consumer k (e_world e') s with
           | Err _ => 0%nat
           | Ok w => loop_count f consumer (S k) (set_world e' w) g'
           end
       | _ => 0%nat
       end)%nat
  end.

(** The iterations of the search of [list(solver.optimize(model, objectives, ...))]
    (solver.py:402-421). *)
Definition optimize_iterations (fuel : nat) (e : env) (sv : solver) (os : list oarg) (a : args) : nat :=
  match make_constraints os (e_world e) with
  | (_, Err _) => 0%nat
  | (w, Ok oms) =>
      loop_count fuel (fun _ w s => add_solutions oms w s) 0 (set_world e w) (GInit sv (with_objectives a oms))
  end.

(** The iterations of the search of [KnapsackOptimizer(values, capacities, weights, **options)()]
    (knapsack.py:54-62); as [knapsack_watched]. *)
Definition knapsack_iterations (fuel : nat) (values capacities : list (option Z)) (weights : weights_arg) (o : options) : nat :=
  match construct (knapsack_init values capacities weights) with
  | Ok (Some k, e) =>
      match build (weighted (k_variables k) (k_values k)) with
      | Ok (OExpr x) => optimize_iterations fuel e (options_solver GROUPS o) [OObj (Objective x true)] no_args
      | _ => 0%nat
      end
  | _ => 0%nat
  end.

End Count.
