(** What the search of a KnapsackOptimizer tries: the partial assignments that [solve] extends and
    the solutions it finds during [__call__] (knapsack.py:54-62), recorded as in OptimizeWatch.v. *)
From Verif Require Export OptimizeWatch Knapsack.
Open Scope string_scope.
Open Scope Z_scope.

(** [obj = KnapsackOptimizer(values, capacities, weights, **options); obj()]: the record, the
    exception and [stats.interrupt].  (As [knapsack_run], up to knapsack.py:62.) *)
Definition knapsack_watched (clk : nat -> Z) (shuffle : list name -> list name) (fuel : nat)
           (values capacities : list (option Z)) (weights : weights_arg) (o : options)
  : option (list visit * option exn * option interrupt) :=
  match construct (knapsack_init values capacities weights) with
  | Err ex => Some ([], Some ex, None)
  | Ok (None, _) => Some ([], Some AttributeError, None)
  | Ok (Some k, e) =>
      match build (weighted (k_variables k) (k_values k)) with
      | Err ex => Some ([], Some ex, None)
      | Ok (OInt _) => Some ([], Some TypeError, None)
      | Ok (OExpr x) =>
          match optimize_watched clk shuffle fuel e (options_solver GROUPS o) [OObj (Objective x true)] no_args with
          | None => None
          | Some (vs, e', r) => Some (vs, r, e_interrupt e')
          end
      end
  end.
