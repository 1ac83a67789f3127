(** Property theorems about the order in which optimisations find their solutions, and how many
    they are (C101). *)
From Coq Require Import Permutation.
From Verif Require Import Optimize OptimizeCost SpecSafe SpecSolve SpecOrder SpecOptimize SpecBound SpecSpace SpecKnapsack SpecSelections SolverCases
  OptimizeCases KnapCases OptimizeOrder CostKnap2
  VisitCases OptimizeVisits.
Open Scope string_scope.
Open Scope list_scope.
Open Scope Z_scope.

(** However it ends, and whatever the objectives are, an optimisation finds no solution twice, and
    its solutions in the lexicographic order of the domains as declared, for one order of the
    variables, which is that of the policy. *)
Theorem C101_order : forall clk shuffle f e sv os a ys e' r,
  let m := w_model (e_world e) in
  opt_valid shuffle e os a -> optimize_all clk shuffle f e sv os a = Some (ys, e', r) ->
  exists order, Permutation order (variables_of m) /\
    plain_order shuffle (policy_of sv a) m order /\
    (forall s, In s ys -> map fst s = order) /\
    NoDup ys /\ ForallOrdPairs (lex_before order (declared m)) ys.
Proof. exact optimize_order. Qed.
Print Assumptions C101_order.

(** 2 * x + y with x, y in 0..2 and x + y <= 3, in the order y, x. *)
Example C101_order_case : opt_valid noshuffle e_opt os_opt no_args /\
  match optimize_all clk0 noshuffle 200 e_opt default_solver os_opt no_args with Some (ys, _, r) => Some (ys, r) | None => None end =
    Some ([[("y", 0); ("x", 0)]; [("y", 0); ("x", 1)]; [("y", 0); ("x", 2)]; [("y", 1); ("x", 2)]], None).
Proof. split; [apply opt_case_valid; intros o [E|[]]; inversion E; reflexivity|vm_compute; reflexivity]. Qed.

(** It visits the variables as the policy says, counting one more constraint for each objective, on
    the variables of the objective. *)
Theorem C101_policy : forall clk shuffle f e sv os a ys e' r,
  let m := w_model (e_world e) in
  opt_valid shuffle e os a -> optimize_all clk shuffle f e sv os a = Some (ys, e', r) -> ys <> [] ->
  exists ocs, Forall2 bounds_objective ocs os /\
    forall s, In s ys -> visits shuffle (policy_of sv a) m (all_cons m a ++ ocs) (map fst s).
Proof. exact optimize_visits. Qed.
Print Assumptions C101_policy.

(** No constraints, and MAX_CONSTRAINT: the variables of the objective y + z come first. *)
Example C101_policy_case : opt_valid noshuffle e_xyz os_yz no_args /\ policy_of sv_most no_args = MAX_CONSTRAINT /\
  variables_of (w_model (e_world e_xyz)) = ["x"; "y"; "z"] /\
  match optimize_all clk0 noshuffle 200 e_xyz sv_most os_yz no_args with Some (ys, _, r) => Some (map (map fst) ys, r) | None => None end =
    Some (repeat ["y"; "z"; "x"] 6, None).
Proof. split; [exact xyz_valid|]. repeat split; vm_compute; reflexivity. Qed.

(** A KnapsackOptimizer with n items finds at most 2^n solutions, each a selection of the items
    and none twice; its search begins less than 3 * 2^n iterations. *)
Theorem C101_knapsack : forall clk shuffle f o values caps rows again vs r i, instance values caps rows -> shuffles shuffle ->
  knapsack_watched clk shuffle f (map Some values) (map Some caps) (Weights (map (map Some) rows) again) o = Some (vs, r, i) ->
  NoDup (found vs) /\ (forall t, In t (found vs) -> selection t /\ Permutation (map fst t) (items (length values))) /\
  len (found vs) <= 2 ^ len values /\
  Z.of_nat (knapsack_iterations clk shuffle f (map Some values) (map Some caps) (Weights (map (map Some) rows) again) o) <= 3 * 2 ^ len values - 1.
Proof. exact knapsack_solutions. Qed.
Print Assumptions C101_knapsack.

(** The three items of C99_case: five solutions. *)
Example C101_knapsack_case : instance bag_values bag_caps bag_rows /\
  match knapsack_watched clk0 noshuffle 100 (map Some bag_values) (map Some bag_caps) (Weights (map (map Some) bag_rows) true) ordered with
  | Some (vs, _, _) => len (found vs) | None => 0 end = 5 /\
  knapsack_iterations clk0 noshuffle 100 (map Some bag_values) (map Some bag_caps) (Weights (map (map Some) bag_rows) true) ordered = 16%nat.
Proof. split; [apply bag_case|]. split; vm_compute; reflexivity. Qed.
