(** Property theorems that bound the work of the search by the sizes of the domains (C102).

    [tree (sizes m order)]: how many partial assignments of the first variables of the order there
    are; [space (sizes m order)]: how many assignments of all the variables. *)
From Coq Require Import Permutation.
From Verif Require Import Optimize SolverWatch OptimizeCost SpecSafe SpecSolve SpecOrder SpecOptimize SpecBound SpecSpace HistoryFacts SolverCases OptimizeCases
  WatchCases SpaceCases CostSpace CostSpace2 CostSpace3.
Open Scope string_scope.
Open Scope list_scope.
Open Scope Z_scope.

(** However it ends, whatever the constraints and the policy are, [solve] extends at most as many
    partial assignments and finds at most as many solutions as the domains allow, in the order of
    the policy; the number of iterations of its loop is bounded accordingly. *)
Theorem C102_solve : forall clk shuffle f e sv a ts ys e' r,
  let m := w_model (e_world e) in let cs := all_cons m a in
  valid shuffle e a -> solve_watched clk shuffle f e sv a = Some (ts, ys, e', r) ->
  exists order, Permutation order (variables_of m) /\ (ts <> [] -> visits shuffle (policy_of sv a) m cs order) /\
    len ts <= tree (sizes m order) /\ len ys <= space (sizes m order) /\
    Z.of_nat (iterations clk shuffle f e (GInit sv a)) <= 2 * tree (sizes m order) + space (sizes m order) + 1.
Proof. exact solve_space. Qed.
Print Assumptions C102_solve.

(** Without constraints the bounds are reached: y in 0..2, then x in 0..1. *)
Example C102_solve_case : valid noshuffle e_free no_args /\
  tree (sizes (w_model (e_world e_free)) ["y"; "x"]) = 4 /\ space (sizes (w_model (e_world e_free)) ["y"; "x"]) = 6 /\
  match solve_watched clk0 noshuffle 100 e_free sv_watch no_args with Some (ts, ys, _, _) => Some (len ts, len ys) | None => None end = Some (4, 6) /\
  iterations clk0 noshuffle 100 e_free (GInit sv_watch no_args) = 13%nat.
Proof. split; [exact free_valid|]. repeat split; vm_compute; reflexivity. Qed.

(** If no constraint excludes anything, an unlimited search does not raise and reaches the first
    two bounds. *)
Theorem C102_exact : forall clk shuffle f e sv a ts ys e' r,
  let m := w_model (e_world e) in let cs := all_cons m a in
  valid shuffle e a -> solve_watched clk shuffle f e sv a = Some (ts, ys, e', r) ->
  unlimited sv a -> m_solvable m = true -> has_variable m -> idle (e_world e') m cs ->
  exists order, Permutation order (variables_of m) /\ visits shuffle (policy_of sv a) m cs order /\
    r = None /\ len ts = tree (sizes m order) /\ len ys = space (sizes m order) /\
    Z.of_nat (iterations clk shuffle f e (GInit sv a)) = 2 * tree (sizes m order) + space (sizes m order) - 1.
Proof. exact solve_exact. Qed.
Print Assumptions C102_exact.

(** The variables of C102_solve_case: no constraints, 13 = 2 * 4 + 6 - 1 iterations. *)
Example C102_exact_case : valid noshuffle e_free no_args /\ unlimited sv_watch no_args /\ m_solvable (w_model (e_world e_free)) = true /\
  has_variable (w_model (e_world e_free)) /\ (forall w, idle w (w_model (e_world e_free)) (all_cons (w_model (e_world e_free)) no_args)) /\
  iterations clk0 noshuffle 100 e_free (GInit sv_watch no_args) = 13%nat.
Proof.
  split; [exact free_valid|]. split; [split; reflexivity|]. split; [reflexivity|]. split; [exists "y", [0; 1; 2]; now left|].
  split; [intros w; split; [intros c xs []|intros c s []]|]. vm_compute. reflexivity.
Qed.

(** With the policy MIN_BOUND these bounds hold for every order of the variables: ascending sizes
    give the smallest tree. *)
Theorem C102_min_bound : forall clk shuffle f e sv a ts ys e' r,
  let m := w_model (e_world e) in
  valid shuffle e a -> solve_watched clk shuffle f e sv a = Some (ts, ys, e', r) ->
  policy_of sv a = MIN_BOUND -> forall order, Permutation order (variables_of m) ->
  len ts <= tree (sizes m order) /\
  Z.of_nat (iterations clk shuffle f e (GInit sv a)) <= 2 * tree (sizes m order) + space (sizes m order) + 1.
Proof. exact solve_ascending. Qed.
Print Assumptions C102_min_bound.

(** The same variables, x first. *)
Example C102_min_bound_case : valid noshuffle e_free no_args /\ policy_of sv_min no_args = MIN_BOUND /\
  tree (sizes (w_model (e_world e_free)) ["x"; "y"]) = 3 /\
  match solve_watched clk0 noshuffle 100 e_free sv_min no_args with Some (ts, ys, _, _) => Some (len ts, len ys) | None => None end = Some (3, 6).
Proof. split; [exact free_valid|]. repeat split; vm_compute; reflexivity. Qed.

(** False: the search with MIN_BOUND is never longer than that with another policy.  (The sizes
    are those of the declared domains, not of what constraints on one variable leave of them:
    y in 0..2 with y == 1, x in 0..1.) *)
Theorem C102_min_bound_refuted : exists e f ts ts' ys ys', valid noshuffle e no_args /\
  watched_view (solve_watched clk0 noshuffle f e sv_min no_args) = Some (ts, ys, None) /\
  watched_view (solve_watched clk0 noshuffle f e sv_watch no_args) = Some (ts', ys', None) /\
  len ys = len ys' /\ len ts > len ts' /\
  (iterations clk0 noshuffle f e (GInit sv_min no_args) > iterations clk0 noshuffle f e (GInit sv_watch no_args))%nat.
Proof. exact tied_refuted. Qed.
Print Assumptions C102_min_bound_refuted.

(** The same for [optimize], whatever the objectives are. *)
Theorem C102_optimize : forall clk shuffle f e sv os a vs e' r,
  let m := w_model (e_world e) in
  opt_valid shuffle e os a -> optimize_watched clk shuffle f e sv os a = Some (vs, e', r) ->
  exists order, Permutation order (variables_of m) /\
    plain_order shuffle (policy_of sv a) m order /\
    len (tried vs) <= tree (sizes m order) /\ len (found vs) <= space (sizes m order) /\
    Z.of_nat (optimize_iterations clk shuffle f e sv os a) <= 2 * tree (sizes m order) + space (sizes m order) + 1.
Proof. exact optimize_space. Qed.
Print Assumptions C102_optimize.

(** x, y in 0..2 (C94_case): 4 of 4 partial assignments, 4 of 9 assignments. *)
Example C102_optimize_case : opt_valid noshuffle e_opt os_opt no_args /\
  tree (sizes (w_model (e_world e_opt)) ["y"; "x"]) = 4 /\ space (sizes (w_model (e_world e_opt)) ["y"; "x"]) = 9 /\
  match optimize_watched clk0 noshuffle 200 e_opt default_solver os_opt no_args with Some (vs, _, _) => Some (len (tried vs), len (found vs)) | None => None end = Some (4, 4).
Proof. split; [apply opt_case_valid; intros o [E|[]]; inversion E; reflexivity|]. repeat split; vm_compute; reflexivity. Qed.

(** With MIN_BOUND the bounds hold for every order of the variables here, too. *)
Theorem C102_optimize_min_bound : forall clk shuffle f e sv os a vs e' r,
  let m := w_model (e_world e) in
  opt_valid shuffle e os a -> optimize_watched clk shuffle f e sv os a = Some (vs, e', r) ->
  policy_of sv a = MIN_BOUND -> forall order, Permutation order (variables_of m) ->
  len (tried vs) <= tree (sizes m order) /\
  Z.of_nat (optimize_iterations clk shuffle f e sv os a) <= 2 * tree (sizes m order) + space (sizes m order) + 1.
Proof. exact optimize_ascending. Qed.
Print Assumptions C102_optimize_min_bound.

(** y in 0..2, x in 0..1, to maximize 2 * x + y: x first, all 3 partial assignments, 5 of 6
    assignments; y first, 4 partial assignments. *)
Example C102_optimize_min_bound_case : opt_valid noshuffle e_free os_opt no_args /\ policy_of sv_min no_args = MIN_BOUND /\
  tree (sizes (w_model (e_world e_free)) ["x"; "y"]) = 3 /\ tree (sizes (w_model (e_world e_free)) ["y"; "x"]) = 4 /\
  match optimize_watched clk0 noshuffle 200 e_free sv_min os_opt no_args with Some (vs, _, _) => Some (len (tried vs), len (found vs)) | None => None end = Some (3, 5).
Proof. split; [apply free_opt_valid; intros o [E|[]]; inversion E; reflexivity|]. repeat split; vm_compute; reflexivity. Qed.
