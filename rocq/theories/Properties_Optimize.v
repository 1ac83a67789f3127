(** Property theorems about Solver.optimize and Solver.optimal_solution (C35-C40).

    Vocabulary: as in Properties_Solver.v, and (SpecOptimize.v)
    [optimize_all clk shuffle f e sv os a = Some (ys, e', r)]: consuming
    [solver.optimize(model, os, **a)] to its end yields [ys], leaves the state [e'] and ends
    normally ([r = None]) or with an exception.  [optimal_solution ... = Some (e', res)]:
    the result is [res = Ok (is_optimal, solution)] or an exception.
    [opt_valid]: model, constraints, objectives and parameters were made through the API
    ([C35_valid_reachable]).  [solves (holds ps) m cs s]: [s] is a solution of the model in
    the mathematical sense. *)
From Coq Require Import Permutation.
From Verif Require Import Optimize SpecFormula SpecSafe SpecSolve SpecOptimize
  SolverProps SolverMore SolverCases OptimizeProps OptimizeMore OptimizeCases.
Open Scope string_scope.
Open Scope list_scope.
Open Scope Z_scope.

(** Every program state reached by API calls on objects that exist is valid. *)
Theorem C35_valid_reachable : forall B h shuffle e os a,
  genuine B init_world h -> informed init_world h -> e_world e = run_history h init_world ->
  (forall c, In c (x_additional a) -> B (c_id c) = c_body c) ->
  known (e_world e) (x_additional a) -> (forall o, In (OObj o) os -> known_expr (e_world e) (o_expr o)) ->
  shuffles shuffle -> opt_valid shuffle e os a.
Proof. exact opt_valid_reachable. Qed.
Print Assumptions C35_valid_reachable.

(** C35: every solution found satisfies every constraint of the model (and the additional
    ones), as decided by [constraint.evaluate] after the run; all options, any end. *)
Theorem C35_feasible : forall clk shuffle f e sv os a ys e' r,
  opt_valid shuffle e os a -> optimize_all clk shuffle f e sv os a = Some (ys, e', r) ->
  forall s, In s ys -> solves (evaluates_true (e_world e')) (w_model (e_world e)) (all_cons (w_model (e_world e)) a) s.
Proof. exact opt_feasible. Qed.
Print Assumptions C35_feasible.

(** C35, in the mathematical sense. *)
Theorem C35_feasible_holds : forall clk shuffle f e sv os a ys e' r,
  opt_valid shuffle e os a -> optimize_all clk shuffle f e sv os a = Some (ys, e', r) ->
  faithful (e_world e) (s_compile sv) (all_cons (w_model (e_world e)) a) ->
  no_error (w_par (e_world e)) (w_model (e_world e)) (all_cons (w_model (e_world e)) a) ->
  forall s, In s ys -> solves (holds (w_par (e_world e))) (w_model (e_world e)) (all_cons (w_model (e_world e)) a) s.
Proof. exact opt_feasible_holds. Qed.
Print Assumptions C35_feasible_holds.

(** Maximising 2x + y for x, y in 0..2 with x + y <= 3. *)
Example C35_case : opt_valid noshuffle e_opt os_opt no_args /\
  faithful (e_world e_opt) true (all_cons (w_model (e_world e_opt)) no_args) /\
  no_error (w_par (e_world e_opt)) (w_model (e_world e_opt)) (all_cons (w_model (e_world e_opt)) no_args) /\
  exists ys e', optimize_all clk0 noshuffle 200 e_opt default_solver os_opt no_args = Some (ys, e', None) /\ length ys = 4%nat.
Proof.
  split; [apply opt_case_valid; intros o [E|[]]; inversion E; reflexivity|]. split; [apply opt_case_faithful|].
  split; [exact opt_case_no_error|]. do 2 eexists. split; [exact opt_case_run|reflexivity].
Qed.

(** C36 is false: Minimize(x) over x in [0, 1, 2] returns x = 2, flagged optimal. *)
Theorem C36_single_variable_refuted : exists clk shuffle f e sv o a e' s,
  opt_valid shuffle e [OObj o] a /\
  optimal_solution clk shuffle f e sv [OObj o] a = Some (e', Ok (true, Some s)) /\
  exists t p q, solves (holds (w_par (e_world e))) (w_model (e_world e)) (all_cons (w_model (e_world e)) a) t /\
    value_of (w_par (e_world e)) o s p /\ value_of (w_par (e_world e)) o t q /\ better o q p.
Proof. exact not_optimal_witness. Qed.
Print Assumptions C36_single_variable_refuted.

(** C36 is false also for objectives of several variables: Minimize(x + y) over x = 0 and
    y in [0, 1] returns y = 1. *)
Theorem C36_several_variables_refuted : exists clk shuffle f e sv o a e' s,
  opt_valid shuffle e [OObj o] a /\ (exists x y, x <> y /\ occurs x (o_expr o) /\ occurs y (o_expr o)) /\
  optimal_solution clk shuffle f e sv [OObj o] a = Some (e', Ok (true, Some s)) /\
  exists t p q, solves (holds (w_par (e_world e))) (w_model (e_world e)) (all_cons (w_model (e_world e)) a) t /\
    value_of (w_par (e_world e)) o s p /\ value_of (w_par (e_world e)) o t q /\ better o q p.
Proof. exact not_optimal_witness2. Qed.
Print Assumptions C36_several_variables_refuted.

(** C36, what holds: the solution returned is optimal if the objective gets no worse when a
    variable takes a later value of its domain, and the objective has no variable, or two,
    or one which is the first chosen.  Missing: objectives that get worse along a domain,
    or depend on a single variable chosen later (both refuted above). *)
Theorem C36_optimal_partial : forall clk shuffle f e sv os a e',
  opt_valid shuffle e os a ->
  faithful (e_world e) (s_compile sv) (all_cons (w_model (e_world e)) a) ->
  no_error (w_par (e_world e)) (w_model (e_world e)) (all_cons (w_model (e_world e)) a) ->
  objective_faithful (s_compile sv) os ->
  forall o s, os = [OObj o] ->
  optimal_solution clk shuffle f e sv os a = Some (e', Ok (true, Some s)) ->
  improves_along (w_model (e_world e)) (w_par (e_world e)) o ->
  ((forall x, ~ occurs x (o_expr o)) \/
   (exists x y, x <> y /\ occurs x (o_expr o) /\ occurs y (o_expr o)) \/
   (exists x v l, (forall z, occurs z (o_expr o) -> z = x) /\ s = (x, v) :: l)) ->
  best (w_par (e_world e)) o (solves (holds (w_par (e_world e))) (w_model (e_world e)) (all_cons (w_model (e_world e)) a)) s.
Proof. exact optimal_best. Qed.
Print Assumptions C36_optimal_partial.

Example C36_case : opt_valid noshuffle e_opt os_opt no_args /\
  faithful (e_world e_opt) true (all_cons (w_model (e_world e_opt)) no_args) /\
  no_error (w_par (e_world e_opt)) (w_model (e_world e_opt)) (all_cons (w_model (e_world e_opt)) no_args) /\
  objective_faithful true os_opt /\
  (exists e', optimal_solution clk0 noshuffle 200 e_opt default_solver os_opt no_args = Some (e', Ok (true, Some [("y", 1); ("x", 2)]))) /\
  improves_along (w_model (e_world e_opt)) (w_par (e_world e_opt)) o_max2 /\
  (exists x y, x <> y /\ occurs x (o_expr o_max2) /\ occurs y (o_expr o_max2)).
Proof.
  split; [apply opt_case_valid; intros o [E|[]]; inversion E; reflexivity|]. split; [apply opt_case_faithful|].
  split; [exact opt_case_no_error|]. split; [exact opt_case_obj|]. split; [eexists; exact opt_case_optimal|].
  split; [apply opt_case_along|exact opt_case_two].
Qed.

(** C37: the best of the solutions found is optimal for the model, and there is a best one
    if any was found. *)
Theorem C37_best_found : forall clk shuffle f e sv os a ys e' r,
  opt_valid shuffle e os a -> optimize_all clk shuffle f e sv os a = Some (ys, e', r) ->
  faithful (e_world e) (s_compile sv) (all_cons (w_model (e_world e)) a) ->
  no_error (w_par (e_world e)) (w_model (e_world e)) (all_cons (w_model (e_world e)) a) ->
  objective_faithful (s_compile sv) os ->
  forall o, os = [OObj o] -> r = None -> e_interrupt e' = None ->
  m_solvable (w_model (e_world e)) = true -> has_variable (w_model (e_world e)) ->
  forall s, best (w_par (e_world e)) o (fun y => In y ys) s ->
  best (w_par (e_world e)) o (solves (holds (w_par (e_world e))) (w_model (e_world e)) (all_cons (w_model (e_world e)) a)) s.
Proof. exact opt_best. Qed.
Print Assumptions C37_best_found.

Theorem C37_best_exists : forall clk shuffle f e sv os a ys e' r,
  opt_valid shuffle e os a -> optimize_all clk shuffle f e sv os a = Some (ys, e', r) ->
  forall o, os = [OObj o] -> r = None -> e_interrupt e' = None -> ys <> [] ->
  exists s, best (w_par (e_world e)) o (fun y => In y ys) s.
Proof. exact opt_best_exists. Qed.
Print Assumptions C37_best_exists.

(** C37, any number of objectives: a solution of the model was found, or is not strictly
    better in some objective than some solution found. *)
Theorem C37_covers : forall clk shuffle f e sv os a ys e' r,
  opt_valid shuffle e os a -> optimize_all clk shuffle f e sv os a = Some (ys, e', r) ->
  faithful (e_world e) (s_compile sv) (all_cons (w_model (e_world e)) a) ->
  no_error (w_par (e_world e)) (w_model (e_world e)) (all_cons (w_model (e_world e)) a) ->
  objective_faithful (s_compile sv) os ->
  forall t, r = None -> e_interrupt e' = None ->
  m_solvable (w_model (e_world e)) = true -> has_variable (w_model (e_world e)) ->
  solves (holds (w_par (e_world e))) (w_model (e_world e)) (all_cons (w_model (e_world e)) a) t ->
  (forall o, In (OObj o) os -> exists v, value_of (w_par (e_world e)) o t v) ->
  (exists s, In s ys /\ same_dict s t) \/
  (exists s o v v', In s ys /\ In (OObj o) os /\ value_of (w_par (e_world e)) o t v /\
     value_of (w_par (e_world e)) o s v' /\ ~ better o v v').
Proof. exact opt_covers. Qed.
Print Assumptions C37_covers.

Example C37_case : opt_valid noshuffle e_opt os_opt no_args /\
  (exists ys e', optimize_all clk0 noshuffle 200 e_opt default_solver os_opt no_args = Some (ys, e', None) /\
     e_interrupt e' = None /\ ys <> []) /\
  faithful (e_world e_opt) true (all_cons (w_model (e_world e_opt)) no_args) /\
  no_error (w_par (e_world e_opt)) (w_model (e_world e_opt)) (all_cons (w_model (e_world e_opt)) no_args) /\
  objective_faithful true os_opt /\ m_solvable (w_model (e_world e_opt)) = true /\ has_variable (w_model (e_world e_opt)) /\
  exists v, value_of (w_par (e_world e_opt)) o_max2 [("y", 1); ("x", 2)] v.
Proof.
  split; [apply opt_case_valid; intros o [E|[]]; inversion E; reflexivity|].
  split; [do 2 eexists; split; [exact opt_case_run|split; [exact opt_case_end|discriminate]]|]. split; [apply opt_case_faithful|].
  split; [exact opt_case_no_error|]. split; [exact opt_case_obj|]. split; [reflexivity|]. split; [exact opt_case_has|].
  exists 5. reflexivity.
Qed.

(** C38: every call ends (see also C19 for the number of steps [f]). *)
Theorem C38_terminates : forall clk shuffle e sv os a, opt_valid shuffle e os a ->
  exists f r, optimize_all clk shuffle f e sv os a = Some r.
Proof. exact optimize_terminates. Qed.
Print Assumptions C38_terminates.

(** C38: without limits, and if nothing raises, a solution flagged optimal is returned if
    the model has one, else None. *)
Theorem C38_found : forall clk shuffle f e sv os a e',
  opt_valid shuffle e os a ->
  faithful (e_world e) (s_compile sv) (all_cons (w_model (e_world e)) a) ->
  no_error (w_par (e_world e)) (w_model (e_world e)) (all_cons (w_model (e_world e)) a) ->
  objective_faithful (s_compile sv) os ->
  forall res, optimal_solution clk shuffle f e sv os a = Some (e', res) ->
  ~ In OOther os -> unlimited sv a -> groups_ok (w_model (e_world e)) (all_cons (w_model (e_world e)) a) ->
  objectives_total (w_model (e_world e)) (w_par (e_world e)) os ->
  m_solvable (w_model (e_world e)) = true -> has_variable (w_model (e_world e)) ->
  (exists s, res = Ok (true, Some s) /\
     solves (holds (w_par (e_world e))) (w_model (e_world e)) (all_cons (w_model (e_world e)) a) s) \/
  (res = Ok (false, None) /\
     forall t, ~ solves (holds (w_par (e_world e))) (w_model (e_world e)) (all_cons (w_model (e_world e)) a) t).
Proof. exact optimal_found. Qed.
Print Assumptions C38_found.

(** C38, any options: the flag is set exactly if a solution was found and the search was
    not interrupted. *)
Theorem C38_flag : forall clk shuffle f e sv os a e' b sol,
  optimal_solution clk shuffle f e sv os a = Some (e', Ok (b, sol)) ->
  (b = true <-> sol <> None /\ e_interrupt e' = None).
Proof. exact optimal_flag. Qed.
Print Assumptions C38_flag.

(** C38, any options: None without interrupt means that there is no solution for which all
    objectives have a value. *)
Theorem C38_none : forall clk shuffle f e sv os a e',
  opt_valid shuffle e os a ->
  faithful (e_world e) (s_compile sv) (all_cons (w_model (e_world e)) a) ->
  no_error (w_par (e_world e)) (w_model (e_world e)) (all_cons (w_model (e_world e)) a) ->
  objective_faithful (s_compile sv) os ->
  forall b t, optimal_solution clk shuffle f e sv os a = Some (e', Ok (b, None)) ->
  e_interrupt e' = None -> m_solvable (w_model (e_world e)) = true -> has_variable (w_model (e_world e)) ->
  solves (holds (w_par (e_world e))) (w_model (e_world e)) (all_cons (w_model (e_world e)) a) t ->
  ~ (forall o, In (OObj o) os -> exists v, value_of (w_par (e_world e)) o t v).
Proof. exact optimal_none. Qed.
Print Assumptions C38_none.

Example C38_case : opt_valid noshuffle e_opt os_opt no_args /\
  faithful (e_world e_opt) true (all_cons (w_model (e_world e_opt)) no_args) /\
  no_error (w_par (e_world e_opt)) (w_model (e_world e_opt)) (all_cons (w_model (e_world e_opt)) no_args) /\
  objective_faithful true os_opt /\
  (exists e', optimal_solution clk0 noshuffle 200 e_opt default_solver os_opt no_args = Some (e', Ok (true, Some [("y", 1); ("x", 2)]))) /\
  ~ In OOther os_opt /\ unlimited default_solver no_args /\
  groups_ok (w_model (e_world e_opt)) (all_cons (w_model (e_world e_opt)) no_args) /\
  objectives_total (w_model (e_world e_opt)) (w_par (e_world e_opt)) os_opt /\
  m_solvable (w_model (e_world e_opt)) = true /\ has_variable (w_model (e_world e_opt)).
Proof.
  split; [apply opt_case_valid; intros o [E|[]]; inversion E; reflexivity|]. split; [apply opt_case_faithful|].
  split; [exact opt_case_no_error|]. split; [exact opt_case_obj|]. split; [eexists; exact opt_case_optimal|].
  split; [intros [E|[]]; discriminate|]. split; [exact small_unlimited|]. split; [exact opt_case_groups|].
  split; [apply opt_case_total|]. split; [reflexivity|exact opt_case_has].
Qed.

(** C39 is false: Minimize(x) over [0, 1, 2] yields 0, 1, 2. *)
Theorem C39_improves_refuted : exists clk shuffle f e sv o a e' ys,
  opt_valid shuffle e [OObj o] a /\
  optimize_all clk shuffle f e sv [OObj o] a = Some (ys, e', None) /\
  exists i s t p q, nth_error ys i = Some s /\ nth_error ys (S i) = Some t /\
    value_of (w_par (e_world e)) o s p /\ value_of (w_par (e_world e)) o t q /\ better o p q.
Proof. exact not_improving_witness. Qed.
Print Assumptions C39_improves_refuted.

(** C39, what holds: no solution is worse than the previous one if the objective gets no
    worse along the domains.  Missing: other objectives (refuted), strictness. *)
Theorem C39_never_worse_partial : forall clk shuffle f e sv os a ys e' r,
  opt_valid shuffle e os a -> optimize_all clk shuffle f e sv os a = Some (ys, e', r) ->
  objective_faithful (s_compile sv) os ->
  forall o, In (OObj o) os ->
  (exists x y, x <> y /\ occurs x (o_expr o) /\ occurs y (o_expr o)) \/
  (exists x, occurs x (o_expr o) /\ (forall z, occurs z (o_expr o) -> z = x) /\
     forall s, In s ys -> exists v l, s = (x, v) :: l) ->
  improves_along (w_model (e_world e)) (w_par (e_world e)) o ->
  chain (fun s s' => forall p q, value_of (w_par (e_world e)) o s p -> value_of (w_par (e_world e)) o s' q -> ~ better o p q) ys.
Proof. exact opt_never_worse. Qed.
Print Assumptions C39_never_worse_partial.

(** C39, what holds strictly: each solution is strictly better than the previous one if the
    objective gets strictly better along the domains and depends on every variable. *)
Theorem C39_strict_partial : forall clk shuffle f e sv os a ys e' r,
  opt_valid shuffle e os a -> optimize_all clk shuffle f e sv os a = Some (ys, e', r) ->
  objective_faithful (s_compile sv) os ->
  forall o, In (OObj o) os ->
  (exists x y, x <> y /\ occurs x (o_expr o) /\ occurs y (o_expr o)) \/
  (exists x, occurs x (o_expr o) /\ (forall z, occurs z (o_expr o) -> z = x) /\
     forall s, In s ys -> exists v l, s = (x, v) :: l) ->
  improves_strictly (w_model (e_world e)) (w_par (e_world e)) o ->
  (forall x d, is_variable (w_model (e_world e)) x d -> occurs x (o_expr o)) ->
  chain (fun s s' => forall p q, value_of (w_par (e_world e)) o s p -> value_of (w_par (e_world e)) o s' q -> better o q p) ys.
Proof. exact opt_strict. Qed.
Print Assumptions C39_strict_partial.

Example C39_case : opt_valid noshuffle e_opt os_opt no_args /\
  (exists ys e', optimize_all clk0 noshuffle 200 e_opt default_solver os_opt no_args = Some (ys, e', None) /\ length ys = 4%nat) /\
  objective_faithful true os_opt /\ In (OObj o_max2) os_opt /\
  (exists x y, x <> y /\ occurs x (o_expr o_max2) /\ occurs y (o_expr o_max2)) /\
  improves_along (w_model (e_world e_opt)) (w_par (e_world e_opt)) o_max2 /\
  improves_strictly (w_model (e_world e_opt)) (w_par (e_world e_opt)) o_max2 /\
  (forall x d, is_variable (w_model (e_world e_opt)) x d -> occurs x (o_expr o_max2)).
Proof.
  split; [apply opt_case_valid; intros o [E|[]]; inversion E; reflexivity|].
  split; [do 2 eexists; split; [exact opt_case_run|reflexivity]|]. split; [exact opt_case_obj|]. split; [now left|].
  split; [exact opt_case_two|]. split; [apply opt_case_along|]. split; [apply opt_case_strict|].
  intros x d Hx. apply opt_case_variable in Hx. destruct opt_case_two as (p & q & _). apply occurs_vars_case. tauto.
Qed.

(** C40: after the run, the constraints, the solvable flag, the variables and their domains
    are as before; only parameters were added (two per objective); the old parameters have
    their values; the solutions are the same; and the state is again valid. *)
Theorem C40_state : forall clk shuffle f e sv os a ys e' r,
  opt_valid shuffle e os a -> optimize_all clk shuffle f e sv os a = Some (ys, e', r) ->
  exists aux,
  let w' := e_world e' in
  let m := w_model (e_world e) in
  w_model w' = Model (m_vars m ++ aux) (m_cons m) (m_solvable m) /\
  (forall x i, In (x, i) aux -> exists p, i = VPar p) /\ (length aux <= 2 * length os)%nat /\
  (forall p, (p < w_npar (e_world e))%nat -> w_par w' p = w_par (e_world e) p) /\
  (forall x d, is_variable (w_model w') x d <-> is_variable m x d) /\
  (forall cs s, known (e_world e) cs ->
     (solves (holds (w_par w')) (w_model w') cs s <-> solves (holds (w_par (e_world e))) m cs s)) /\
  (forall a', incl (x_additional a') (x_additional a) -> opt_valid shuffle e' os a').
Proof. exact opt_state. Qed.
Print Assumptions C40_state.

(** C40: enumerating the solutions afterwards gives the solutions as before. *)
Theorem C40_solve_after : forall clk shuffle f e sv os a ys e' r,
  opt_valid shuffle e os a -> optimize_all clk shuffle f e sv os a = Some (ys, e', r) ->
  forall clk1 clk2 shuffle2 f1 f2 sv1 sv2 a1 ys1 ys2 e1 e2 r1 r2,
  let cs := all_cons (w_model (e_world e)) a1 in
  incl (x_additional a1) (x_additional a) -> shuffles shuffle2 ->
  faithful (e_world e) (s_compile sv1) cs -> faithful (e_world e') (s_compile sv2) cs ->
  no_error (w_par (e_world e)) (w_model (e_world e)) cs -> groups_ok (w_model (e_world e)) cs ->
  unlimited sv1 a1 -> unlimited sv2 a1 ->
  solve_all clk1 shuffle f1 e sv1 a1 = Some (ys1, e1, r1) ->
  solve_all clk2 shuffle2 f2 e' sv2 a1 = Some (ys2, e2, r2) ->
  same_solutions ys1 ys2 /\ r1 = None /\ r2 = None.
Proof. exact opt_solve_after. Qed.
Print Assumptions C40_solve_after.

Example C40_case : opt_valid noshuffle e_opt os_opt no_args /\
  exists ys e', optimize_all clk0 noshuffle 200 e_opt default_solver os_opt no_args = Some (ys, e', None) /\
  faithful (e_world e_opt) true (all_cons (w_model (e_world e_opt)) no_args) /\
  faithful (e_world e') true (all_cons (w_model (e_world e_opt)) no_args) /\
  length (m_vars (w_model (e_world e_opt))) = 2%nat /\ length (m_vars (w_model (e_world e'))) = 4%nat.
Proof.
  split; [apply opt_case_valid; intros o [E|[]]; inversion E; reflexivity|]. do 2 eexists. split; [exact opt_case_run|].
  split; [apply opt_case_faithful|]. split; [|split; [reflexivity|vm_compute; reflexivity]].
  intros c ex Hc Hb. exact (opt_case_faithful true c ex Hc Hb).
Qed.
