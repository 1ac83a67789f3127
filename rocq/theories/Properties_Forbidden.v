(** Property theorems about the unused method Solver._solve_forbidden (C79).
    [forbidden_all clk shuffle f e sv a = Some (ys, e', r)] is about consuming
    [solver._solve_forbidden(model, **a)] to its end, as [solve_all] is about [solve]. *)
From Verif Require Import Solver Forbidden SpecFormula SpecSafe SpecSolve SolverCases ForbiddenFacts ForbiddenCases.
Open Scope string_scope.
Open Scope list_scope.
Open Scope Z_scope.

(** C79: it yields the first solution that [solve] yields (with the same order of variables) and then
    raises NameError; without a solution it ends as [solve] does. *)
Theorem C79_first_partial : forall clk clk2 shuffle f f2 e sv a a2 ys e' r zs e2 r2,
  let m := w_model (e_world e) in
  valid shuffle e a -> has_variable m -> m_solvable m = true ->
  timeout_of sv a = LNone -> unlimited sv a2 -> x_additional a2 = x_additional a ->
  policy_of sv a2 = match policy_of sv a with GROUPS => GROUPS | RANDOM => RANDOM | REVERSED => REVERSED | _ => ORDERED end ->
  forbidden_all clk shuffle f e sv a = Some (ys, e', r) ->
  solve_all clk2 shuffle f2 e sv a2 = Some (zs, e2, r2) ->
  (zs = [] -> ys = [] /\ r = r2) /\
  (forall s zs', zs = s :: zs' -> ys = [s] /\ r = Some NameError).
Proof. exact forbidden_first. Qed.
Print Assumptions C79_first_partial.

(** x, y in 1..3, all different, x < y, y > 1: [solve] yields three solutions. *)
Example C79_case : valid noshuffle e_small no_args /\ has_variable (w_model (e_world e_small)) /\
  m_solvable (w_model (e_world e_small)) = true /\ timeout_of default_solver no_args = LNone /\
  view (forbidden_all clk0 noshuffle 100 e_small default_solver no_args) = Some ([[("y", 2); ("x", 1)]], Some NameError) /\
  view (small_run default_solver no_args) =
    Some ([[("y", 2); ("x", 1)]; [("y", 3); ("x", 1)]; [("y", 3); ("x", 2)]], None).
Proof. exact forbidden_small. Qed.

(** The enumeration is not the one of [solve]. *)
Theorem C79_refuted : exists clk shuffle f e sv a ys e' zs e2,
  valid shuffle e a /\ unlimited sv a /\
  forbidden_all clk shuffle f e sv a = Some (ys, e', Some NameError) /\
  solve_all clk shuffle f e sv a = Some (zs, e2, None) /\ length ys = 1%nat /\ length zs = 3%nat.
Proof. exact forbidden_refuted. Qed.
Print Assumptions C79_refuted.

(** What it yields is a solution, whatever the timeout. *)
Theorem C79_sound : forall clk shuffle f e sv a ys e' r,
  let m := w_model (e_world e) in
  valid shuffle e a -> forbidden_all clk shuffle f e sv a = Some (ys, e', r) ->
  forall s, In s ys -> solves (evaluates_true (e_world e')) m (all_cons m a) s.
Proof. exact forbidden_sound. Qed.
Print Assumptions C79_sound.

(** If it ends normally and was not interrupted, there is no solution. *)
Theorem C79_no_solution : forall clk shuffle f e sv a ys e',
  let m := w_model (e_world e) in
  valid shuffle e a -> has_variable m -> forbidden_all clk shuffle f e sv a = Some (ys, e', None) ->
  e_interrupt e' <> Some ITimeout -> ys = [] /\ forall t, ~ solves (evaluates_true (e_world e')) m (all_cons m a) t.
Proof. exact forbidden_none. Qed.
Print Assumptions C79_no_solution.

(** The small model with x > y as well. *)
Example C79_no_solution_case : valid noshuffle e_small above_args /\ exists e' : env,
  forbidden_all clk0 noshuffle 100 e_small default_solver above_args = Some ([], e', None) /\
  e_interrupt e' = None.
Proof. exact forbidden_none_case. Qed.

(** It always ends. *)
Theorem C79_terminates : forall clk shuffle e sv a, valid shuffle e a ->
  exists f r, forbidden_all clk shuffle f e sv a = Some r.
Proof. exact forbidden_terminates. Qed.
Print Assumptions C79_terminates.

(** It leaves the statistics of the solver (those of an earlier [solve]) as they were. *)
Theorem C79_stats : forall clk shuffle f e sv a ys e' r,
  forbidden_all clk shuffle f e sv a = Some (ys, e', r) -> timeout_of sv a = LNone -> get_stats e' = get_stats e.
Proof. exact forbidden_stats. Qed.
Print Assumptions C79_stats.

(** Statistics of a finished [solve]: 3 solutions; they are not those of [_solve_forbidden]. *)
Example C79_stats_case : fst (fst (get_stats (env_of e_small (small_run default_solver no_args)))) = 3 /\
  exists ys e' r, ys <> [] /\
  forbidden_all clk0 noshuffle 100 (env_of e_small (small_run default_solver no_args)) default_solver no_args = Some (ys, e', r) /\
  fst (fst (get_stats e')) = 3.
Proof. exact forbidden_stats_case. Qed.

(** A model that [solve] knows to be unsolvable: it yields an assignment. *)
Theorem C79_unsolvable_refuted : exists clk shuffle f e sv a s e' r,
  valid shuffle e a /\ m_solvable (w_model (e_world e)) = false /\
  forbidden_all clk shuffle f e sv a = Some ([s], e', r).
Proof. exact forbidden_unsolvable. Qed.
Print Assumptions C79_unsolvable_refuted.

(** A model without variables: IndexError, where [solve] yields nothing. *)
Theorem C79_no_variable : forall clk shuffle f e sv a ys e' r,
  let m := w_model (e_world e) in
  valid shuffle e a -> ~ has_variable m -> x_additional a = [] -> m_cons m = [] -> timeout_of sv a = LNone ->
  forbidden_all clk shuffle f e sv a = Some (ys, e', r) -> ys = [] /\ r = Some IndexError.
Proof. exact forbidden_empty. Qed.
Print Assumptions C79_no_variable.

Example C79_no_variable_case :
  view (forbidden_all clk0 noshuffle 10 (new_env init_world) default_solver no_args) = Some ([], Some IndexError).
Proof. vm_compute. reflexivity. Qed.

(** The timeout is honoured: an interrupted run yields nothing and sets the flag. *)
Theorem C79_timeout : forall clk shuffle f e sv a ys e' r,
  forbidden_all clk shuffle f e sv a = Some (ys, e', r) ->
  e_interrupt e' = e_interrupt e \/
  (e_interrupt e' = Some ITimeout /\ ys = [] /\ r = None /\ exists n, timeout_of sv a = LNum n).
Proof. exact forbidden_timeout. Qed.
Print Assumptions C79_timeout.

Example C79_timeout_case :
  view (forbidden_all clk0 noshuffle 100 e_small default_solver (with_timeout (LNum 1) no_args)) = Some ([], None) /\
  view (forbidden_all clk0 noshuffle 100 e_small default_solver (with_timeout (LNum 5) no_args)) =
    Some ([[("y", 2); ("x", 1)]], Some NameError).
Proof. vm_compute. split; reflexivity. Qed.
