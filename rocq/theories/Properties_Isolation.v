(** What a running enumeration does with the changes its consumer makes. *)
From Verif Require Import Solver SpecFormula SpecSolve SpecIsolation SolverCases IsolationFacts.
Open Scope string_scope.
Open Scope list_scope.
Open Scope Z_scope.

(** C65: variables, parameters and constraints added by the body of the [for] loop do not change
    the solutions, the end or the counters of the running enumeration, and are all in the
    model afterwards. *)
Theorem C65_building : forall clk shuffle f e sv a h ys e' r,
  valid shuffle e a -> (forall c, In c (all_cons (w_model (e_world e)) a) -> created (e_world e) c) ->
  (forall k s, Forall builds (h k s)) ->
  solve_all clk shuffle f e sv a = Some (ys, e', r) ->
  exists e1, drain clk shuffle f (calling h) 0 e (GInit sv a) = Some (ys, e1, r) /\ get_stats e1 = get_stats e' /\
    e_world e1 = run_history (calls_made h 0 ys) (e_world e').
Proof. exact isolated_building. Qed.
Print Assumptions C65_building.

(** C65: with compiled constraints, parameters may be assigned too. *)
Theorem C65_parameters : forall clk shuffle f e sv a h ys e' r,
  valid shuffle e a -> s_compile sv = true -> (forall c, In c (all_cons (w_model (e_world e)) a) -> created (e_world e) c) ->
  (forall k s, Forall no_compile (h k s)) ->
  solve_all clk shuffle f e sv a = Some (ys, e', r) ->
  exists e1, drain clk shuffle f (calling h) 0 e (GInit sv a) = Some (ys, e1, r) /\ get_stats e1 = get_stats e' /\
    e_world e1 = run_history (calls_made h 0 ys) (e_world e').
Proof. exact isolated_parameters. Qed.
Print Assumptions C65_parameters.

(** x + y == p with p = 1; after each solution the consumer excludes its value of x, and sets p. *)
Example C65_case :
  let ys := [[("y", 0); ("x", 1)]; [("y", 1); ("x", 0)]] in
  valid noshuffle e_sum no_args /\
  (forall c, In c (all_cons (w_model (e_world e_sum)) no_args) -> created (e_world e_sum) c) /\
  (forall k s, Forall builds (exclude k s)) /\ (forall k s, Forall no_compile (exclude_set k s)) /\
  view (run_sum (fun _ _ => []) default_solver) = Some (ys, None) /\
  view (run_sum exclude default_solver) = Some (ys, None) /\
  view (run_sum exclude_set default_solver) = Some (ys, None) /\
  List.length (m_cons (w_model (e_world (env_of e_sum (run_sum exclude default_solver))))) = 3%nat /\
  w_par (e_world (env_of e_sum (run_sum exclude_set default_solver))) 0%nat = 2.
Proof.
  split; [exact sum_valid|]. split; [exact sum_created|].
  split; [intros k s; repeat constructor|]. split; [intros k s; repeat constructor|].
  repeat split; vm_compute; reflexivity.
Qed.

(** C65 fails for an assigned parameter when the constraints are interpreted. *)
Theorem C65_interpreted_refuted : exists clk shuffle f e sv a h ys e1 ys' e1' r',
  valid shuffle e a /\ s_compile sv = false /\ (forall c, In c (all_cons (w_model (e_world e)) a) -> created (e_world e) c) /\
  (forall k s, Forall no_compile (h k s)) /\
  solve_all clk shuffle f e sv a = Some (ys, e1, None) /\
  drain clk shuffle f (calling h) 0 e (GInit sv a) = Some (ys', e1', r') /\ ys <> ys'.
Proof. exact interpreted_not_isolated. Qed.
Print Assumptions C65_interpreted_refuted.

(** C65 fails for compiled constraints that a nested enumeration compiles again after a
    parameter was assigned. *)
Theorem C65_nested_refuted : exists clk shuffle f e sv a h ys e1 ys' e1' r',
  valid shuffle e a /\ s_compile sv = true /\ (forall c, In c (all_cons (w_model (e_world e)) a) -> created (e_world e) c) /\
  (forall k s c, In (CompileConstraint c) (h k s) -> In c (m_cons (w_model (e_world e)))) /\
  solve_all clk shuffle f e sv a = Some (ys, e1, None) /\
  drain clk shuffle f (calling h) 0 e (GInit sv a) = Some (ys', e1', r') /\ ys <> ys'.
Proof. exact nested_not_isolated. Qed.
Print Assumptions C65_nested_refuted.
