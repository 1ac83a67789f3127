(** Property theorems about Solver.solve and Timer (C09, C16-C33, C57-C61).

    Vocabulary (SpecSolve.v): [solve_all clk shuffle f e sv a = Some (ys, e', r)] says that
    consuming [solver.solve(model, **a)] to its end, in the program state [e], with clock
    readings [clk] and [random.shuffle] = [shuffle], yields the solutions [ys], leaves the
    state [e'] and ends normally ([r = None]) or with an exception.  [f] only bounds the
    number of steps of the model's interpreter (C19: some [f] is always enough).
    [valid shuffle e a]: the model and the constraints were made through the API
    ([C16_valid_reachable]) and [shuffle] permutes. *)
From Coq Require Import Permutation.
From Verif Require Import Solver SpecFormula SpecSafe SpecSolve SpecTimer TimerFacts MasterFacts HistoryFacts TotalFacts
  SolverProps SolverMore SolverExtra SolverCases SolverAgain.
Open Scope string_scope.
Open Scope list_scope.
Open Scope Z_scope.

(** Every program state reached by API calls on constraint objects that exist is valid. *)
Theorem C16_valid_reachable : forall B h shuffle e a,
  genuine B init_world h -> e_world e = run_history h init_world ->
  (forall c, In c (x_additional a) -> B (c_id c) = c_body c) -> shuffles shuffle -> valid shuffle e a.
Proof. exact valid_reachable. Qed.
Print Assumptions C16_valid_reachable.

(** C16: soundness, for every consumed enumeration, even one that ends with an exception.
    Satisfaction is as decided by [constraint.evaluate] after the run; C57 relates it to
    the mathematical meaning of the constraint. *)
Theorem C16_sound : forall clk shuffle f e sv a ys e' r,
  valid shuffle e a -> solve_all clk shuffle f e sv a = Some (ys, e', r) ->
  forall s, In s ys -> solves (evaluates_true (e_world e')) (w_model (e_world e)) (all_cons (w_model (e_world e)) a) s.
Proof. exact sound. Qed.
Print Assumptions C16_sound.

(** x, y in 1..3, all different, x < y, y > 1. *)
Example C16_case : valid noshuffle e_small no_args /\
  view (small_run default_solver no_args) =
    Some ([[("y", 2); ("x", 1)]; [("y", 3); ("x", 1)]; [("y", 3); ("x", 2)]], None).
Proof. split; [exact small_valid|vm_compute; reflexivity]. Qed.

(** C17: completeness. *)
Theorem C17_complete : forall clk shuffle f e sv a ys e' r,
  let m := w_model (e_world e) in let cs := all_cons m a in
  valid shuffle e a -> solve_all clk shuffle f e sv a = Some (ys, e', r) ->
  unlimited sv a -> m_solvable m = true -> has_variable m ->
  no_raise (ceval (e_world e')) m cs -> groups_ok m cs ->
  r = None /\ e_interrupt e' = None /\
  forall t, solves (evaluates_true (e_world e')) m cs t -> exists s, In s ys /\ same_dict s t.
Proof. exact complete. Qed.
Print Assumptions C17_complete.

Example C17_case : exists ys e', let m := w_model (e_world e_small) in
  small_run default_solver no_args = Some (ys, e', None) /\ length ys = 3%nat /\
  valid noshuffle e_small no_args /\ unlimited default_solver no_args /\ m_solvable m = true /\ has_variable m /\
  no_raise (ceval (e_world e')) m (all_cons m no_args) /\ groups_ok m (all_cons m no_args).
Proof. exact small_hypotheses. Qed.

(** C18: no solution twice. *)
Theorem C18_distinct : forall clk shuffle f e sv a ys e' r,
  valid shuffle e a -> solve_all clk shuffle f e sv a = Some (ys, e', r) ->
  ForallOrdPairs (fun s s' => ~ same_dict s s') ys.
Proof. exact distinct. Qed.
Print Assumptions C18_distinct.

Example C18_case : exists e', valid noshuffle e_small no_args /\
  small_run default_solver no_args = Some ([[("y", 2); ("x", 1)]; [("y", 3); ("x", 1)]; [("y", 3); ("x", 2)]], e', None).
Proof.
  exists (env_of e_small (small_run default_solver no_args)). split; [exact small_valid|].
  apply view_run. vm_compute. reflexivity.
Qed.

(** C19: termination, for every consumer. *)
Theorem C19_terminates : forall clk shuffle e sv a consumer,
  shuffles shuffle -> well_named (w_model (e_world e)) ->
  objects (e_world e) (all_cons (w_model (e_world e)) a) ->
  exists f r, drain clk shuffle f consumer 0 e (GInit sv a) = Some r.
Proof. exact run_terminates. Qed.
Print Assumptions C19_terminates.

(** A consumer that changes a parameter at every solution: the enumeration ends. *)
Example C19_case :
  let consumer := fun k w (_ : subst) => Ok (set_param w 0 (Z.of_nat k)) in
  view (drain clk0 noshuffle 60 consumer 0 e_stale (GInit sv_interp no_args)) = Some ([[("x", 0)]], None).
Proof. vm_compute. reflexivity. Qed.

(** C20: the policy and the shuffle do not matter for the set of solutions.  (That each
    policy visits every variable once is in C21.) *)
Theorem C20_policy_independent : forall clk1 clk2 shuffle1 shuffle2 f1 f2 e sv1 sv2 a1 a2 ys1 ys2 e1 e2 r1 r2,
  valid shuffle1 e a1 -> shuffles shuffle2 ->
  s_compile sv1 = s_compile sv2 -> x_additional a1 = x_additional a2 ->
  unlimited sv1 a1 -> unlimited sv2 a2 ->
  no_raise (ceval (e_world e1)) (w_model (e_world e)) (all_cons (w_model (e_world e)) a1) ->
  groups_ok (w_model (e_world e)) (all_cons (w_model (e_world e)) a1) ->
  solve_all clk1 shuffle1 f1 e sv1 a1 = Some (ys1, e1, r1) ->
  solve_all clk2 shuffle2 f2 e sv2 a2 = Some (ys2, e2, r2) ->
  same_solutions ys1 ys2 /\ r1 = None /\ r2 = None.
Proof. exact policy_independent. Qed.
Print Assumptions C20_policy_independent.

Example C20_case :
  view (small_run (new_solver ORDERED LNone LNone true) no_args) =
    Some ([[("x", 1); ("y", 2)]; [("x", 1); ("y", 3)]; [("x", 2); ("y", 3)]], None).
Proof. vm_compute. reflexivity. Qed.

(** C21: lexicographic order, for an order of the variables that depends on the policy. *)
Theorem C21_ordered : forall clk shuffle f e sv a ys e' r,
  let m := w_model (e_world e) in
  valid shuffle e a -> solve_all clk shuffle f e sv a = Some (ys, e', r) ->
  exists order, Permutation order (variables_of m) /\
    (policy_of sv a = ORDERED -> order = variables_of m) /\
    (policy_of sv a = REVERSED -> order = rev (variables_of m)) /\
    (policy_of sv a = RANDOM -> order = shuffle (variables_of m)) /\
    (forall s, In s ys -> map fst s = order) /\
    ForallOrdPairs (lex_before order (declared m)) ys.
Proof. exact ordered. Qed.
Print Assumptions C21_ordered.

Example C21_case : variables_of (w_model (e_world e_small)) = ["x"; "y"] /\
  declared (w_model (e_world e_small)) "x" = [1; 2; 3].
Proof. split; reflexivity. Qed.

(** C22: limit = n >= 1. *)
Theorem C22_limit_truncates : forall clk shuffle f1 f2 e sv a a0 ys1 ys2 e1 e2 r1 r2 n,
  x_additional a = x_additional a0 -> x_policy a = x_policy a0 -> valid shuffle e a ->
  solve_all clk shuffle f1 e sv a = Some (ys1, e1, r1) ->
  solve_all clk shuffle f2 e sv a0 = Some (ys2, e2, r2) ->
  unlimited sv a0 -> timeout_of sv a = LNone -> limit_of sv a = LNum n -> 1 <= n ->
  ys1 = firstn (Z.to_nat n) ys2 /\
  (e_interrupt e1 = Some ILimit <-> len ys1 = n) /\
  (len ys1 < n -> ys1 = ys2 /\ r1 = r2 /\ e_interrupt e1 = None).
Proof. exact limit_truncates. Qed.
Print Assumptions C22_limit_truncates.

Example C22_case :
  view (small_run default_solver (with_limit (LNum 2) no_args)) = Some ([[("y", 2); ("x", 1)]; [("y", 3); ("x", 1)]], None) /\
  limit_of default_solver (with_limit (LNum 2) no_args) = LNum 2 /\ timeout_of default_solver (with_limit (LNum 2) no_args) = LNone.
Proof. split; [vm_compute; reflexivity|split; reflexivity]. Qed.

(** C23: limit = 0 yields one solution. *)
Theorem C23_limit_zero_refuted : exists clk shuffle f e sv a ys e' r,
  valid shuffle e a /\ limit_of sv a = LNum 0 /\
  solve_all clk shuffle f e sv a = Some (ys, e', r) /\ length ys = 1%nat.
Proof. exact limit_zero_refuted. Qed.
Print Assumptions C23_limit_zero_refuted.

(** C24: with a timeout. *)
Theorem C24_timeout_truncates : forall clk shuffle f1 f2 e sv a a0 ys1 ys2 e1 e2 r1 r2,
  x_additional a = x_additional a0 -> x_policy a = x_policy a0 -> valid shuffle e a ->
  solve_all clk shuffle f1 e sv a = Some (ys1, e1, r1) ->
  solve_all clk shuffle f2 e sv a0 = Some (ys2, e2, r2) ->
  unlimited sv a0 -> timeout_of sv a <> LInfinity -> limit_of sv a = LNone ->
  prefix ys1 ys2 /\
  match e_interrupt e1 with
  | None => ys1 = ys2 /\ r1 = r2
  | Some ILimit => False
  | Some ITimeout => r1 = None /\ exists t j, timeout_of sv a = LNum t /\ e_clk e1 = S j /\
                     t < timer_elapsed (clk j) (e_timers e1 (e_timer e1))
  end.
Proof. exact timeout_truncates. Qed.
Print Assumptions C24_timeout_truncates.

(** The clock advances by one at each reading; the timeout 5 interrupts after the first
    solution. *)
Example C24_case : exists e',
  small_run default_solver (with_timeout (LNum 5) no_args) = Some ([[("y", 2); ("x", 1)]], e', None) /\
  e_interrupt e' = Some ITimeout.
Proof.
  exists (env_of e_small (small_run default_solver (with_timeout (LNum 5) no_args))). split.
  - apply view_run. vm_compute. reflexivity.
  - vm_compute. reflexivity.
Qed.

(** C25: the count is the number of solutions; no interrupt and no exception means that
    every solution was yielded. *)
Theorem C25_stats_exhaustive : forall clk shuffle f e sv a ys e' r,
  let m := w_model (e_world e) in
  valid shuffle e a -> solve_all clk shuffle f e sv a = Some (ys, e', r) ->
  fst (fst (get_stats e')) = len ys /\
  (m_solvable m = true -> has_variable m -> r = None -> snd (get_stats e') = None ->
   forall t, solves (evaluates_true (e_world e')) m (all_cons m a) t -> exists s, In s ys /\ same_dict s t).
Proof. exact stats_exhaustive. Qed.
Print Assumptions C25_stats_exhaustive.

(** C25: what an interrupt means. *)
Theorem C25_interrupts : forall clk shuffle f e sv a ys e' r,
  valid shuffle e a -> solve_all clk shuffle f e sv a = Some (ys, e', r) ->
  match e_interrupt e' with
  | None => True
  | Some ILimit => r = None /\ exists n, limit_of sv a = LNum n /\ ys <> [] /\ n <= len ys /\ (len ys = n \/ len ys = 1)
  | Some ITimeout => r = None /\ exists t j, timeout_of sv a = LNum t /\ e_clk e' = S j /\
                       t < timer_elapsed (clk j) (e_timers e' (e_timer e'))
  end.
Proof. exact interrupts. Qed.
Print Assumptions C25_interrupts.

Example C25_case :
  get_stats (env_of e_small (small_run default_solver no_args)) = (3, 3, None) /\
  get_stats (env_of e_small (small_run default_solver (with_limit (LNum 3) no_args))) = (3, 3, Some ILimit).
Proof. vm_compute. split; reflexivity. Qed.

(** C26: elapsed is the sum of the durations of disjoint intervals, one per solution, each
    from the start (or the resumption) to the solution.  Missing: the interval after the
    last solution is never added. *)
Theorem C26_elapsed_partial : forall clk shuffle f e sv a ys e' r,
  valid shuffle e a -> solve_all clk shuffle f e sv a = Some (ys, e', r) ->
  t_count (e_timers e' (e_timer e')) = len ys /\
  exists segs, length segs = length ys /\
    match segs with
    | [] => True
    | (b, c) :: segs' => b = e_clk e /\ (b < c)%nat /\ ordered_from (S c) segs'
    end /\
    t_elapsed (e_timers e' (e_timer e')) = durations clk segs.
Proof. exact counted. Qed.
Print Assumptions C26_elapsed_partial.

Example C26_case : snd (fst (get_stats (env_of e_small (small_run default_solver (with_timeout (LNum 1000) no_args))))) = 9.
Proof. vm_compute. reflexivity. Qed.

(** C26 fails: an unsatisfiable model; the search lasts 5 ticks, elapsed is 0. *)
Theorem C26_elapsed_refuted : exists shuffle f e sv a ys e' r,
  valid shuffle e a /\ solve_all clk0 shuffle f e sv a = Some (ys, e', r) /\
  clk0 (e_clk e' - 1) - clk0 (e_clk e) = 5 /\ get_stats e' = (0, 0, None).
Proof. exact elapsed_refuted. Qed.
Print Assumptions C26_elapsed_refuted.

(** C27: for every log of calls the Timer reports the measured intervals... *)
Theorem C27_stopwatch : forall h now,
  let t := timer_run h new_timer in
  let (l, open) := measured None h in
  t_running t = (match open with Some _ => true | None => false end) /\
  t_count t = total_count l /\
  timer_stats t = (total_count l, total_time l) /\
  timer_elapsed now t = total_time l + match open with Some b => now - b | None => 0 end.
Proof. exact stopwatch. Qed.
Print Assumptions C27_stopwatch.

(** ... calls out of turn raise RuntimeError and change nothing... *)
Theorem C27_errors : forall h now c,
  let t := timer_run h new_timer in
  let running := match snd (measured None h) with Some _ => true | None => false end in
  snd (timer_call now c t) =
    match c with
    | CStart => if running then Some RuntimeError else None
    | CStop _ => if running then None else Some RuntimeError
    | CAbort => None
    end /\
  (snd (timer_call now c t) <> None -> fst (timer_call now c t) = t).
Proof. exact stopwatch_errors. Qed.
Print Assumptions C27_errors.

(** ... and solve never makes such a call. *)
Theorem C27_solver_discipline : forall clk shuffle f e sv a ys e' r,
  valid shuffle e a -> solve_all clk shuffle f e sv a = Some (ys, e', r) -> r <> Some RuntimeError.
Proof. exact no_timer_error. Qed.
Print Assumptions C27_solver_discipline.

Example C27_case :
  measured None [(1, CStop 1); (10, CStart); (13, CStart); (15, CStop 2); (20, CStart); (24, CAbort); (30, CStart)]
    = ([(10, 15, 2); (20, 24, 0)], Some 30) /\
  timer_elapsed 37 (timer_run [(1, CStop 1); (10, CStart); (13, CStart); (15, CStop 2); (20, CStart); (24, CAbort); (30, CStart)] new_timer) = 16.
Proof. split; reflexivity. Qed.

(** C28: an all-different constraint evaluated directly... *)
Theorem C28_alldiff_evaluate : forall w id xs s,
  (forall x, In x xs -> In x (map fst s)) ->
  exists b, ceval w (Constraint id (CAllDiff xs)) s = Ok b /\
    (b = true <-> forall x y, In x xs -> In y xs -> x <> y -> dget s x <> dget s y).
Proof. exact alldiff_eval. Qed.
Print Assumptions C28_alldiff_evaluate.

(** ... and in solve.  (That solve loses no assignment with pairwise different values is
    part of C17.) *)
Theorem C28_alldiff_enforced : forall clk shuffle f e sv a ys e' r c xs s x y,
  valid shuffle e a -> solve_all clk shuffle f e sv a = Some (ys, e', r) ->
  In c (all_cons (w_model (e_world e)) a) -> c_body c = CAllDiff xs ->
  In s ys -> In x xs -> In y xs -> x <> y -> exists v w, dget s x = Some v /\ dget s y = Some w /\ v <> w.
Proof. exact alldiff_enforced. Qed.
Print Assumptions C28_alldiff_enforced.

(** Three variables over 0..2, all different: the six permutations. *)
Example C28_case :
  option_map (fun p => length (fst p)) (view (solve_all clk0 noshuffle 200 (new_env (run_history
     [AddInt [0; 1; 2] (Some "x"); AddInt [0; 1; 2] (Some "y"); AddInt [0; 1; 2] (Some "z"); AddAllDiff ["x"; "y"; "z"]] init_world))
     default_solver no_args)) = Some 6%nat.
Proof. vm_compute. reflexivity. Qed.

(** C29: without variables nothing is yielded, although every constraint holds. *)
Theorem C29_no_variables_refuted : exists clk shuffle f e ys e' r,
  valid shuffle e no_args /\ m_solvable (w_model (e_world e)) = true /\ m_cons (w_model (e_world e)) = [] /\
  solve_all clk shuffle f e default_solver no_args = Some (ys, e', r) /\ ys = [].
Proof. exact no_variables_refuted. Qed.
Print Assumptions C29_no_variables_refuted.

(** C30, for additional constraints that mention a variable of the model.  Missing:
    constraints without variables (refuted below). *)
Theorem C30_additional_partial : forall clk1 clk2 shuffle1 shuffle2 f1 f2 e sv a ys1 ys2 e1 e2 r1 r2,
  valid shuffle1 e a -> shuffles shuffle2 -> unlimited sv a ->
  no_raise (ceval (e_world e1)) (w_model (e_world e)) (all_cons (w_model (e_world e)) a) ->
  groups_ok (w_model (e_world e)) (all_cons (w_model (e_world e)) a) ->
  solve_all clk1 shuffle1 f1 e sv a = Some (ys1, e1, r1) ->
  solve_all clk2 shuffle2 f2 e sv (without a) = Some (ys2, e2, r2) ->
  forall t, (exists s, In s ys1 /\ same_dict s t) <->
            (exists s, In s ys2 /\ same_dict s t) /\
            (forall c, In c (x_additional a) -> concerns (w_model (e_world e)) c -> evaluates_true (e_world e1) t c).
Proof. exact additional_conjoined. Qed.
Print Assumptions C30_additional_partial.

Example C30_case :
  view (small_run default_solver (Args None None None [Constraint 3 (CExpr (Bin OGt (Var "x") (Const 1)))])) =
    Some ([[("y", 3); ("x", 2)]], None).
Proof. vm_compute. reflexivity. Qed.

Theorem C30_constant_refuted : exists clk shuffle f e sv a ys e' r c,
  valid shuffle e a /\ In c (x_additional a) /\ (forall w s, ceval w c s = Ok false) /\
  solve_all clk shuffle f e sv a = Some (ys, e', r) /\ ys <> [].
Proof. exact additional_constant_refuted. Qed.
Print Assumptions C30_constant_refuted.

(** C31: solving changes neither the model nor the parameters, and solving again (later,
    with other clock readings, after other enumerations that left the objects as they
    are) gives the same sequence, if [random.shuffle] does the same or the policy is not
    RANDOM. *)
Theorem C31_solve_again : forall clk1 clk2 shuffle1 shuffle2 f1 f2 e sv a ys1 ys2 e1 e2 r1 r2 eb,
  valid shuffle1 e a -> timeout_of sv a = LNone ->
  (arg_or (x_policy a) (s_policy sv) = RANDOM -> forall l, shuffle2 l = shuffle1 l) ->
  solve_all clk1 shuffle1 f1 e sv a = Some (ys1, e1, r1) ->
  e_world eb = e_world e1 ->
  solve_all clk2 shuffle2 f2 eb sv a = Some (ys2, e2, r2) ->
  w_model (e_world e1) = w_model (e_world e) /\ w_par (e_world e1) = w_par (e_world e) /\
  ys1 = ys2 /\ r1 = r2.
Proof. exact solve_again_shuffle. Qed.
Print Assumptions C31_solve_again.

(** C31: with the policy RANDOM the sequence may be another one. *)
Theorem C31_random_refuted : exists shuffle1 shuffle2 e,
  shuffles shuffle2 /\ valid shuffle1 e no_args /\
  exists f ys1 e1 ys2 e2,
    solve_all clk0 shuffle1 f e sv_random no_args = Some (ys1, e1, None) /\
    solve_all clk0 shuffle2 f e1 sv_random no_args = Some (ys2, e2, None) /\ ys1 <> ys2.
Proof. exact random_differs. Qed.
Print Assumptions C31_random_refuted.

(** C31: whatever [random.shuffle] does, the solutions are the same. *)
Theorem C31_random : forall clk1 clk2 shuffle1 shuffle2 f1 f2 e sv a ys1 ys2 e1 e2 r1 r2 eb,
  let m := w_model (e_world e) in
  valid shuffle1 e a -> shuffles shuffle2 -> unlimited sv a ->
  no_raise (ceval (e_world e1)) m (all_cons m a) -> groups_ok m (all_cons m a) ->
  solve_all clk1 shuffle1 f1 e sv a = Some (ys1, e1, r1) ->
  e_world eb = e_world e1 ->
  solve_all clk2 shuffle2 f2 eb sv a = Some (ys2, e2, r2) ->
  same_solutions ys1 ys2 /\ r1 = None /\ r2 = None.
Proof. exact solve_again_random. Qed.
Print Assumptions C31_random.

Theorem C31_model_unchanged : forall clk shuffle f e sv a ys e' r,
  valid shuffle e a -> solve_all clk shuffle f e sv a = Some (ys, e', r) ->
  w_model (e_world e') = w_model (e_world e) /\ w_par (e_world e') = w_par (e_world e).
Proof. exact model_unchanged. Qed.
Print Assumptions C31_model_unchanged.

Example C31_case :
  let e1 := env_of e_small (small_run default_solver no_args) in
  view (solve_all clk0 (@rev name) 100 e1 sv_random no_args) =
    Some ([[("y", 2); ("x", 1)]; [("y", 3); ("x", 1)]; [("y", 3); ("x", 2)]], None) /\
  view (solve_all clk0 (@rev name) 100 e1 default_solver no_args) =
    Some ([[("y", 2); ("x", 1)]; [("y", 3); ("x", 1)]; [("y", 3); ("x", 2)]], None) /\
  view (solve_all clk0 noshuffle 100 e1 default_solver no_args) =
    Some ([[("y", 2); ("x", 1)]; [("y", 3); ("x", 1)]; [("y", 3); ("x", 2)]], None).
Proof. repeat split; vm_compute; reflexivity. Qed.

(** C32: an exception comes from the evaluation of a constraint, from an all-different
    constraint over something else than variables, or from an INFINITY argument; what was
    yielded before is correct.  (That no exception is swallowed is part of C25: without
    exception and interrupt the enumeration is exhaustive.) *)
Theorem C32_exceptions : forall clk shuffle f e sv a ys e' ex,
  let m := w_model (e_world e) in let cs := all_cons m a in
  valid shuffle e a -> solve_all clk shuffle f e sv a = Some (ys, e', Some ex) ->
  (forall s, In s ys -> solves (evaluates_true (e_world e')) m cs s) /\
  (eval_error (e_world e') m cs ex \/
   (~ groups_ok m cs /\ (ex = KeyError \/ ex = ValueError)) \/
   (ex = TypeError /\ (timeout_of sv a = LInfinity \/ limit_of sv a = LInfinity))).
Proof. exact exceptions_propagate. Qed.
Print Assumptions C32_exceptions.

(** After its end or an exception the generator is finished and stays so. *)
Theorem C32_generator_finished : forall clk shuffle f e g e' g' v,
  next clk shuffle f e g = Some (e', g', v) ->
  match v with EvYield _ => True | EvNone => False | EvStop | EvRaise _ => g' = GDone end.
Proof. exact next_end. Qed.
Print Assumptions C32_generator_finished.

(** [4 / x == y] with x in [2, 1, 0]: two solutions, then ZeroDivisionError. *)
Example C32_case :
  view (solve_all clk0 noshuffle 200 (new_env (run_history
     [AddInt [2; 1; 0] (Some "x"); AddInt [2; 4] (Some "y");
      AddConstraint (AExpr (Bin OEq (Bin ODiv (Const 4) (Var "x")) (Var "y")))] init_world))
     (new_solver ORDERED LNone LNone true) no_args) =
  Some ([[("x", 2); ("y", 2)]; [("x", 1); ("y", 4)]], Some ZeroDivisionError).
Proof. vm_compute. reflexivity. Qed.

(** C33 fails: the first enumeration, resumed after the second was started, reports its
    own interrupt as that of the solver. *)
Theorem C33_interleaved_stats_refuted : exists clk shuffle f e sv a1 a2 e1 g1 s1 e2 g2 s2 e3 g3,
  valid shuffle e a1 /\ valid shuffle e a2 /\
  limit_of sv a1 = LNum 1 /\ limit_of sv a2 = LNone /\ timeout_of sv a2 = LNone /\
  next clk shuffle f e (GInit sv a1) = Some (e1, g1, EvYield s1) /\
  next clk shuffle f e1 (GInit sv a2) = Some (e2, g2, EvYield s2) /\
  next clk shuffle f e2 g1 = Some (e3, g3, EvStop) /\
  e_interrupt e2 = None /\ snd (get_stats e3) = Some ILimit.
Proof. exact interleaved_stats_refuted. Qed.
Print Assumptions C33_interleaved_stats_refuted.

(** C57: solutions in the mathematical sense, when constraints are compiled and in the safe
    class of C05, or never compiled; and no evaluation raises.  Missing: the other
    constraints, for which it fails. *)
Theorem C57_mathematical_partial : forall clk shuffle f e sv a ys e' r,
  let m := w_model (e_world e) in let cs := all_cons m a in
  valid shuffle e a -> faithful (e_world e) (s_compile sv) cs -> no_error (w_par (e_world e)) m cs ->
  solve_all clk shuffle f e sv a = Some (ys, e', r) ->
  (forall s, In s ys -> solves (holds (w_par (e_world e))) m cs s) /\
  (unlimited sv a -> m_solvable m = true -> has_variable m -> groups_ok m cs ->
   r = None /\ e_interrupt e' = None /\
   forall t, solves (holds (w_par (e_world e))) m cs t -> exists s, In s ys /\ same_dict s t).
Proof. exact solutions_hold. Qed.
Print Assumptions C57_mathematical_partial.

(** Constraints without [/], [%] and [**] never raise. *)
Theorem C57_no_error_total : forall ps m cs,
  (forall c e, In c cs -> c_body c = CExpr e -> total e = true) -> no_error ps m cs.
Proof. exact no_error_total. Qed.
Print Assumptions C57_no_error_total.

Example C57_case : valid noshuffle e_small no_args /\
  faithful (e_world e_small) true (all_cons (w_model (e_world e_small)) no_args) /\
  no_error (w_par (e_world e_small)) (w_model (e_world e_small)) (all_cons (w_model (e_world e_small)) no_args).
Proof. split; [exact small_valid|]. split; [exact (small_faithful true)|exact small_no_error]. Qed.

(** [(a | b) & c] is satisfied by c = 0, a = 1 in the compiled constraint. *)
Theorem C57_miscompiled_refuted : exists clk shuffle f e ys e' r s,
  valid shuffle e no_args /\
  no_error (w_par (e_world e)) (w_model (e_world e)) (all_cons (w_model (e_world e)) no_args) /\
  solve_all clk shuffle f e default_solver no_args = Some (ys, e', r) /\
  In s ys /\ ~ solves (holds (w_par (e_world e))) (w_model (e_world e)) (m_cons (w_model (e_world e))) s.
Proof. exact miscompiled_refuted. Qed.
Print Assumptions C57_miscompiled_refuted.

(** C09: after [p.value = v] a solve is sound and complete for the new value, provided the
    constraints are compiled (and safe), or were never compiled. *)
Theorem C09_parameter_update_partial : forall clk shuffle f e sv a ys e' r p v,
  let m := w_model (e_world e) in let cs := all_cons m a in
  let ps := fun q => if Nat.eqb q p then v else w_par (e_world e) q in
  valid shuffle e a -> faithful (e_world e) (s_compile sv) cs -> no_error ps m cs ->
  solve_all clk shuffle f (set_world e (set_param (e_world e) p v)) sv a = Some (ys, e', r) ->
  (forall s, In s ys -> solves (holds ps) m cs s) /\
  (unlimited sv a -> m_solvable m = true -> has_variable m -> groups_ok m cs ->
   r = None /\ forall t, solves (holds ps) m cs t -> exists s, In s ys /\ same_dict s t).
Proof. exact parameter_update. Qed.
Print Assumptions C09_parameter_update_partial.

(** [x == p], compiled twice, with p = 0 and then p = 1. *)
Example C09_case :
  let e1 := env_of e_stale (solve_all clk0 noshuffle 50 e_stale default_solver no_args) in
  view (solve_all clk0 noshuffle 50 e_stale default_solver no_args) = Some ([[("x", 0)]], None) /\
  view (solve_all clk0 noshuffle 50 (set_world e1 (set_param (e_world e1) 0 1)) default_solver no_args)
    = Some ([[("x", 1)]], None).
Proof. vm_compute. split; reflexivity. Qed.

(** C09 fails when a compiled constraint is used by a solver that does not compile: the
    code compiled with the old value is used. *)
Theorem C09_stale_refuted : exists clk shuffle f e sv1 sv2 ys1 e1 r1 p v ys2 e2 r2 s,
  valid shuffle e no_args /\
  solve_all clk shuffle f e sv1 no_args = Some (ys1, e1, r1) /\
  solve_all clk shuffle f (set_world e1 (set_param (e_world e1) p v)) sv2 no_args = Some (ys2, e2, r2) /\
  In s ys2 /\
  ~ solves (holds (w_par (set_param (e_world e1) p v))) (w_model (e_world e1)) (m_cons (w_model (e_world e1))) s.
Proof. exact stale_refuted. Qed.
Print Assumptions C09_stale_refuted.

(** C58: INFINITY as an attribute of the solver means no bound... *)
Theorem C58_infinity_attribute_partial : forall p t l cmp a,
  x_timeout a = None -> x_limit a = None -> t = LInfinity -> l = LInfinity ->
  unlimited (new_solver p t l cmp) a.
Proof. exact infinity_attribute. Qed.
Print Assumptions C58_infinity_attribute_partial.

Example C58_case :
  view (small_run (new_solver GROUPS LInfinity LInfinity true) no_args) =
    Some ([[("y", 2); ("x", 1)]; [("y", 3); ("x", 1)]; [("y", 3); ("x", 2)]], None).
Proof. vm_compute. reflexivity. Qed.

(** ... but passed to solve it raises TypeError. *)
Theorem C58_infinity_argument_refuted : exists clk shuffle f e sv ys e' r,
  valid shuffle e (with_limit LInfinity no_args) /\
  solve_all clk shuffle f e sv (with_limit LInfinity no_args) = Some (ys, e', r) /\
  length ys = 1%nat /\ r = Some TypeError.
Proof. exact infinity_argument_refuted. Qed.
Print Assumptions C58_infinity_argument_refuted.

(** C59 fails: the constraint [x == Variable('p')], where p is a parameter of the model, is
    accepted by add_constraint and then ignored by solve. *)
Theorem C59_ignored_constraint_refuted : exists clk shuffle f e ys e' r c s,
  valid shuffle e no_args /\ In c (m_cons (w_model (e_world e))) /\
  solve_all clk shuffle f e default_solver no_args = Some (ys, e', r) /\ r = None /\ In s ys /\
  ~ evaluates_true (e_world e') s c.
Proof. exact ignored_refuted. Qed.
Print Assumptions C59_ignored_constraint_refuted.

(** C60 fails: a limit equal to the number of solutions is reported as an interrupt. *)
Theorem C60_interrupt_exhaustive_refuted : exists clk shuffle f1 f2 e sv a ys e1 e2,
  valid shuffle e a /\ limit_of sv a = LNum 3 /\
  solve_all clk shuffle f1 e sv a = Some (ys, e1, None) /\ snd (get_stats e1) = Some ILimit /\
  solve_all clk shuffle f2 e sv no_args = Some (ys, e2, None) /\ snd (get_stats e2) = None.
Proof. exact interrupt_exhaustive_refuted. Qed.
Print Assumptions C60_interrupt_exhaustive_refuted.
