(** Property theorems about limits, timeouts and statistics of [optimize] (C95). *)
From Verif Require Import Optimize SpecFormula SpecSafe SpecSolve SpecOptimize SpecTimer SpecStats SolverCases OptimizeCases
  OptimizeCut OptimizeErrors CutCases.
Open Scope string_scope.
Open Scope list_scope.
Open Scope Z_scope.

(** An optimisation with any limit and timeout, compared with one without, of the same model and
    objectives (on another clock, by another solver with the same policy and compilation, after
    whatever other searches): it finds the first solutions of the latter; all of them, unless an
    interrupt is reported, which tells why; and at most as many as the limit says (1 if the limit
    is less), in which case the limit is reported. *)
Theorem C95_truncated : forall clk1 clk2 shuffle f1 f2 e1 e2 sv1 sv2 os a1 a2 ys1 ys2 e1' e2' r1 r2,
  e_world e1 = e_world e2 -> s_compile sv1 = s_compile sv2 -> policy_of sv1 a1 = policy_of sv2 a2 ->
  x_additional a1 = x_additional a2 -> opt_valid shuffle e1 os a1 ->
  optimize_all clk1 shuffle f1 e1 sv1 os a1 = Some (ys1, e1', r1) ->
  optimize_all clk2 shuffle f2 e2 sv2 os a2 = Some (ys2, e2', r2) -> unlimited sv2 a2 ->
  prefix ys1 ys2 /\
  match r1 with
  | Some ex => ys1 = ys2 /\ r2 = Some ex \/
      ex = TypeError /\ (timeout_of sv1 a1 = LInfinity /\ ys1 = [] \/ limit_of sv1 a1 = LInfinity /\ len ys1 = 1)
  | None =>
      match e_interrupt e1' with
      | None => ys1 = ys2 /\ r2 = None /\ e_world e1' = e_world e2'
      | Some ILimit => exists n, limit_of sv1 a1 = LNum n /\ len ys1 = Z.max n 1
      | Some ITimeout => exists t j, timeout_of sv1 a1 = LNum t /\ e_clk e1' = S j /\
                           let tm := e_timers e1' (e_timer e1') in
                           t < t_elapsed tm + match t_start tm with Some b => clk1 j - b | None => 0 end
      end
  end /\
  (forall n, limit_of sv1 a1 = LNum n ->
     len ys1 <= Z.max n 1 /\ (r1 = None -> len ys1 = Z.max n 1 -> e_interrupt e1' = Some ILimit)).
Proof. exact opt_truncated. Qed.
Print Assumptions C95_truncated.

(** What is reported: as many solutions as were found, and the sum of the durations of disjoint
    intervals, one per solution, each from the start (or the resumption) to the solution. *)
Theorem C95_stats : forall clk shuffle f e sv os a ys e' r, opt_valid shuffle e os a -> ~ In OOther os ->
  optimize_all clk shuffle f e sv os a = Some (ys, e', r) ->
  fst (fst (get_stats e')) = len ys /\
  exists segs, length segs = length ys /\
    match segs with
    | [] => True
    | (b, c) :: segs' => b = e_clk e /\ (b < c)%nat /\ ordered_from (S c) segs'
    end /\
    snd (fst (get_stats e')) = durations clk segs.
Proof. exact opt_stats. Qed.
Print Assumptions C95_stats.

(** x, y in 0..2, x + y <= 3, 2 * x + y to be maximised: without limits, with limit 2, with limit
    0, with a timeout. *)
Example C95_case :
  opt_valid noshuffle e_opt os_opt no_args /\ unlimited default_solver no_args /\
  opt_view (optimize_all clk0 noshuffle 200 e_opt default_solver os_opt no_args) =
    Some ([[("y", 0); ("x", 0)]; [("y", 0); ("x", 1)]; [("y", 0); ("x", 2)]; [("y", 1); ("x", 2)]], None, (4, 4, None)) /\
  opt_view (optimize_all clk0 noshuffle 200 e_opt default_solver os_opt (with_limit (LNum 2) no_args)) =
    Some ([[("y", 0); ("x", 0)]; [("y", 0); ("x", 1)]], None, (2, 2, Some ILimit)) /\
  opt_view (optimize_all clk0 noshuffle 200 e_opt default_solver os_opt (with_limit (LNum 0) no_args)) =
    Some ([[("y", 0); ("x", 0)]], None, (1, 1, Some ILimit)) /\
  opt_view (optimize_all clk0 noshuffle 200 e_opt default_solver os_opt (with_timeout (LNum 8) no_args)) =
    Some ([[("y", 0); ("x", 0)]; [("y", 0); ("x", 1)]; [("y", 0); ("x", 2)]], None, (3, 7, Some ITimeout)).
Proof.
  split; [apply opt_case_valid; intros o [E|[]]; inversion E; reflexivity|].
  split; [split; reflexivity|]. repeat split; vm_compute; reflexivity.
Qed.

(** False if an element of the objectives is not an Objective: ValueError is raised before the
    statistics are reset, and those of an earlier search are reported. *)
Theorem C95_stats_refuted : exists clk shuffle f e sv os a e',
  opt_valid shuffle e os a /\ optimize_all clk shuffle f e sv os a = Some ([], e', Some ValueError) /\
  fst (fst (get_stats e')) = 1 /\ snd (get_stats e') = Some ILimit.
Proof. exact stale_witness. Qed.
Print Assumptions C95_stats_refuted.

(** Exceptions come from an element of the objectives that is not an Objective, from a constraint
    of the model whose evaluation raises, from an all-different constraint over something else
    than variables, from an INFINITY argument, or from an objective that has no value. *)
Theorem C95_exceptions : forall clk shuffle f e sv os a ys e' ex,
  opt_valid shuffle e os a -> optimize_all clk shuffle f e sv os a = Some (ys, e', Some ex) ->
  objective_faithful (s_compile sv) os ->
  let m := w_model (e_world e) in let cs := all_cons m a in let ps := w_par (e_world e) in
  let in_domains s := forall x v, In (x, v) s -> exists d, is_variable m x d /\ In v d in
  (In OOther os /\ ex = ValueError /\ ys = []) \/
  eval_error (e_world e') m cs ex \/
  (~ groups_ok m cs /\ (ex = KeyError \/ ex = ValueError)) \/
  (ex = TypeError /\ (timeout_of sv a = LInfinity \/ limit_of sv a = LInfinity)) \/
  (exists o s, In (OObj o) os /\ in_domains s /\ (forall x d, is_variable m x d -> In x (map fst s)) /\
     evaluate ps s (o_expr o) = Err ex) \/
  (exists o s, In (OObj o) os /\ in_domains s /\ (forall x, occurs x (o_expr o) -> In x (map fst s)) /\
     forall v, ~ value_of ps o s v).
Proof. exact raises. Qed.
Print Assumptions C95_exceptions.

(** 4 / x + y to be maximised, x in 2, 1, 0: two solutions for x = 2 and two for x = 1, then
    ZeroDivisionError.  A variable that the model does not have: the first solution raises. *)
Example C95_exceptions_case : opt_valid noshuffle e_quot [OObj o_quot] no_args /\
  opt_view (optimize_all clk0 noshuffle 200 e_quot sv_plain [OObj o_quot] no_args) =
    Some ([[("x", 2); ("y", 0)]; [("x", 2); ("y", 1)]; [("x", 1); ("y", 0)]; [("x", 1); ("y", 1)]], Some ZeroDivisionError, (4, 4, None)) /\
  opt_view (optimize_all clk0 noshuffle 200 e_quot sv_plain [OObj (Objective (Var "q") false)] no_args) =
    Some ([[("x", 2); ("y", 0)]], Some EvaluationError, (1, 1, None)).
Proof. split; [exact quot_valid|split; vm_compute; reflexivity]. Qed.
