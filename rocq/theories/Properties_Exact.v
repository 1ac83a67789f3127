(** What the code does where a property is false of it. *)
From Verif Require Import Solver Optimize Puzzle Cryptarithm SpecFormula SpecSolve SpecOptimize SpecExact ExprFacts DictFacts HistoryFacts SolverCases
  CompanionFacts OptimizeSingle OptimizeCases UndefinedFacts.
Open Scope string_scope.
Open Scope list_scope.
Open Scope Z_scope.

(** C01: where an operator is undefined (zero divisor, negative exponent), building or evaluating the
    expression raises, except that a constant 0 divided by anything is 0 and a constant 1 to any power
    is 1. *)
Theorem C01_undefined : forall ps s u a b va vb,
  let err := match u with UPow => if va =? 0 then ZeroDivisionError else FloatResult | _ => ZeroDivisionError end in
  In u [UDiv; UFloorDiv; UMod; UPow] -> oval ps s a = Ok va -> oval ps s b = Ok vb -> arith u va vb = None ->
  py_op u a b = Err err \/
  (exists o, py_op u a b = Ok o /\ oval ps s o = Err err) \/
  (py_op u a b = Err TypeError /\ (u = UDiv /\ (exists n, a = OInt n) \/ u = UFloorDiv)) \/
  (exists o, py_op u a b = Ok o /\
     (u = UDiv /\ a = OExpr (Const 0) /\ oval ps s o = Ok 0 \/ u = UPow /\ (a = OInt 1 \/ a = OExpr (Const 1)) /\ oval ps s o = Ok 1)).
Proof. exact undefined_ok. Qed.
Print Assumptions C01_undefined.

Example C01_undefined_case : let s := [("x", 0); ("y", -2)] in
  arith UMod 7 0 = None /\ py_op UMod (OInt 7) (OExpr (Var "x")) = Ok (OExpr (Bin OMod (Const 7) (Var "x"))) /\
  oval (fun _ => 0) s (OExpr (Bin OMod (Const 7) (Var "x"))) = Err ZeroDivisionError /\
  arith UPow 2 (-2) = None /\ oval (fun _ => 0) s (OExpr (Bin OPow (Const 2) (Var "y"))) = Err FloatResult /\
  arith UDiv 0 0 = None /\ py_op UDiv (OExpr (Const 0)) (OExpr (Var "x")) = Ok (OExpr (Const 0)) /\
  py_op UPow (OInt 1) (OExpr (Var "y")) = Ok (OExpr (Const 1)).
Proof. repeat split. Qed.

(** C07: two expressions built with the same operator are equal for [equals] unless they have
    different constants at the same place, whatever their other operands. *)
Theorem C07_equals_operators : forall o o' l r l' r',
  equals (Bin o l r) (Bin o' l' r') = true <-> o = o' /\ not_distinct l l' /\ not_distinct r r'.
Proof. exact equals_binary. Qed.
Print Assumptions C07_equals_operators.

Theorem C07_equals_unary : forall a b,
  (equals (Neg a) (Neg b) = true <-> not_distinct a b) /\ (equals (Abs a) (Abs b) = true <-> not_distinct a b) /\
  (equals (Not a) (Not b) = true <-> not_distinct a b).
Proof. exact equals_unary. Qed.
Print Assumptions C07_equals_unary.

(** C07: sums and products; the constant terms and factors are not compared. *)
Theorem C07_equals_collections : forall es es' c c',
  (equals (Sum es c) (Sum es' c') = true <-> Forall2 not_distinct es es') /\
  (equals (Prod es c) (Prod es' c') = true <-> Forall2 not_distinct es es').
Proof. exact equals_collection. Qed.
Print Assumptions C07_equals_collections.

Example C07_operators_case :
  equals (Bin OMul (Var "x") (Const 2)) (Bin OMul (Bin OAdd (Var "y") (Var "z")) (Const 2)) = true /\
  equals (Bin OMul (Var "x") (Const 2)) (Bin OMul (Var "x") (Const 3)) = false /\
  equals (Sum [Var "x"; Var "y"] 1) (Sum [Var "u"; Const 4] 5) = true.
Proof. repeat split; vm_compute; reflexivity. Qed.

(** C14: a program without its calls of set_solvable has the same effect. *)
Theorem C14_no_effect : forall h h', without_set_solvable h h' -> forall w, run_history h w = run_history h' w.
Proof. exact set_solvable_nothing. Qed.
Print Assumptions C14_no_effect.

Example C14_case :
  without_set_solvable [AddBool (Some "x"); SetSolvable false; AddBool (Some "y")] [AddBool (Some "x"); AddBool (Some "y")] /\
  m_solvable (w_model (run_history [AddBool (Some "x"); SetSolvable false; AddBool (Some "y")] init_world)) = true.
Proof. split; [|reflexivity]. apply wo_keep; [discriminate|]. apply wo_skip. apply wo_keep; [discriminate|]. apply wo_nil. Qed.

(** C15: a constraint over parameters only that is true when added is equivalent to a constraint
    object that is created and not added, whatever is called afterwards.  (If it is false
    when added, C13_no_solution applies.) *)
Theorem C15_frozen : forall h1 h2 ex v,
  (forall x, ~ occurs x ex) -> evaluate (w_par (run_history h1 init_world)) [] ex = Ok v -> v <> 0 ->
  run_history (h1 ++ AddConstraint (AExpr ex) :: h2) init_world = run_history (h1 ++ NewConstraint (CExpr ex) :: h2) init_world.
Proof. exact frozen. Qed.
Print Assumptions C15_frozen.

Example C15_case :
  let h1 := [AddParameter 1 (Some "p"); AddBool (Some "x")] in let ex := Bin OGt (Param 0 "p") (Const 0) in
  evaluate (w_par (run_history h1 init_world)) [] ex = Ok 1 /\
  m_cons (w_model (run_history (h1 ++ AddConstraint (AExpr ex) :: [SetParam 0 0]) init_world)) = [].
Proof. split; vm_compute; reflexivity. Qed.

(** C23: every limit below 1 acts exactly like the limit 1. *)
Theorem C23_low_limit : forall clk shuffle f e sv a a1 n,
  x_additional a = x_additional a1 -> policy_of sv a = policy_of sv a1 -> timeout_of sv a = timeout_of sv a1 ->
  limit_of sv a = Solver.LNum n -> limit_of sv a1 = Solver.LNum 1 -> n <= 1 ->
  solve_all clk shuffle f e sv a = solve_all clk shuffle f e sv a1.
Proof. exact low_limit_run. Qed.
Print Assumptions C23_low_limit.

Example C23_case :
  view (small_run default_solver (with_limit (Solver.LNum (-3)) no_args)) = Some ([[("y", 2); ("x", 1)]], None).
Proof. vm_compute. reflexivity. Qed.

(** C29: something is yielded exactly if there is a variable and a solution.  Missing: models
    without variables, for which the empty dict is a solution (C29_no_variables_refuted). *)
Theorem C29_yields_partial : forall clk shuffle f e sv a ys e' r,
  let m := w_model (e_world e) in let cs := all_cons m a in
  valid shuffle e a -> m_solvable m = true -> unlimited sv a -> no_raise (ceval (e_world e')) m cs -> groups_ok m cs ->
  solve_all clk shuffle f e sv a = Some (ys, e', r) ->
  (ys <> [] <-> has_variable m /\ exists t, solves (evaluates_true (e_world e')) m cs t).
Proof. exact yields_iff. Qed.
Print Assumptions C29_yields_partial.

Example C29_case : valid noshuffle e_small no_args /\ has_variable (w_model (e_world e_small)) /\
  view (small_run default_solver no_args) = Some ([[("y", 2); ("x", 1)]; [("y", 3); ("x", 1)]; [("y", 3); ("x", 2)]], None).
Proof. split; [exact small_valid|]. split; [|vm_compute; reflexivity]. exists "x", [1; 2; 3]. left. reflexivity. Qed.

(** C36: objectives over at most one variable each are not optimised: [optimize] visits the
    solutions that [solve] visits, with the same options, statistics and exceptions, and
    [optimal_solution] returns the last one of them. *)
Theorem C36_single_variable : forall clk shuffle f e sv os a,
  opt_valid shuffle e os a -> objective_faithful (s_compile sv) os ->
  objectives_total (w_model (e_world e)) (w_par (e_world e)) os -> ~ In OOther os ->
  (forall o x y, In (OObj o) os -> occurs x (o_expr o) -> occurs y (o_expr o) -> x = y) ->
  forall ys e1 r, solve_all clk shuffle f e sv a = Some (ys, e1, r) ->
  exists e2, optimize_all clk shuffle f e sv os a = Some (ys, e2, r) /\ get_stats e2 = get_stats e1.
Proof. exact single_variable. Qed.
Print Assumptions C36_single_variable.

Theorem C36_last_solution : forall clk shuffle f e sv os a,
  opt_valid shuffle e os a -> objective_faithful (s_compile sv) os ->
  objectives_total (w_model (e_world e)) (w_par (e_world e)) os -> ~ In OOther os ->
  (forall o x y, In (OObj o) os -> occurs x (o_expr o) -> occurs y (o_expr o) -> x = y) ->
  forall ys s e1, solve_all clk shuffle f e sv a = Some (ys ++ [s], e1, None) -> e_interrupt e1 = None ->
  exists e2, optimal_solution clk shuffle f e sv os a = Some (e2, Ok (true, Some s)) /\ get_stats e2 = get_stats e1.
Proof. exact single_last. Qed.
Print Assumptions C36_last_solution.

(** Minimising x for x, y in 0..2 with x + y <= 3 gives x = 1. *)
Example C36_single_case :
  let os := [OObj (Objective (Var "x") false)] in
  opt_valid noshuffle e_opt os no_args /\ objective_faithful true os /\
  objectives_total (w_model (e_world e_opt)) (w_par (e_world e_opt)) os /\
  view (solve_all clk0 noshuffle 200 e_opt default_solver no_args) = view (optimize_all clk0 noshuffle 200 e_opt default_solver os no_args) /\
  option_map snd (optimal_solution clk0 noshuffle 200 e_opt default_solver os no_args) = Some (Ok (true, Some [("y", 2); ("x", 1)])).
Proof.
  cbv zeta. split; [|split; [|split; [|split; vm_compute; reflexivity]]].
  - apply opt_case_valid. intros o [E|[]]. injection E as <-. reflexivity.
  - intros _ o [E|[]]. injection E as <-. split; [reflexivity|vm_compute; lia].
  - intros o [E|[]]. injection E as <-. split.
    + intros x Hx. apply vars_occurs in Hx. exists [0; 1; 2]. apply opt_case_variable. cbn in Hx. intuition.
    + intros s _ Hin. assert (Hx : In "x" (map fst s)) by (apply Hin, vars_occurs; cbn; auto).
      apply dget_Some in Hx. destruct Hx as (p & Ep). exists p. unfold value_of. cbn. now rewrite Ep.
Qed.

(** C52: the option avoid_leading_zeros has no effect, on any source and with any options. *)
Theorem C52_no_effect : forall clk shuffle fuel order source o b b',
  cry_run clk shuffle fuel order source b o = cry_run clk shuffle fuel order source b' o.
Proof. exact avoid_nothing. Qed.
Print Assumptions C52_no_effect.

(** C59, for constraints that mention a name and only variables of the model.  Missing:
    constraints without names when they are additional (C30_constant_refuted), and
    constraints that mention a parameter as a variable (C59_ignored_constraint_refuted). *)
Theorem C59_respected_partial : forall clk shuffle f e sv a ys e' r s c,
  let m := w_model (e_world e) in
  valid shuffle e a -> solve_all clk shuffle f e sv a = Some (ys, e', r) -> In s ys ->
  In c (all_cons m a) -> (forall x, mentions c x -> exists d, is_variable m x d) -> (exists x, mentions c x) ->
  evaluates_true (e_world e') s c.
Proof. exact respected. Qed.
Print Assumptions C59_respected_partial.

Example C59_case : valid noshuffle e_small no_args /\
  Forall (fun c => (exists x, mentions c x) /\ forall x, mentions c x -> exists d, is_variable (w_model (e_world e_small)) x d)
    (all_cons (w_model (e_world e_small)) no_args) /\
  List.length (all_cons (w_model (e_world e_small)) no_args) = 3%nat.
Proof. split; [exact small_valid|]. split; [exact small_concerns|reflexivity]. Qed.

(** C60: without a timeout, the limit is reported exactly if there are at least as many solutions
    as the limit (taken as 1 if less); no timeout is reported. *)
Theorem C60_limit_exact : forall clk shuffle f1 f2 e sv a a0 ys1 ys2 e1 e2 r1 r2 n,
  x_additional a = x_additional a0 -> x_policy a = x_policy a0 -> valid shuffle e a ->
  solve_all clk shuffle f1 e sv a = Some (ys1, e1, r1) ->
  solve_all clk shuffle f2 e sv a0 = Some (ys2, e2, r2) ->
  unlimited sv a0 -> timeout_of sv a = Solver.LNone -> limit_of sv a = Solver.LNum n ->
  (e_interrupt e1 = Some ILimit <-> Z.max 1 n <= len ys2) /\ (e_interrupt e1 <> Some ITimeout).
Proof. exact limit_iff. Qed.
Print Assumptions C60_limit_exact.

(** The model has three solutions. *)
Example C60_case :
  e_interrupt (env_of e_small (small_run default_solver (with_limit (Solver.LNum 3) no_args))) = Some ILimit /\
  e_interrupt (env_of e_small (small_run default_solver (with_limit (Solver.LNum 4) no_args))) = None.
Proof. split; vm_compute; reflexivity. Qed.
