(** Property theorems about building models (C10-C15). *)
From Verif Require Import Solver SpecFormula SpecSolve ModelFacts ParameterFacts SolverExtra SolverCases.
Open Scope string_scope.
Open Scope list_scope.
Open Scope Z_scope.

(** C10: names are unique after any history of calls. *)
Theorem C10_names_unique : forall h, NoDup (map fst (m_vars (w_model (run_history h init_world)))).
Proof. exact names_unique. Qed.
Print Assumptions C10_names_unique.

(** C10: a variable added without a name gets a new name and is appended to the others. *)
Theorem C10_auto_variable : forall h d, NoDup d ->
  let w := run_history h init_world in
  exists x, snd (add_int_variable d None w) = Ok (Var x) /\
            ~ In x (map fst (m_vars (w_model w))) /\
            m_vars (w_model (fst (add_int_variable d None w))) = m_vars (w_model w) ++ [(x, VVar d)].
Proof. exact auto_variable. Qed.
Print Assumptions C10_auto_variable.

(** C10: the same for parameters. *)
Theorem C10_auto_parameter : forall h v,
  let w := run_history h init_world in
  exists x p, snd (add_parameter v None w) = Ok (Param p x) /\
            ~ In x (map fst (m_vars (w_model w))) /\
            m_vars (w_model (fst (add_parameter v None w))) = m_vars (w_model w) ++ [(x, VPar p)] /\
            w_par (fst (add_parameter v None w)) p = v.
Proof. exact auto_parameter. Qed.
Print Assumptions C10_auto_parameter.

(** C10: adding an existing name raises ValueError. *)
Theorem C10_duplicate_rejected : forall w x d v, In x (map fst (m_vars (w_model w))) ->
  snd (add_int_variable d (Some x) w) = Err ValueError /\ snd (add_parameter v (Some x) w) = Err ValueError.
Proof. exact duplicate_rejected. Qed.
Print Assumptions C10_duplicate_rejected.

(** C10: an entry is never replaced by a later call. *)
Theorem C10_entry_stable : forall h1 h2 x info,
  dget (m_vars (w_model (run_history h1 init_world))) x = Some info ->
  dget (m_vars (w_model (run_history (h1 ++ h2) init_world))) x = Some info.
Proof. exact entry_stable. Qed.
Print Assumptions C10_entry_stable.

(** C10: parameters of different names are different objects, and the value of a parameter only
    changes by an assignment to it. *)
Theorem C10_parameters_separate : forall h x y p, let w := run_history h init_world in
  In (x, VPar p) (m_vars (w_model w)) -> In (y, VPar p) (m_vars (w_model w)) -> x = y.
Proof. exact parameters_separate. Qed.
Print Assumptions C10_parameters_separate.
Theorem C10_parameter_value : forall h1 h2 x p, let w := run_history h1 init_world in
  In (x, VPar p) (m_vars (w_model w)) -> (forall v, ~ In (SetParam p v) h2) -> w_par (run_history (h1 ++ h2) init_world) p = w_par w p.
Proof. exact parameter_value. Qed.
Print Assumptions C10_parameter_value.
Example C10_parameter_case :
  let h1 := [AddParameter 7 (Some "a")] in let h2 := [AddParameter 8 (Some "b"); AddParameter 9 (Some "a"); SetParam 1 5] in
  let w := run_history (h1 ++ h2) init_world in
  m_vars (w_model w) = [("a", VPar 0); ("b", VPar 1)] /\ w_par w 0%nat = 7 /\ w_par w 1%nat = 5.
Proof. vm_compute. repeat split. Qed.

(** C10: [get_var_domain] returns the domain of a variable, [None] for a parameter, and raises
    [KeyError] for another name. *)
Theorem C10_domain : forall h x, let m := w_model (run_history h init_world) in
  (forall d, get_var_domain m x = Ok (Some d) <-> In (x, VVar d) (m_vars m)) /\
  (get_var_domain m x = Ok None <-> exists p, In (x, VPar p) (m_vars m)) /\
  (get_var_domain m x = Err KeyError <-> ~ In x (map fst (m_vars m))).
Proof. exact domain_spec. Qed.
Print Assumptions C10_domain.
Example C10_domain_case :
  let m := w_model (run_history [AddInt [3; 4] (Some "x"); AddParameter 7 (Some "a")] init_world) in
  map (get_var_domain m) ["x"; "a"; "y"] = [Ok (Some [3; 4]); Ok None; Err KeyError].
Proof. vm_compute. reflexivity. Qed.

(** A parameter and two anonymous variables around an explicit name. *)
Example C10_case :
  map fst (m_vars (w_model (run_history
    [AddBool None; AddParameter 7 None; AddInt [1; 2] (Some "x"); AddInt [1; 2] (Some "x"); AddBool None] init_world)))
  = ["_v0"; "_p1"; "x"; "_v3"].
Proof. vm_compute. reflexivity. Qed.

(** C11: every name occurring in a stored constraint is declared. *)
Theorem C11_constraints_declared : forall h c x,
  In c (m_cons (w_model (run_history h init_world))) -> mentions c x ->
  In x (map fst (m_vars (w_model (run_history h init_world)))).
Proof. exact constraints_mention_declared. Qed.
Print Assumptions C11_constraints_declared.

(** The second constraint mentions an undeclared name and is not stored. *)
Example C11_case :
  let h := [AddBool (Some "x"); AddConstraint (AExpr (Bin OEq (Var "x") (Const 1)));
            AddConstraint (AExpr (Bin OEq (Var "x") (Var "y")))] in
  m_cons (w_model (run_history h init_world)) = [Constraint 0 (CExpr (Bin OEq (Var "x") (Const 1)))] /\
  map fst (m_vars (w_model (run_history h init_world))) = ["x"].
Proof. vm_compute. split; reflexivity. Qed.

(** C12: a call that raises changes neither the model nor the parameter values. *)
Theorem C12_failing_call : forall a w e, snd (run_api a w) = Err e ->
  w_model (fst (run_api a w)) = w_model w /\ forall p, w_par (fst (run_api a w)) p = w_par w p.
Proof. exact failing_call. Qed.
Print Assumptions C12_failing_call.

Example C12_case :
  let w := run_history [AddInt [1; 2] (Some "x")] init_world in
  snd (run_api (AddInt [1; 2; 1] None) w) = Err ValueError /\
  snd (run_api (AddConstraint (AExpr (Bin OEq (Var "x") (Var "y")))) w) = Err ValueError /\
  snd (run_api (AddConstraint AOther) w) = Err TypeError /\
  snd (run_api (AddConstraint (AExpr (Bin ODiv (Const 1) (Const 0)))) w) = Err ZeroDivisionError.
Proof. vm_compute. repeat split. Qed.

(** C13: a constraint without variables and true changes nothing; a false one makes the
    model unsolvable.  (An expression is false when its value is 0.) *)
Theorem C13_constant_expression : forall w e v,
  (forall x, ~ occurs x e) -> evaluate (w_par w) [] e = Ok v ->
  let r := add_constraint (AExpr e) w in
  snd r = Ok tt /\ m_vars (w_model (fst r)) = m_vars (w_model w) /\
  if v =? 0 then m_solvable (w_model (fst r)) = false else w_model (fst r) = w_model w.
Proof. exact constant_expression. Qed.
Print Assumptions C13_constant_expression.

(** C13: the same for Python booleans. *)
Theorem C13_constant_bool : forall w b,
  let r := add_constraint (ABool b) w in
  snd r = Ok tt /\ m_vars (w_model (fst r)) = m_vars (w_model w) /\
  if b then w_model (fst r) = w_model w else m_solvable (w_model (fst r)) = false.
Proof. exact const_bool_call. Qed.
Print Assumptions C13_constant_bool.

(** C13: unsolvable is permanent... *)
Theorem C13_unsolvable_forever : forall h w,
  m_solvable (w_model w) = false -> m_solvable (w_model (run_history h w)) = false.
Proof. exact unsolvable_forever. Qed.
Print Assumptions C13_unsolvable_forever.

(** ... so every later solve ends at once with no solution, whatever is called in
    between. *)
Theorem C13_no_solution : forall h1 h2 ex clk shuffle f e sv a ys e' r,
  (forall x, ~ occurs x ex) -> evaluate (w_par (run_history h1 init_world)) [] ex = Ok 0 ->
  e_world e = run_history (h1 ++ AddConstraint (AExpr ex) :: h2) init_world ->
  solve_all clk shuffle f e sv a = Some (ys, e', r) -> ys = [] /\ r = None.
Proof. exact false_constraint. Qed.
Print Assumptions C13_no_solution.

(** Without the constraint [1 == 2] there are solutions, with it there are none. *)
Example C13_case :
  view (solve_all clk0 noshuffle 50 (new_env (run_history [AddBool (Some "x")] init_world)) default_solver no_args)
    = Some ([[("x", 0)]; [("x", 1)]], None) /\
  view (solve_all clk0 noshuffle 50 (new_env (run_history
      ([AddBool (Some "x")] ++ AddConstraint (AExpr (Bin OEq (Const 1) (Const 2))) :: [SetSolvable true]) init_world))
      default_solver no_args) = Some ([], None).
Proof. vm_compute. split; reflexivity. Qed.

(** C14: set_solvable has no effect: it assigns an attribute that nothing reads. *)
Theorem C14_set_solvable_refuted : exists w b, m_solvable (w_model (fst (set_solvable b w))) <> b.
Proof. exact set_solvable_refuted. Qed.
Print Assumptions C14_set_solvable_refuted.

(** C15: a constraint on a parameter only is evaluated once, when added.  Here [p > 0] is
    added while p = 1, p is then set to 0, and solve still yields solutions. *)
Theorem C15_parameter_only_refuted : exists clk shuffle f h p e ys e' r,
  In (AddConstraint (AExpr (Bin OGt (Param 0 p) (Const 0)))) h /\
  e_world e = run_history h init_world /\ w_par (e_world e) 0%nat = 0 /\
  solve_all clk shuffle f e default_solver no_args = Some (ys, e', r) /\ ys <> [].
Proof. exact parameter_only_refuted. Qed.
Print Assumptions C15_parameter_only_refuted.
