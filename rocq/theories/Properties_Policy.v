(** Properties of the variable selection policies and of the timeout. *)
From Coq Require Import Permutation.
From Verif Require Import Solver SpecSolve SpecOrder SolverProps HistoryFacts SolverCases OrderFacts TimeoutFacts.
Open Scope string_scope.
Open Scope list_scope.
Open Scope Z_scope.

(** C62: each policy visits the variables, hence builds the solutions, in the order its name says. *)
Theorem C62_policy_order : forall clk shuffle f e sv a ys e' r s,
  valid shuffle e a -> solve_all clk shuffle f e sv a = Some (ys, e', r) -> In s ys ->
  visits shuffle (policy_of sv a) (w_model (e_world e)) (all_cons (w_model (e_world e)) a) (map fst s).
Proof. exact visited. Qed.
Print Assumptions C62_policy_order.

(** C62: and the specification leaves no choice. *)
Theorem C62_order_determined : forall shuffle p m cs o1 o2, NoDup (map fst (m_vars m)) ->
  visits shuffle p m cs o1 -> visits shuffle p m cs o2 -> o1 = o2.
Proof. exact visits_unique. Qed.
Print Assumptions C62_order_determined.

(** Four variables; x in two formulas, z in one, w in an all-different constraint. *)
Definition h_policy : list api :=
  [AddInt [1; 2] (Some "x"); AddInt [1; 2; 3] (Some "y"); AddInt [4] (Some "z"); AddInt [1; 2] (Some "w");
   AddConstraint (AExpr (Bin OLt (Var "x") (Var "y"))); AddConstraint (AExpr (Bin OLt (Var "x") (Var "z")));
   AddAllDiff ["w"; "y"]; AddConstraint (AExpr (Bin OLt (Var "x") (Const 2)))].
Definition b_policy (id : nat) : cbody :=
  match id with
  | O => CExpr (Bin OLt (Var "x") (Var "y"))
  | 1%nat => CExpr (Bin OLt (Var "x") (Var "z"))
  | 2%nat => CAllDiff ["w"; "y"]
  | _ => CExpr (Bin OLt (Var "x") (Const 2))
  end.
Definition e_policy : env := new_env (run_history h_policy init_world).
Definition first_order (p : policy) : option (list name) :=
  match solve_all clk0 (@rev name) 300 e_policy (new_solver p LNone LNone true) no_args with
  | Some (s :: _, _, None) => Some (map fst s)
  | _ => None
  end.
Example C62_case : valid (@rev name) e_policy no_args /\
  map first_order [ORDERED; REVERSED; RANDOM; GROUPS; MIN_BOUND; MAX_BOUND; MIN_CONSTRAINT; MAX_CONSTRAINT] =
  [Some ["x"; "y"; "z"; "w"]; Some ["w"; "z"; "y"; "x"]; Some ["w"; "z"; "y"; "x"]; Some ["z"; "x"; "w"; "y"];
   Some ["z"; "x"; "w"; "y"]; Some ["y"; "x"; "w"; "z"]; Some ["w"; "y"; "z"; "x"]; Some ["x"; "y"; "z"; "w"]].
Proof.
  split; [|vm_compute; reflexivity]. apply (valid_reachable b_policy h_policy); try reflexivity.
  - cbn -[str_nat]. repeat split.
  - intros c [].
  - intros l. apply Permutation_sym, Permutation_rev.
Qed.

(** C63: with a timeout, the search reads the clock between any two solutions and stops at the
    first reading that finds it has lasted longer; solutions come only in time. *)
Theorem C63_timeout_noticed : forall clk shuffle t f e sv a ys e' r, valid shuffle e a -> timeout_of sv a = LNum t ->
  solve_all clk shuffle f e sv a = Some (ys, e', r) ->
  exists segs last, length segs = length ys /\ timely clk t 0 (e_clk e) segs last /\
    match e_interrupt e' with
    | Some ITimeout => e_clk e' = S last /\ t < durations clk segs + (clk last - clk (resumed (e_clk e) segs))
    | _ => e_clk e' = last
    end.
Proof. exact run_timely. Qed.
Print Assumptions C63_timeout_noticed.

(** The clock advances by one at each reading: two solutions are found with timeout 6, the second at 7. *)
Example C63_case :
  view (small_run default_solver (with_timeout (LNum 6) no_args)) = Some ([[("y", 2); ("x", 1)]; [("y", 3); ("x", 1)]], None) /\
  e_interrupt (env_of e_small (small_run default_solver (with_timeout (LNum 6) no_args))) = Some ITimeout /\
  timely clk0 6 0 0 [(0, 3); (4, 8)]%nat 10.
Proof. split; [vm_compute; reflexivity|]. split; [vm_compute; reflexivity|]. cbn. unfold in_time, clk0. repeat split; intros; lia. Qed.
