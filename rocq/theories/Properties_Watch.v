(** Property theorems about the partial assignments that [solve] tries to extend (C93).

    [solve_watched clk shuffle f e sv a = Some (ts, ys, e', r)]: consuming
    [solver.solve(model, **a)] to its end gives [ys], [e'], [r] (as [solve_all]), and the partial
    assignments with which the values of a further variable were tested are [ts], in order. *)
From Coq Require Import Permutation.
From Verif Require Import Solver SolverWatch SpecFormula SpecSafe SpecSolve SpecOrder SpecWatch HistoryFacts SolverProps
  SolverCases WatchProps WatchCases WatchCost.
Open Scope string_scope.
Open Scope list_scope.
Open Scope Z_scope.

(** Recording changes nothing. *)
Theorem C93_observing : forall clk shuffle f e sv a,
  solve_all clk shuffle f e sv a =
  match solve_watched clk shuffle f e sv a with Some (_, ys, e', r) => Some (ys, e', r) | None => None end.
Proof. exact watched_same. Qed.
Print Assumptions C93_observing.

(** Every extended assignment binds the first variables of the order of the solutions, not all
    of them (the order of C62), and is consistent; none is extended twice; they come depth first; and if neither an
    exception nor the limit or timeout ends the search, every consistent one is extended. *)
Theorem C93_pruning : forall clk shuffle f e sv a ts ys e' r,
  let m := w_model (e_world e) in let cs := all_cons m a in
  valid shuffle e a -> solve_watched clk shuffle f e sv a = Some (ts, ys, e', r) ->
  exists order, Permutation order (variables_of m) /\
    (policy_of sv a = ORDERED -> order = variables_of m) /\
    (policy_of sv a = REVERSED -> order = rev (variables_of m)) /\
    (policy_of sv a = RANDOM -> order = shuffle (variables_of m)) /\
    (ts <> [] -> visits shuffle (policy_of sv a) m cs order) /\
    (forall s, In s ys -> map fst s = order) /\
    (forall t, In t ts -> starts order t /\ consistent (e_world e') m cs t) /\
    NoDup ts /\ ForallOrdPairs (depth_first order (declared m)) ts /\
    (r = None -> e_interrupt e' = None -> m_solvable m = true ->
     forall t, starts order t -> consistent (e_world e') m cs t -> In t ts).
Proof. exact watched. Qed.
Print Assumptions C93_pruning.

(** x, y, z in 0..2, all different, x < y: 7 of the 13 partial assignments of at most two
    variables are extended; with limit 1, three of them. *)
Example C93_case : valid noshuffle e_watch no_args /\
  watched_view (solve_watched clk0 noshuffle 100 e_watch sv_watch no_args) =
    Some ([[]; [("x", 0)]; [("x", 0); ("y", 1)]; [("x", 0); ("y", 2)]; [("x", 1)]; [("x", 1); ("y", 2)]; [("x", 2)]],
          [[("x", 0); ("y", 1); ("z", 2)]; [("x", 0); ("y", 2); ("z", 1)]; [("x", 1); ("y", 2); ("z", 0)]], None) /\
  watched_view (solve_watched clk0 noshuffle 100 e_watch sv_watch (with_limit (LNum 1) no_args)) =
    Some ([[]; [("x", 0)]; [("x", 0); ("y", 1)]], [[("x", 0); ("y", 1); ("z", 2)]], None).
Proof. split; [exact watch_valid|split; vm_compute; reflexivity]. Qed.

(** The loop of the search begins, in a search that is neither interrupted nor raises, two
    iterations for every extended assignment and one for every solution, less one; and never
    many more than that. *)
Theorem C93_cost : forall clk shuffle f e sv a ts ys e' r,
  valid shuffle e a -> solve_watched clk shuffle f e sv a = Some (ts, ys, e', r) ->
  let n := Z.of_nat (iterations clk shuffle f e (GInit sv a)) in
  n <= 2 * len ts + len ys + 1 /\
  (r = None -> e_interrupt e' = None -> ts <> [] -> n = 2 * len ts + len ys - 1).
Proof. exact cost. Qed.
Print Assumptions C93_cost.

Example C93_cost_case : iterations clk0 noshuffle 100 e_watch (GInit sv_watch no_args) = 16%nat.
Proof. vm_compute. reflexivity. Qed.
