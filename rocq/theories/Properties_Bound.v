(** Property theorems about the partial assignments that [optimize] tries to extend (C94).

    [optimize_watched clk shuffle f e sv os a = Some (vs, e', r)]: consuming
    [solver.optimize(model, os, **a)] to its end gives the solutions [found vs], [e'], [r] (as
    [optimize_all]), and [vs] is the record of what it tried to extend and found, in order. *)
From Coq Require Import Permutation.
From Verif Require Import Optimize OptimizeWatch SpecFormula SpecSafe SpecSolve SpecWatch SpecOptimize SolverCases
  OptimizeCases BoundProps BoundCases SpecBound.
Open Scope string_scope.
Open Scope list_scope.
Open Scope Z_scope.

(** Recording changes nothing. *)
Theorem C94_observing : forall clk shuffle f e sv os a,
  optimize_all clk shuffle f e sv os a =
  match optimize_watched clk shuffle f e sv os a with Some (vs, e', r) => Some (found vs, e', r) | None => None end.
Proof. exact observed_same. Qed.
Print Assumptions C94_observing.

(** Every extended assignment binds the first variables of the order of the solutions, not all
    of them; none is extended twice and they come depth first; what is extended or found is
    consistent, and every value in it that determines an objective of several variables improved
    it over the last solution found before the values of that variable were tested.  If neither
    an exception nor the limit or timeout ends the search, and the objectives have values, all
    such assignments are extended, and found if they bind all the variables. *)
Theorem C94_bounding : forall clk shuffle f e sv os a vs e' r,
  let m := w_model (e_world e) in let cs := all_cons m a in let ps := w_par (e_world e) in
  opt_valid shuffle e os a -> optimize_watched clk shuffle f e sv os a = Some (vs, e', r) ->
  objective_faithful (s_compile sv) os ->
  exists order, Permutation order (variables_of m) /\
    (policy_of sv a = ORDERED -> order = variables_of m) /\
    (policy_of sv a = REVERSED -> order = rev (variables_of m)) /\
    (policy_of sv a = RANDOM -> order = shuffle (variables_of m)) /\
    (forall t, In t (tried vs) -> starts order t) /\
    (forall t, In t (found vs) -> map fst t = order) /\
    NoDup (tried vs) /\ ForallOrdPairs (depth_first order (declared m)) (tried vs) /\
    (forall pre v post t, vs = pre ++ v :: post -> v = Extends t \/ v = Finds t ->
       consistent (e_world e') m cs t /\ reached ps os pre t) /\
    (r = None -> e_interrupt e' = None -> m_solvable m = true -> objectives_total m ps os ->
     forall t, consistent (e_world e') m cs t -> reached ps os vs t ->
     (starts order t -> In t (tried vs)) /\ (t <> [] -> map fst t = order -> In t (found vs))).
Proof. exact bounding. Qed.
Print Assumptions C94_bounding.

(** x, y in 0..2, x + y <= 3, 2 * x + y to be maximised, y before x: after (y, x) = (0, 2) with
    the value 4 was found, 5 = 1 + 2 * 2 is the only value tried for y = 1, and none for y = 2. *)
Example C94_case : opt_valid noshuffle e_opt os_opt no_args /\ objective_faithful true os_opt /\
  objectives_total (w_model (e_world e_opt)) (w_par (e_world e_opt)) os_opt /\
  bound_view (optimize_watched clk0 noshuffle 200 e_opt default_solver os_opt no_args) =
    Some ([Extends []; Extends [("y", 0)]; Finds [("y", 0); ("x", 0)]; Finds [("y", 0); ("x", 1)]; Finds [("y", 0); ("x", 2)];
           Extends [("y", 1)]; Finds [("y", 1); ("x", 2)]; Extends [("y", 2)]], None).
Proof.
  split; [apply opt_case_valid; intros o [E|[]]; inversion E; reflexivity|].
  split; [exact opt_case_obj|]. split; [apply opt_case_total|vm_compute; reflexivity].
Qed.

(** False: a partial assignment that determines the objective is extended only if it beats the
    last solution found before.  (The values of a variable are filtered once, when it is reached:
    x, y, z in 0..1, x + y to be minimised; after x = 0, y = 0 was found, x = 0, y = 1 is
    extended.) *)
Theorem C94_bound_refuted : exists clk shuffle f e sv o a pre t post e' l y p q,
  opt_valid shuffle e [OObj o] a /\ objective_faithful (s_compile sv) [OObj o] /\
  optimize_watched clk shuffle f e sv [OObj o] a = Some (pre ++ Extends t :: post, e', None) /\ e_interrupt e' = None /\
  several o /\ determined o t /\ found pre = l ++ [y] /\
  value_of (w_par (e_world e)) o t p /\ value_of (w_par (e_world e)) o y q /\ ~ better o p q.
Proof. exact bound_witness. Qed.
Print Assumptions C94_bound_refuted.
