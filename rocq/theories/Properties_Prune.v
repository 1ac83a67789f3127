(** Property theorems: more constraints do not make the search longer (C103), limits and timeouts
    cut it short (C104), the order and the repetition of constraints do not matter (C105). *)
From Coq Require Import Permutation.
From Verif Require Import Solver SolverWatch SpecSafe SpecSolve SpecWatch SpecPrune SolverCases WatchCases PruneCases PruneFacts
  TruncateFacts SameFacts.
Open Scope string_scope.
Open Scope list_scope.
Open Scope Z_scope.

(** With a policy that does not look at the constraints: compared to a complete search, a search
    of the same model under more constraints, however it ends, extends no other partial
    assignments and finds no other solutions; if it is complete, it begins no more iterations. *)
Theorem C103_prune : forall clk clk' shuffle f f' e sv a a' ts ts' ys ys' e1 e2 r',
  let m := w_model (e_world e) in
  valid shuffle e a -> valid shuffle e a' ->
  solve_watched clk shuffle f e sv a = Some (ts, ys, e1, None) ->
  solve_watched clk' shuffle f' e sv a' = Some (ts', ys', e2, r') ->
  e_interrupt e1 = None -> m_solvable m = true -> has_variable m ->
  incl (all_cons m a) (all_cons m a') -> policy_of sv a' = policy_of sv a -> blind (policy_of sv a) ->
  incl ts' ts /\ incl ys' ys /\ len ts' <= len ts /\ len ys' <= len ys /\
  (r' = None -> e_interrupt e2 = None -> (iterations clk' shuffle f' e (GInit sv a') <= iterations clk shuffle f e (GInit sv a))%nat).
Proof. exact shorter. Qed.
Print Assumptions C103_prune.

(** The model of C93_case with y + z == 2 in addition: the same 7 assignments are extended, but
    one of three solutions is found, with 14 instead of 16 iterations. *)
Example C103_prune_case : valid noshuffle e_watch no_args /\ valid noshuffle e_watch a_more /\
  m_solvable (w_model (e_world e_watch)) = true /\ has_variable (w_model (e_world e_watch)) /\
  incl (all_cons (w_model (e_world e_watch)) no_args) (all_cons (w_model (e_world e_watch)) a_more) /\ policy_of sv_watch a_more = policy_of sv_watch no_args /\ blind (policy_of sv_watch no_args) /\
  match solve_watched clk0 noshuffle 100 e_watch sv_watch no_args with Some (ts, ys, e1, r) => Some (len ts, len ys, e_interrupt e1, r) | None => None end
    = Some (7, 3, None, None) /\
  watched_view (solve_watched clk0 noshuffle 100 e_watch sv_watch a_more) =
    Some ([[]; [("x", 0)]; [("x", 0); ("y", 1)]; [("x", 0); ("y", 2)]; [("x", 1)]; [("x", 1); ("y", 2)]; [("x", 2)]],
          [[("x", 1); ("y", 2); ("z", 0)]], None) /\
  iterations clk0 noshuffle 100 e_watch (GInit sv_watch a_more) = 14%nat.
Proof.
  split; [exact watch_valid|]. split; [exact more_valid|]. split; [reflexivity|]. split; [exists "x", [0; 1; 2]; now left|].
  split; [intros c Hc; apply in_app_or in Hc; apply in_or_app; destruct Hc as [Hc|[]]; now left|]. split; [reflexivity|]. split; [exact I|]. repeat split; vm_compute; reflexivity.
Qed.

(** False with the default policy, GROUPS: an additional constraint that is always true makes the
    search longer, as it changes the order of the variables.  (x, z in 0..0, y in 0..4, and
    x + z == 0.) *)
Theorem C103_groups_refuted : exists e f a ts ts' ys ys', valid noshuffle e no_args /\ valid noshuffle e a /\
  watched_view (solve_watched clk0 noshuffle f e default_solver no_args) = Some (ts, ys, None) /\
  watched_view (solve_watched clk0 noshuffle f e default_solver a) = Some (ts', ys', None) /\
  len ys' = len ys /\ len ts' > len ts /\
  (iterations clk0 noshuffle f e (GInit default_solver a) > iterations clk0 noshuffle f e (GInit default_solver no_args))%nat.
Proof. exact idle_refuted. Qed.
Print Assumptions C103_groups_refuted.

(** A search that differs from a complete search only in its limit, its timeout and the clock,
    however it ends, begins like it: it extends the first of the same partial assignments, in the
    same order, and finds the first of the same solutions. *)
Theorem C104_truncated : forall clk clk' shuffle f f' e sv a a' ts ts' ys ys' e1 e2 r',
  let m := w_model (e_world e) in
  valid shuffle e a ->
  solve_watched clk shuffle f e sv a = Some (ts, ys, e1, None) ->
  solve_watched clk' shuffle f' e sv a' = Some (ts', ys', e2, r') ->
  e_interrupt e1 = None -> m_solvable m = true -> has_variable m ->
  x_additional a' = x_additional a -> policy_of sv a' = policy_of sv a ->
  prefix ts' ts /\ prefix ys' ys /\
  Z.of_nat (iterations clk' shuffle f' e (GInit sv a')) <= Z.of_nat (iterations clk shuffle f e (GInit sv a)) + 2.
Proof. exact truncated. Qed.
Print Assumptions C104_truncated.

(** The model of C93_case: 3 of 7 partial assignments and 1 of 3 solutions with limit 1. *)
Example C104_truncated_case : valid noshuffle e_watch no_args /\ x_additional (with_limit (LNum 1) no_args) = x_additional no_args /\
  policy_of sv_watch (with_limit (LNum 1) no_args) = policy_of sv_watch no_args /\
  match solve_watched clk0 noshuffle 100 e_watch sv_watch no_args with Some (ts, ys, e1, r) => Some (firstn 4 ts, ys, e_interrupt e1, r) | None => None end =
    Some ([[]; [("x", 0)]; [("x", 0); ("y", 1)]; [("x", 0); ("y", 2)]],
          [[("x", 0); ("y", 1); ("z", 2)]; [("x", 0); ("y", 2); ("z", 1)]; [("x", 1); ("y", 2); ("z", 0)]], None, None) /\
  watched_view (solve_watched clk0 noshuffle 100 e_watch sv_watch (with_limit (LNum 1) no_args)) =
    Some ([[]; [("x", 0)]; [("x", 0); ("y", 1)]], [[("x", 0); ("y", 1); ("z", 2)]], None).
Proof. split; [exact watch_valid|]. repeat split; vm_compute; reflexivity. Qed.

(** With a policy that does not look at the constraints: two complete searches of the same model
    under the same set of constraints, in whatever order and however often each of them is given,
    extend the same partial assignments in the same order, find the same solutions in the same
    order and begin equally many iterations, whatever the clocks. *)
Theorem C105_same : forall clk clk' shuffle f f' e sv a a' ts ts' ys ys' e1 e2,
  let m := w_model (e_world e) in
  valid shuffle e a -> valid shuffle e a' ->
  solve_watched clk shuffle f e sv a = Some (ts, ys, e1, None) ->
  solve_watched clk' shuffle f' e sv a' = Some (ts', ys', e2, None) ->
  e_interrupt e1 = None -> e_interrupt e2 = None -> m_solvable m = true -> has_variable m ->
  (forall c, In c (all_cons m a) <-> In c (all_cons m a')) -> policy_of sv a' = policy_of sv a -> blind (policy_of sv a) ->
  ts' = ts /\ ys' = ys /\
  iterations clk' shuffle f' e (GInit sv a') = iterations clk shuffle f e (GInit sv a).
Proof. exact same_search. Qed.
Print Assumptions C105_same.

(** The model of C93_case with y + z == 2 and x <= 1 in addition, and with x <= 1, y + z == 2 and
    again x <= 1. *)
Example C105_same_case : valid noshuffle e_watch a_both /\ valid noshuffle e_watch a_swap /\
  m_solvable (w_model (e_world e_watch)) = true /\ has_variable (w_model (e_world e_watch)) /\
  (forall c, In c (all_cons (w_model (e_world e_watch)) a_both) <-> In c (all_cons (w_model (e_world e_watch)) a_swap)) /\
  x_additional a_both <> x_additional a_swap /\ policy_of sv_watch a_swap = policy_of sv_watch a_both /\ blind (policy_of sv_watch a_both) /\
  watched_view (solve_watched clk0 noshuffle 100 e_watch sv_watch a_both) =
    Some ([[]; [("x", 0)]; [("x", 0); ("y", 1)]; [("x", 0); ("y", 2)]; [("x", 1)]; [("x", 1); ("y", 2)]],
          [[("x", 1); ("y", 2); ("z", 0)]], None) /\
  watched_view (solve_watched clk0 noshuffle 100 e_watch sv_watch a_swap) =
    watched_view (solve_watched clk0 noshuffle 100 e_watch sv_watch a_both).
Proof.
  split; [apply both_valid; cbn; intuition|]. split; [apply both_valid; cbn; intuition|]. split; [reflexivity|]. split; [exists "x", [0; 1; 2]; now left|].
  split; [intros c; unfold all_cons; rewrite !in_app_iff; cbn; intuition|]. split; [discriminate|]. split; [reflexivity|]. split; [exact I|].
  split; vm_compute; reflexivity.
Qed.

(** The order alone does not matter with any policy but GROUPS. *)
Theorem C105_permuted : forall clk clk' shuffle f f' e sv a a' ts ts' ys ys' e1 e2,
  let m := w_model (e_world e) in
  valid shuffle e a -> valid shuffle e a' ->
  solve_watched clk shuffle f e sv a = Some (ts, ys, e1, None) ->
  solve_watched clk' shuffle f' e sv a' = Some (ts', ys', e2, None) ->
  e_interrupt e1 = None -> e_interrupt e2 = None -> m_solvable m = true -> has_variable m ->
  Permutation (x_additional a) (x_additional a') -> policy_of sv a' = policy_of sv a -> policy_of sv a <> GROUPS ->
  ts' = ts /\ ys' = ys /\
  iterations clk' shuffle f' e (GInit sv a') = iterations clk shuffle f e (GInit sv a).
Proof. exact permuted_search. Qed.
Print Assumptions C105_permuted.

(** The model of C105_same_case with MAX_CONSTRAINT, which takes y first. *)
Example C105_permuted_case : valid noshuffle e_watch a_both /\ valid noshuffle e_watch a_back /\
  m_solvable (w_model (e_world e_watch)) = true /\ has_variable (w_model (e_world e_watch)) /\
  Permutation (x_additional a_both) (x_additional a_back) /\ x_additional a_both <> x_additional a_back /\
  policy_of sv_max a_back = policy_of sv_max a_both /\ policy_of sv_max a_both <> GROUPS /\
  watched_view (solve_watched clk0 noshuffle 100 e_watch sv_max a_both) =
    Some ([[]; [("y", 0)]; [("y", 1)]; [("y", 1); ("x", 0)]; [("y", 2)]; [("y", 2); ("x", 0)]; [("y", 2); ("x", 1)]],
          [[("y", 2); ("x", 1); ("z", 0)]], None) /\
  watched_view (solve_watched clk0 noshuffle 100 e_watch sv_max a_back) =
    watched_view (solve_watched clk0 noshuffle 100 e_watch sv_max a_both).
Proof.
  split; [apply both_valid; cbn; intuition|]. split; [apply both_valid; cbn; intuition|]. split; [reflexivity|]. split; [exists "x", [0; 1; 2]; now left|].
  split; [apply perm_swap|]. split; [discriminate|]. split; [reflexivity|]. split; [discriminate|].
  split; vm_compute; reflexivity.
Qed.

(** False with the default policy, GROUPS: the order of two all-different constraints changes the
    order of the search and its length.  (x, y, w in 0..1, z in 0..0.) *)
Theorem C105_groups_refuted : exists e f a a' ts ts' ys ys', valid noshuffle e a /\ valid noshuffle e a' /\
  Permutation (x_additional a) (x_additional a') /\
  watched_view (solve_watched clk0 noshuffle f e default_solver a) = Some (ts, ys, None) /\
  watched_view (solve_watched clk0 noshuffle f e default_solver a') = Some (ts', ys', None) /\
  ys' <> ys /\ len ts' < len ts /\
  (iterations clk0 noshuffle f e (GInit default_solver a') < iterations clk0 noshuffle f e (GInit default_solver a))%nat.
Proof. exact pair_refuted. Qed.
Print Assumptions C105_groups_refuted.

(** A repetition matters with MAX_CONSTRAINT. *)
Theorem C105_repeated_refuted : exists e f a a' ts ts' ys ys', valid noshuffle e a /\ valid noshuffle e a' /\
  (forall c, In c (x_additional a) <-> In c (x_additional a')) /\
  watched_view (solve_watched clk0 noshuffle f e sv_max a) = Some (ts, ys, None) /\
  watched_view (solve_watched clk0 noshuffle f e sv_max a') = Some (ts', ys', None) /\ ts' <> ts /\ ys' <> ys.
Proof. exact twice_refuted. Qed.
Print Assumptions C105_repeated_refuted.
