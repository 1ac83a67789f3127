(** C34, C33: several enumerations of one solver on one model, advanced in any order. *)
From Verif Require Import Solver SpecSolve SpecInterleave SolverCases InterleaveFacts InterleaveStats.
Open Scope string_scope.
Open Scope list_scope.
Open Scope Z_scope.

(** C34: whatever the other enumerations do, the answers of enumeration [j] are those of
    the same call consumed alone, started on the same objects at any other time, in any
    other solver state.  Without timeout: with one, the time spent matters. *)
Theorem C34_interleaved : forall clk clk' shuffle f F sched e e0 sv (a : nat -> args) evs e1 j ys e2 r,
  let m := w_model (e_world e) in
  (forall i, valid (shuffle i) e (a i)) ->
  (forall i k c c', In c (all_cons m (a i)) -> In c' (all_cons m (a k)) -> c_id c = c_id c' -> c_body c = c_body c') ->
  (forall i, timeout_of sv (a i) = LNone) ->
  play clk shuffle f sched e (fun i => GInit sv (a i)) = Some (evs, e1) ->
  e_world e0 = e_world e -> solve_all clk' (shuffle j) F e0 sv (a j) = Some (ys, e2, r) ->
  results j evs = answers (calls j sched) ys r.
Proof. exact interleaved. Qed.
Print Assumptions C34_interleaved.

(** C34: every call of every schedule returns. *)
Theorem C34_interleaved_runs : forall clk shuffle sched e sv (a : nat -> args),
  let m := w_model (e_world e) in
  (forall i, valid (shuffle i) e (a i)) ->
  (forall i k c c', In c (all_cons m (a i)) -> In c' (all_cons m (a k)) -> c_id c = c_id c' -> c_body c = c_body c') ->
  (forall i, timeout_of sv (a i) = LNone) ->
  exists f evs e1, play clk shuffle f sched e (fun i => GInit sv (a i)) = Some (evs, e1) /\ map fst evs = sched.
Proof. exact interleaved_runs. Qed.
Print Assumptions C34_interleaved_runs.

(** A first enumeration limited to one solution, a second in declaration order. *)
Definition two_args (j : nat) : args :=
  match j with
  | O => with_limit (LNum 1) no_args
  | _ => Args None None (Some ORDERED) []
  end.

Example C34_case : (forall i, valid noshuffle e_small (two_args i)) /\
  (forall i, timeout_of default_solver (two_args i) = LNone) /\
  option_map (fun p => (results 0 (fst p), results 1 (fst p)))
    (play clk0 (fun _ => noshuffle) 100 [0; 1; 1; 0; 0; 1; 1; 1]%nat e_small (fun i => GInit default_solver (two_args i))) =
  Some ([EvYield [("y", 2); ("x", 1)]; EvStop; EvStop],
        [EvYield [("x", 1); ("y", 2)]; EvYield [("x", 1); ("y", 3)]; EvYield [("x", 2); ("y", 3)]; EvStop; EvStop]).
Proof.
  split; [intros [|i]; exact small_valid|]. split; [intros [|i]; reflexivity|]. vm_compute. reflexivity.
Qed.

(** C33, what holds instead: whatever the schedule, the models, the limits and the
    timeouts, and whether or not calls raise, the count reported is the number of
    solutions received from the enumeration started last. *)
Theorem C33_interleaved_count : forall clk shuffle sv (a : nat -> args) f sched e evs e' pre j ev suf,
  play clk shuffle f sched e (fun i => GInit sv (a i)) = Some (evs, e') ->
  evs = pre ++ (j, ev) :: suf -> last_start pre j suf ->
  fst (fst (get_stats e')) = received j evs.
Proof. intros clk shuffle sv a. exact (interleaved_count clk sv a shuffle). Qed.
Print Assumptions C33_interleaved_count.

(** C33, what holds instead (without timeout): the interrupt reported is [ILimit] exactly
    if, since the enumeration started last was started, a call was made on any
    enumeration that had reached its own limit. *)
Theorem C33_interleaved_interrupt : forall clk shuffle sv (a : nat -> args),
  (forall i, timeout_of sv (a i) = LNone) ->
  forall f sched e evs e' pre j ev suf,
  play clk shuffle f sched e (fun i => GInit sv (a i)) = Some (evs, e') ->
  evs = pre ++ (j, ev) :: suf -> last_start pre j suf ->
  (e_interrupt e' = None \/ e_interrupt e' = Some ILimit) /\
  (e_interrupt e' = Some ILimit <->
   exists p k v s, suf = p ++ (k, v) :: s /\
     at_limit (fun i => limit_of sv (a i)) k (pre ++ (j, ev) :: p)).
Proof. intros clk shuffle sv a Hto. exact (interleaved_interrupt clk sv a Hto shuffle). Qed.
Print Assumptions C33_interleaved_interrupt.

(** Enumeration 0 meets its limit after enumeration 1 was started: the statistics count
    the solutions of enumeration 1 and report the interrupt of enumeration 0. *)
Example C33_case :
  option_map (fun p => (fst p, get_stats (snd p)))
    (play clk0 (fun _ => noshuffle) 100 [0; 1; 1; 0]%nat e_small (fun i => GInit default_solver (two_args i))) =
  Some ([(0%nat, EvYield [("y", 2); ("x", 1)]); (1%nat, EvYield [("x", 1); ("y", 2)]);
         (1%nat, EvYield [("x", 1); ("y", 3)]); (0%nat, EvStop)], (2, 2, Some ILimit)) /\
  last_start [(0%nat, EvYield [("y", 2); ("x", 1)])] 1 [(1%nat, EvYield [("x", 1); ("y", 3)]); (0%nat, EvStop)] /\
  at_limit (fun i => limit_of default_solver (two_args i)) 0
    [(0%nat, EvYield [("y", 2); ("x", 1)]); (1%nat, EvYield [("x", 1); ("y", 2)]); (1%nat, EvYield [("x", 1); ("y", 3)])].
Proof.
  split; [vm_compute; reflexivity|]. split.
  - split; cbn; [intuition discriminate|]. intros i. intuition.
  - split; [exists [], [("y", 2); ("x", 1)]; reflexivity|]. exists 1. split; [reflexivity|]. vm_compute. discriminate.
Qed.
