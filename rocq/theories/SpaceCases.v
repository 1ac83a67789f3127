(** The programs of the examples of Properties_Space.v. *)
From Verif Require Import Optimize SolverWatch SpecFormula SpecSafe SpecSolve SpecOptimize HistoryFacts SolverProps SolverCases OptimizeMore OptimizeCases WatchCases SpecSpace.
Open Scope string_scope.
Open Scope list_scope.
Open Scope Z_scope.

(** y in 0..2, x in 0..1, no constraint. *)
Definition h_free : list api := [AddInt [0; 1; 2] (Some "y"); AddInt [0; 1] (Some "x")].
Definition b_free (id : nat) : cbody := CAllDiff [].
Definition e_free : env := new_env (run_history h_free init_world).
Definition sv_min : solver := Solver MIN_BOUND LNone LNone true.

Lemma free_valid : valid noshuffle e_free no_args.
Proof.
  apply (valid_reachable b_free h_free); try reflexivity.
  - cbn -[str_nat]. repeat split.
  - intros c [].
  - apply noshuffle_ok.
Qed.

Lemma free_opt_valid os : (forall o, In (OObj o) os -> params (o_expr o) = []) -> opt_valid noshuffle e_free os no_args.
Proof.
  intros H. apply (opt_valid_reachable b_free h_free); try reflexivity.
  - cbn -[str_nat]. repeat split.
  - cbn -[str_nat]. repeat split.
  - intros c [].
  - intros c [].
  - intros o Ho p Hp. rewrite (H o Ho) in Hp. destruct Hp.
  - apply noshuffle_ok.
Qed.

(** The same with y == 1. *)
Definition h_tied : list api := h_free ++ [AddConstraint (AExpr (Bin OEq (Var "y") (Const 1)))].
Definition b_tied (id : nat) : cbody := CExpr (Bin OEq (Var "y") (Const 1)).
Definition e_tied : env := new_env (run_history h_tied init_world).

Lemma tied_valid : valid noshuffle e_tied no_args.
Proof.
  apply (valid_reachable b_tied h_tied); try reflexivity.
  - cbn -[str_nat]. repeat split.
  - intros c [].
  - apply noshuffle_ok.
Qed.

Lemma tied_refuted : exists e f ts ts' ys ys', valid noshuffle e no_args /\
  watched_view (solve_watched clk0 noshuffle f e sv_min no_args) = Some (ts, ys, None) /\
  watched_view (solve_watched clk0 noshuffle f e sv_watch no_args) = Some (ts', ys', None) /\
  len ys = len ys' /\ len ts > len ts' /\
  (iterations clk0 noshuffle f e (GInit sv_min no_args) > iterations clk0 noshuffle f e (GInit sv_watch no_args))%nat.
Proof.
  exists e_tied, 100%nat. do 4 eexists. split; [exact tied_valid|]. split; [vm_compute; reflexivity|]. split; [vm_compute; reflexivity|].
  split; [reflexivity|]. split; [reflexivity|]. apply Nat.ltb_lt. vm_compute. reflexivity.
Qed.
