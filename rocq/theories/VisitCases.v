(** The program of an example of Properties_OptOrder.v. *)
From Verif Require Import Optimize SpecFormula SpecSafe SpecSolve SpecOptimize HistoryFacts SolverProps SolverCases OptimizeMore OptimizeCases.
Open Scope string_scope.
Open Scope list_scope.
Open Scope Z_scope.

(** x, y, z in 0..1, no constraint; to maximize y + z. *)
Definition h_xyz : list api := [AddInt [0; 1] (Some "x"); AddInt [0; 1] (Some "y"); AddInt [0; 1] (Some "z")].
Definition b_xyz (id : nat) : cbody := CAllDiff [].
Definition e_xyz : env := new_env (run_history h_xyz init_world).
Definition os_yz : list oarg := [OObj (Objective (Bin OAdd (Var "y") (Var "z")) true)].
Definition sv_most : solver := Solver MAX_CONSTRAINT LNone LNone true.

Lemma xyz_valid : opt_valid noshuffle e_xyz os_yz no_args.
Proof.
  apply (opt_valid_reachable b_xyz h_xyz); try reflexivity.
  - cbn -[str_nat]. repeat split.
  - cbn -[str_nat]. repeat split.
  - intros c [].
  - intros c [].
  - intros o [E|[]] p Hp. injection E as <-. destruct Hp.
  - apply noshuffle_ok.
Qed.
