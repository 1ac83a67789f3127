(** The programs of the examples of Properties_Cut.v. *)
From Verif Require Import Optimize SpecFormula SpecSafe SpecSolve SpecOptimize ExprFacts HistoryFacts SolverProps SolverCases
  OptimizeProps OptimizeCases.
Open Scope string_scope.
Open Scope list_scope.
Open Scope Z_scope.

Definition opt_view (o : option (list subst * env * option exn)) :=
  match o with Some (ys, e, r) => Some (ys, r, get_stats e) | None => None end.

(** The environment after an enumeration of the model of [e_opt], limited to one solution, by
    a solver that does not compile. *)
Definition sv_plain : solver := Solver ORDERED LNone LNone false.
Definition e_stale : env := env_of e_opt (solve_all clk0 noshuffle 200 e_opt sv_plain (with_limit (LNum 1) no_args)).

Lemma stale_world : e_world e_stale = e_world e_opt.
Proof. vm_compute. reflexivity. Qed.

Lemma stale_valid : opt_valid noshuffle e_stale [OOther] no_args.
Proof.
  unfold opt_valid, valid. rewrite stale_world.
  apply (opt_case_valid [OOther]). intros o [E|[]]. discriminate.
Qed.

Lemma stale_witness : exists clk shuffle f e sv os a e',
  opt_valid shuffle e os a /\ optimize_all clk shuffle f e sv os a = Some ([], e', Some ValueError) /\
  fst (fst (get_stats e')) = 1 /\ snd (get_stats e') = Some ILimit.
Proof.
  exists clk0, noshuffle, 100%nat, e_stale, sv_plain, [OOther], no_args, (set_world e_stale (e_world e_stale)).
  split; [exact stale_valid|]. split; [reflexivity|]. split; vm_compute; reflexivity.
Qed.

(** x in 2, 1, 0 and y in 0..1; 4 / x + y is to be maximised. *)
Definition h_quot : list api := [AddInt [2; 1; 0] (Some "x"); AddInt [0; 1] (Some "y")].
Definition e_quot : env := new_env (run_history h_quot init_world).
Definition o_quot : objective := Objective (Bin OAdd (Bin ODiv (Const 4) (Var "x")) (Var "y")) true.

Lemma quot_valid : opt_valid noshuffle e_quot [OObj o_quot] no_args.
Proof.
  apply plain_valid; [intros B; cbn; auto|cbn; auto|]. intros o [E|[]]. inversion E. reflexivity.
Qed.
