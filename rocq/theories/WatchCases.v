(** The program of the example of Properties_Watch.v. *)
From Verif Require Import Solver SolverWatch SpecFormula SpecSafe SpecSolve HistoryFacts SolverProps SolverCases.
Open Scope string_scope.
Open Scope list_scope.
Open Scope Z_scope.

Definition watched_view (o : option (list subst * list subst * env * option exn)) :=
  match o with Some (ts, ys, _, r) => Some (ts, ys, r) | None => None end.

(** x, y, z in 0..2, all different, x < y. *)
Definition h_watch : list api :=
  [AddInt [0; 1; 2] (Some "x"); AddInt [0; 1; 2] (Some "y"); AddInt [0; 1; 2] (Some "z");
   AddAllDiff ["x"; "y"; "z"]; AddConstraint (AExpr (Bin OLt (Var "x") (Var "y")))].
Definition b_watch (id : nat) : cbody :=
  match id with
  | O => CAllDiff ["x"; "y"; "z"]
  | _ => CExpr (Bin OLt (Var "x") (Var "y"))
  end.
Definition e_watch : env := new_env (run_history h_watch init_world).
Definition sv_watch : solver := Solver ORDERED LNone LNone true.

Lemma watch_valid : valid noshuffle e_watch no_args.
Proof.
  apply (valid_reachable b_watch h_watch); try reflexivity.
  - cbn -[str_nat]. repeat split.
  - intros c [].
  - apply noshuffle_ok.
Qed.
