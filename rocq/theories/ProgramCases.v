(** Example programs. *)
From Verif Require Import Solver SpecSolve SpecInterleave SpecIsolation SolverCases Program SpecProgram.
Open Scope string_scope.
Open Scope list_scope.
Open Scope Z_scope.

(** Two models which share the constraint [x >= p], and have one more constraint each. *)
Definition shared : constraint := Constraint 0 (CExpr (Bin OGe (Var "x") (Param 0 "p"))).
Definition two_bodies (id : nat) : cbody :=
  match id with
  | O => CExpr (Bin OGe (Var "x") (Param 0 "p"))
  | S O => CExpr (Bin OLt (Var "x") (Var "y"))
  | _ => CAllDiff ["x"; "z"]
  end.
Definition build : list action :=
  [NewModel; NewModel;
   Call 0 (AddInt [1; 2; 3] (Some "x")); Call 1 (AddInt [3; 2; 1] (Some "x"));
   Call 0 (AddParameter 1 (Some "p"));
   Call 0 (AddConstraint (AExpr (Bin OGe (Var "x") (Param 0 "p"))));
   Call 1 (AddConstraint (ACons shared));
   Call 0 (AddInt [2; 3] (Some "y")); Call 0 (AddConstraint (AExpr (Bin OLt (Var "x") (Var "y"))));
   Call 1 (AddBool (Some "z")); Call 1 (AddAllDiff ["x"; "z"]);
   NewSolver GROUPS LNone LNone true; NewSolver GROUPS LNone LNone false].

(** Solver 0 on both models, then the calls of [next] mixed with other statements; the
    parameter is 2 at the start. *)
Definition before_next : list action := build ++ [Call 0 (SetParam 0 2); Solve 0 0 no_args; Solve 0 1 no_args].
Definition mixed : list action :=
  [Next 1; Call 0 (AddInt [7] None); SetLimit 0 (LNum 1); Next 0; NewSolver MIN_BOUND LNone (LNum 1) true; Next 1;
   Solve 2 1 no_args; Next 2; Close 2; Next 0; Next 7; Next 1; GetStats 0; Next 1; Next 0; Next 0].

Definition after (xs : list action) : prog := match run clk0 (fun _ => noshuffle) 100 init_prog xs with Some (_, p) => p | None => init_prog end.
Definition p_before : prog := after before_next.

(** The same with solvers that do not compile. *)
Definition build_plain : list action :=
  firstn 11 build ++ [NewSolver GROUPS LNone LNone false; Call 0 (SetParam 0 2); Solve 0 0 no_args; Solve 0 1 no_args].
Definition mixed_plain : list action :=
  [Next 1; Call 0 (AddInt [7] None); Next 0; NewSolver MIN_BOUND LNone (LNum 1) false; Next 1; Solve 1 1 no_args; Next 2; Next 0; Next 1; Next 0].

(** The shared constraint is compiled by a solve of model 1, then the parameter is set. *)
Definition stale_build : list action := build ++ [Solve 0 1 no_args; Next 0; Call 0 (SetParam 0 2)].
Definition again : list action := [Solve 0 1 no_args; Next 1].

(** Solves [proper_run] on literals. *)
Ltac proper_literal :=
  vm_compute;
  repeat match goal with
  | |- _ /\ _ => split
  | |- True => exact Logic.I
  | |- _ = _ => reflexivity
  | |- forall _, False -> _ => intros ? []
  | |- forall e q, CExpr _ = CExpr e -> _ => intros ? ? E U; injection E as <-
  | H : uses _ _ |- _ => inversion H; subst; clear H
  | |- (_ <= _)%nat => repeat constructor
  | |- forall _ _, CAllDiff _ = CExpr _ -> _ => discriminate
  | |- le _ _ => repeat constructor
  end.
