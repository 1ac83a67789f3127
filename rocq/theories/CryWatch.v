(** What the search of a CryptarithmSolver tries: the partial assignments that [solve] extends
    while [__iter__] (solver.py:465-466, inherited) consumes it, recorded as in SolverWatch.v. *)
From Verif Require Export PuzzleWatch Cryptarithm.
Open Scope string_scope.
Open Scope Z_scope.

Definition cry_watched clk shuffle fuel (order : list name -> list name) (source : string) (avoid : bool) (o : options) :=
  puzzle_watched clk shuffle fuel (cry_init order source avoid) (options_solver MIN_BOUND o).
Definition cry_iterations clk shuffle fuel (order : list name -> list name) (source : string) (avoid : bool) (o : options) :=
  puzzle_iterations clk shuffle fuel (cry_init order source avoid) (options_solver MIN_BOUND o).
