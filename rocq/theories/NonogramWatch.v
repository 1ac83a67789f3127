(** What the search of a NonogramSolver tries: the partial assignments that [solve] extends while
    [__iter__] (nonogram.py:115-129) consumes it, recorded as in SolverWatch.v. *)
From Verif Require Export PuzzleWatch Nonogram.
Open Scope string_scope.
Open Scope Z_scope.

Definition nonogram_watched clk shuffle fuel (rows cols : list (list Z)) (o : options) :=
  puzzle_watched clk shuffle fuel (nonogram_init rows cols) (options_solver MIN_BOUND o).
