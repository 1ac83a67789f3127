(** What the searches of the puzzle objects try: the partial assignments that [solve] extends
    while [__iter__] of QueensSolver (tool/queens.py:36-45), GraphLabelingSolver
    (graph_labeling.py:25-32) and SudokuSolver (sudoku.py:87-103) consume it, recorded as in
    SolverWatch.v. *)
From Verif Require Export SolverWatch Puzzle Queens Graph Sudoku.
Open Scope string_scope.
Open Scope Z_scope.

(** [obj = Puzzle(...); list(obj)]: the assignments extended, the solutions, the exception and
    [stats.interrupt].  (As [puzzle_run], without the decoding of the solutions.) *)
Definition puzzle_watched {A} (clk : nat -> Z) (shuffle : list name -> list name) (fuel : nat)
           (init : op A) (sv : solver)
  : option (list subst * list subst * option exn * option interrupt) :=
  match construct init with
  | Err ex => Some ([], [], Some ex, None)
  | Ok (_, e) =>
      match solve_watched clk shuffle fuel e sv no_args with
      | None => None
      | Some (ts, ys, e', r) => Some (ts, ys, r, e_interrupt e')
      end
  end.

(** The iterations of the loop of [solve] that it takes. *)
Definition puzzle_iterations {A} (clk : nat -> Z) (shuffle : list name -> list name) (fuel : nat)
           (init : op A) (sv : solver) : nat :=
  match construct init with
  | Err _ => 0%nat
  | Ok (_, e) => iterations clk shuffle fuel e (GInit sv no_args)
  end.

Definition queens_watched clk shuffle fuel (n : nat) (o : options) :=
  puzzle_watched clk shuffle fuel (queens_init n) (options_solver GROUPS o).
Definition queens_iterations clk shuffle fuel (n : nat) (o : options) :=
  puzzle_iterations clk shuffle fuel (queens_init n) (options_solver GROUPS o).
Definition graph_watched clk shuffle fuel nodes edges labels (o : options) :=
  puzzle_watched clk shuffle fuel (graph_init nodes edges labels) (options_solver ORDERED o).
Definition sudoku_watched clk shuffle fuel (s : schema) (o : options) :=
  puzzle_watched clk shuffle fuel (sudoku_init s)
    (new_solver (arg_or (o_policy o) GROUPS) (o_timeout o) (sudoku_limit o) (o_compile o)).
