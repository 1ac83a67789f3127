(** Model of the demo programs of src/satisfy/tool that enumerate solutions: demo_queens.py,
    demo_sudoku.py, demo_nonogram.py, demo_cryptarithm.py and demo_einstein_riddle.py, called
    without [show_model].  Simplifications: the data is given (JSON files, default sources and
    the texts that announce them are not modelled, nor is the text of the riddle); what was
    printed before an exception is dropped. *)
From Verif Require Export DemoPrint DemoStats DemoImage.
Open Scope string_scope.
Open Scope Z_scope.

(** The loops [for solution in solver], e.g. demo_queens.py:45-48: a title with a number, then
    the solution. *)
Fixpoint numbered {B} (show : B -> res (list string)) (num_solutions : nat) (sols : list B) : res (list string) :=
  match sols with
  | [] => Ok []
  | s :: sols' =>
      let n := S num_solutions in
      let! d := show s in
      let! ls := numbered show n sols' in
      Ok ((String newline "" ++ "=== solution " ++ str_nat n ++ " ===")%string :: d ++ ls)%list
  end.

(** The constructor, the loop and [print_solve_stats(solver.get_stats())].  The loop body has no
    effect on the solver: that it prints the solutions in between does not matter. *)
Definition puzzle_demo {A B} (clk : nat -> Z) (shuffle : list name -> list name) (fuel : nat) (seconds : Z -> string)
           (init : op A) (decode : A -> subst -> res B) (sv : solver) (show : B -> res (list string))
  : option (res (list string)) :=
  match construct init with
  | Err ex => Some (Err ex)
  | Ok (obj, e) =>
      match solve_all clk shuffle fuel e sv no_args with
      | None => None
      | Some (ys, e', r) =>
          Some (let! bs := mapM (decode obj) ys in
                let! ls := numbered show 0 bs in
                match r with
                | Some ex => Err ex
                | None => Ok (ls ++ [print_solve_stats seconds (get_stats e')])%list
                end)
      end
  end.

(** [queens], demo_queens.py:38-49. *)
Definition queens_demo clk shuffle fuel seconds (n : nat) (timeout limit : lim) : option (res (list string)) :=
  puzzle_demo clk shuffle fuel seconds (queens_init n) (queens_decode n) (options_solver GROUPS (Options None timeout limit true))
    (fun board => Ok (print_queens_board n board)).

(** [sudoku], demo_sudoku.py:77-88: the schema, then the solutions. *)
Definition sudoku_demo clk shuffle fuel seconds (s : schema) (timeout limit : lim) : option (res (list string)) :=
  match print_sudoku_schema s with
  | Err ex => Some (Err ex)
  | Ok first =>
      match puzzle_demo clk shuffle fuel seconds (sudoku_init s) (sudoku_decode s)
              (new_solver GROUPS timeout (sudoku_limit (Options None timeout limit true)) true)
              (fun g => print_sudoku_schema (map (map Some) g)) with
      | None => None
      | Some r => Some (let! ls := r in Ok ("=== sudoku schema ===" :: first ++ ls)%list)
      end
  end.

(** [nonogram], demo_nonogram.py:83-92, with [print_nonogram_pixmap], 36-37. *)
Definition nonogram_demo clk shuffle fuel seconds (rows cols : list (list Z)) (timeout limit : lim) : option (res (list string)) :=
  puzzle_demo clk shuffle fuel seconds (nonogram_init rows cols) (nonogram_decode (length cols))
    (options_solver MIN_BOUND (Options None timeout limit true))
    (fun pixmap => let! image := pixmap_to_image pixmap (String ZERO "") (String ONE "") in Ok [image]).

(** [cryptarithm], demo_cryptarithm.py:28-48, called with a source. *)
Definition cryptarithm_demo clk shuffle fuel seconds order (source : string) (avoid : bool) (timeout limit : lim) : option (res (list string)) :=
  match puzzle_demo clk shuffle fuel seconds (cry_init order source avoid) cry_decode
          (options_solver MIN_BOUND (Options None timeout limit true))
          (fun solution => print_cryptarithm_solution solution source) with
  | None => None
  | Some r => Some (let! ls := r in Ok (source :: ls))
  end.

(** [einstein], demo_einstein_riddle.py:30-42. *)
Definition einstein_demo clk shuffle fuel seconds (timeout limit : lim) : option (res (list string)) :=
  puzzle_demo clk shuffle fuel seconds einstein_init einstein_decode (options_solver MIN_BOUND (Options None timeout limit true))
    print_einstein_riddle_solution.
