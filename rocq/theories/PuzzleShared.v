(** Puzzles that are given a Model, and perhaps a Solver: the arguments [model] and [solver] of
    ModelSolverBase, solver.py:443-450.  A program makes a Model [m], adds variables and
    constraints to it, makes puzzles with [model=m], in any order, and iterates one of the
    puzzles. *)
From Verif Require Export Queens Graph Sudoku Cryptarithm Nonogram Einstein PuzzleUser.
Open Scope string_scope.
Open Scope Z_scope.

(** The arguments of the six classes. *)
Inductive puzzle : Type :=
| ZQueens (n : nat)
| ZGraph (nodes : list string) (edges : list (string * string)) (labels : list string)
| ZSudoku (s : schema)
| ZCryptarithm (order : list name -> list name) (source : string) (avoid : bool)
| ZNonogram (rows cols : list (list Z))
| ZEinstein.

(** The attributes of the objects that [__iter__] uses, besides the model and the solver. *)
Inductive pobj : Type :=
| ObQueens (n : nat) (queens : list name)
| ObGraph (labels : list string) (variables : dict name)
| ObSudoku (s : schema) (_ : unit)
| ObCryptarithm (letters : list name)
| ObNonogram (num_cols : nat) (row_vars : list (list run_var))
| ObEinstein (variables : list (string * dict name)).

(** What [__iter__] yields. *)
Inductive answer : Type :=
| RBoard (b : list (list Z))
| RColours (c : list (string * string))
| RGrid (g : list (list Z))
| RLetters (b : subst)
| RPicture (p : list (list Z))
| RHouses (h : list (Z * dict string)).

(** The constructors, after [super().__init__(...)]: queens.py:16-37, graph_labeling.py:14-23,
    sudoku.py:22-84, cryptarithm.py:19-68, nonogram.py:19-69, einstein_riddle.py:31-. *)
Definition puzzle_init (z : puzzle) : op pobj :=
  match z with
  | ZQueens n => do! o := queens_init n in op_ret (ObQueens n o)
  | ZGraph nodes edges labels => do! o := graph_init nodes edges labels in op_ret (ObGraph labels o)
  | ZSudoku s => do! o := sudoku_init s in op_ret (ObSudoku s o)
  | ZCryptarithm order source avoid => do! o := cry_init order source avoid in op_ret (ObCryptarithm o)
  | ZNonogram rows cols => do! o := nonogram_init rows cols in op_ret (ObNonogram (length cols) o)
  | ZEinstein => do! o := einstein_init in op_ret (ObEinstein o)
  end.

(** The bodies of the loops of the methods [__iter__]. *)
Definition puzzle_decode (o : pobj) (s : subst) : res answer :=
  match o with
  | ObQueens n queens => let! b := queens_decode n queens s in Ok (RBoard b)
  | ObGraph labels variables => let! b := graph_decode labels variables s in Ok (RColours b)
  | ObSudoku sch u => let! b := sudoku_decode sch u s in Ok (RGrid b)
  | ObCryptarithm letters => let! b := cry_decode letters s in Ok (RLetters b)
  | ObNonogram num_cols row_vars => let! b := nonogram_decode num_cols row_vars s in Ok (RPicture b)
  | ObEinstein variables => let! b := einstein_decode variables s in Ok (RHouses b)
  end.

(** The options after the first lines of the constructors, which replace a missing policy or (in
    sudoku.py) a missing limit. *)
Definition completed (z : puzzle) (o : options) : options :=
  match z with
  | ZQueens _ => Options (Some (arg_or (o_policy o) GROUPS)) (o_timeout o) (o_limit o) (o_compile o)
  | ZGraph _ _ _ => Options (Some (arg_or (o_policy o) ORDERED)) (o_timeout o) (o_limit o) (o_compile o)
  | ZSudoku _ => Options (o_policy o) (o_timeout o) (sudoku_limit o) (o_compile o)
  | ZCryptarithm _ _ _ | ZNonogram _ _ | ZEinstein =>
      Options (Some (arg_or (o_policy o) MIN_BOUND)) (o_timeout o) (o_limit o) (o_compile o)
  end.

(** [if solver is None: solver = Solver(...)], solver.py:448-450: the argument [solver] is
    either missing or a Solver made with the options [given], and then the other arguments are not looked at. *)
Definition base_solver (given : option options) (args : options) : solver :=
  match given with
  | None => options_solver GROUPS args
  | Some o => options_solver GROUPS o
  end.

(** A statement of the program: an addition to [m], or [Puzzle(..., model=m, solver=..., **o)]. *)
Inductive piece : Type :=
| PUser (u : ustmt)
| PPuzzle (z : puzzle) (given : option options) (o : options).

Definition add_piece (p : piece) : op (list (pobj * solver)) :=
  match p with
  | PUser u => do! _ := add_user u in op_ret []
  | PPuzzle z given o => do! obj := puzzle_init z in op_ret [(obj, base_solver given (completed z o))]
  end.

(** The puzzle objects made by the statements, in their order. *)
Definition shared_init (ps : list piece) : op (list (pobj * solver)) :=
  do! l := op_for add_piece ps in op_ret (concat l).

(** [results = list(puzzle)] and [puzzle.get_stats().interrupt] for the k-th puzzle, after the
    statements.  (If a decoding raised, the solutions after it would not be computed; the
    theorems show that no decoding raises.) *)
Definition shared_run (clk : nat -> Z) (shuffle : list name -> list name) (fuel : nat) (ps : list piece) (k : nat)
  : option (list answer * option exn * option interrupt) :=
  match construct (shared_init ps) with
  | Err ex => Some ([], Some ex, None)
  | Ok (objs, e) =>
      match nth_error objs k with
      | None => Some ([], Some IndexError, None)
      | Some (obj, sv) =>
          match solve_all clk shuffle fuel e sv no_args with
          | None => None
          | Some (ys, e', r) =>
              match mapM (puzzle_decode obj) ys with
              | Ok bs => Some (bs, r, e_interrupt e')
              | Err ex => Some ([], Some ex, e_interrupt e')
              end
          end
      end
  end.
