(** Model of src/satisfy/sudoku.py (SudokuSolver).
    Simplifications: the entries of the schema are ints or None.  Instead of Cell objects
    whose [domain] sets are emptied step by step, the final domain of each cell is
    computed directly (the order in which values are discarded does not matter).  Sets
    of the ints 1..9 are iterated in increasing order. *)
From Verif Require Export Puzzle Queens.
Open Scope string_scope.
Open Scope Z_scope.

Definition schema := list (list (option Z)).

(** [null_values] and [accepted_values], sudoku.py:26-27. *)
Definition is_null (v : option Z) : bool := match v with None => true | Some n => n =? 0 end.
Definition accepted (v : option Z) : bool := match v with None => true | Some n => (0 <=? n) && (n <=? 9) end.

(** sudoku.py:38-50: the loop over the entries of one row, from column [c].  The
    assignment [matrix[row_index][col_index] = cell] fails beyond column 8. *)
Fixpoint check_row (row : list (option Z)) (c : nat) : res unit :=
  match row with
  | [] => Ok tt
  | v :: row' =>
      if accepted v then if Nat.ltb c 9 then check_row row' (S c) else Err IndexError
      else Err ValueError
  end.
Fixpoint check_rows (s : schema) : res unit :=
  match s with [] => Ok tt | row :: s' => let! _ := check_row row 0 in check_rows s' end.

Definition entry (s : schema) (p : nat * nat) : option Z := nth (snd p) (nth (fst p) s []) None.

(** Cells in the order of the loops, with their row, column and block indices. *)
Definition cells : list (nat * nat) := list_prod (seq 0 9) (seq 0 9).
Definition row_index (p : nat * nat) : nat := fst p.
Definition col_index (p : nat * nat) : nat := snd p.
Definition block_index (p : nat * nat) : nat := ((fst p / 3) * 3 + snd p / 3)%nat.
Definition neighbors (p q : nat * nat) : bool :=
  Nat.eqb (row_index p) (row_index q) || Nat.eqb (col_index p) (col_index q) || Nat.eqb (block_index p) (block_index q).

(** [cell.domain] after the discards of sudoku.py:52-58. *)
Definition discarded (s : schema) (p : nat * nat) (v : Z) : bool :=
  existsb (fun q => neighbors q p && match entry s q with Some n => n =? v | None => false end) cells.
Definition cell_domain (s : schema) (p : nat * nat) : list Z :=
  filter (fun v => negb (discarded s p v)) (zrange 1 10).

Definition c_name (p : nat * nat) : name := name2 "c_" (fst p) (snd p).
Definition null_cells (s : schema) : list (nat * nat) := filter (fun p => is_null (entry s p)) cells.

(** sudoku.py:73-84: one all-different constraint per group of at least two variables. *)
Definition add_groups (s : schema) (index : nat * nat -> nat) : op (list unit) :=
  op_for (fun i =>
    let variables := map c_name (filter (fun p => Nat.eqb (index p) i) (null_cells s)) in
    if Nat.ltb 1 (length variables) then add_all_different_constraint variables else op_ret tt)
  (seq 0 9).

(** [SudokuSolver.__init__], sudoku.py:18-87.  A short row leaves None in [matrix], and
    [cell.row_index] fails (sudoku.py:65). *)
Definition sudoku_init (s : schema) : op unit :=
  if negb (Nat.eqb (length s) 9) then op_raise ValueError
  else match check_rows s with
  | Err ex => op_raise ex
  | Ok _ =>
      if existsb (fun row => Nat.ltb (length row) 9) s then op_raise AttributeError
      else
        do! _ := op_for (fun p => int_variable (cell_domain s p) (c_name p)) (null_cells s) in
        do! _ := add_groups s row_index in
        do! _ := add_groups s col_index in
        do! _ := add_groups s block_index in
        op_ret tt
  end.

(** [__iter__], sudoku.py:95-103. *)
Definition sudoku_cell (s : schema) (sol : subst) (p : nat * nat) : res Z :=
  match entry s p with
  | Some n => if n =? 0 then get_item sol (c_name p) else Ok n
  | None => get_item sol (c_name p)
  end.
Definition sudoku_decode (s : schema) (_ : unit) (sol : subst) : res (list (list Z)) :=
  mapM (fun r => mapM (fun c => sudoku_cell s sol (r, c)) (seq 0 9)) (seq 0 9).

(** The limit is 1 if none is given, sudoku.py:19-20. *)
Definition sudoku_limit (o : options) : lim := match o_limit o with LNone => LNum 1 | l => l end.
Definition sudoku_run clk shuffle fuel (s : schema) (o : options) :=
  puzzle_run clk shuffle fuel (sudoku_init s) (sudoku_decode s)
    (new_solver (arg_or (o_policy o) GROUPS) (o_timeout o) (sudoku_limit o) (o_compile o)).
