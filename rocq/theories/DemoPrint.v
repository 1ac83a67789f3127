(** Model of the functions of src/satisfy/tool that print solutions: demo_queens.py,
    demo_sudoku.py, demo_cryptarithm.py, demo_einstein_riddle.py, demo_knapsack.py.
    A call of [print] is the text it is given; the output is the list of these texts, which are
    UTF-8 encoded.  What was printed before an exception is dropped. *)
From Verif Require Export Queens Sudoku Cryptarithm Einstein.
Open Scope string_scope.
Open Scope Z_scope.

(** ** demo_queens.py *)

(** A horizontal line, demo_queens.py:20-22. *)
Definition board_line (left middle right : string) (board_size : nat) : string :=
  left ++ sjoin middle (repeat "───" board_size) ++ right.
(** A row, demo_queens.py:28-34. *)
Definition board_row (row : list Z) : string :=
  "│" ++ sjoin "│" (map (fun is_queen => if truthy is_queen then " ♛ " else "   ") row) ++ "│".
(** The loop, demo_queens.py:25-34. *)
Fixpoint board_rows (hline mline : string) (board : list (list Z)) : list string :=
  match board with
  | [] => []
  | row :: board' => hline :: board_row row :: board_rows mline mline board'
  end.
(** [print_queens_board], demo_queens.py:17-35. *)
Definition print_queens_board (board_size : nat) (board : list (list Z)) : list string :=
  (board_rows (board_line "┌" "┬" "┐" board_size) (board_line "├" "┼" "┤" board_size) board
   ++ [board_line "└" "┴" "┘" board_size])%list.

(** ** demo_sudoku.py *)

(** [conv], demo_sudoku.py:46-50, with the blanks of line 57. *)
Definition schema_cell (v : option Z) : string :=
  " " ++ match v with Some n => if truthy n then str_int n else "." | None => "." end ++ " ".
(** [list.insert]. *)
Definition insert_at {A} (i : nat) (a : A) (l : list A) : list A := (firstn i l ++ a :: skipn i l)%list.
(** demo_sudoku.py:57-62. *)
Definition schema_row (row : list (option Z)) : string :=
  String.concat "" (insert_at 0 "│" (insert_at 3 "│" (insert_at 6 "│" (insert_at 9 "│" (map schema_cell row))))).
(** demo_sudoku.py:55-62: three rows, from the row [r] on. *)
Definition schema_rows (s : schema) (rs : list nat) : res (list string) :=
  mapM (fun r => match nth_error s r with Some row => Ok (schema_row row) | None => Err IndexError end) rs.
(** [print_sudoku_schema], demo_sudoku.py:33-63. *)
Definition print_sudoku_schema (s : schema) : res (list string) :=
  let uline := "┌─────────┬─────────┬─────────┐" in
  let mline := "├─────────┼─────────┼─────────┤" in
  let bline := "└─────────┴─────────┴─────────┘" in
  let! a := schema_rows s [0; 1; 2]%nat in
  let! b := schema_rows s [3; 4; 5]%nat in
  let! c := schema_rows s [6; 7; 8]%nat in
  Ok (uline :: a ++ mline :: b ++ mline :: c ++ [bline])%list.

(** ** demo_cryptarithm.py *)

(** [str.replace(old, new)] for a non-empty [old]; [skip]: characters of an occurrence that
    remain to be skipped. *)
Fixpoint replace_from (old new : string) (skip : nat) (s : string) : string :=
  match s with
  | EmptyString => EmptyString
  | String c s' =>
      match skip with
      | S k => replace_from old new k s'
      | O => if String.prefix old s then new ++ replace_from old new (String.length old - 1) s'
             else String c (replace_from old new 0 s')
      end
  end.
(** [sorted(l)] for strings. *)
Fixpoint insert_string (x : string) (l : list string) : list string :=
  match l with
  | [] => [x]
  | y :: l' => if String.leb x y then x :: l else y :: insert_string x l'
  end.
Definition sorted_strings (l : list string) : list string := fold_right insert_string [] l.
(** The loop, demo_cryptarithm.py:22-24. *)
Fixpoint cry_lines (solution : subst) (keys : list string) (s : string) : res (list string * string) :=
  match keys with
  | [] => Ok ([], s)
  | key :: keys' =>
      let! v := get_item solution key in
      let! r := cry_lines solution keys' (replace_from key (str_int v) 0 s) in
      Ok ((key ++ " = " ++ str_int v)%string :: fst r, snd r)
  end.
(** [print_cryptarithm_solution], demo_cryptarithm.py:20-25. *)
Definition print_cryptarithm_solution (solution : subst) (source : string) : res (list string) :=
  let! r := cry_lines solution (sorted_strings (dkeys solution)) source in
  Ok (fst r ++ [("==> " ++ snd r)%string])%list.

(** ** demo_einstein_riddle.py *)

(** demo_einstein_riddle.py:14-20. *)
Definition ordinal (i : Z) : res string :=
  match i with 1 => Ok "first" | 2 => Ok "second" | 3 => Ok "third" | 4 => Ok "fourth" | 5 => Ok "fifth" | _ => Err KeyError end.
Definition entry_of (d : dict string) (x : string) : res string :=
  match dget d x with Some v => Ok v | None => Err KeyError end.
(** [print_einstein_riddle_solution], demo_einstein_riddle.py:13-27. *)
Definition print_einstein_riddle_solution (solution : list (Z * dict string)) : res (list string) :=
  mapM (fun '(hindex, var_d) =>
    let! pet := entry_of var_d "animal" in
    let found := if String.eqb pet "a zebra" then "[*]" else "   " in
    let! hordinal := ordinal hindex in
    let! owner := entry_of var_d "owner" in
    let! color := entry_of var_d "color" in
    let! drink := entry_of var_d "drink" in
    let! smoke := entry_of var_d "smoke" in
    Ok (found ++ " The " ++ owner ++ ", who lives in the " ++ hordinal ++ " " ++ color ++ " house, drinks " ++ drink ++
        ", smokes " ++ smoke ++ " and has " ++ pet ++ ".")) solution.

(** ** demo_knapsack.py *)

(** [solution_string], demo_knapsack.py:59-66. *)
Definition solution_string (solution : list Z) : string :=
  sjoin " " (map (fun item => if truthy item then "X" else "_") solution).
