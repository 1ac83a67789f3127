(** Properties of the demo programs and of the solutions they print. *)
From Coq Require Import Permutation.
From Verif Require Import DemoRun DemoArgs SpecPuzzle SpecSolve SpecNonogram SpecImage SpecQueens SpecSudoku SpecCryptarithm SpecEinstein SpecPrint SpecArgs SpecStats.
From Verif Require Import PrintFacts PrintCryFacts DemoRunFacts ArgsFacts.
Open Scope string_scope.
Open Scope list_scope.
Open Scope Z_scope.

(** ** C66: chessboards *)

(** The drawing of a square board. *)
Theorem C66_drawn : forall n b, rectangular n n b -> (1 <= n)%nat -> draws_board n b (print_queens_board n b).
Proof. exact queens_drawn. Qed.
Print Assumptions C66_drawn.

(** Different boards have different drawings. *)
Theorem C66_readable : forall n b b', (1 <= n)%nat -> rectangular n n b -> rectangular n n b' -> black_white b -> black_white b' ->
  print_queens_board n b = print_queens_board n b' -> b = b'.
Proof. exact queens_readable. Qed.
Print Assumptions C66_readable.

(** The program prints placements, each once and under its number, and says whether they are
    all. *)
Theorem C66_program : forall clk shuffle seconds n timeout limit, (1 <= n)%nat -> shuffles shuffle ->
  (exists fuel out, queens_demo clk shuffle fuel seconds n timeout limit = Some (Ok out)) /\
  forall fuel r, queens_demo clk shuffle fuel seconds n timeout limit = Some r ->
    exists out, r = Ok out /\ reports (draws_board n) (queens_board n) timeout limit out.
Proof. exact queens_program. Qed.
Print Assumptions C66_program.

Example C66_case :
  queens_demo (fun _ => 0) (fun l => l) 4000 (fun _ => "0.000") 4 Solver.LNone Solver.LNone = Some (Ok
    [title 1;
     "┌───┬───┬───┬───┐";
     "│   │   │ ♛ │   │";
     "├───┼───┼───┼───┤";
     "│ ♛ │   │   │   │";
     "├───┼───┼───┼───┤";
     "│   │   │   │ ♛ │";
     "├───┼───┼───┼───┤";
     "│   │ ♛ │   │   │";
     "└───┴───┴───┴───┘";
     title 2;
     "┌───┬───┬───┬───┐";
     "│   │ ♛ │   │   │";
     "├───┼───┼───┼───┤";
     "│   │   │   │ ♛ │";
     "├───┼───┼───┼───┤";
     "│ ♛ │   │   │   │";
     "├───┼───┼───┼───┤";
     "│   │   │ ♛ │   │";
     "└───┴───┴───┴───┘";
     String (ascii_of_nat 10) "Found all 2 solutions in 0.000 seconds"]) /\
  rectangular 2 2 [[0; 1]; [1; 1]] /\ black_white [[0; 1]; [1; 1]] /\
  print_queens_board 2 [[0; 1]; [1; 1]] = ["┌───┬───┐"; "│   │ ♛ │"; "├───┼───┤"; "│ ♛ │ ♛ │"; "└───┴───┘"] /\
  board_char 2 [[0; 1]; [1; 1]] 1 6 = "♛" /\ board_char 2 [[0; 1]; [1; 1]] 1 2 = " ".
Proof.
  split; [vm_compute; reflexivity|]. split; [split; [reflexivity|]; intros row [<-|[<-|[]]]; reflexivity|].
  split; [intros row [<-|[<-|[]]] v Hv; simpl in Hv; intuition|]. repeat split; vm_compute; reflexivity.
Qed.

(** ** C67: sudoku schemas *)

Theorem C67_drawn : forall s, is_schema s -> exists d, print_sudoku_schema s = Ok d /\ draws_schema s d.
Proof. exact sudoku_drawn. Qed.
Print Assumptions C67_drawn.

(** Where the value of a cell stands. *)
Theorem C67_cells : forall s r c, (r < 9)%nat -> (c < 9)%nat ->
  schema_char s (cell_line r) (cell_column c) = value_char (schema_value s r c).
Proof. exact schema_char_cell. Qed.
Print Assumptions C67_cells.

(** Schemas with the same drawing differ in nothing but 0 for None. *)
Theorem C67_readable : forall s s', is_schema s -> is_schema s' -> print_sudoku_schema s = print_sudoku_schema s' ->
  forall r c, (r < 9)%nat -> (c < 9)%nat -> same_value (schema_value s r c) (schema_value s' r c).
Proof. exact sudoku_readable. Qed.
Print Assumptions C67_readable.

(** The program fails for schemas with less than nine rows, before it checks them. *)
Theorem C67_short : forall clk shuffle fuel seconds s timeout limit, (length s < 9)%nat ->
  sudoku_demo clk shuffle fuel seconds s timeout limit = Some (Err IndexError).
Proof. exact sudoku_program_short. Qed.
Print Assumptions C67_short.

(** The program prints the schema and its solutions; without a limit it stops after one. *)
Theorem C67_program : forall clk shuffle seconds s timeout limit, well_formed s -> has_blank s -> consistent s -> shuffles shuffle ->
  (exists fuel out, sudoku_demo clk shuffle fuel seconds s timeout limit = Some (Ok out)) /\
  forall fuel r, sudoku_demo clk shuffle fuel seconds s timeout limit = Some r ->
    exists first out, r = Ok ("=== sudoku schema ===" :: first ++ out) /\ draws_schema s first /\
      reports (fun g => draws_schema (map (map Some) g)) (solution_grid s) timeout
        (match limit with Solver.LNone => Solver.LNum 1 | _ => limit end) out.
Proof. exact sudoku_program. Qed.
Print Assumptions C67_program.

Example C67_case :
  print_sudoku_schema
    (map (map Some)
      [[5;3;4;6;7;8;9;1;2]; [6;0;0;1;9;5;3;4;8]; [1;9;8;3;4;2;5;6;7];
       [8;5;0;7;6;1;4;2;3]; [4;2;6;8;0;3;7;9;1]; [7;1;3;9;2;4;8;5;6];
       [9;6;1;5;3;7;2;0;4]; [2;8;7;4;1;9;6;3;5]; [3;4;5;2;8;6;1;7;0]]) = Ok
    ["┌─────────┬─────────┬─────────┐";
     "│ 5  3  4 │ 6  7  8 │ 9  1  2 │";
     "│ 6  .  . │ 1  9  5 │ 3  4  8 │";
     "│ 1  9  8 │ 3  4  2 │ 5  6  7 │";
     "├─────────┼─────────┼─────────┤";
     "│ 8  5  . │ 7  6  1 │ 4  2  3 │";
     "│ 4  2  6 │ 8  .  3 │ 7  9  1 │";
     "│ 7  1  3 │ 9  2  4 │ 8  5  6 │";
     "├─────────┼─────────┼─────────┤";
     "│ 9  6  1 │ 5  3  7 │ 2  .  4 │";
     "│ 2  8  7 │ 4  1  9 │ 6  3  5 │";
     "│ 3  4  5 │ 2  8  6 │ 1  7  . │";
     "└─────────┴─────────┴─────────┘"] /\
  sudoku_demo (fun _ => 0) (fun l => l) 10 (fun _ => "") [[None]] Solver.LNone Solver.LNone = Some (Err IndexError).
Proof. split; vm_compute; reflexivity. Qed.

Example C67_program_case :
  let s := map (map Some)
    [[5;3;4;6;7;8;9;1;2]; [6;0;0;1;9;5;3;4;8]; [1;9;8;3;4;2;5;6;7];
     [8;5;0;7;6;1;4;2;3]; [4;2;6;8;0;3;7;9;1]; [7;1;3;9;2;4;8;5;6];
     [9;6;1;5;3;7;2;0;4]; [2;8;7;4;1;9;6;3;5]; [3;4;5;2;8;6;1;7;0]] in
  option_map (fun r => match r with Ok out => skipn 14 out | Err _ => [] end)
    (sudoku_demo (fun _ => 0) (fun l => l) 2000 (fun _ => "0.000") s Solver.LNone Solver.LInfinity) = Some
    [title 1;
     "┌─────────┬─────────┬─────────┐";
     "│ 5  3  4 │ 6  7  8 │ 9  1  2 │";
     "│ 6  7  2 │ 1  9  5 │ 3  4  8 │";
     "│ 1  9  8 │ 3  4  2 │ 5  6  7 │";
     "├─────────┼─────────┼─────────┤";
     "│ 8  5  9 │ 7  6  1 │ 4  2  3 │";
     "│ 4  2  6 │ 8  5  3 │ 7  9  1 │";
     "│ 7  1  3 │ 9  2  4 │ 8  5  6 │";
     "├─────────┼─────────┼─────────┤";
     "│ 9  6  1 │ 5  3  7 │ 2  8  4 │";
     "│ 2  8  7 │ 4  1  9 │ 6  3  5 │";
     "│ 3  4  5 │ 2  8  6 │ 1  7  9 │";
     "└─────────┴─────────┴─────────┘";
     String (ascii_of_nat 10) "Found unique solution in 0.000 seconds"].
Proof. vm_compute. reflexivity. Qed.

(** ** C68: cryptarithms *)

(** For a source without lower-case letters, the last line of a printed solution is a true
    equation between numbers. *)
Theorem C68_printed_partial : forall s q sol b,
  text_equation s q -> (forall c, In c (list_ascii_of_string s) -> ~ is_lower c) -> cry_solution q b -> Permutation sol b ->
  exists d, print_cryptarithm_solution sol s = Ok d /\ draws_equation s b d.
Proof. exact cryptarithm_drawn. Qed.
Print Assumptions C68_printed_partial.

Theorem C68_program_partial : forall clk shuffle seconds s e r g order avoid timeout limit,
  text_equation s (Equation e r g) -> depends e \/ depends g -> (forall c, In c (list_ascii_of_string s) -> ~ is_lower c) ->
  shuffles order -> shuffles shuffle ->
  (exists fuel out, cryptarithm_demo clk shuffle fuel seconds order s avoid timeout limit = Some (Ok out)) /\
  forall fuel res, cryptarithm_demo clk shuffle fuel seconds order s avoid timeout limit = Some res ->
    exists out, res = Ok (s :: out) /\ reports (draws_equation s) (cry_solution (Equation e r g)) timeout limit out.
Proof. exact cryptarithm_program. Qed.
Print Assumptions C68_program_partial.

(** Lower-case letters are words of the equation as well, but they are printed as they are. *)
Theorem C68_lower_refuted : exists s q b, text_equation s q /\ cry_solution q b /\
  print_cryptarithm_solution b s = Ok ["A = 1"; "B = 2"; "==> a<2"].
Proof. exact lower_case_kept. Qed.
Print Assumptions C68_lower_refuted.

Example C68_case :
  cryptarithm_demo (fun _ => 0) (fun l => l) (Z.to_nat 40000) (fun _ => "0.000") (fun l => rev l) "TO+GO == (OUT)" true Solver.LNone Solver.LNone =
    Some (Ok ["TO+GO == (OUT)"; title 1; "G = 8"; "O = 1"; "T = 2"; "U = 0"; "==> 21+81 == (102)";
              String (ascii_of_nat 10) "Found unique solution in 0.000 seconds"]).
Proof. vm_compute. reflexivity. Qed.

(** ** C69: the riddle *)
Theorem C69_program : forall clk shuffle seconds limit, shuffles shuffle -> (forall n, limit = Solver.LNum n -> 2 <= n) ->
  (exists fuel out, einstein_demo clk shuffle fuel seconds Solver.LNone limit = Some (Ok out)) /\
  forall fuel r, einstein_demo clk shuffle fuel seconds Solver.LNone limit = Some r ->
    exists summary, r = Ok
      [title 1;
       "    The Norwegian, who lives in the first yellow house, drinks water, smokes Dunhill and has cats.";
       "    The Dane, who lives in the second blue house, drinks tea, smokes Blend and has a horse.";
       "    The English, who lives in the third red house, drinks milk, smokes Pall Mall and has birds.";
       "[*] The German, who lives in the fourth green house, drinks coffee, smokes Prince and has a zebra.";
       "    The Swede, who lives in the fifth white house, drinks beer, smokes Blue Master and has a dog.";
       summary] /\ says summary "Found unique solution in ".
Proof. exact einstein_program. Qed.
Print Assumptions C69_program.

Example C69_case :
  option_map (fun r => match r with Ok out => nth 4 out "" | Err _ => "" end)
    (einstein_demo (fun _ => 0) (fun l => l) (Z.to_nat 1000000) (fun _ => "0.000") Solver.LNone (Solver.LNum 3)) =
  Some "[*] The German, who lives in the fourth green house, drinks coffee, smokes Prince and has a zebra.".
Proof. vm_compute. reflexivity. Qed.

(** ** C70: switches on the command line *)
Theorem C70_switch : forall s b, type_on_off s = Ok b <-> switch s b.
Proof. exact on_off_exact. Qed.
Print Assumptions C70_switch.

Theorem C70_error : forall s e, type_on_off s = Err e -> e = ValueError /\ forall b, ~ switch s b.
Proof. exact on_off_error. Qed.
Print Assumptions C70_error.

Example C70_case :
  map type_on_off ["on"; "TRUE"; "Off"; "false"; "0"; " -1_0 "; "+00"; "1__0"; "on "; "yes"; ""; "_1"] =
  [Ok true; Ok true; Ok false; Ok false; Ok false; Ok true; Ok false; Err ValueError; Err ValueError; Err ValueError; Err ValueError; Err ValueError].
Proof. vm_compute. reflexivity. Qed.

(** ** C71: nonograms *)
Theorem C71_program : forall clk shuffle seconds rows cols timeout limit,
  positive_clues rows -> positive_clues cols -> (exists c, In c (rows ++ cols) /\ c <> []) -> shuffles shuffle ->
  (exists fuel out, nonogram_demo clk shuffle fuel seconds rows cols timeout limit = Some (Ok out)) /\
  forall fuel r, nonogram_demo clk shuffle fuel seconds rows cols timeout limit = Some r ->
    exists out, r = Ok out /\ reports draws_image (matches rows cols) timeout limit out.
Proof. exact nonogram_program. Qed.
Print Assumptions C71_program.

Example C71_case :
  nonogram_demo (fun _ => 0) (fun l => l) 2000 (fun _ => "0.000") [[1]; [1]] [[1]; [1]] Solver.LNone (Solver.LNum 1) =
    Some (Ok [title 1; "# " ++ String (ascii_of_nat 10) " #"; String (ascii_of_nat 10) "Found 1 partial solution in 0.000 seconds [limit reached]"])%string /\
  positive_clues [[1]; [1]].
Proof. split; [vm_compute; reflexivity|]. intros l [<-|[<-|[]]] k [<-|[]]; lia. Qed.
