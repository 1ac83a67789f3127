(** Timeouts and limits of the puzzle classes. *)
From Coq Require Import Ascii Permutation.
From Verif Require Import Puzzle Queens Graph Sudoku Nonogram Cryptarithm Einstein AsciiMap.
From Verif Require Import SpecFirst SpecSolve SpecGraph SpecSudoku SpecNonogram SpecCryptarithm SpecAscii PuzzleCuts CryptarithmCut.
Open Scope string_scope.
Open Scope list_scope.
Open Scope Z_scope.

(** C82: a timeout or a limit leaves the first boards of QueensSolver. *)
Theorem C82_queens : forall clk shuffle n o, (1 <= n)%nat -> shuffles shuffle ->
  cut (fun fuel => queens_run clk shuffle fuel n o) (fun fuel => queens_run clk shuffle fuel n (unbounded o)) (o_timeout o) (o_limit o).
Proof. exact queens_cut. Qed.
Print Assumptions C82_queens.

Example C82_queens_case :
  queens_run (fun _ => 0) (fun l => l) 4000 4 (Options None LNone (Solver.LNum 1) true) = Some ([[[0;0;1;0]; [1;0;0;0]; [0;0;0;1]; [0;1;0;0]]], None, Some ILimit) /\
  queens_run (fun _ => 0) (fun l => l) 4000 4 (unbounded (Options None LNone (Solver.LNum 1) true)) =
    Some ([[[0;0;1;0]; [1;0;0;0]; [0;0;0;1]; [0;1;0;0]]; [[0;1;0;0]; [0;0;0;1]; [1;0;0;0]; [0;0;1;0]]], None, None).
Proof. split; vm_compute; reflexivity. Qed.

(** C82: the same for the colourings of GraphLabelingSolver. *)
Theorem C82_graph : forall clk shuffle nodes edges labels o, is_graph nodes edges -> nodes <> [] -> NoDup labels -> shuffles shuffle ->
  cut (fun fuel => graph_run clk shuffle fuel nodes edges labels o) (fun fuel => graph_run clk shuffle fuel nodes edges labels (unbounded o)) (o_timeout o) (o_limit o).
Proof. exact graph_cut. Qed.
Print Assumptions C82_graph.

(** A clock that runs out after the first solution. *)
Example C82_graph_case :
  graph_run (fun _ => 0) (fun l => l) 1000 ["a"; "b"] [("a", "b")] ["red"; "blue"; "white"] (Options None LNone (Solver.LNum 2) false) =
    Some ([[("a", "red"); ("b", "blue")]; [("a", "red"); ("b", "white")]], None, Some ILimit) /\
  graph_run (fun k => if Nat.ltb k 5 then 0 else 100) (fun l => l) 1000 ["a"; "b"] [("a", "b")] ["red"; "blue"; "white"] (Options None (Solver.LNum 50) LNone false) =
    Some ([[("a", "red"); ("b", "blue")]], None, Some ITimeout) /\
  is_graph ["a"; "b"] [("a", "b")] /\ NoDup ["red"; "blue"; "white"].
Proof.
  split; [vm_compute; reflexivity|]. split; [vm_compute; reflexivity|]. split.
  - split; [repeat constructor; cbn; intros H; repeat (destruct H as [H|H]; [discriminate|]); exact H|]. cbn. intros u v [E|[]]; injection E as <- <-; auto.
  - repeat constructor; cbn; intros H; repeat (destruct H as [H|H]; [discriminate|]); exact H.
Qed.

(** C82: the same for the drawings of AsciiMapColoringSolver, whose limit is 1 if none is given. *)
Theorem C82_map : forall lines groups colors order o gfuel clk shuffle, regions lines groups -> groups <> [] -> NoDup colors -> shuffles shuffle ->
  (forall l, Permutation (order l) l) -> (length (concat lines) < gfuel)%nat ->
  cut (fun fuel => ascii_run clk shuffle fuel gfuel order lines colors o) (fun fuel => ascii_run clk shuffle fuel gfuel order lines colors (unbounded o))
    (o_timeout o) (match o_limit o with LNone => Solver.LNum 1 | l => l end).
Proof. exact ascii_cut. Qed.
Print Assumptions C82_map.

Example C82_map_case :
  let lines := [list_ascii_of_string "ab"] in
  ascii_run (fun _ => 0) (fun l => l) 1000 100 (fun l => l) lines ["red"; "blue"] default_options =
    Some ([[[Some ("0"%char, "red"); Some ("1"%char, "blue")]]], None, Some ILimit) /\
  ascii_run (fun _ => 0) (fun l => l) 1000 100 (fun l => l) lines ["red"; "blue"] (unbounded default_options) =
    Some ([[[Some ("0"%char, "red"); Some ("1"%char, "blue")]]; [[Some ("0"%char, "blue"); Some ("1"%char, "red")]]], None, None).
Proof. split; vm_compute; reflexivity. Qed.

(** C82: the same for the grids of SudokuSolver, whose limit is 1 if none is given. *)
Theorem C82_sudoku : forall clk shuffle s o, well_formed s -> has_blank s -> shuffles shuffle ->
  cut (fun fuel => sudoku_run clk shuffle fuel s o) (fun fuel => sudoku_run clk shuffle fuel s (unbounded o)) (o_timeout o)
    (match o_limit o with LNone => Solver.LNum 1 | l => l end).
Proof. exact sudoku_cut. Qed.
Print Assumptions C82_sudoku.

(** A solved grid without four cells that can be filled in two ways. *)
Local Definition two_ways : list (list (option Z)) := map (map Some)
  [[5;3;4;6;7;8;9;1;2]; [6;7;2;1;9;5;3;4;8]; [1;9;8;3;4;2;5;6;7]; [8;5;9;7;6;1;4;2;3]; [4;2;6;8;5;3;7;9;1];
   [7;1;3;9;2;4;8;5;6]; [9;6;1;0;3;7;2;8;0]; [2;8;7;0;1;9;6;3;0]; [3;4;5;2;8;6;1;7;9]].
Example C82_sudoku_case :
  option_map (fun out => (map (fun g => map (fun row => (nth 3 row 0, nth 8 row 0)) (firstn 2 (skipn 6 g))) (fst (fst out)), snd (fst out), snd out))
    (sudoku_run (fun _ => 0) (fun l => l) 2000 two_ways default_options) = Some ([[(5, 4); (4, 5)]], None, Some ILimit) /\
  option_map (fun out => (map (fun g => map (fun row => (nth 3 row 0, nth 8 row 0)) (firstn 2 (skipn 6 g))) (fst (fst out)), snd (fst out), snd out))
    (sudoku_run (fun _ => 0) (fun l => l) 2000 two_ways (unbounded default_options)) = Some ([[(5, 4); (4, 5)]; [(4, 5); (5, 4)]], None, None) /\
  well_formed two_ways /\ has_blank two_ways.
Proof.
  split; [vm_compute; reflexivity|]. split; [vm_compute; reflexivity|]. split; [apply SudokuFacts.well_formed_checks; vm_compute; auto|].
  exists 6%nat, 3%nat. vm_compute. repeat split; auto; lia.
Qed.

(** C82: the same for the pixmaps of NonogramSolver. *)
Theorem C82_nonogram : forall clk shuffle rows cols o, positive_clues rows -> positive_clues cols -> (exists l, In l (rows ++ cols) /\ l <> []) -> shuffles shuffle ->
  cut (fun fuel => nonogram_run clk shuffle fuel rows cols o) (fun fuel => nonogram_run clk shuffle fuel rows cols (unbounded o)) (o_timeout o) (o_limit o).
Proof. exact nonogram_cut. Qed.
Print Assumptions C82_nonogram.

Example C82_nonogram_case :
  nonogram_run (fun _ => 0) (fun l => l) 2000 [[1]; [1]] [[1]; [1]] (Options None LNone (Solver.LNum 0) true) = Some ([[[1; 0]; [0; 1]]], None, Some ILimit) /\
  nonogram_run (fun _ => 0) (fun l => l) 2000 [[1]; [1]] [[1]; [1]] (Options None LNone (Solver.LNum 3) true) =
    Some ([[[1; 0]; [0; 1]]; [[0; 1]; [1; 0]]], None, None) /\ positive_clues [[1]; [1]].
Proof.
  split; [vm_compute; reflexivity|]. split; [vm_compute; reflexivity|].
  intros l Hl k Hk. cbn in Hl. repeat (destruct Hl as [<-|Hl]; [cbn in Hk; intuition lia|]). contradiction.
Qed.

(** C82: the same for EinsteinSolver. *)
Theorem C82_einstein : forall clk shuffle o, shuffles shuffle ->
  cut (fun fuel => einstein_run clk shuffle fuel o) (fun fuel => einstein_run clk shuffle fuel (unbounded o)) (o_timeout o) (o_limit o).
Proof. exact einstein_cut. Qed.
Print Assumptions C82_einstein.

(** C82: the same for the substitutions of CryptarithmSolver, for every text: also if it is not
    an equation, or if an exception ends the enumeration. *)
Theorem C82_cryptarithm : forall s order avoid clk shuffle o, shuffles shuffle ->
  cut (fun fuel => cry_run clk shuffle fuel order s avoid o) (fun fuel => cry_run clk shuffle fuel order s avoid (unbounded o)) (o_timeout o) (o_limit o).
Proof. exact cryptarithm_cut. Qed.
Print Assumptions C82_cryptarithm.

(** Two results; a result and an exception. *)
Example C82_cryptarithm_case :
  let run s o := cry_run (fun _ => 0) (fun l => l) 600 (fun l => rev l) s true o in
  let one := Options None LNone (Solver.LNum 1) true in
  run "A<3" one = Some ([[("A", 1)]], None, Some ILimit) /\ run "A<3" (unbounded one) = Some ([[("A", 1)]; [("A", 2)]], None, None) /\
  run "B%(A-2)+9<=B" one = Some ([[("A", 1); ("B", 9)]], None, Some ILimit) /\
  run "B%(A-2)+9<=B" (unbounded one) = Some ([[("A", 1); ("B", 9)]], Some ZeroDivisionError, None).
Proof. repeat split; vm_compute; reflexivity. Qed.
