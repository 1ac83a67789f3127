(** Property theorems about the partial pictures that NonogramSolver tries to complete (C98).

    [nonogram_watched clk shuffle f rows cols o = Some (ts, ys, r, i)]: consuming a NonogramSolver
    with options [o], the search tested the values of a further run with the partial assignments
    [ts], found [ys] and ended with exception [r] and interrupt [i]. *)
From Coq Require Import Permutation.
From Verif Require Import NonogramWatch SpecNonogram SpecSolve SpecWatch SpecRuns SolverCases TriesRuns3 RunsCases.
Open Scope string_scope.
Open Scope list_scope.
Open Scope Z_scope.

(** The search extends exactly the drawings of the first runs of some order of all the runs, each
    within its room in the line and behind the run before it, for which rows and columns agree
    about the cells near which nothing remains to be drawn; each only once. *)
Theorem C98_drawings : forall rows cols, positive_clues rows -> positive_clues cols ->
  forall clk shuffle f o ts ys r i, (exists l, In l (rows ++ cols) /\ l <> []) -> shuffles shuffle ->
  nonogram_watched clk shuffle f rows cols o = Some (ts, ys, r, i) ->
  exists order, Permutation order (run_names rows cols) /\ (o_policy o = Some ORDERED -> order = run_names rows cols) /\ NoDup ts /\
    (forall t, In t ts -> starts order t /\ partial_picture rows cols t) /\
    (i = None -> forall t, starts order t -> partial_picture rows cols t -> In t ts).
Proof. exact runs_tries. Qed.
Print Assumptions C98_drawings.

(** Two rows and two columns, three black cells: four of the drawings of some runs. *)
Example C98_case : positive_clues corner_rows /\ positive_clues corner_cols /\
  nonogram_watched clk0 noshuffle 100 corner_rows corner_cols default_options =
    Some ([[]; [("r0_0", 0)]; [("r0_0", 0); ("c1_0", 0)]; [("r0_0", 0); ("c1_0", 0); ("r1_0", 1)]],
          [[("r0_0", 0); ("c1_0", 0); ("r1_0", 1); ("c0_0", 0)]], None, None).
Proof. exact corner_case. Qed.

(** The claim that a drawing is given up as soon as a cell is black for its row and white for its
    column, and no remaining run can cover it, is false: a cell is tested only when the runs that
    can end just before it are drawn, too ([end_value] is one too large, nonogram.py:38 and 60). *)
Theorem C98_drawings_refuted : exists rows cols f ts ys t, positive_clues rows /\ positive_clues cols /\ len ys = 2 /\
  nonogram_watched clk0 noshuffle f rows cols reversed = Some (ts, ys, None, None) /\ In t ts /\ contradictory rows cols t.
Proof. exact check_refuted. Qed.
Print Assumptions C98_drawings_refuted.
