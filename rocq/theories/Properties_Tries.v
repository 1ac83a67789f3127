(** Property theorems about the partial results that the puzzle objects try to complete (C96).

    [graph_watched clk shuffle f nodes edges labels o = Some (ts, ys, r, i)]: consuming a
    GraphLabelingSolver with options [o], the search tested the values of a further variable with
    the partial assignments [ts], found [ys] and ended with exception [r] and interrupt [i];
    likewise [sudoku_watched] for SudokuSolver and [queens_watched] for QueensSolver. *)
From Coq Require Import Permutation Factorial.
From Verif Require Import PuzzleWatch SpecPuzzle SpecGraph SpecSudoku SpecSolve SpecTries SolverCases TriesGraph TriesQueens TriesSudoku TriesCases.
Open Scope string_scope.
Open Scope list_scope.
Open Scope Z_scope.

(** The search for labelings extends exactly the colourings of the first nodes, in some order of
    the nodes (the given one, by default), in which adjacent nodes have different labels; each
    only once. *)
Theorem C96_colourings : forall nodes edges labels,
  is_graph nodes edges -> (forall u, ~ In (u, u) edges) -> nodes <> [] -> NoDup labels ->
  forall clk shuffle f o ts ys r i, shuffles shuffle ->
  graph_watched clk shuffle f nodes edges labels o = Some (ts, ys, r, i) ->
  exists order, Permutation order nodes /\ (o_policy o = None \/ o_policy o = Some ORDERED -> order = nodes) /\ NoDup ts /\
    (forall t, In t ts -> exists b, stands_for nodes labels t b /\ partial_colouring order edges labels b) /\
    (i = None -> forall b, partial_colouring order edges labels b -> exists t, In t ts /\ stands_for nodes labels t b).
Proof. exact graph_tries. Qed.
Print Assumptions C96_colourings.

(** A path of three nodes and two labels: a node is never labeled as its neighbour. *)
Example C96_colourings_case : is_graph path_nodes path_edges /\
  graph_watched clk0 noshuffle 100 path_nodes path_edges ["red"; "blue"] default_options =
    Some ([[]; [("n_0", 0)]; [("n_0", 0); ("n_1", 1)]; [("n_0", 1)]; [("n_0", 1); ("n_1", 0)]],
          [[("n_0", 0); ("n_1", 1); ("n_2", 0)]; [("n_0", 1); ("n_1", 0); ("n_2", 1)]], None, None).
Proof. exact path_case. Qed.

(** The search for grids extends exactly the ways to fill the first blank cells, in some order of
    the blank cells, with numbers that differ from each other and from the given ones in every row,
    column and block; each only once. *)
Theorem C96_grids : forall s, well_formed s ->
  forall clk shuffle f o ts ys r i, has_blank s -> shuffles shuffle ->
  sudoku_watched clk shuffle f s o = Some (ts, ys, r, i) ->
  exists order, NoDup order /\ (forall r c, In (r, c) order <-> (r < 9)%nat /\ (c < 9)%nat /\ given s r c = None) /\
    (o_policy o = Some ORDERED -> ForallOrdPairs (fun p q => (fst p < fst q \/ fst p = fst q /\ snd p < snd q)%nat) order) /\ NoDup ts /\
    (forall t, In t ts -> exists b, t = written b /\ partial_fill s order b) /\
    (i = None -> forall b, partial_fill s order b -> In (written b) ts).
Proof. exact sudoku_tries. Qed.
Print Assumptions C96_grids.

(** Eight blank cells, 11 of the many ways to fill some of them. *)
Example C96_grids_case : well_formed cut_grid /\ has_blank cut_grid /\
  exists ts ys, sudoku_watched clk0 noshuffle 1000 cut_grid (Options (Some ORDERED) LNone (LNum 5) true) = Some (ts, ys, None, None) /\
    len ys = 1 /\ len ts = 11 /\
    filter (fun t => (length t <=? 2)%nat) ts =
      [[]; [("c_0_0", 1)]; [("c_0_0", 1); ("c_0_1", 2)]; [("c_0_0", 1); ("c_0_1", 3)]; [("c_0_0", 2)]; [("c_0_0", 2); ("c_0_1", 3)]].
Proof. exact grid_case. Qed.

(** The search for boards places the queens of some rows, by default, in all the ways in which
    no two are in the same column, whatever diagonals they are in, before anything else. *)
Theorem C96_placements : forall n, (2 <= n)%nat ->
  forall clk shuffle f o ts ys r i, shuffles shuffle ->
  o_policy o = None \/ o_policy o = Some GROUPS \/ o_policy o = Some ORDERED ->
  queens_watched clk shuffle f n o = Some (ts, ys, r, i) ->
  exists rows, Permutation rows (seq 0 n) /\ NoDup ts /\
    (forall t, In t ts -> (length t <= n)%nat -> exists cols, rooks n cols /\ t = placed rows cols) /\
    (i = None -> forall cols, rooks n cols -> In (placed rows cols) ts).
Proof. exact queens_tries. Qed.
Print Assumptions C96_placements.

(** So it takes more than twice the factorial of the size of the board. *)
Theorem C96_factorial : forall n, (2 <= n)%nat ->
  forall clk shuffle f o ts ys r i, shuffles shuffle ->
  o_policy o = None \/ o_policy o = Some GROUPS \/ o_policy o = Some ORDERED ->
  queens_watched clk shuffle f n o = Some (ts, ys, r, i) -> i = None ->
  (2 * fact n < queens_iterations clk shuffle f n o)%nat.
Proof. exact queens_cost. Qed.
Print Assumptions C96_factorial.

(** And it goes on with queens that attack each other. *)
Theorem C96_attacked : forall n, (2 <= n)%nat ->
  forall clk shuffle f o ts ys r i, shuffles shuffle ->
  o_policy o = None \/ o_policy o = Some GROUPS \/ o_policy o = Some ORDERED ->
  queens_watched clk shuffle f n o = Some (ts, ys, r, i) -> i = None ->
  exists t, In t ts /\ attacked t.
Proof. exact queens_attacked. Qed.
Print Assumptions C96_attacked.

(** Four queens: 65 placements, that is 1 + 4 + 12 + 24 + 24, and the last queen is placed first. *)
Example C96_placements_case : exists ts ys, queens_watched clk0 noshuffle 4000 4 default_options = Some (ts, ys, None, None) /\
  len ys = 2 /\ len (filter (fun t => (length t <=? 4)%nat) ts) = 65 /\
  firstn 5 ts = [[]; [("q_3", 0)]; [("q_3", 0); ("q_2", 1)]; [("q_3", 0); ("q_2", 1); ("q_1", 2)]; [("q_3", 0); ("q_2", 1); ("q_1", 2); ("q_0", 3)]] /\
  queens_iterations clk0 noshuffle 4000 4 default_options = 379%nat.
Proof. exact queens_case. Qed.

(** The claim that only queens that do not attack each other are placed is false. *)
Theorem C96_placements_refuted : exists n f ts ys t,
  queens_watched clk0 noshuffle f n default_options = Some (ts, ys, None, None) /\ In t ts /\ attacked t.
Proof. exact queens_refuted. Qed.
Print Assumptions C96_placements_refuted.
