(** The puzzles of C88, used several times. *)
From Verif Require Import Queens Graph Sudoku Cryptarithm Nonogram Einstein PuzzleAgain SpecPuzzleAgain SpecPuzzleUser SpecPuzzle SpecSafe SpecQueens SpecGraph SpecSudoku SpecCryptarithm SpecNonogram SpecEinstein SpecSolve PuzzleUserRel PuzzleUserProps PuzzleUserProps2 PuzzleAgainFacts.
Open Scope list_scope.
Open Scope Z_scope.

Lemma queens_again : forall clk n o,
  (1 <= n)%nat ->
  always_exact clk (queens_init n) (queens_decode n) (arg_or (o_policy o) GROUPS) (o_timeout o) (o_limit o) (o_compile o) (queens_board n) (queens_values n) (queens_var n) /\
  always_same clk (queens_init n) (queens_decode n) (arg_or (o_policy o) GROUPS) (o_timeout o) (o_limit o) (o_compile o) (queens_var n) /\
  always_fresh clk (queens_init n) (queens_decode n) (arg_or (o_policy o) GROUPS) (o_timeout o) (o_limit o) (o_compile o) (queens_var n).
Proof. intros clk n o H. pose proof (queens_ready n H) as Hy. split; [exact (again_exactly _ _ _ _ _ _ _ _ _ _ Hy)|split; [exact (again_same _ _ _ _ _ _ _ _ _ _ Hy)|exact (again_fresh _ _ _ _ _ _ _ _ _ _ Hy)]]. Qed.

Lemma graph_again : forall clk nodes edges labels o,
  is_graph nodes edges -> nodes <> [] -> NoDup labels ->
  always_exact clk (graph_init nodes edges labels) (graph_decode labels) (arg_or (o_policy o) ORDERED) (o_timeout o) (o_limit o) (o_compile o) (proper_colouring nodes edges labels) (graph_values nodes labels) (graph_var nodes labels) /\
  always_same clk (graph_init nodes edges labels) (graph_decode labels) (arg_or (o_policy o) ORDERED) (o_timeout o) (o_limit o) (o_compile o) (graph_var nodes labels) /\
  always_fresh clk (graph_init nodes edges labels) (graph_decode labels) (arg_or (o_policy o) ORDERED) (o_timeout o) (o_limit o) (o_compile o) (graph_var nodes labels).
Proof. intros clk nodes edges labels o H H0 H1. pose proof (graph_ready nodes edges labels H H0 H1) as Hy. split; [exact (again_exactly _ _ _ _ _ _ _ _ _ _ Hy)|split; [exact (again_same _ _ _ _ _ _ _ _ _ _ Hy)|exact (again_fresh _ _ _ _ _ _ _ _ _ _ Hy)]]. Qed.

Lemma sudoku_again : forall clk s o,
  well_formed s -> has_blank s ->
  always_exact clk (sudoku_init s) (sudoku_decode s) (arg_or (o_policy o) GROUPS) (o_timeout o) (sudoku_limit o) (o_compile o) (completion s) (sudoku_values s) (sudoku_var s) /\
  always_same clk (sudoku_init s) (sudoku_decode s) (arg_or (o_policy o) GROUPS) (o_timeout o) (sudoku_limit o) (o_compile o) (sudoku_var s) /\
  always_fresh clk (sudoku_init s) (sudoku_decode s) (arg_or (o_policy o) GROUPS) (o_timeout o) (sudoku_limit o) (o_compile o) (sudoku_var s).
Proof. intros clk s o H H0. pose proof (sudoku_ready s H H0) as Hy. split; [exact (again_exactly _ _ _ _ _ _ _ _ _ _ Hy)|split; [exact (again_same _ _ _ _ _ _ _ _ _ _ Hy)|exact (again_fresh _ _ _ _ _ _ _ _ _ _ Hy)]]. Qed.

Lemma cryptarithm_again : forall clk s q order avoid o,
  text_equation s q -> depends_in q -> shuffles order ->
  always_exact clk (cry_init order s avoid) cry_decode (arg_or (o_policy o) MIN_BOUND) (o_timeout o) (o_limit o) (o_compile o) (cry_solution q) letter_values (letter_var q) /\
  always_same clk (cry_init order s avoid) cry_decode (arg_or (o_policy o) MIN_BOUND) (o_timeout o) (o_limit o) (o_compile o) (letter_var q) /\
  always_fresh clk (cry_init order s avoid) cry_decode (arg_or (o_policy o) MIN_BOUND) (o_timeout o) (o_limit o) (o_compile o) (letter_var q).
Proof. intros clk s q order avoid o H H0 H1. pose proof (cry_ready s q order avoid H H0 H1) as Hy. split; [exact (again_exactly _ _ _ _ _ _ _ _ _ _ Hy)|split; [exact (again_same _ _ _ _ _ _ _ _ _ _ Hy)|exact (again_fresh _ _ _ _ _ _ _ _ _ _ Hy)]]. Qed.

Lemma nonogram_again : forall clk rows cols o,
  positive_clues rows -> positive_clues cols -> (exists l, In l (rows ++ cols) /\ l <> []) ->
  always_exact clk (nonogram_init rows cols) (nonogram_decode (length cols)) (arg_or (o_policy o) MIN_BOUND) (o_timeout o) (o_limit o) (o_compile o) (matches rows cols) (nonogram_values rows cols) (nonogram_var rows cols) /\
  always_same clk (nonogram_init rows cols) (nonogram_decode (length cols)) (arg_or (o_policy o) MIN_BOUND) (o_timeout o) (o_limit o) (o_compile o) (nonogram_var rows cols) /\
  always_fresh clk (nonogram_init rows cols) (nonogram_decode (length cols)) (arg_or (o_policy o) MIN_BOUND) (o_timeout o) (o_limit o) (o_compile o) (nonogram_var rows cols).
Proof. intros clk rows cols o H H0 H1. pose proof (nonogram_ready rows cols H H0 H1) as Hy. split; [exact (again_exactly _ _ _ _ _ _ _ _ _ _ Hy)|split; [exact (again_same _ _ _ _ _ _ _ _ _ _ Hy)|exact (again_fresh _ _ _ _ _ _ _ _ _ _ Hy)]]. Qed.

Lemma einstein_again : forall clk o,
  always_exact clk einstein_init einstein_decode (arg_or (o_policy o) MIN_BOUND) (o_timeout o) (o_limit o) (o_compile o) riddle_answer einstein_values einstein_var /\
  always_same clk einstein_init einstein_decode (arg_or (o_policy o) MIN_BOUND) (o_timeout o) (o_limit o) (o_compile o) einstein_var /\
  always_fresh clk einstein_init einstein_decode (arg_or (o_policy o) MIN_BOUND) (o_timeout o) (o_limit o) (o_compile o) einstein_var.
Proof. intros clk o. pose proof (einstein_ready) as Hy. split; [exact (again_exactly _ _ _ _ _ _ _ _ _ _ Hy)|split; [exact (again_same _ _ _ _ _ _ _ _ _ _ Hy)|exact (again_fresh _ _ _ _ _ _ _ _ _ _ Hy)]]. Qed.

Lemma break_first (B : Type) clk (decode : subst -> res B) shuffle f n e g bs e' r :
  watch clk decode shuffle f None e g = Some (bs, e', r) ->
  (exists y, watch clk decode shuffle f (Some n) e g = Some y) /\
  forall f' bs1 e1 r1, watch clk decode shuffle f' (Some n) e g = Some (bs1, e1, r1) ->
    bs1 = firstn (S n) bs /\ r1 = (if Nat.leb (length bs) n then r else None).
Proof.
  intros H. split; [eapply watch_ends; eauto|]. intros f' bs1 e1 r1 H1. destruct (watch_stop _ _ _ _ _ _ _ _ _ _ _ _ _ _ H H1) as (A & C & _). auto.
Qed.
