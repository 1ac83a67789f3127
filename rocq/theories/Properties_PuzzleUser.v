(** Properties of puzzles to whose model the user adds constraints. *)
From Coq Require Import Ascii Lia.
From Verif Require Import Queens Graph Sudoku Cryptarithm Nonogram Einstein PuzzleUser SpecPuzzleUser SpecPuzzle SpecSafe SpecQueens SpecGraph SpecSudoku SpecCryptarithm SpecNonogram SpecEinstein SpecSolve PuzzleUserRel PuzzleUserProps PuzzleUserProps2.
Open Scope string_scope.
Open Scope list_scope.
Open Scope Z_scope.

(** C88: if variables and constraints are added to the model of a QueensSolver before iterating,
    the results are exactly the boards with values of the added variables that meet them, each
    such pair once, whatever the options. *)
Theorem C88_queens : forall clk shuffle n o us,
  (1 <= n)%nat -> shuffles shuffle -> us_ok (queens_var n) (o_compile o) us ->
  exactly_firsts (fun fuel => user_run clk shuffle fuel (queens_init n) (queens_decode n) GROUPS o us)
    (also_with (queens_board n) (queens_values n) us) (o_timeout o) (o_limit o).
Proof. exact queens_user. Qed.
Print Assumptions C88_queens.

(** C88: the same for GraphLabelingSolver. *)
Theorem C88_graph : forall clk shuffle nodes edges labels o us,
  is_graph nodes edges -> nodes <> [] -> NoDup labels -> shuffles shuffle ->
  us_ok (graph_var nodes labels) (o_compile o) us ->
  exactly_firsts (fun fuel => user_run clk shuffle fuel (graph_init nodes edges labels) (graph_decode labels) ORDERED o us)
    (also_with (proper_colouring nodes edges labels) (graph_values nodes labels) us) (o_timeout o) (o_limit o).
Proof. exact graph_user. Qed.
Print Assumptions C88_graph.

(** C88: the same for SudokuSolver, on the variables of the blank cells. *)
Theorem C88_sudoku : forall clk shuffle s o us,
  well_formed s -> has_blank s -> shuffles shuffle -> us_ok (sudoku_var s) (o_compile o) us ->
  exactly_firsts (fun fuel => puzzle_run clk shuffle fuel (with_user (sudoku_init s) us) (sudoku_decode s)
      (new_solver (arg_or (o_policy o) GROUPS) (o_timeout o) (sudoku_limit o) (o_compile o)))
    (also_with (completion s) (sudoku_values s) us) (o_timeout o) (sudoku_limit o).
Proof. exact sudoku_user. Qed.
Print Assumptions C88_sudoku.

(** C88: the same for CryptarithmSolver, on the letters of an equation. *)
Theorem C88_cryptarithm : forall clk shuffle s q order avoid o us,
  text_equation s q -> depends_in q -> shuffles order -> shuffles shuffle ->
  us_ok (letter_var q) (o_compile o) us ->
  exactly_firsts (fun fuel => user_run clk shuffle fuel (cry_init order s avoid) cry_decode MIN_BOUND o us)
    (also_with (cry_solution q) letter_values us) (o_timeout o) (o_limit o).
Proof. exact cry_user. Qed.
Print Assumptions C88_cryptarithm.

(** C88: the same for NonogramSolver. *)
Theorem C88_nonogram : forall clk shuffle rows cols o us,
  positive_clues rows -> positive_clues cols -> (exists l, In l (rows ++ cols) /\ l <> []) -> shuffles shuffle ->
  us_ok (nonogram_var rows cols) (o_compile o) us ->
  exactly_firsts (fun fuel => user_run clk shuffle fuel (nonogram_init rows cols) (nonogram_decode (List.length cols)) MIN_BOUND o us)
    (also_with (matches rows cols) (nonogram_values rows cols) us) (o_timeout o) (o_limit o).
Proof. exact (fun clk shuffle rows cols o us => nonogram_user rows cols clk shuffle o us). Qed.
Print Assumptions C88_nonogram.

(** C88: the same for EinsteinRiddleSolver. *)
Theorem C88_einstein : forall clk shuffle o us,
  shuffles shuffle -> us_ok einstein_var (o_compile o) us ->
  exactly_firsts (fun fuel => user_run clk shuffle fuel einstein_init einstein_decode MIN_BOUND o us)
    (also_with riddle_answer einstein_values us) (o_timeout o) (o_limit o).
Proof. exact einstein_user. Qed.
Print Assumptions C88_einstein.

(** C88: when only constraints are added, the results are exactly those of the puzzle that meet
    them, each once. *)
Theorem C88_constraints : forall (B : Type) run (ok : B -> Prop) values us t l,
  added us = [] -> exactly_firsts run (also_with ok values us) t l -> exactly run (also ok values us) t l.
Proof. exact @firsts_plain. Qed.
Print Assumptions C88_constraints.

(** C88: a constraint both sides of which simplify to constants makes [add_constraint] raise
    TypeError, although it has a value everywhere. *)
Theorem C88_constant_refuted : exists n f,
  (1 <= n)%nat /\ is_comparison f = true /\ div_ok f = true /\ f_safe f = true /\
  (forall x, In x (fvars f) -> exists v, queens_var n x v) /\
  (forall a, exists v, meaning no_parameters a f = Some v /\ v <> 0) /\
  forall clk shuffle fuel,
    user_run clk shuffle fuel (queens_init n) (queens_decode n) GROUPS default_options [UForm f] = Some ([], Some TypeError, None).
Proof. exact queens_constant. Qed.
Print Assumptions C88_constant_refuted.

(** One of the two boards of size 4 has its first queen in the second column; it is received
    once for each value of the added variable [y] greater than 1. *)
Example C88_queens_case :
  let us := [UForm (FBin UAnd (FBin ULt (FVar "q_0") (FVar "q_3")) (FBin UGe (FVar "q_0") (FInt 0)));
             UVar "y" [1; 2; 7]; UForm (FBin UGt (FVar "y") (FVar "q_0")); UDiff ["q_0"; "diag_ul_br_1_2"]] in
  let board := [[0;1;0;0]; [0;0;0;1]; [1;0;0;0]; [0;0;1;0]] in
  user_run (fun _ => 0) (fun l => l) 4000 (queens_init 4) (queens_decode 4) GROUPS default_options us = Some ([board; board], None, None) /\
  us_ok (queens_var 4) true us /\ added us = ["y"] /\
  user_run (fun _ => 0) (fun l => l) 4000 (queens_init 4) (queens_decode 4) GROUPS default_options [UForm (FBin UEq (FVar "q_0") (FInt 0))] =
    Some ([], None, None) /\
  user_run (fun _ => 0) (fun l => l) 4000 (queens_init 4) (queens_decode 4) GROUPS default_options [] =
    queens_run (fun _ => 0) (fun l => l) 4000 4 default_options.
Proof.
  cbv zeta. split; [vm_compute; reflexivity|]. split; [|split; [reflexivity|split; vm_compute; reflexivity]].
  assert (Q0 : queens_var 4 "q_0" 0).
  { exists 0%nat, 0%nat. split; [repeat constructor|split; [repeat constructor|left; repeat split; reflexivity || discriminate]]. }
  assert (Q3 : queens_var 4 "q_3" 0).
  { exists 0%nat, 3%nat. split; [repeat constructor|split; [repeat constructor|left; repeat split; reflexivity || discriminate]]. }
  assert (QD : queens_var 4 "diag_ul_br_1_2" 0).
  { exists 1%nat, 2%nat. split; [repeat constructor|split; [repeat constructor|right; left; repeat split; reflexivity || discriminate]]. }
  apply us_ok_nth. intros [|[|[|[|k]]]] Hk; cbn [nth firstn u_ok].
  - split; [|split; [|split; [reflexivity|split; [reflexivity|left]]]].
    + intros x [<-|[<-|[<-|[]]]]; exists 0; left; assumption.
    + intros a _. cbn. destruct (a "q_0" <? a "q_3"), (0 <=? a "q_0"); eexists; reflexivity.
    + exists (fun _ => 0), (fun x => if String.eqb x "q_0" then 0 else 1), 0, 1. repeat split; discriminate.
  - split; [reflexivity|]. split; [|repeat constructor; cbn; intuition discriminate].
    intros v [(k & r & Hk1 & Hr & H)|(d & [H|[]] & _)]; [|discriminate H].
    destruct H as [[H _]|[[H _]|[H _]]]; discriminate H.
  - split; [|split; [|split; [reflexivity|split; [reflexivity|left]]]].
    + intros x [<-|[<-|[]]]; [exists 1; right; exists [1; 2; 7]; cbn; auto|exists 0; left; assumption].
    + intros a _. cbn. eexists. reflexivity.
    + exists (fun _ => 0), (fun x => if String.eqb x "q_0" then 0 else 1), 0, 1. repeat split; discriminate.
  - intros x [<-|[<-|[]]]; exists 0; left; assumption.
  - cbn in Hk. lia.
Qed.

Example C88_graph_case :
  let us := [UForm (FBin UNe (FVar "n_0") (FInt 1))] in
  user_run (fun _ => 0) (fun l => l) 1000 (graph_init ["a"; "b"; "c"] [("a", "b"); ("b", "c")] ["red"; "blue"])
    (graph_decode ["red"; "blue"]) ORDERED default_options us =
    Some ([[("a", "red"); ("b", "blue"); ("c", "red")]], None, None) /\
  us_ok (graph_var ["a"; "b"; "c"] ["red"; "blue"]) true us.
Proof.
  cbv zeta. split; [vm_compute; reflexivity|]. apply us_ok_nth. intros [|k] Hk; [|cbn in Hk; lia].
  cbn [nth firstn u_ok]. split; [|split; [|split; [reflexivity|split; [reflexivity|left]]]].
  - intros x [<-|[]]. exists 0. left. split; [exists 0%nat; split; [repeat constructor|reflexivity]|now right].
  - intros a _. cbn. eexists. reflexivity.
  - exists (fun _ => 0), (fun _ => 1), 1, 0. repeat split; discriminate.
Qed.

(** A schema with two completions. *)
Local Definition two_ways : list (list (option Z)) := map (map Some)
  [[5;3;4;0;0;8;9;1;2];
   [6;7;2;1;9;5;3;4;8];
   [1;9;8;3;4;2;5;6;7];
   [8;5;9;0;0;1;4;2;3];
   [4;2;6;8;5;3;7;9;1];
   [7;1;3;9;2;4;8;5;6];
   [9;6;1;5;3;7;2;8;4];
   [2;8;7;4;1;9;6;3;5];
   [3;4;5;2;8;6;1;7;9]].
Local Definition way1 : list (list Z) :=
  [[5;3;4;6;7;8;9;1;2];
   [6;7;2;1;9;5;3;4;8];
   [1;9;8;3;4;2;5;6;7];
   [8;5;9;7;6;1;4;2;3];
   [4;2;6;8;5;3;7;9;1];
   [7;1;3;9;2;4;8;5;6];
   [9;6;1;5;3;7;2;8;4];
   [2;8;7;4;1;9;6;3;5];
   [3;4;5;2;8;6;1;7;9]].
Local Definition way2 : list (list Z) :=
  [[5;3;4;7;6;8;9;1;2];
   [6;7;2;1;9;5;3;4;8];
   [1;9;8;3;4;2;5;6;7];
   [8;5;9;6;7;1;4;2;3];
   [4;2;6;8;5;3;7;9;1];
   [7;1;3;9;2;4;8;5;6];
   [9;6;1;5;3;7;2;8;4];
   [2;8;7;4;1;9;6;3;5];
   [3;4;5;2;8;6;1;7;9]].
(** [c_0_3 % c_0_4] has a value because no cell is 0. *)
Example C88_sudoku_case :
  let run us := puzzle_run (fun _ => 0) (fun l => l) 2000 (with_user (sudoku_init two_ways) us) (sudoku_decode two_ways)
      (new_solver GROUPS LNone LNone true) in
  let u := UForm (FBin UEq (FBin UMod (FVar "c_0_3") (FVar "c_0_4")) (FInt 1)) in
  run [] = Some ([way2; way1], None, None) /\ run [u] = Some ([way2], None, None) /\
  has_blank two_ways /\ us_ok (sudoku_var two_ways) true [u].
Proof.
  cbv zeta. split; [vm_compute; reflexivity|]. split; [vm_compute; reflexivity|].
  split; [exists 0%nat, 3%nat; repeat split; repeat constructor|]. apply us_ok_nth.
  intros [|k] Hk; [|cbn in Hk; lia]. cbn [nth firstn u_ok].
  split; [|split; [|split; [reflexivity|split; [reflexivity|left]]]].
  - intros x [<-|[<-|[]]]; exists 1; left; (split; [|split; discriminate]); [exists 0%nat, 3%nat|exists 0%nat, 4%nat]; repeat split; repeat constructor.
  - intros a Ha. destruct (Ha "c_0_4") as [[_ H]|(d & [] & _)]; [cbn; auto|]. cbn.
    destruct (a "c_0_4"); [destruct H as [H _]; exfalso; apply H; reflexivity|eexists; reflexivity|eexists; reflexivity].
  - exists (fun _ => 1), (fun x => if String.eqb x "c_0_3" then 3 else 2), 0, 1. repeat split; discriminate.
Qed.

(** [B % A] has a value because A is the first character of a word. *)
Example C88_cryptarithm_case :
  let q := Equation (EWord ["A"%char]) RLt (EWord ["B"%char]) in
  let us := [UForm (FBin UEq (FBin UMod (FVar "B") (FVar "A")) (FInt 0)); UForm (FBin UEq (FVar "B") (FBin UMul (FVar "A") (FInt 3)))] in
  text_equation "A<B" q /\ depends_in q /\ us_ok (letter_var q) true us /\
  user_run (fun _ => 0) (fun l => l) 4000 (cry_init (fun l => l) "A<B" true) cry_decode MIN_BOUND default_options us =
    Some ([[("A", 1); ("B", 3)]; [("A", 2); ("B", 6)]; [("A", 3); ("B", 9)]], None, None).
Proof.
  cbv zeta.
  assert (Hs : forall c, c = "A"%char \/ c = "B"%char -> stands_for c c).
  { intros c [->| ->]; unfold stands_for, is_upper; vm_compute; intuition congruence. }
  assert (Hw : forall c, c = "A"%char \/ c = "B"%char -> is_word [c]).
  { intros c Hc. split; [discriminate|]. intros d [<-|[]]. right. exists c. now apply Hs. }
  assert (B0 : blank "") by (intros c []).
  split; [|split; [|split; [|vm_compute; reflexivity]]].
  - refine (t_equation "A" "B" _ RLt _ _ _).
    + exact (t_product _ _ (t_factor _ _ (t_word "" ["A"%char] "" B0 (Hw "A"%char (or_introl eq_refl)) B0))).
    + exact (t_product _ _ (t_factor _ _ (t_word "" ["B"%char] "" B0 (Hw "B"%char (or_intror eq_refl)) B0))).
  - left. exists (fun _ => 0), (fun _ => 1), 0, 1. split; [|split; [|discriminate]]; constructor.
    + exists [0]. split; [|reflexivity]. apply Forall2_cons; [|apply Forall2_nil]. right. exists "A"%char. split; [apply Hs; now left|reflexivity].
    + exists [1]. split; [|reflexivity]. apply Forall2_cons; [|apply Forall2_nil]. right. exists "A"%char. split; [apply Hs; now left|reflexivity].
  - set (q := Equation (EWord ["A"%char]) RLt (EWord ["B"%char])).
    assert (LB : letter_var q "B" 1).
    { split; [|split; [split; discriminate|discriminate]].
      exists ["B"%char], "B"%char, "B"%char. (split; [cbn; auto|split; [cbn; auto|split; [apply Hs; now right|reflexivity]]]). }
    assert (LA : letter_var q "A" 1).
    { split; [|split; [split; discriminate|discriminate]].
      exists ["A"%char], "A"%char, "A"%char. (split; [cbn; auto|split; [cbn; auto|split; [apply Hs; now left|reflexivity]]]). }
    apply us_ok_nth. intros [|[|k]] Hk; [| |cbn in Hk; lia]; cbn [nth firstn u_ok].
    + split; [|split; [|split; [reflexivity|split; [reflexivity|left]]]].
      * intros x [<-|[<-|[]]]; exists 1; left; assumption.
      * intros a Ha. destruct (Ha "A") as [(_ & _ & H)|(d & [] & _)]; [cbn; auto|]. cbn.
        destruct (a "A"); [|eexists; reflexivity|eexists; reflexivity]. exfalso. apply H; [|reflexivity].
        exists [], "A"%char, "A"%char. split; [cbn; auto|]. split; [apply Hs; now left|reflexivity].
      * exists (fun _ => 1), (fun x => if String.eqb x "B" then 3 else 2), 1, 0. repeat split; discriminate.
    + split; [|split; [|split; [reflexivity|split; [reflexivity|left]]]].
      * intros x [<-|[<-|[]]]; exists 1; left; assumption.
      * intros a _. cbn. eexists. reflexivity.
      * exists (fun _ => 1), (fun _ => 0), 0, 1. repeat split; discriminate.
Qed.

(** One of the two pictures with one cell in every row and column. *)
Example C88_nonogram_case :
  let clues := [[1]; [1]] in
  let u := UForm (FBin ULt (FVar "r0_0") (FVar "c1_0")) in
  let run us := user_run (fun _ => 0) (fun l => l) 1000 (nonogram_init clues clues) (nonogram_decode 2) MIN_BOUND default_options us in
  run [] = Some ([[[1; 0]; [0; 1]]; [[0; 1]; [1; 0]]], None, None) /\ run [u] = Some ([[[1; 0]; [0; 1]]], None, None) /\
  run [UVar "v" []] = Some ([], None, None) /\
  positive_clues clues /\ us_ok (nonogram_var clues clues) true [u; UVar "v" []].
Proof.
  cbv zeta. split; [vm_compute; reflexivity|]. split; [vm_compute; reflexivity|]. split; [vm_compute; reflexivity|].
  split; [intros l [<-|[<-|[]]] k [<-|[]]; discriminate|]. apply us_ok_nth.
  intros [|[|k]] Hk; [| |cbn in Hk; lia]; cbn [nth firstn u_ok].
  - split; [|split; [|split; [reflexivity|split; [reflexivity|left]]]].
    + intros x [<-|[<-|[]]]; exists 0; left; [exists 0%nat, 0%nat; left|exists 1%nat, 0%nat; right]; repeat split; try discriminate; repeat constructor.
    + intros a _. cbn. eexists. reflexivity.
    + exists (fun _ => 0), (fun x => if String.eqb x "r0_0" then 0 else 1), 0, 1. repeat split; discriminate.
  - split; [reflexivity|]. split; [|constructor].
    intros v [(i & j & [(_ & _ & H & _)|(_ & _ & H & _)])|(d & [H|[]] & _)]; discriminate H.
Qed.

(** The German keeps the zebra, east of the horse; no answer puts the zebra next to the horse on the
    other side. *)
Example C88_einstein_case :
  let u := UForm (FBin UGt (FVar "animal_a_zebra") (FVar "animal_a_horse")) in
  let v := UForm (FBin UEq (FVar "animal_a_zebra") (FBin USub (FVar "animal_a_horse") (FInt 1))) in
  let run us := user_run (fun _ => 0) (fun l => l) (Z.to_nat 1000000) einstein_init einstein_decode MIN_BOUND default_options us in
  (exists z, run [u; UDiff ["owner_German"; "Blend_cats"]] = Some ([z], None, None)) /\ run [v] = Some ([], None, None) /\
  us_ok einstein_var true [u; v].
Proof.
  cbv zeta. split; [eexists; vm_compute; reflexivity|]. split; [vm_compute; reflexivity|].
  assert (H : forall v, v = "a zebra" \/ v = "a horse" -> einstein_var (mkname "animal" v) 1).
  { intros v Hv. left. split; [|split; discriminate]. exists "animal", ["cats"; "a dog"; "birds"; "a horse"; "a zebra"], v. cbn. intuition. }
  apply us_ok_nth. intros [|[|k]] Hk; [| |cbn in Hk; lia]; cbn [nth firstn u_ok];
    (split; [|split; [|split; [reflexivity|split; [reflexivity|left]]]]).
  - intros x [<-|[<-|[]]]; exists 1; left; [exact (H "a zebra" (or_introl eq_refl))|exact (H "a horse" (or_intror eq_refl))].
  - intros a _. cbn. eexists. reflexivity.
  - exists (fun _ => 0), (fun x => if String.eqb x "animal_a_horse" then 0 else 1), 0, 1. repeat split; discriminate.
  - intros x [<-|[<-|[]]]; exists 1; left; [exact (H "a zebra" (or_introl eq_refl))|exact (H "a horse" (or_intror eq_refl))].
  - intros a _. cbn. eexists. reflexivity.
  - exists (fun _ => 0), (fun x => if String.eqb x "animal_a_horse" then 2 else 1), 0, 1. repeat split; discriminate.
Qed.
