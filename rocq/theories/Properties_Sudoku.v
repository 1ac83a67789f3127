(** Properties of SudokuSolver. *)
From Verif Require Import Sudoku SpecPuzzle SpecSudoku SpecSolve SudokuFacts.
Open Scope string_scope.
Open Scope list_scope.
Open Scope Z_scope.

(** C44: for a well-formed schema with a blank cell and no contradicting givens, exactly
    the sudoku solutions are enumerated (the limit being 1 if none is given). *)
Theorem C44_solutions : forall clk shuffle s o,
  well_formed s -> has_blank s -> consistent s -> shuffles shuffle ->
  exactly (fun fuel => sudoku_run clk shuffle fuel s o) (solution_grid s) (o_timeout o) (sudoku_limit o).
Proof. exact sudoku_solutions. Qed.
Print Assumptions C44_solutions.

(** A schema; 0 is a blank. *)
Definition example_schema : list (list Z) :=
  [[5;3;4;6;7;8;9;1;2];
   [6;0;0;1;9;5;3;4;8];
   [1;9;8;3;4;2;5;6;7];
   [8;5;0;7;6;1;4;2;3];
   [4;2;6;8;0;3;7;9;1];
   [7;1;3;9;2;4;8;5;6];
   [9;6;1;5;3;7;2;0;4];
   [2;8;7;4;1;9;6;3;5];
   [3;4;5;2;8;6;1;7;0]].

Definition schema_of (l : list (list Z)) : list (list (option Z)) := map (map Some) l.

Example C44_case :
  sudoku_run (fun _ => 0) (fun l => l) 2000 (schema_of example_schema) (Options None LNone LInfinity true) =
    Some ([[[5;3;4;6;7;8;9;1;2];
            [6;7;2;1;9;5;3;4;8];
            [1;9;8;3;4;2;5;6;7];
            [8;5;9;7;6;1;4;2;3];
            [4;2;6;8;5;3;7;9;1];
            [7;1;3;9;2;4;8;5;6];
            [9;6;1;5;3;7;2;8;4];
            [2;8;7;4;1;9;6;3;5];
            [3;4;5;2;8;6;1;7;9]]], None, None) /\
  well_formed (schema_of example_schema) /\ has_blank (schema_of example_schema) /\ consistent (schema_of example_schema).
Proof.
  split; [vm_compute; reflexivity|]. split; [|split].
  - apply well_formed_checks. vm_compute. auto.
  - exists 1%nat, 1%nat. vm_compute. repeat split; auto; lia.
  - assert (H : forallb (fun p => forallb (fun q =>
      negb (neighbors p q) || (Nat.eqb (fst p) (fst q) && Nat.eqb (snd p) (snd q)) ||
      match given (schema_of example_schema) (fst p) (snd p), given (schema_of example_schema) (fst q) (snd q) with
      | Some n, Some n' => negb (n =? n')
      | _, _ => true
      end) cells) cells = true) by (vm_compute; reflexivity).
    intros r c r' c' n n' Hr Hc Hr' Hc' Hne Hu E E'. rewrite forallb_forall in H.
    specialize (H (r, c) (proj2 (cells_In r c) (conj Hr Hc))). rewrite forallb_forall in H.
    specialize (H (r', c') (proj2 (cells_In r' c') (conj Hr' Hc'))). cbn [fst snd] in H. rewrite E, E' in H.
    apply (neighbors_unit r c r' c' Hr Hc Hr' Hc') in Hu. rewrite Hu in H. cbn [negb orb] in H.
    destruct (Nat.eqb_spec r r') as [->|], (Nat.eqb_spec c c') as [->|]; cbn [andb orb] in H; try (exfalso; apply Hne; reflexivity);
      destruct (Z.eqb_spec n n'); discriminate || assumption.
Qed.

(** C44: if no cell is blank, the (valid) grid itself is not found. *)
Definition solved : list (list Z) :=
  [[5;3;4;6;7;8;9;1;2];
   [6;7;2;1;9;5;3;4;8];
   [1;9;8;3;4;2;5;6;7];
   [8;5;9;7;6;1;4;2;3];
   [4;2;6;8;5;3;7;9;1];
   [7;1;3;9;2;4;8;5;6];
   [9;6;1;5;3;7;2;8;4];
   [2;8;7;4;1;9;6;3;5];
   [3;4;5;2;8;6;1;7;9]].
Theorem C44_full_refuted : exists s,
  well_formed s /\ solution_grid s solved /\
  sudoku_run (fun _ => 0) (fun l => l) 2000 s default_options = Some ([], None, None).
Proof.
  exists (schema_of solved). split; [|split; [|vm_compute; reflexivity]].
  - apply well_formed_checks. vm_compute. auto.
  - assert (H : exactly (fun fuel => sudoku_run (fun _ => 0) (fun l => l) fuel (schema_of example_schema) (Options None LNone LInfinity true))
                 (solution_grid (schema_of example_schema)) LNone LInfinity).
    { apply (C44_solutions _ _ _ (Options None LNone LInfinity true)); try apply C44_case. intros l. apply Permutation.Permutation_refl. }
    destruct H as [_ H]. destruct (H 2000%nat [solved] None None) as (_ & Hok & _); [apply C44_case|].
    destruct (Hok solved (or_introl eq_refl)) as [Hv _]. split; [exact Hv|].
    assert (Ha : forallb (fun p => match given (schema_of solved) (fst p) (snd p) with Some n => at_ solved (fst p) (snd p) =? n | None => true end) cells = true) by (vm_compute; reflexivity).
    intros r c n Hr Hc E. rewrite forallb_forall in Ha. specialize (Ha (r, c) (proj2 (cells_In r c) (conj Hr Hc))). cbn [fst snd] in Ha.
    rewrite E in Ha. now apply Z.eqb_eq.
Qed.
Print Assumptions C44_full_refuted.

(** C45: for every well-formed schema, the grids found agree with the givens and every
    blank cell is filled correctly, exactly so; missing: contradicting givens are not
    detected. *)
Theorem C45_completions_partial : forall clk shuffle s o,
  well_formed s -> has_blank s -> shuffles shuffle ->
  exactly (fun fuel => sudoku_run clk shuffle fuel s o) (completion s) (o_timeout o) (sudoku_limit o).
Proof. exact (fun clk shuffle s o H => sudoku_exact s H clk shuffle o). Qed.
Print Assumptions C45_completions_partial.

(** C45: a grid with twice the same number in a row is yielded. *)
Theorem C45_conflict_refuted : exists s g,
  well_formed s /\ has_blank s /\
  sudoku_run (fun _ => 0) (fun l => l) 2000 s default_options = Some ([g], None, Some ILimit) /\ ~ valid_grid g.
Proof.
  set (l := [[3;3;4;6;7;8;9;1;2]; [6;7;2;1;9;5;3;4;8]; [1;9;8;3;4;2;5;6;7]; [8;5;9;7;6;1;4;2;3]; [4;2;6;8;5;3;7;9;1];
             [7;1;3;9;2;4;8;5;6]; [9;6;1;5;3;7;2;8;4]; [2;8;7;4;1;9;6;3;5]; [3;4;5;2;8;6;1;7;0]]).
  exists (schema_of l). eexists. split; [|split; [|split; [vm_compute; reflexivity|]]].
  - apply well_formed_checks. vm_compute. auto.
  - exists 8%nat, 8%nat. vm_compute. repeat split; auto; lia.
  - intros [_ H]. apply (H 0%nat 0%nat 0%nat 1%nat); try lia; try congruence; [now left|]. reflexivity.
Qed.
Print Assumptions C45_conflict_refuted.

(** C61: everything that is not a 9x9 schema of None and 0..9 is rejected by the
    constructor: with ValueError if the number of rows is wrong or if only values are
    wrong. *)
Theorem C61_rejects : forall clk shuffle fuel s o, ~ well_formed s ->
  exists ex, sudoku_run clk shuffle fuel s o = Some ([], Some ex, None) /\
    (ex = ValueError \/ ex = IndexError \/ ex = AttributeError) /\
    (length s <> 9%nat -> ex = ValueError) /\
    ((forall row, In row s -> length row = 9%nat) -> ex = ValueError).
Proof. exact sudoku_rejects. Qed.
Print Assumptions C61_rejects.

Example C61_case :
  ~ well_formed [[Some 1]] /\
  sudoku_run (fun _ => 0) (fun l => l) 1 [[Some 1]] default_options = Some ([], Some ValueError, None) /\
  sudoku_run (fun _ => 0) (fun l => l) 1 ((None :: map Some (hd [] solved)) :: schema_of (tl solved)) default_options = Some ([], Some IndexError, None) /\
  sudoku_run (fun _ => 0) (fun l => l) 1 (tl (schema_of solved) ++ [[Some 1]]) default_options = Some ([], Some AttributeError, None) /\
  sudoku_run (fun _ => 0) (fun l => l) 1 (tl (schema_of solved) ++ [[Some 10]]) default_options = Some ([], Some ValueError, None).
Proof. split; [intros [H _]; discriminate|vm_compute; auto]. Qed.
